(** Paths through a temporal network that respect time. *)
From Verif Require Import Base EventsModel EventsSpec.

(** [journey before C a b i k u]: from node [i] at time [a] to node [k], with contacts one after the
    other (in the sense of [before]) that all take place before [b], the last one at time [u]; no
    contact is needed to stay *)
Inductive journey (before : num -> num -> Prop) (C : num -> nat -> nat -> Prop) (a b : num) (i : nat) : nat -> num -> Prop :=
| stay : journey before C a b i i a
| hop k u j v : journey before C a b i k u -> before u v -> (v < b)%num -> C v k j -> journey before C a b i j v.
(** contacts of a table at a time *)
Definition contacts_of (t : table) : num -> nat -> nat -> Prop := fun u i j => contact t i j u.
