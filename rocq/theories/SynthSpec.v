(** Vocabulary of the statements about the simulation. *)
From Verif Require Import Base SynthModel.
From Coq Require Import ZArith.

(** ** Populations *)
(** IDs 0 to N-1, as the error message of the constructor asks for, in any order *)
Definition ids_ok (c : config) : Prop := forall ind, In ind (c_inds c) -> (0 <= i_ID ind)%Z.
(** individuals are listed in the order of their IDs *)
Definition ids_in_order (c : config) : Prop := forall k ind, nth_error (c_inds c) k = Some ind -> i_ID ind = Z.of_nat k.
(** times between activations and durations are not negative: the smallest value, loc, is not *)
Definition delays_ok (c : config) : Prop := forall ind t, In ind (c_inds c) -> (0 <= fst (i_activ ind t))%num /\ (0 <= fst (i_inter ind t))%num.
Definition scales_ok (c : config) : Prop := forall ind t, In ind (c_inds c) -> (0 < snd (i_activ ind t))%num /\ (0 < snd (i_inter ind t))%num.
(** exponential variates *)
Definition exponentials (exps : nat -> num) : Prop := forall k, (0 <= exps k)%num.

(** ** Recorded contacts *)
Definition valid_contact (c : config) (r : contact) : Prop :=
  In (source r) (ids c) /\ In (target r) (ids c) /\ source r <> target r /\ (start_time r <= end_time r)%num.
(** recorded in order of their ending time *)
Definition in_order_of_end (l : list contact) : Prop :=
  forall a b r r', a < b -> nth_error l a = Some r -> nth_error l b = Some r' -> (end_time r <= end_time r')%num.
(** contacts with the same source and the same target follow each other *)
Definition no_overlap (l : list contact) : Prop :=
  forall a b r r', a < b -> nth_error l a = Some r -> nth_error l b = Some r' -> source r = source r' -> target r = target r' -> (end_time r <= start_time r')%num.
Definition well_formed (c : config) (l : list contact) : Prop :=
  (forall r, In r l -> valid_contact c r) /\ in_order_of_end l /\ no_overlap l.

(** ** Groups *)
(** the individual with the given ID *)
Definition group_of (c : config) (i g : Z) : Prop := exists ind, In ind (c_inds c) /\ i_ID ind = i /\ i_group ind = g.
(** contacts the method allows: within a group, or between groups of positive probability at the
    time the contact starts *)
Definition prob (P : list (list num)) (g h : Z) : num := nth (Z.to_nat h) (nth (Z.to_nat g) P []) 0%num.
Definition respects_groups (c : config) (r : contact) : Prop :=
  exists g h, group_of c (source r) g /\ group_of c (target r) h /\
    match c_method c with
    | Uniform => True | WithinGroup => g = h
    | Block P => (0 < prob P g h)%num
    | BlockMod f => (0 < prob (f (start_time r)) g h)%num
    | Other => False
    end.
Definition groups_ok (c : config) : Prop := forall ind, In ind (c_inds c) -> (0 <= i_group ind)%Z.
Definition nonneg_rows (P : list (list num)) : Prop := forall row x, In row P -> In x row -> (0 <= x)%num.

(** ** Exceptions and termination *)
Definition square (n : nat) (P : list (list num)) : Prop := length P = n /\ forall row, In row P -> length row = n.
Definition row_sum (row : list num) : num := sumL (fun x => x) row.
(** groups are 0, 1, ...: how many *)
Definition weights_ok (c : config) : Prop :=
  match c_method c with
  | Uniform | WithinGroup => True
  | Block P => square (num_groups c) P /\ nonneg_rows P
  | BlockMod f => forall t, square (num_groups c) (f t) /\ nonneg_rows (f t) /\ forall row, In row (f t) -> row_sum row = 0%num \/ row_sum row = 1%num
  | Other => False
  end.
(** no group without any partner for the method 'block_probs' *)
Definition rows_positive (c : config) : Prop :=
  match c_method c with Block P => forall row, In row P -> (0 < row_sum row)%num | _ => True end.
(** every index is drawn again and again *)
Definition fair (chs : nat -> nat) : Prop := forall k m r, r < m -> exists k', k <= k' /\ chs k' mod m = r.
(** activations are at least [delta] apart *)
Definition spaced (c : config) (exps : nat -> num) (delta : num) : Prop :=
  forall ind t k, In ind (c_inds c) -> (delta <= fst (i_activ ind t) + snd (i_activ ind t) * exps k)%num.
