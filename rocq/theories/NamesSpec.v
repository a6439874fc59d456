(** Vocabulary of the statements about the names of files of the scripts. *)
From Coq Require Import Ascii String.
From Verif Require Import Base FileModel FileSpec NamesModel.
Local Open Scope list_scope.

(** a positive number with at most four significant digits *)
Definition four_digits (x : num) : Prop :=
  exists m a b : nat, 0 < m < 10 * 1000 /\ (x * qn (10 ^ a) = qn m * qn (10 ^ b))%num.
(** what comes between two underscores of a name *)
Definition is_part (p s : path) : Prop :=
  exists a b, p = a ++ s ++ b /\ ~ In "_"%char s /\ (a = [] \/ exists a', a = a' ++ ["_"%char]) /\ (b = [] \/ exists b', b = "_"%char :: b').
Definition contains (s p : path) : Prop := exists a b, p = a ++ s ++ b.
Definition starts_with (s p : path) : Prop := exists b, p = s ++ b.
(** "int" and six digits *)
Definition like_interval (p : path) : Prop := exists ds, length ds = 6 /\ (forall c, In c ds -> In c (str "0123456789")) /\ contains (str "int" ++ ds) p.
(** a name of a network that cannot be mistaken for waiting times or intervals *)
Definition quiet (net : path) : Prop := ~ In "/"%char net /\ forall s, is_part net s -> ~ starts_with (str "w") s /\ ~ like_interval s.
Definition increasing {X} (lt : X -> X -> Prop) (l : list X) : Prop := forall i j x y, i < j -> nth_error l i = Some x -> nth_error l j = Some y -> lt x y.
(** the waiting times and the intervals of the matrices that were saved *)
Definition tau_saved (calls : list save_call) (x : num) : Prop := exists t, In (SaveTask t) calls /\ k_tau t = x.
Definition interval_saved (calls : list save_call) (k : nat) : Prop := (exists t, In (SaveTask t) calls /\ k_int t = k) \/ In (SaveAdj k) calls.
(** an integral of the second step, or a temporary file of one *)
Record integral := mkIntegral { i_net : path; i_tau : num; i_lin : bool; i_from : nat; i_to : nat; i_temp : bool }.
Definition name_of (f : integral) : path := (if i_temp f then temp_name else integral_name) (i_net f) (i_tau f) (i_lin f) (i_from f) (i_to f).
