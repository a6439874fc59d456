(** Vocabulary of the statements about files. *)
From Coq Require Import Ascii String.
From Verif Require Import Base LouvainModel SparseModel SparseSpec EventsModel TransModel TransSpec FileModel.

(** ** Names *)
(** the last component of the path is [b], after the directory [a] *)
Definition last_component (p a b : path) : Prop := p = a ++ b /\ ~ In "/"%char b /\ (a = [] \/ exists a', a = a' ++ ["/"%char]).
(** [p] is [s] followed by the extension [e], which starts at the last dot; something else than
    dots comes before it in the last component *)
Definition with_extension (p s e : path) : Prop :=
  p = s ++ e /\ exists e' a b, e = "."%char :: e' /\ ~ In "."%char e' /\ ~ In "/"%char e' /\
    last_component s a b /\ exists c, In c b /\ c <> "."%char.
Definition without_extension (p : path) : Prop := forall s e, ~ with_extension p s e.
(** the name without its extension, if it has one *)
Definition stem_of (p s : path) : Prop := (exists e, with_extension p s e) \/ (without_extension p /\ s = p).
(** the last component has no dot *)
Definition dotless (p : path) : Prop := forall a b, last_component p a b -> ~ In "."%char b.
(** a name that loading associates with the file that saving writes: the extension is the one
    of the format, or it is not one of ours and no uncompressed file takes precedence *)
Definition findable {C : Type} (d : disk C) (p : path) (compressed : bool) : Prop :=
  (compressed = true /\ exists s, with_extension p s (str ".gz")) \/
  (compressed = false /\ exists s, with_extension p s (str ".pickle")) \/
  ((forall s, ~ with_extension p s (str ".gz")) /\ (forall s, ~ with_extension p s (str ".pickle")) /\
   (compressed = false \/ d (p ++ str ".pickle") = None)).

(** ** Networks *)
(** same events in the same order with the same index, whatever the durations column says *)
Definition same_events (t t' : table) : Prop :=
  Forall2 (fun r r' => fst r = fst r' /\ e_src (snd r) = e_src (snd r') /\ e_tgt (snd r) = e_tgt (snd r') /\
                       e_start (snd r) = e_start (snd r') /\ e_end (snd r) = e_end (snd r')) t t'.
Definition durations_right (t : table) : Prop := forall r, In r t -> e_dur (snd r) = (e_end (snd r) - e_start (snd r))%num.
(** what computing with a network sets *)
Definition computed_names : list string :=
  ["laplacians"; "adjacencies"; "inter_T"; "inter_T_lin"; "T"; "T_lin"; "_stationary_trans"; "delta_inter_T"; "delta_inter_T_lin";
   "times"; "time_grid"; "_compute_times"; "_t_start_laplacians"; "_k_start_laplacians"; "_t_stop_laplacians"; "_k_stop_laplacians";
   "is_directed"]%string.
(** [o'] is [o] after setting attributes among [names] *)
Definition after_setting {L A : Type} (names : list string) (o o' : object L A) : Prop :=
  o_inst o' = o_inst o /\ (forall k, ~ In k names -> o_attrs o' k = o_attrs o k) /\ (forall k, o_attrs o k <> None -> o_attrs o' k <> None).

(** ** Matrices *)
(** [m'] is what is left of [m] when values of magnitude at most [tol] times the largest are
    dropped: same kind and size, entries equal or dropped *)
Definition kept_or_small (n : nat) (bound : num) (f g : nat -> nat -> num) : Prop :=
  forall i j, i < n -> j < n -> g i j = f i j \/ (g i j = 0%num /\ (qabs (f i j) <= bound)%num).
Definition good_mat (n : nat) (m : tmat) : Prop :=
  match m with
  | MCsr M => csr_ok n M /\ no_repetition M /\ (forall v, In v (c_data M) -> (0 <= v)%num /\ (v <= 1)%num)
  | MSparse B => ssm_ok B /\ s_size B = n /\ no_repetition (s_small B) /\ (forall v, In v (c_data (s_small B)) -> (0 <= v)%num /\ (v <= 1)%num)
  | MList _ => False
  end.
(** entries of either kind of matrix *)
Definition entries_of (m : tmat) : nat -> nat -> num :=
  match m with MCsr M => value M | MSparse B => full B | MList _ => fun _ _ => 0%num end.
Definition same_kind (m m' : tmat) : Prop :=
  match m, m' with MCsr _, MCsr _ => True | MSparse _, MSparse _ => True | _, _ => False end.
