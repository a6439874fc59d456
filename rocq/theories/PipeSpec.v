(** Vocabulary of the statements about the steps of an analysis. *)
From Verif Require Import Base LouvainModel SparseModel EventsModel EventsSpec TransModel TransSpec FlowModel FlowSpec PipeModel.

(** the values a user gave *)
Definition scales_given (v : scales) : list (option num) :=
  match v with
  | SNone => [None]
  | SNumber x => [Some x]
  | SList l | SIterator l | SGenerator l => l
  | SOther => []
  end.
Definition usable (x : option num) : Prop := match x with Some t => (0 < t)%num | None => True end.
(** values that can be read only once *)
Definition one_shot (v : scales) : bool := match v with SIterator _ | SGenerator _ => true | _ => false end.

(** an analysis before its first step *)
Definition new_analysis (l : list (option num)) (dir : BinNums.Z) : fstab := mkFs (Container l) dir tn0 [] [].
(** the directions of time: backward when [rev] *)
Definition wanted (dir : BinNums.Z) (rev : bool) : bool := if rev then (dir <=? 0)%Z else (0 <=? dir)%Z.
(** one clustering per time scale and direction, in the order of the scales *)
Definition one_each (dir : BinNums.Z) (l : list (option num)) (A : option num -> bool -> mat) : list (option num * bool * mat) :=
  flat_map (fun x => map (fun rev => (x, rev, A x rev)) (filter (wanted dir) [true; false])) l.
(** [M]: transition matrices of walkers that wait a time [t] on average, for every step of the time *)
Definition walk_matrices (n : nat) (ts : list num) (E : num -> mat -> mat) (fixt : bool) (Ls : list mat) (t : num) (M : list mat) : Prop :=
  one_per_step n 0 (length ts - 1) (fun k => E (step_length ts fixt 0 k * (1 / t))%num (nth k Ls ident)) M.
(** the Laplacians without a window are those of all steps *)
Definition whole_time (ts : list num) (lapf : option num -> option num -> option (nat * nat * list mat)) (Ls : list mat) : Prop :=
  lapf None None = Some (0, length ts - 1, Ls).
(** keyword arguments that leave the scales alone *)
Definition no_scale_keywords (k : inter_kwargs) : Prop :=
  k_time_scale k = None /\ (k_lamda k = None \/ k_lamda k = Some None).

(** the initial probabilities: those in the list, by node *)
Definition given_density (p1 : option (list num)) : option (nat -> num) :=
  option_map (fun p i => nth i p 0%num) p1.
