(** Model of the script /repo/src/flowstab/scripts/run_laplacians_transmats.py: the slices of
    time, l.241-262, the batches, l.265-273, and [worker], l.280-548.

    Simplifications: the network is the one that was loaded (C109); messages, times of
    computation and --save_flow_int are left out; the names of files are replaced by what they
    are made of. *)
From Coq Require Import String SpecFloat.
From Verif Require Import Base PartitionModel LouvainModel EventsModel TransModel.
Local Open Scope bool_scope.

(** ** Slices, l.255-262 *)
Section Bounds.
(** numbers with addition and comparison; [None]: the loop has not ended after [fuel] steps *)
Context {T : Type} (add : T -> T -> T) (ltb : T -> T -> bool) (len tend : T).
Fixpoint bounds_after (fuel : nat) (t : T) : option (list T) :=
  if ltb t tend then
    match fuel with
    | 0 => None
    | S fuel => option_map (cons (add t len)) (bounds_after fuel (add t len))
    end
  else Some [].
Definition time_slices (fuel : nat) (t0 : T) : option (list T) := option_map (cons t0) (bounds_after fuel t0).
End Bounds.
(** exact numbers; [slice_length], l.251-253 *)
Definition slice_length (t0 tend : num) (num_slices : nat) : num := ((tend - t0) / qn num_slices)%num.
Definition slices_exact (t0 tend len : num) (fuel : nat) : option (list num) := time_slices Qcplus qltb len tend fuel t0.
(** double precision numbers, rounded to nearest *)
Definition fadd : spec_float -> spec_float -> spec_float := SFadd 53 1024.
Definition fsub : spec_float -> spec_float -> spec_float := SFsub 53 1024.
Definition fdiv : spec_float -> spec_float -> spec_float := SFdiv 53 1024.
Definition fint (z : Z) : spec_float := binary_normalize 53 1024 z 0 false.
Definition slice_length_float (t0 tend : spec_float) (num_slices : nat) : spec_float := fdiv (fsub tend t0) (fint (Z.of_nat num_slices)).
Definition slices_float (t0 tend len : spec_float) (fuel : nat) : option (list spec_float) := time_slices fadd SFltb len tend fuel t0.

(** ** Batches *)
(** [zip(time_slices[:-1], time_slices[1:])] and [enumerate] *)
Definition slices_of {T} (bounds : list T) : list (T * T) := combine (removelast bounds) (tl bounds).
Definition full_batch {T} (bounds : list T) : list (nat * (T * T)) := combine (seq 0 (length (slices_of bounds))) (slices_of bounds).
(** l.267-273 *)
Definition batch {A} (full : list A) (total batch_num : nat) : list A :=
  let size := length full / total in
  if S batch_num =? total then skipn (batch_num * size) full
  else firstn (S batch_num * size - batch_num * size) (skipn (batch_num * size) full).
(** [if int_index not in intervals_to_skip], l.557 *)
Definition to_compute {T} (skip : list nat) (b : list (nat * (T * T))) : list (nat * (T * T)) :=
  filter (fun x => negb (existsb (Nat.eqb (fst x)) skip)) b.

(** ** What [worker] computes *)
Section Worker.
Context (N : net) (g : list grid_row) (E : num -> mat -> mat) (Z : num -> mat -> mat) (P : mat -> mat).
(** [compute_laplacian_matrices(t_start=t_start, t_stop=t_stop)], l.347 *)
Definition slice_laplacians (s : num * num) : option (nat * nat * list mat) := compute_laplacians N g (Some (fst s)) (Some (snd s)).
(** the calls of l.347, l.385 and l.441: the Laplacians of the slice, the matrices between events
    and their product in one direction *)
Definition slice_transition (lamda tol : num) (sparse force_csr reverse_time : bool) (s : num * num) : option tval :=
  let n := num_nodes_of N in
  match compute_lap (compute_laplacians N g) (Some (fst s)) (Some (snd s)) tn0 with
  | None => None
  | Some st =>
      match compute_inter n (times (rows N)) (compute_laplacians N g) E (Some lamda) None None false sparse st with
      | None => None
      | Some st => match compute_trans n Z lamda false reverse_time force_csr (Some tol) st with
                   | Some st => aget qeqb (t_T st) lamda
                   | None => None
                   end
      end
  end.
(** l.300 *)
Definition slice_adjacency (s : num * num) : option mat := static_adjacency N (Some (fst s)) (Some (snd s)).
End Worker.

(** ** What [worker] writes *)
(** Keyword arguments of the methods, temporal_network.py l.1142, l.1328, l.1450, l.1569, l.1661
    and l.1742; none of them takes other ones. *)
Local Open Scope string_scope.
Local Open Scope list_scope.
Definition laplacian_args := ["t_start"; "t_stop"; "save_adjacencies"].
Definition inter_args := ["lamda"; "t_start"; "t_stop"; "fix_tau_k"; "use_sparse_stoch"; "dense_expm"].
Definition lin_inter_args := ["lamda"; "t_start"; "t_stop"; "t_s"; "fix_tau_k"; "use_sparse_stoch"].
Definition trans_args := ["lamda"; "t_start"; "t_stop"; "save_intermediate"; "reverse_time"; "force_csr"; "tol"].
Definition lin_trans_args := ["lamda"; "t_start"; "t_stop"; "t_s"; "save_intermediate"; "reverse_time"].
Definition stationary_args := ["t_start"; "t_stop"; "use_sparse_stoch"].
(** a call with other keywords raises TypeError *)
Definition accepts (params keywords : list string) : bool := forallb (fun k => existsb (String.eqb k) params) keywords.
(** [args], l.203-205 *)
Definition args := ["verbose"; "save_intermediate"; "reverse_time"].

Record options := mkOptions { o_static : bool; o_expm : bool; o_lin : bool; o_inter : bool; o_trans : bool; o_taus : list num }.
(** files of one slice *)
Inductive fname := Adjacency | Inter (lin : bool) (tau : num) | Trans (lin reversed : bool) (tau : num).
Definition fname_eqb (a b : fname) : bool :=
  match a, b with
  | Adjacency, Adjacency => true
  | Inter l t, Inter l' t' => Bool.eqb l l' && qeqb t t'
  | Trans l r t, Trans l' r' t' => Bool.eqb l l' && Bool.eqb r r' && qeqb t t'
  | _, _ => false
  end.
Definition exists_file (d : list fname) (f : fname) : bool := existsb (fname_eqb f) d.
Definition save_if_missing (d : list fname) (f : fname) : list fname := if exists_file d f then [] else [f].

(** l.308-340: whether there is nothing to do *)
Definition all_exist (o : options) (d : list fname) : bool :=
  let inter lin := forallb (fun t => exists_file d (Inter lin t)) (o_taus o) in
  let trans lin := forallb (fun t => exists_file d (Trans lin false t) && exists_file d (Trans lin true t)) (o_taus o) in
  (inter false && inter true && negb (o_trans o)) || (trans false && trans true).
(** The steps of l.379-520 for one waiting time: a call with the keywords it accepts and the
    files written when it returns. The first call that raises ends the work for this waiting
    time, l.537. *)
Definition tau_steps (o : options) (d : list fname) (tau : num) : list (bool * list fname) :=
  (if o_expm o then [(accepts inter_args ["lamda"; "verbose"; "use_sparse_stoch"; "dense_expm"], if o_inter o then save_if_missing d (Inter false tau) else [])] else [])
  ++ (if o_lin o then [(accepts lin_inter_args ["lamda"; "verbose"; "t_s"; "use_sparse_stoch"], if o_inter o then save_if_missing d (Inter true tau) else [])] else [])
  ++ (if o_trans o then
        flat_map (fun r =>
          (if o_expm o && negb (exists_file d (Trans false r tau)) then [(accepts trans_args ("lamda" :: "force_csr" :: "tol" :: args), [Trans false r tau])] else [])
          ++ (if o_lin o && negb (exists_file d (Trans true r tau)) then [(accepts lin_trans_args ("lamda" :: "t_s" :: args), [Trans true r tau])] else []))
          [false; true]
      else []).
Fixpoint written (steps : list (bool * list fname)) : list fname :=
  match steps with [] => [] | (ok, fs) :: r => if ok then fs ++ written r else [] end.
(** the files written by a run over the files [d] of the slice; what is computed in the first
    [try], l.343-366, is computed again by the calls that follow if it is missing *)
Definition worker_files (o : options) (d : list fname) : list fname :=
  let adj := if o_static o then save_if_missing d Adjacency else [] in
  if all_exist o d then adj else adj ++ flat_map (fun tau => written (tau_steps o d tau)) (o_taus o).
