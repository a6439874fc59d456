(** Model of what the first step of the scripts leaves for the second: for each slice of time the
    calls of worker in /repo/src/flowstab/scripts/run_laplacians_transmats.py and what
    [load_inter_T] or [load_inter_T_lin] of temporal_network.py gives back.

    Simplifications: as in TransModel.v and CovModel.v; the calls are made without the keyword
    [verbose], which the methods do not take (C137); nothing is rounded when it is saved
    (l.399, [round_zeros]; C41 and C114 for the matrices that are read back). *)
From Verif Require Import Base LouvainModel EventsModel TransModel TransSpec CovModel SliceModel.

Section Saved.
Context (N : net) (g : list grid_row) (E Z : num -> mat -> mat) (P : mat -> mat) (lamda t_s : num) (sparse : bool).
Notation n := (num_nodes_of N).
Notation ts := (times (rows N)).
(** run_laplacians_transmats.py l.347-400 (exponentials) and l.347-357, l.411-428 (linear
    approximation), each slice with a network of its own, l.286 *)
Definition slice_calls (m : method) (s : num * num) : list call :=
  [CLap (Some (fst s)) (Some (snd s));
   match m with Expm => CInter (Some lamda) None None false sparse | Lin => CLinInter (Some lamda) None None t_s false sparse end].
Definition slice_matrices (m : method) (st : tn) : option (list mat) :=
  match m with Expm => option_map snd (aget qeqb (t_inter st) lamda) | Lin => aget pair_eqb (t_inter_lin st) (lamda, t_s) end.
(** temporal_network.py l.481-488 and l.602-610: the matrices, the times from [_k_start_laplacians]
    to [_k_stop_laplacians], and the first and the last of them. [None]: an exception *)
Definition saved (m : method) (s : num * num) : option slice :=
  match run n ts (compute_laplacians N g) E Z P (slice_calls m s) tn0 with
  | None => None
  | Some st => match t_lap st, slice_matrices m st with
               | Some (ka, kb, _), Some l => Some (mkSlice l (firstn (kb + 1 - ka) (skipn ka ts)) (nth ka ts 0%num) (nth kb ts 0%num))
               | _, _ => None
               end
  end.
(** the files of the k-th slice, run_laplacians_transmats.py l.261-264 *)
Definition saved_slices (bounds : list num) (m : method) (k : nat) : option slice :=
  match nth_error (slices_of bounds) k with Some s => saved m s | None => None end.
End Saved.
