(** Model of --save_flow_int of /repo/src/flowstab/scripts/run_laplacians_transmats.py: worker,
    l.440-490 (exponentials) and l.496-533 (linear approximation), for one slice, one rate and one
    direction of time.

    Simplifications: as in SlicedModel.v; both directions start from the matrices of [slice_calls]
    (trimming changes them in place, C78); nothing is rounded when it is saved. *)
From Coq Require Import String.
From Verif Require Import Base LouvainModel EventsModel TransModel TransSpec FlowModel CovModel SliceModel SlicedModel.

(** Lists of matrices among the attributes that [FlowIntegralClustering.__init__] sets,
    network_clustering.py l.1803-1935; [None]: AttributeError *)
Definition matrices_at (F : flow) (name : string) : option (list mat) :=
  if String.eqb name "I_list" then Some (f_I F) else if String.eqb name "T_list" then Some (f_T F) else None.

Section FlowInt.
Context (N : net) (g : list grid_row) (E Z : num -> mat -> mat) (P : mat -> mat) (lamda t_s tol : num) (sparse force_csr : bool).
Notation n := (num_nodes_of N).
Notation ts := (times (rows N)).
Definition slice_state (m : method) (s : num * num) : option tn :=
  run n ts (compute_laplacians N g) E Z P (slice_calls lamda t_s sparse m s) tn0.
(** l.461-464 and l.501-503: [save_intermediate] is --save_flow_int, l.194-197 and l.207; the
    tolerance is given for the exponentials only *)
Definition products_of (save_intermediate : bool) (m : method) (reverse_time : bool) (st : tn) : option tval :=
  match m with
  | Expm => match compute_trans n Z lamda save_intermediate reverse_time force_csr (Some tol) st with Some st' => aget qeqb (t_T st') lamda | None => None end
  | Lin => match compute_lin_trans n Z lamda t_s save_intermediate reverse_time st with Some st' => aget pair_eqb (t_T_lin st') (lamda, t_s) | None => None end
  end.
(** l.468-474 and l.507-513: the object is given the products and the times of the slice, turned
    round when time is reversed, and [reverse_time] is left at False *)
Definition flow_object (kd : kind) (rtol : option num) (m : method) (reverse_time : bool) (s : num * num) : option flow :=
  match slice_state m s with
  | None => None
  | Some st => match t_lap st, products_of true m reverse_time st with
               | Some (ka, kb, _), Some (Many l) =>
                   flow_integral n kd (Some l) None None (Some (list_reverse reverse_time (firstn (kb + 1 - ka) (skipn ka ts)))) None false rtol
               | _, _ => None
               end
  end.
(** l.478-480 and l.517-519: the last product is kept; l.485-488 and l.525-528: and saved *)
Definition kept_T (save_flow_int : bool) (m : method) (reverse_time : bool) (s : num * num) : option mat :=
  match slice_state m s with
  | None => None
  | Some st => match products_of save_flow_int m reverse_time st with
               | Some (Many []) | None => None
               | Some (Many l) => Some (last l ident)
               | Some (One A) => Some A
               end
  end.
(** what is written to the files _flow_int, l.476 and l.515, and _trans_mat; an exception leaves both
    unwritten *)
Definition save_direction (save_flow_int : bool) (kd : kind) (rtol : option num) (m : method) (reverse_time : bool) (s : num * num) : option (option (list mat) * mat) :=
  if save_flow_int then
    match flow_object kd rtol m reverse_time s with
    | None => None
    | Some F => match matrices_at F "I", kept_T true m reverse_time s with
                | Some l, Some A => Some (Some l, A)
                | _, _ => None
                end
    end
  else option_map (pair None) (kept_T false m reverse_time s).
End FlowInt.
