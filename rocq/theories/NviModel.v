(** Model of the variation of information of the clusterings in [worker],
    /repo/src/flowstab/scripts/run_clusterings.py l.870-908, and of what [worker] saves about
    components, l.383-411, l.655-681 and l.926-940.

    Simplifications: those of ClustModel and of InfoModel; the static clusterings are any list
    of clusterings; the numbers drawn by [np.random.choice] are given. *)
From Verif Require Import InfoModel.
From Verif Require Import Base PartitionModel LouvainModel SparseModel AutocovModel EventsModel TransModel ClustModel.

(** [T.shape[0]], l.884 and l.908: the matrix returned by [load_autocov_int] *)
Definition matrix_size (o : comps_option) (label : list nat) (A : autocov) : option nat :=
  match o with
  | OnlyLargest => match load_largest label A with Some (_, B) => Some (a_size B) | None => None end
  | AllNodes | SeparateComps => Some (a_size A)
  end.
(** [max_num_varinf_samples] and [num_varinf_samples], l.187-189 *)
Definition num_varinf_samples (asked : option nat) (num_repeat : nat) : nat :=
  let max_num := num_repeat * (num_repeat - 1) / 2 in
  match asked with
  | None => max_num
  | Some k => if max_num <? k then max_num else k
  end.
(** l.877-896 and l.904-908; the mean of no numbers is not a number *)
Definition worker_nvi (o : comps_option) (label : list nat) (A : autocov) (idx : list nat) (clusters : list (list (list nat))) : option R :=
  match matrix_size o label A with
  | None => None
  | Some N => match parallel_nvi idx clusters N with
              | Some vs => if nonempty vs then Some (fold_right Rplus 0 vs / INR (length vs))%R else None
              | None => None
              end
  end.

(** [largest_comp_nodes], [ncomp] and [label] returned by [load_autocov_int], l.383-411 *)
Definition load_info (o : comps_option) (label : list nat) : option (list nat) * option nat * option (list nat) :=
  match o with
  | AllNodes => (None, None, None)
  | OnlyLargest => (Some (nodes_of label (largest_comp label)), Some (length (components label)), Some label)
  | SeparateComps => (None, Some (length (components label)), Some label)
  end.
(** what is saved under "largest_comp_nodes", "ncomp" and "comp_label": the labels are assigned to
    [label], l.673, and [comp_label] of l.661 is saved, l.931 *)
Record info := mkInfo { s_largest : option (list nat); s_ncomp : option nat; s_label : option (list nat) }.
Definition saved_info (o : comps_option) (label : list nat) : info :=
  let '(largest, ncomp, label) := load_info o label in
  let comp_label := None in
  mkInfo largest ncomp comp_label.
