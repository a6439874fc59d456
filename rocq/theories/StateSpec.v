(** When a step may run, and what a trace says, independently of the tracking code. *)
From Verif Require Import Base StateModel.

(** prerequisites of a step: the state has been reached, and every property belonging to
    that state or an earlier one has been given *)
Definition ready (c : cls) (t : track) (m : nat) : Prop :=
  m_min (nth_meth c m) <= cur t /\
  forall i, i < length (c_props c) -> p_next (nth_prop c i) <= m_min (nth_meth c m) -> pset t i = true.

(** in this trace some step leading to state [s] or beyond was completed, and since then
    no property belonging to a state before [s] was assigned *)
Definition up_to_date (c : cls) (s : nat) (es : list event) : Prop :=
  exists before m since, es = before ++ ECompleted m :: since /\
    s <= m_next (nth_meth c m) /\
    forall i, In (EAssigned i) since -> s <= p_next (nth_prop c i).

(** histories of FlowStability in which the user only ever asks for direction [z] and does
    not assign the clustering of the other direction, property [q], directly *)
Definition only_direction (z : Z) (q : nat) (x : fs_op) : Prop :=
  match x with
  | OAssign i v => i <> q /\ (i = P_dir -> v = VNone \/ v = VDir z)
  | OCall _ _ => True
  end.
(** histories that never give a time scale by assignment *)
Definition no_time_scale (x : fs_op) : Prop :=
  match x with
  | OAssign i v => i = P_ts -> v = VNone
  | OCall _ _ => True
  end.
(** histories that never call set_temporal_network *)
Definition no_set_network (x : fs_op) : Prop :=
  match x with OCall m _ => m <> M_net | OAssign _ _ => True end.
(** property and method numbers that exist *)
Definition fs_op_ok (x : fs_op) : Prop :=
  match x with OAssign i _ => i < 7 | OCall m _ => m < 5 end.
