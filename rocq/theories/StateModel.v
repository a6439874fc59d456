(** Model of the state tracking of /repo/src/flowstab/state_tracking.py (class State
    l.86-158, metaclass StateMeta l.160-400) for an arbitrary state-tracked class,
    and of its instance FlowStability, /repo/src/flowstab/flow_stability.py l.88-735.

    States are natural numbers (the values of the OrderedEnum).  Properties and
    methods are numbered by their position in the class body. *)
From Verif Require Import Base.

(** ** An arbitrary state-tracked class *)

(** [@register(next_state=.., ignore_none=..)] on a property setter *)
Record pdecl := mkP { p_next : nat; p_ignore_none : bool }.
(** [@register(minimal_state=.., next_state=..)] on a method *)
Record mdecl := mkM { m_min : nat; m_next : nat }.
Record cls := mkC { c_first : nat;           (* smallest member of the enum, l.122 *)
                    c_props : list pdecl; c_meths : list mdecl }.

(** all_states, l.240-246, as a membership test *)
Definition known_state (c : cls) (s : nat) : bool :=
  existsb (fun p => Nat.eqb (p_next p) s) (c_props c)
  || existsb (fun m => Nat.eqb (m_min m) s || Nat.eqb (m_next m) s) (c_meths c).

(** positions of the elements of a list satisfying a test *)
Fixpoint positions {A} (f : A -> bool) (i : nat) (l : list A) : list nat :=
  match l with
  | [] => []
  | a :: r => if f a then i :: positions f (S i) r else positions f (S i) r
  end.

(** [properties_required.get(s, [])], l.249-266: the included states are the known
    states up to [s] *)
Definition props_required (c : cls) (s : nat) : list nat :=
  if known_state c s then positions (fun p => p_next p <=? s) 0 (c_props c) else [].
(** [_next_method.get(s)], l.261-263: the last method in definition order wins *)
Definition next_method (c : cls) (s : nat) : option nat :=
  if known_state c s
  then fold_left (fun _ i => Some i) (positions (fun m => m_min m <=? s) 0 (c_meths c)) None
  else None.

(** tracking attributes of an instance: current state and properties_set *)
Record track := mkT { cur : nat; pset : nat -> bool }.
(** fresh instance, l.296-301 *)
Definition fresh (c : cls) : track := mkT (c_first c) (fun _ => false).

(** [missing_parameters] and [next], l.125-156 *)
Definition missing (c : cls) (t : track) (s : nat) : list nat :=
  filter (fun i => negb (pset t i)) (props_required c s).
Definition state_next (c : cls) (t : track) : list nat * option nat :=
  (missing c t (cur t), next_method c (cur t)).

Definition nth_prop (c : cls) (i : nat) : pdecl := nth i (c_props c) (mkP 0 true).
Definition nth_meth (c : cls) (i : nat) : mdecl := nth i (c_meths c) (mkM 0 0).

(** effect of a setter on the tracking attributes once the original setter has
    returned, l.350-356 *)
Definition mark (c : cls) (t : track) (i : nat) (is_none : bool) : track :=
  mkT (Nat.min (cur t) (p_next (nth_prop c i)))
      (fun j => if Nat.eqb j i then negb (is_none && p_ignore_none (nth_prop c i)) else pset t j).

(** What happened, most recent last. *)
Inductive event := EAssigned (p : nat) | ECompleted (m : nat) | ERefused (m : nat) | ERaised (m : nat).

Section Instance.
(** [data]: all other attributes of the instance.  [assignv]: the values one may try to
    assign, [callv]: the arguments (and environment) of a call. *)
Variables (c : cls) (data assignv callv : Type).
(** original setter: new data, and whether it returned normally; and whether the value
    is python's None *)
Variable setter : nat -> assignv -> data -> data * bool.
Variable is_none : nat -> assignv -> bool.
(** what a method body does next: assign a property, change other data, return, raise *)
Inductive body :=
| BAssign (p : nat) (v : assignv) (k : data -> bool -> body)  (* told whether it raised *)
| BData (d : data) (k : body)
| BReturn
| BRaise.
Variable mbody : nat -> callv -> data -> body.

Record obj := mkO { tr : track; dat : data }.

(** l.347-356: a raising setter propagates before anything is marked *)
Definition assign (o : obj) (i : nat) (v : assignv) : obj * bool :=
  let '(d, ok) := setter i v (dat o) in
  if ok then (mkO (mark c (tr o) i (is_none i v)) d, true) else (mkO (tr o) d, false).

Fixpoint run_body (b : body) (o : obj) (es : list event) : obj * bool * list event :=
  match b with
  | BReturn => (o, true, es)
  | BRaise => (o, false, es)
  | BData d k => run_body k (mkO (tr o) d) es
  | BAssign i v k =>
      let '(o', ok) := assign o i v in
      run_body (k (dat o') ok) o' (if ok then es ++ [EAssigned i] else es)
  end.

(** l.364-396 *)
Definition call (o : obj) (m : nat) (a : callv) : obj * list event :=
  if cur (tr o) <? m_min (nth_meth c m) then (o, [ERefused m])
  else match missing c (tr o) (m_min (nth_meth c m)) with
       | _ :: _ => (o, [ERefused m])
       | [] =>
           let '(o', ok, es) := run_body (mbody m a (dat o)) o [] in
           if ok then (mkO (mkT (m_next (nth_meth c m)) (pset (tr o'))) (dat o'), es ++ [ECompleted m])
           else (o', es ++ [ERaised m])
       end.

(** histories of user operations *)
Inductive op := OAssign (i : nat) (v : assignv) | OCall (m : nat) (a : callv).
Definition step (o : obj) (x : op) : obj * list event :=
  match x with
  | OAssign i v => let '(o', ok) := assign o i v in (o', if ok then [EAssigned i] else [])
  | OCall m a => call o m a
  end.
Fixpoint history (o : obj) (xs : list op) : obj * list event :=
  match xs with
  | [] => (o, [])
  | x :: r => let '(o1, e1) := step o x in
              let '(o2, e2) := history o1 r in (o2, e1 ++ e2)
  end.
End Instance.
Arguments BAssign {data assignv}.
Arguments BData {data assignv}.
Arguments BReturn {data assignv}.
Arguments BRaise {data assignv}.
Arguments mkO {data}.
Arguments tr {data}.
Arguments dat {data}.
Arguments OAssign {assignv callv}.
Arguments OCall {assignv callv}.

(** ** FlowStability *)

(** States, flow_stability.py l.70-85 *)
Definition INITIAL := 0. Definition TEMP_NW := 1. Definition LAPLAC := 2.
Definition INTER_T := 3. Definition CLUSTERING := 4. Definition FINAL := 5.

(** properties in the order of the class body: temporal_network l.211, time_scale l.287,
    t_start l.393, t_stop l.425, time_direction l.454, flow_clustering_forward l.556,
    flow_clustering_backward l.596 *)
Definition P_net := 0. Definition P_ts := 1. Definition P_start := 2. Definition P_stop := 3.
Definition P_dir := 4. Definition P_fwd := 5. Definition P_bwd := 6.
(** methods: set_temporal_network l.246, compute_laplacian_matrices l.477,
    compute_inter_transition_matrices l.500, set_flow_clustering l.624,
    find_louvain_clustering l.684 *)
Definition M_net := 0. Definition M_lap := 1. Definition M_inter := 2.
Definition M_flow := 3. Definition M_louvain := 4.

Definition fs_class : cls := mkC INITIAL
  [mkP TEMP_NW true; mkP LAPLAC true; mkP TEMP_NW false; mkP TEMP_NW false;
   mkP INTER_T true; mkP CLUSTERING true; mkP CLUSTERING true]
  [mkM INITIAL TEMP_NW; mkM TEMP_NW LAPLAC; mkM LAPLAC INTER_T;
   mkM INTER_T CLUSTERING; mkM CLUSTERING FINAL].

(** Attributes that the bodies read.  A FlowIntegralClustering stored under a time scale
    is reduced to "there is one" ([true]) or None ([false]). *)
Record fsdata := mkF {
  f_net : bool;                          (* _temporal_network is not None *)
  f_ts : list (option num);              (* _time_scale *)
  f_dir : Z;                             (* _time_direction *)
  f_fwd : list (option num * bool);      (* _flow_clustering_forward, latest first *)
  f_bwd : list (option num * bool)
}.

(** Assignable values.  A time scale is None or an iterable (a number is a singleton);
    other types raise TypeError.  One-shot iterators are not modelled. *)
Inductive fsval :=
| VNone                                  (* None *)
| VNet | VNotNet                         (* a ContTempNetwork / another object *)
| VScales (l : list (option num))
| VBadType
| VTime                                  (* a number for t_start / t_stop *)
| VDir (d : Z)
| VFlow (ts : option num) (kind : option bool).
    (* (ts, x): x a FlowIntegralClustering with reversed_time = b, or another object *)

(** the original setters; the boolean is false when an exception is raised *)
Definition fs_setter (i : nat) (v : fsval) (d : fsdata) : fsdata * bool :=
  match i with
  | 0 => (* l.229-243 *)
      match v with
      | VNet => (mkF true (f_ts d) (f_dir d) (f_fwd d) (f_bwd d), true)
      | _ => (mkF false (f_ts d) (f_dir d) (f_fwd d) (f_bwd d), true)
      end
  | 1 => (* l.307-331 *)
      match v with
      | VNone => (mkF (f_net d) [None] (f_dir d) (f_fwd d) (f_bwd d), true)
      | VScales l =>
          if forallb (fun x => match x with None => true | Some t => qltb 0%num t end) l
          then (mkF (f_net d) l (f_dir d) (f_fwd d) (f_bwd d), true)
          else (d, false)
      | _ => (d, false)
      end
  | 2 | 3 => (d, true) (* l.408, l.440 *)
  | 4 => (* l.470-474 *)
      match v with
      | VNone => (mkF (f_net d) (f_ts d) 0 (f_fwd d) (f_bwd d), true)
      | VDir z => if (Z.eqb z (-1) || Z.eqb z 0 || Z.eqb z 1)%bool
                  then (mkF (f_net d) (f_ts d) z (f_fwd d) (f_bwd d), true) else (d, false)
      | _ => (d, false)
      end
  | 5 => (* l.571-582 *)
      match v with
      | VFlow ts (Some rev) =>
          if rev then (d, false)
          else (mkF (f_net d) (f_ts d) (f_dir d) ((ts, true) :: f_fwd d) (f_bwd d), true)
      | VFlow ts None => (mkF (f_net d) (f_ts d) (f_dir d) ((ts, false) :: f_fwd d) (f_bwd d), true)
      | _ => (d, false)
      end
  | _ => (* l.611-622 *)
      match v with
      | VFlow ts (Some rev) =>
          if rev then (mkF (f_net d) (f_ts d) (f_dir d) (f_fwd d) ((ts, true) :: f_bwd d), true)
          else (d, false)
      | VFlow ts None => (mkF (f_net d) (f_ts d) (f_dir d) (f_fwd d) ((ts, false) :: f_bwd d), true)
      | _ => (d, false)
      end
  end.
Definition fs_is_none (i : nat) (v : fsval) : bool := match v with VNone => true | _ => false end.

(** What the numerical work inside a call does: succeed, raise ValueError, raise another
    exception; chosen by the environment, one per computation in order. *)
Inductive work := WOk | WValueError | WOther.
(** Arguments: keyword arguments present for set_temporal_network; the time_scale keyword
    and whether lamda was given for compute_inter_transition_matrices. *)
Record fscall := mkFC { a_kwargs : bool; a_ts : option fsval; a_lamda : bool; a_work : list work }.
Definition work_hd (w : list work) : work := match w with [] => WOk | x :: _ => x end.

(** l.541-551: one computation per time scale *)
Fixpoint per_scale_work (n : nat) (w : list work) : body fsdata fsval :=
  match n with
  | 0 => BReturn
  | S n => match work_hd w with WOk => per_scale_work n (tl w) | _ => BRaise end
  end.
(** l.638-681.  Reading inter_T and times raises without a network; ValueErrors of the
    FlowIntegralClustering constructor are swallowed, its other exceptions are not. *)
Fixpoint flow_scales (l : list (option num)) (w : list work) (d : fsdata) : body fsdata fsval :=
  match l with
  | [] => BReturn
  | ts :: r =>
      match work_hd w with
      | WOk =>
          let forward (w : list work) (d : fsdata) : body fsdata fsval :=
            if (0 <=? f_dir d)%Z then
              match work_hd w with
              | WOk => BAssign P_fwd (VFlow ts (Some false))
                         (fun d' _ => flow_scales r (tl w) d')
              | WValueError => flow_scales r (tl w) d
              | WOther => BRaise
              end
            else flow_scales r w d in
          if (f_dir d <=? 0)%Z then
            match work_hd (tl w) with
            | WOk => BAssign P_bwd (VFlow ts (Some true)) (fun d' _ => forward (tl (tl w)) d')
            | WValueError => forward (tl (tl w)) d
            | WOther => BRaise
            end
          else forward (tl w) d
      | _ => BRaise
      end
  end.
Definition oeq (a b : option num) : bool :=
  match a, b with
  | None, None => true
  | Some x, Some y => qeqb x y
  | _, _ => false
  end.
Fixpoint dlook (l : list (option num * bool)) (k : option num) : option bool :=
  match l with
  | [] => None
  | (k', b) :: r => if oeq k' k then Some b else dlook r k
  end.
(** l.699-724: a missing entry is a KeyError, a None entry an AttributeError *)
Fixpoint louvain_scales (l : list (option num)) (w : list work) (d : fsdata) : body fsdata fsval :=
  match l with
  | [] => BReturn
  | ts :: r =>
      let fwd (w : list work) :=
        if (0 <=? f_dir d)%Z then
          match dlook (f_fwd d) ts, work_hd w with
          | Some true, WOk => louvain_scales r (tl w) d
          | _, _ => BRaise
          end
        else louvain_scales r w d in
      if (f_dir d <=? 0)%Z then
        match dlook (f_bwd d) ts, work_hd w with
        | Some true, WOk => fwd (tl w)
        | _, _ => BRaise
        end
      else fwd w
  end.

Definition fs_body (m : nat) (a : fscall) (d : fsdata) : body fsdata fsval :=
  match m with
  | 0 => (* l.262-267 *)
      if a_kwargs a then
        match work_hd (a_work a) with
        | WOk => BAssign P_net VNet (fun _ _ => BReturn)
        | _ => BRaise
        end
      else BAssign P_net VNone (fun _ _ => BReturn)
  | 1 => (* l.492-498 *)
      if f_net d then match work_hd (a_work a) with WOk => BReturn | _ => BRaise end else BRaise
  | 2 => (* l.519-551; l.530 reads the misspelt key 'lamba' *)
      if f_net d then
        match a_ts a with
        | Some VNone => per_scale_work (length (f_ts d)) (a_work a)
        | Some v => BAssign P_ts v (fun d' ok =>
                      if ok then per_scale_work (length (f_ts d')) (a_work a) else BRaise)
        | None => if a_lamda a then BRaise else per_scale_work (length (f_ts d)) (a_work a)
        end
      else BRaise
  | 3 => if f_net d then flow_scales (f_ts d) (a_work a) d
         else match f_ts d with [] => BReturn | _ => BRaise end
  | _ => louvain_scales (f_ts d) (a_work a) d
  end.

Definition fs_obj := obj fsdata.
Definition fs_op := op fsval fscall.
Definition fs_step := step fs_class fsdata fsval fscall fs_setter fs_is_none fs_body.
Definition fs_history := history fs_class fsdata fsval fscall fs_setter fs_is_none fs_body.
Definition fs_assign := assign fs_class fsdata fsval fs_setter fs_is_none.

(** [__init__], l.96-138: five assignments, then the clusterings are set directly.  The
    attributes do not exist before; the placeholder data is never read. *)
Definition fs_empty : fs_obj := mkO (fresh fs_class) (mkF false [] 0 [] []).
(** the constructor: [None] when one of the assignments raises *)
Fixpoint fs_assign_all (o : fs_obj) (l : list (nat * fsval)) : option fs_obj :=
  match l with
  | [] => Some o
  | (i, v) :: r => let '(o', ok) := fs_assign o i v in if ok then fs_assign_all o' r else None
  end.
Definition fs_new (net ts start stop dir : fsval) : option fs_obj :=
  fs_assign_all fs_empty
    [(P_net, net); (P_start, start); (P_stop, stop); (P_ts, ts); (P_dir, dir)].
