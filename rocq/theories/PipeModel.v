(** Model of the steps of [FlowStability], /repo/src/flowstab/flow_stability.py l.271-376 and
    l.478-723, together with the network and the flow integrals they work on: the network is the
    one of TransModel.v, the flow integral the one of FlowModel.v.  The states of the analysis
    and the order of the steps are in StateModel.v (C50-C54, C57) and are left out here.

    Simplifications: numbers are exact; what a network or a flow integral does before it raises is
    undone; the window of time is None (C89 is about windows); logging is left out. *)
From Verif Require Import Base LouvainModel SparseModel EventsModel TransModel FlowModel.
Local Open Scope bool_scope.

(** ** Time scales *)
(** What may be assigned: None, an int or a float, a container (list, tuple, numpy array), an
    iterator such as [iter([1, 2])], a generator, something else (a string, a numpy integer). *)
Inductive scales :=
| SNone | SNumber (x : num) | SList (l : list (option num)) | SIterator (l : list (option num))
| SGenerator (l : list (option num)) | SOther.
(** [self._time_scale]: a container, or an iterator with the values it still has to give *)
Inductive kept := Container (l : list (option num)) | Remaining (l : list (option num)).
(** l.323-331 *)
Definition valid_scale (x : option num) : bool :=
  match x with None => true | Some t => negb (qleb t 0%num) end.
Definition checked (l : list (option num)) (k : kept) : option kept :=
  if forallb valid_scale l then Some k else None.
(** The setter of time_scale, l.307-332; [None]: TypeError or ValueError.  [copy.copy] of an iterator
    is an iterator, which the loop of l.323 uses up; that of a generator raises TypeError. *)
Definition set_scale (v : scales) : option kept :=
  match v with
  | SNone => checked [None] (Container [None])
  | SNumber x => checked [Some x] (Container [Some x])
  | SList l => checked l (Container l)
  | SIterator l => checked l (Remaining [])
  | SGenerator _ => None
  | SOther => None
  end.
(** The getter, l.285, and a loop over what it returns: the values, and what is left *)
Definition read_scale (k : kept) : list (option num) * kept :=
  match k with
  | Container l => (l, Container l)
  | Remaining l => (l, Remaining [])
  end.
(** [1 / _ts], or None; l.534-537, l.642-645 and helpers.py l.11-18 *)
Definition rate (ts : option num) : option num :=
  match ts with None => None | Some t => Some (1 / t)%num end.
(** the property lamda, l.360-376: [inverted_iterator(self.time_scale)] *)
Definition read_lamda (k : kept) : list (option num) := map rate (fst (read_scale k)).
(** [set_time_scale(value, **kwargs)], l.333-357; [grid]: what np.logspace gives for the keyword
    arguments, if there are any *)
Definition set_time_scale (value : scales) (grid : option (list num)) : option kept :=
  match value with
  | SNone => match grid with
             | Some g => set_scale (SList (map Some g))
             | None => set_scale SNone
             end
  | v => set_scale v
  end.

(** ** The steps *)
Section Pipe.
(** as in TransModel.v *)
Context (n : nat) (ts : list num)
  (lapf : option num -> option num -> option (nat * nat * list mat))
  (E : num -> mat -> mat) (P : mat -> mat).

Record fstab := mkFs {
  s_scales : kept;                              (* _time_scale *)
  s_dir : Z;                                    (* _time_direction *)
  s_net : tn;                                   (* _temporal_network *)
  s_fwd : list (option num * flow);             (* _flow_clustering_forward *)
  s_bwd : list (option num * flow) }.           (* _flow_clustering_backward *)
Definition with_scales (s : fstab) (k : kept) : fstab := mkFs k (s_dir s) (s_net s) (s_fwd s) (s_bwd s).
Definition with_net (s : fstab) (st : tn) : fstab := mkFs (s_scales s) (s_dir s) st (s_fwd s) (s_bwd s).
Definition with_fwd (s : fstab) (d : list (option num * flow)) : fstab := mkFs (s_scales s) (s_dir s) (s_net s) d (s_bwd s).
Definition with_bwd (s : fstab) (d : list (option num * flow)) : fstab := mkFs (s_scales s) (s_dir s) (s_net s) (s_fwd s) d.

(** A step returns the object and whether it returned without an exception. *)

(** [compute_laplacian_matrices], l.478-498, without a window *)
Definition step_laplacians (s : fstab) : fstab * bool :=
  match compute_lap lapf None None (s_net s) with
  | Some st => (with_net s st, true)
  | None => (s, false)
  end.

(** Keyword arguments of [compute_inter_transition_matrices]: [None] is "not given". *)
Record inter_kwargs := mkIk {
  k_time_scale : option scales;
  k_lamda : option (option num);
  k_fix : bool;
  k_sparse : bool;
  k_ts : num }.                                 (* t_s, for linear_approx *)
(** the method of the network that is called, l.518-521 *)
Definition to_compute (linear : bool) (k : inter_kwargs) (lamda : option num) (st : tn) : option tn :=
  if linear then compute_lin_inter ts lapf P lamda None None (k_ts k) (k_fix k) (k_sparse k) st
  else compute_inter n ts lapf E lamda None None (k_fix k) (k_sparse k) st.
(** l.530-542: the loop; a keyword time_scale is still in [kwargs] and the methods of the network
    have no such argument: TypeError *)
Fixpoint inter_loop (linear : bool) (k : inter_kwargs) (l : list (option num)) (s : fstab) : fstab * bool :=
  match l with
  | [] => (s, true)
  | x :: r =>
      match k_time_scale k with
      | Some _ => (s, false)
      | None => match to_compute linear k (rate x) (s_net s) with
                | Some st => inter_loop linear k r (with_net s st)
                | None => (s, false)
                end
      end
  end.
Definition inter_scales (linear : bool) (k : inter_kwargs) (s : fstab) : fstab * bool :=
  let '(l, kp) := read_scale (s_scales s) in inter_loop linear k l (with_scales s kp).
(** [compute_inter_transition_matrices], l.501-543; l.527 reads the key 'lamba': KeyError *)
Definition step_inter (linear : bool) (k : inter_kwargs) (s : fstab) : fstab * bool :=
  match k_time_scale k with
  | Some SNone => inter_scales linear k s
  | Some v => match set_scale v with
              | Some kp => inter_scales linear k (with_scales s kp)
              | None => (s, false)
              end
  | None => match k_lamda k with
            | Some (Some _) => (s, false)
            | _ => inter_scales linear k s
            end
  end.

(** Keyword arguments of [set_flow_clustering] that are passed on *)
Record flow_kwargs := mkFk { k_p1 : option (list num); k_grid : option (list num) }.
(** [FlowIntegralClustering(...)], network_clustering.py l.1803-1935: a flow integral, a ValueError or
    another exception.  A [p1] whose length is not the number of nodes makes the first product
    [p1 @ Tk], l.2008, raise ValueError. *)
Inductive made := MadeFlow (F : flow) | MadeValueError | MadeOther.
Definition density (p1 : option (list num)) : option (nat -> num) :=
  match p1 with Some p => Some (fun i => nth i p 0%num) | None => None end.
Definition fits (p1 : option (list num)) : bool :=
  match p1 with Some p => length p =? n | None => true end.
Definition make_flow (inter : list mat) (k : flow_kwargs) (rev : bool) : made :=
  if fits (k_p1 k) then
    match set_flow n ts inter (density (k_p1 k)) (k_grid k) rev None with Some F => MadeFlow F | None => MadeOther end
  else match inter, time_grid rev (list_reverse rev ts) (k_grid k), ts with
       | _ :: _, Some _, _ :: _ :: _ => MadeValueError
       | _, _, _ => MadeOther
       end.

Definition scale_eqb (a b : option num) : bool :=
  match a, b with
  | None, None => true
  | Some x, Some y => qeqb x y
  | _, _ => false
  end.
(** [self.temporal_network.inter_T[_lambda]]: no key of inter_T is None *)
Definition inter_of (s : fstab) (x : option num) : option (list mat) :=
  match rate x with
  | Some lamda => match aget qeqb (t_inter (s_net s)) lamda with Some (_, l) => Some l | None => None end
  | None => None
  end.
(** one direction of time, l.653-680: ValueErrors are logged and forgotten *)
Definition store (rev : bool) (x : option num) (m : made) (s : fstab) : fstab * bool :=
  match m with
  | MadeFlow F => (if rev then with_bwd s (aset scale_eqb (s_bwd s) x F)
                   else with_fwd s (aset scale_eqb (s_fwd s) x F), true)
  | MadeValueError => (s, true)
  | MadeOther => (s, false)
  end.
(** one time scale, l.639-681 *)
Definition flow_scale (k : flow_kwargs) (x : option num) (s : fstab) : fstab * bool :=
  match inter_of s x with
  | None => (s, false)
  | Some l =>
      let '(s1, ok1) := if (s_dir s <=? 0)%Z then store true x (make_flow l k true) s else (s, true) in
      if ok1 then if (0 <=? s_dir s)%Z then store false x (make_flow l k false) s1 else (s1, true)
      else (s1, false)
  end.
Fixpoint flow_loop (k : flow_kwargs) (l : list (option num)) (s : fstab) : fstab * bool :=
  match l with
  | [] => (s, true)
  | x :: r => let '(s1, ok) := flow_scale k x s in if ok then flow_loop k r s1 else (s1, false)
  end.
(** [set_flow_clustering], l.625-682 *)
Definition step_flow (k : flow_kwargs) (s : fstab) : fstab * bool :=
  let '(l, kp) := read_scale (s_scales s) in flow_loop k l (with_scales s kp).

(** What [find_louvain_clustering], l.685-723, clusters: the first integral of the flow of every scale
    and direction; [None]: KeyError, or IndexError when a flow has no integral *)
Definition first_integral (d : list (option num * flow)) (x : option num) : option mat :=
  match aget scale_eqb d x with
  | Some F => match f_I F with A :: _ => Some A | [] => None end
  | None => None
  end.
Fixpoint clustered (s : fstab) (l : list (option num)) : option (list (option num * bool * mat)) :=
  match l with
  | [] => Some []
  | x :: r =>
      match (if (s_dir s <=? 0)%Z then match first_integral (s_bwd s) x with Some A => Some [(x, true, A)] | None => None end
             else Some []),
            (if (0 <=? s_dir s)%Z then match first_integral (s_fwd s) x with Some A => Some [(x, false, A)] | None => None end
             else Some []), clustered s r with
      | Some b, Some f, Some t => Some (b ++ f ++ t)
      | _, _, _ => None
      end
  end.
Definition step_louvain (s : fstab) : option (list (option num * bool * mat)) :=
  clustered s (fst (read_scale (s_scales s))).
End Pipe.
