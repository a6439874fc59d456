(** Products of inter-event matrices with a tolerance: property C200. *)
From Verif Require Import Base SparseModel SparseSpec SparseProofs SparseOpsProofs SparseConvProofs SparseProps MatProofs WidthModel WidthProps.
From Verif Require InitProofs.
Local Open Scope bool_scope.

(** * What is asked for *)
(** the matrices [out] follow [T]: the next factor is treated as the matrix of a first step
    would be, multiplied, and the product is treated as the matrix of a first step again *)
Fixpoint follow (compiled : bool) (sp : scipy) (t : num) (T : wmat) (l out : list wmat) : Prop :=
  match l, out with
  | [], [] => True
  | A :: l', T' :: out' => exists C P, w_transitions compiled sp (Some t) [A] = Some [C] /\ w_matmul compiled sp T C = Some P /\
      w_transitions compiled sp (Some t) [P] = Some [T'] /\ follow compiled sp t T' l' out'
  | _, _ => False
  end.
Theorem C200_trimmed_steps_partial : forall compiled sp t A l out, w_transitions compiled sp (Some t) (A :: l) = Some out ->
  exists T out', out = T :: out' /\ w_transitions compiled sp (Some t) [A] = Some [T] /\ follow compiled sp t T l out'.
Proof.
  intros compiled sp t A l out H. cbn [w_transitions w_products option_map] in *.
  destruct (w_products compiled sp (Some t) (w_clean (Some t) A) l) as [r|] eqn:E; [|discriminate H]. cbn [option_map] in H.
  exists (w_clean (Some t) A), r. split; [congruence|]. split; [reflexivity|]. clear H out. revert E. generalize (w_clean (Some t) A). revert r. clear A.
  induction l as [|A l IH]; intros r T E; cbn [w_products] in E.
  - replace r with (@nil wmat) by congruence. exact Logic.I.
  - destruct (w_matmul compiled sp T (w_clean (Some t) A)) as [P|] eqn:EP; [|discriminate E]. cbn [obind] in E.
    destruct (w_products compiled sp (Some t) (w_normalise (w_trim (Some t) P) 1%num) l) as [r'|] eqn:Er; [|discriminate E]. cbn [option_map] in E.
    replace r with (w_normalise (w_trim (Some t) P) 1%num :: r') by congruence. cbn [follow]. exists (w_clean (Some t) A), P.
    split; [reflexivity|]. split; [exact EP|]. split; [reflexivity|]. now apply IH.
Qed.

(** with force_csr: [T'] is the product [P] without the entries up to the tolerance, relative
    to the largest entry, with rows that sum to 1 *)
Definition trimmed_csr (n : nat) (t : num) (P T' : csr) : Prop := forall m, csr_ok n P -> no_repetition P -> (forall v, In v (c_data P) -> (0 <= v)%num) ->
  (c_data P <> [] -> SparseSpec.largest P m) ->
  csr_ok n T' /\ forall i j, i < n -> j < n -> value T' i j = (remaining t m (value P) i j / sumN n (remaining t m (value P) i))%num.
Fixpoint follow_csr (n : nat) (sp : scipy) (t : num) (T : csr) (l : list wmat) (out : list csr) : Prop :=
  match l, out with
  | [], [] => True
  | A :: l', T' :: out' => exists C F, w_transitions true sp (Some t) [A] = Some [C] /\ w_tocsr C = Some F /\
      trimmed_csr n t (matmul sp T F) T' /\ follow_csr n sp t T' l' out'
  | _, _ => False
  end.
Lemma trimmed_csr_ok n t P : (0 <= t)%num -> trimmed_csr n t P (c_normalise n (c_trim (Some t) P)).
Proof.
  intros Ht m OP HN HV Hm. cbn [c_trim]. destruct (set_to_zeroes_spec n P t true false m OP HN Ht (or_intror HV) Hm) as [K1 K2]. set (Z := set_to_zeroes P t true false) in *.
  assert (VZ : forall i j, i < n -> j < n -> value Z i j = remaining t m (value P) i j).
  { intros i j Hi Hj. now rewrite (K2 i j Hi Hj), (InitProofs.qabs_pos (value P i j)) by now apply (value_nonneg n). }
  destruct (C24_row_normalise n Z (fun _ => 1%num) K1 ltac:(intros; discriminate)) as (ON & _ & Z0 & QN & _). fold (c_normalise n Z) in ON, Z0, QN.
  split; [exact ON|]. intros i j Hi Hj. assert (HP : forall k, k < n -> (0 <= remaining t m (value P) i k)%num).
  { intros k Hk. apply remaining_nonneg. now apply (value_nonneg n). }
  rewrite <- (scaled_row n _ j HP Hj). assert (ES : sumN n (value Z i) = sumN n (remaining t m (value P) i)) by (apply sumN_ext; intros k Hk; now apply VZ).
  specialize (Z0 i Hi). specialize (QN i j Hi Hj). rewrite ES in Z0, QN. destruct (qeqb_spec (sumN n (remaining t m (value P) i)) 0%num) as [E|E].
  - rewrite <- (VZ i j Hi Hj). unfold value. now rewrite (Z0 E).
  - specialize (QN E). rewrite (VZ i j Hi Hj) in QN. rewrite Qcmult_1_r in QN. rewrite <- QN. field. exact E.
Qed.
Theorem C200_trimmed_steps_csr_partial : forall n sp t A l out, (0 <= t)%num -> c_transitions n sp (Some t) (A :: l) = Some out ->
  exists T out', out = T :: out' /\ c_transitions n sp (Some t) [A] = Some [T] /\ follow_csr n sp t T l out'.
Proof.
  intros n sp t A l out Ht H. cbn [c_transitions c_products option_map] in *. destruct (w_tocsr A) as [F|]; [|discriminate H]. cbn [obind] in *.
  destruct (c_products n sp (Some t) (c_clean n (Some t) F) l) as [r|] eqn:E; [|discriminate H]. cbn [option_map] in H.
  exists (c_clean n (Some t) F), r. split; [congruence|]. split; [reflexivity|]. clear H out. revert E. generalize (c_clean n (Some t) F). revert r. clear F.
  induction l as [|B l IH]; intros r T E; cbn [c_products] in E.
  - replace r with (@nil csr) by congruence. exact Logic.I.
  - destruct (w_tocsr (w_clean (Some t) B)) as [F|] eqn:EF; [|discriminate E]. cbn [obind] in E.
    destruct (c_products n sp (Some t) (c_normalise n (c_trim (Some t) (matmul sp T F))) l) as [r'|] eqn:Er; [|discriminate E]. cbn [option_map] in E.
    replace r with (c_normalise n (c_trim (Some t) (matmul sp T F)) :: r') by congruence. cbn [follow_csr]. exists (w_clean (Some t) B), F.
    split; [reflexivity|]. split; [exact EF|]. split; [now apply trimmed_csr_ok|]. now apply IH.
Qed.

(* a tolerance of 1/5: the step from 0 to 2 has probability 1/8 and is deleted from the product *)
Example C200_trimmed_steps_applies :
  option_map (map (fun T => (full (w_mat T) 0 1, full (w_mat T) 0 2))) (w_transitions false dense_scipy (Some (qf 1 5)) (firstn 2 three_steps)) = Some [(qf 1 4, qz 0); (qz 0, qz 0)] /\
  option_map (map (fun T => (value T 0 1, value T 0 2))) (c_transitions 3 dense_scipy (Some (qf 1 5)) (firstn 2 three_steps)) = Some [(qf 1 4, qz 0); (qz 0, qz 0)].
Proof. split; vm_compute; reflexivity. Qed.
Print Assumptions C200_trimmed_steps_partial.
Print Assumptions C200_trimmed_steps_csr_partial.
