(** The flow integrals of the slices: C204. *)
From Coq Require Import String.
From Verif Require Import Base LouvainModel SparseModel EventsModel EventsSpec EventsProofs LaplacianProofs EventsProps TransModel TransSpec MatProofs TransProofs TransProps
  FlowModel FlowSpec FlowProofs FlowProps CovModel CovSpec SliceModel SliceSpec SliceProofs SliceProps SlicedModel SlicedProps FlowIntModel.
Local Open Scope bool_scope.

(** The integral of the flow over a slice, in one direction: what FlowIntegralClustering gives for
    the matrices between events that are saved for the slice (C46, C85). *)
Definition slice_integral (n : nat) (s : slice) (reverse_time : bool) : mat :=
  flow_average n None (Some (s_inter s)) None (Some (s_times s)) reverse_time (length (s_inter s)).

(** ** Products *)
Section Products.
Context (N : net) (g : list grid_row) (E Z : num -> mat -> mat) (P : mat -> mat) (lamda t_s tol : num) (sparse force_csr : bool).
Notation n := (num_nodes_of N).
Definition out_of (m : method) (A : mat) (r : list mat) : list mat :=
  match m with
  | Expm => clean n Z (Some tol) A :: products n Z (Some tol) (clean n Z (Some tol) A) r
  | Lin => A :: products n Z None A r
  end.
Lemma products_from m save rv st l : slice_matrices lamda t_s m st = Some l -> aget qeqb (t_T st) lamda = None -> aget pair_eqb (t_T_lin st) (lamda, t_s) = None ->
  products_of N Z lamda t_s tol force_csr save m rv st =
  match TransSpec.in_order rv l with [] => None | A :: r => Some (if save then Many (out_of m A r) else One (last (out_of m A r) ident)) end.
Proof.
  intros HM HT HL. destruct m; cbn [slice_matrices products_of] in *.
  - destruct (aget qeqb (t_inter st) lamda) as [[s l']|] eqn:EI; [|discriminate]. cbn in HM. injection HM as ->. unfold compute_trans. rewrite EI, HT. fold (TransSpec.in_order rv l). destruct (TransSpec.in_order rv l) as [|A r]; [reflexivity|].
    cbn [t_T set_T set_inter]. now rewrite get_same.
  - unfold compute_lin_trans. rewrite HM, HL. fold (TransSpec.in_order rv l). destruct (TransSpec.in_order rv l) as [|A r]; [reflexivity|]. cbn [t_T_lin set_T_lin]. now rewrite (aget_aset_same pair_eqb pair_eqb_spec).
Qed.
Lemma state_fresh m s st : slice_state N g E Z P lamda t_s sparse m s = Some st -> t_T st = [] /\ t_T_lin st = [].
Proof.
  unfold slice_state, slice_calls. destruct m; cbn [run do_call]; unfold compute_lap; destruct (compute_laplacians N g (Some (fst s)) (Some (snd s))) as [[[ka kb] Ls]|]; try discriminate.
  - unfold compute_inter, ensure_lap. cbn [t_lap set_lap the_lamda t_inter tn0 aget]. destruct (inter_matrices n (times (rows N)) E false lamda (ka, kb, Ls)) as [l|]; [|discriminate]. intros H. injection H as <-. now split.
  - unfold compute_lin_inter, compute_stat, ensure_lap. cbn [t_stat t_lap set_lap set_stat tn0 the_lamda t_inter_lin aget]. destruct (per_step _ _ _ _) as [[|A l]|]; [destruct sparse| |]; try discriminate; intros H; injection H as <-; now split.
Qed.
(** the state, the window and the matrices of a slice that has been saved *)
Lemma saved_state m s S : saved N g E Z P lamda t_s sparse m s = Some S ->
  exists st ka kb Ls, slice_state N g E Z P lamda t_s sparse m s = Some st /\ t_lap st = Some (ka, kb, Ls) /\ slice_matrices lamda t_s m st = Some (s_inter S) /\
    s_times S = firstn (kb + 1 - ka) (skipn ka (times (rows N))).
Proof.
  unfold saved. fold (slice_state N g E Z P lamda t_s sparse m s). destruct (slice_state N g E Z P lamda t_s sparse m s) as [st|]; [|discriminate]. destruct (t_lap st) as [[[ka kb] Ls]|] eqn:EL; [|discriminate]. destruct (slice_matrices lamda t_s m st) as [l|] eqn:EM; [|discriminate].
  intros H. injection H as <-. exists st, ka, kb, Ls. now repeat split.
Qed.
End Products.
Lemma out_of_chain N Z tol m A r : tol = 0%num -> zeroing (num_nodes_of N) Z -> (forall B, In B (A :: r) -> stochastic (num_nodes_of N) B) -> product_of (num_nodes_of N) true (A :: r) (Many (out_of N Z tol m A r)).
Proof.
  intros -> HZ HS. destruct m; [|exact (out_product _ Z true (A :: r) A r eq_refl HS)]. cbn [out_of]. split; [reflexivity|]. split; [cbn [length]; now rewrite products_length|].
  intros [|k] Hk.
  - cbn [nth firstn]. eapply eqm_trans; [apply clean_zero; [exact HZ|apply HS; now left]|]. cbn. apply eqm_sym, mmul_ident_r.
  - change (firstn (S (S k)) (A :: r)) with ([A] ++ firstn (S k) r). cbn [nth]. apply products_zero; [exact HZ| |exact HS|cbn in Hk; lia].
    eapply eqm_trans; [apply clean_zero; [exact HZ|apply HS; now left]|]. cbn. apply eqm_sym, mmul_ident_r.
Qed.

(** * C204: --save_flow_int adds the integrals to what is saved *)
Definition C204_statement : Prop := forall fuel srcs tgts starts ends N g E Z P lamda t_s sparse force_csr kd rtol m reverse_time s S A,
  make_net fuel true false srcs tgts starts ends = Some N -> rows N <> [] -> ids_ok N = true -> no_self_contact (rows N) -> lasting (rows N) -> no_overlap (rows N) -> is_time_grid (rows N) g ->
  expm_ok (num_nodes_of N) E -> zeroing (num_nodes_of N) Z -> (forall A, stochastic (num_nodes_of N) A -> stochastic (num_nodes_of N) (P A)) -> (0 <= lamda)%num -> exact kd rtol ->
  (fst s <= snd s)%num -> saved N g E Z P lamda t_s sparse m s = Some S -> 1 < length (s_times S) ->
  save_direction N g E Z P lamda t_s 0 sparse force_csr false kd rtol m reverse_time s = Some (None, A) ->
  exists I, save_direction N g E Z P lamda t_s 0 sparse force_csr true kd rtol m reverse_time s = Some (Some [I], A) /\
    eqm (num_nodes_of N) I (slice_integral (num_nodes_of N) S reverse_time).
(** The object has no attribute I: whatever the network and the options, nothing is saved. *)
Theorem C204_nothing_saved : forall N g E Z P lamda t_s tol sparse force_csr kd rtol m reverse_time s,
  save_direction N g E Z P lamda t_s tol sparse force_csr true kd rtol m reverse_time s = None.
Proof. intros. unfold save_direction. now destruct (flow_object _ _ _ _ _ _ _ _ _ _ _ _ _ _ _). Qed.
(** The integrals of the object (its attribute I_list) would be the right ones. *)
Theorem C204_object_partial : forall fuel srcs tgts starts ends N g E Z P lamda t_s sparse force_csr kd rtol m reverse_time s S,
  make_net fuel true false srcs tgts starts ends = Some N -> rows N <> [] -> ids_ok N = true -> no_self_contact (rows N) -> lasting (rows N) -> no_overlap (rows N) -> is_time_grid (rows N) g ->
  expm_ok (num_nodes_of N) E -> zeroing (num_nodes_of N) Z -> (forall A, stochastic (num_nodes_of N) A -> stochastic (num_nodes_of N) (P A)) -> (0 <= lamda)%num -> exact kd rtol ->
  (fst s <= snd s)%num -> saved N g E Z P lamda t_s sparse m s = Some S -> 1 < length (s_times S) ->
  exists F I, flow_object N g E Z P lamda t_s 0 sparse force_csr kd rtol m reverse_time s = Some F /\ matrices_at F "I_list" = Some [I] /\
    eqm (num_nodes_of N) I (slice_integral (num_nodes_of N) S reverse_time).
Proof.
  intros fuel srcs tgts starts ends N g E Z P lamda t_s sparse force kd rtol m rv s S HN Hne Hids Hself HLast HNo HG HE HZ HP Hx Hex Hs ES HT.
  assert (Hn := has_nodes N Hne Hids). set (n := num_nodes_of N) in *.
  assert (HSO : slice_ok n S).
  { apply (network_slices fuel srcs tgts starts ends N g E Z P lamda t_s HN Hne Hids Hself HLast HNo HG HE HP Hx sparse [fst s; snd s] ltac:(repeat constructor; exact Hs) m 0). unfold saved_slices. cbn. now rewrite <- surjective_pairing. }
  destruct HSO as (HL & HI & _ & _ & HSt). assert (HLen : length (s_times S) = Datatypes.S (length (s_inter S))) by (destruct HL as [HL|HL]; lia).
  destruct (saved_state _ _ _ _ _ _ _ _ _ _ _ ES) as (st & ka & kb & Ls & E1 & E2 & E3 & E4). destruct (state_fresh _ _ _ _ _ _ _ _ _ _ _ E1) as [F1 F2].
  unfold flow_object. rewrite E1, E2. rewrite (products_from N Z lamda t_s 0 force m true rv st (s_inter S) E3) by (now rewrite ?F1, ?F2).
  assert (HO : forall B, In B (TransSpec.in_order rv (s_inter S)) -> stochastic n B) by (intros B HB; apply HSt; destruct rv; [now apply in_rev|exact HB]).
  assert (HOl : length (TransSpec.in_order rv (s_inter S)) = length (s_inter S)) by (destruct rv; [apply rev_length|reflexivity]).
  destruct (TransSpec.in_order rv (s_inter S)) as [|A r] eqn:EO; [cbn in HOl; lia|].
  destruct (out_of_chain N Z 0 m A r eq_refl HZ HO) as (_ & HPl & HPk). set (l := out_of N Z 0 m A r) in *. rewrite <- E4.
  (* the times turned round *)
  assert (EQ : forall p g', g' = None -> flow_integral n kd (Some l) None p (Some (list_reverse rv (s_times S))) g' false rtol = flow_integral n kd (Some l) None p (Some (s_times S)) g' rv rtol) by (intros p g' ->; destruct rv; reflexivity).
  fold n. cbv iota beta. rewrite (EQ None None eq_refl). clear EQ.
  destruct (C46_computed n kd (Some l) None None (Some (s_times S)) None rv rtol) as [F EF]; [cbn [given]; intros H0; rewrite H0 in HPl; cbn in HPl; lia|exact HI|intros H0; injection H0 as H0; rewrite H0 in HT; cbn in HT; lia|].
  assert (HSl : all_stochastic n (Some l) None).
  { intros B HB. cbn [given] in HB. destruct (In_nth _ _ ident HB) as (k & Hk & <-). eapply stochastic_ext; [apply eqm_sym, HPk; lia|]. apply stochastic_chain. intros C HC. apply HO. rewrite <- (firstn_skipn (Datatypes.S k) (A :: r)). apply in_or_app. now left. }
  destruct (C85_default n kd (Some l) None None (Some (s_times S)) rv rtol F Hex Hn HI HSl EF) as (I & EI & HIa).
  { unfold flow_times. cbn [the_times given]. destruct rv; [rewrite rev_length|]; lia. }
  exists F, I. split; [exact EF|]. split; [unfold matrices_at; cbn [String.eqb]; cbn; now rewrite EI|]. eapply eqm_trans; [exact HIa|]. cbn [given]. rewrite HPl, HOl. unfold slice_integral.
  apply (same_average n None (Some (s_inter S)) (Some l) None None (Some (s_times S)) (Some (s_times S)) rv rv (fun t => t) 1%num); try reflexivity.
  - intros a b. ring.
  - unfold flow_times. cbn [the_times]. now rewrite map_id.
  - unfold steps_in. cbn [the_times given]. now rewrite HPl, HOl.
  - intros k Hk. unfold steps_in in Hk. cbn [the_times given] in Hk. cbn [flow_transition given]. rewrite EO. apply HPk. lia.
  - lia.
  - unfold steps_in. cbn [the_times given]. lia.
Qed.
(** The transition matrices do not depend on the option, with any tolerance. *)
Theorem C204_transitions_partial : forall N g E Z P lamda t_s tol sparse force_csr m reverse_time s,
  kept_T N g E Z P lamda t_s tol sparse force_csr true m reverse_time s = kept_T N g E Z P lamda t_s tol sparse force_csr false m reverse_time s.
Proof.
  intros N g E Z P lamda t_s tol sparse force m rv s. unfold kept_T. destruct (slice_state N g E Z P lamda t_s sparse m s) as [st|] eqn:E1; [|reflexivity]. destruct (state_fresh _ _ _ _ _ _ _ _ _ _ _ E1) as [F1 F2].
  destruct (slice_matrices lamda t_s m st) as [l|] eqn:EM.
  - rewrite !(products_from N Z lamda t_s tol force m _ rv st l EM) by (now rewrite ?F1, ?F2). destruct (TransSpec.in_order rv l) as [|A r]; [reflexivity|]. unfold out_of. destruct m; reflexivity.
  - destruct m; cbn [slice_matrices products_of] in *.
    + unfold compute_trans. destruct (aget qeqb (t_inter st) lamda) as [[? ?]|]; [discriminate|reflexivity].
    + unfold compute_lin_trans. now rewrite EM.
Qed.

Definition ex_saved39 (m : method) := saved net39 ex_grid39 Estep (zeroed 3) (fun A => A) 1%num (qn 10) true m (qn 0, qn 3).
Example C204_applies : make_net 0 true false [0; 1] [1; 2] [qn 0; qn 1] [qn 1; qn 3] = Some net39 /\ lasting (rows net39) /\ no_overlap (rows net39) /\ expm_ok 3 Estep /\ zeroing 3 (zeroed 3) /\
  (forall m, match ex_saved39 m with Some s => length (s_times s) = 3 | None => False end) /\
  (forall m rv, kept_T net39 ex_grid39 Estep (zeroed 3) (fun A => A) 1%num (qn 10) 0%num true false false m rv (qn 0, qn 3) <> None) /\
  match ex_saved39 Expm with Some s => ~ eqm 3 (slice_integral 3 s false) (slice_integral 3 s true) | None => False end.
Proof.
  destruct C202_applies as (H1 & H2 & H3 & _). split; [exact H1|]. split; [exact H2|]. split; [exact H3|]. split; [apply Estep_ok|]. split; [apply zeroed_zeroing|].
  split; [intros [|]; vm_compute; reflexivity|]. split.
  { intros m rv. assert (K : match kept_T net39 ex_grid39 Estep (zeroed 3) (fun A => A) 1%num (qn 10) 0%num true false false m rv (qn 0, qn 3) with Some _ => true | None => false end = true) by (destruct m, rv; vm_compute; reflexivity).
    destruct (kept_T _ _ _ _ _ _ _ _ _ _ _ _ _); [discriminate|discriminate K]. }
  assert (K : match ex_saved39 Expm with Some s => negb (qeqb (slice_integral 3 s false 0 0) (slice_integral 3 s true 0 0)) | None => false end = true) by (vm_compute; reflexivity).
  destruct (ex_saved39 Expm) as [s|]; [|discriminate K]. intros H. rewrite (H 0 0) in K by lia. destruct (qeqb_spec (slice_integral 3 s true 0 0) (slice_integral 3 s true 0 0)) as [_|Hn]; [discriminate K|now apply Hn].
Qed.
Theorem C204_attribute_refuted : ~ C204_statement.
Proof.
  intros H. destruct C204_applies as (H1 & H2 & H3 & H4 & H5 & H6 & H7 & _). specialize (H6 Expm). specialize (H7 Expm false). unfold ex_saved39 in H6.
  destruct (saved net39 ex_grid39 Estep (zeroed 3) (fun A => A) 1%num (qn 10) true Expm (qn 0, qn 3)) as [S|] eqn:ES; [|contradiction].
  destruct (kept_T net39 ex_grid39 Estep (zeroed 3) (fun A => A) 1%num (qn 10) 0%num true false false Expm false (qn 0, qn 3)) as [A|] eqn:EK; [|contradiction].
  destruct (H 0 [0; 1] [1; 2] [qn 0; qn 1] [qn 1; qn 3] net39 ex_grid39 Estep (zeroed 3) (fun A => A) 1%num (qn 10) true false Dense None Expm false (qn 0, qn 3) S A H1) as (I & EI & _).
  - discriminate.
  - reflexivity.
  - intros e; in_cases; cbn; lia.
  - exact H2.
  - exact H3.
  - apply grid_exists.
  - exact H4.
  - exact H5.
  - intros B HB. exact HB.
  - discriminate.
  - now left.
  - apply qn_le. lia.
  - exact ES.
  - rewrite H6. lia.
  - unfold save_direction. rewrite EK. reflexivity.
  - rewrite C204_nothing_saved in EI. discriminate EI.
Qed.

Print Assumptions C204_attribute_refuted.
Print Assumptions C204_nothing_saved.
Print Assumptions C204_object_partial.
Print Assumptions C204_transitions_partial.
