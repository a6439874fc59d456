(** C192, continued: information measures do not depend on the numbers of the nodes. *)
From Verif Require Import Base PartitionModel InfoModel InfoSpec InfoProofs InfoNviProofs InfoProps.
From Coq Require Import Lra.

Section Rename.
Context (s : nat -> nat) (V : list nat) (Hs : forall x y, In x V -> In y V -> s x = s y -> x = y).
Definition within (P : list (list nat)) : Prop := forall c x, In c P -> In x c -> In x V.
Lemma inter_renamed c d : (forall x, In x c -> In x V) -> (forall x, In x d -> In x V) -> inter_len (map s c) (map s d) = inter_len c d.
Proof.
  intros Hc Hd. unfold inter_len. induction c as [|x c IH]; [reflexivity|]. cbn [map filter].
  assert (E : memb (s x) (map s d) = memb x d).
  { apply eq_true_iff_eq. rewrite !memb_In. split; [|apply in_map]. intros H. apply in_map_iff in H. destruct H as (y & E & Hy). rewrite (Hs x y); [exact Hy|apply Hc; now left|now apply Hd|congruence]. }
  rewrite E. destruct (memb x d); cbn [length]; rewrite IH; auto; intros y Hy; apply Hc; now right.
Qed.
Lemma memb_renamed x d : In x V -> (forall y, In y d -> In y V) -> memb (s x) (map s d) = memb x d.
Proof.
  intros Hx Hd. apply eq_true_iff_eq. rewrite !memb_In. split; [|apply in_map]. intros H. apply in_map_iff in H. destruct H as (y & E & Hy). rewrite (Hs x y); [exact Hy|assumption|now apply Hd|congruence].
Qed.
Lemma rel_renamed P x y : within P -> In x V -> In y V -> rel (map (map s) P) (s x) (s y) = rel P x y.
Proof.
  intros HP Hx Hy. unfold rel, clu. assert (E : find (memb (s x)) (map (map s) P) = option_map (map s) (find (memb x) P)).
  { induction P as [|c P IH]; [reflexivity|]. cbn [map find]. rewrite memb_renamed; [|exact Hx|intros z Hz; apply (HP c z (or_introl eq_refl) Hz)].
    destruct (memb x c); [reflexivity|]. apply IH. intros d z Hd. apply HP. now right. }
  rewrite E. destruct (find (memb x) P) as [c|] eqn:F; [|reflexivity]. cbn [option_map]. apply memb_renamed; [exact Hy|]. intros z Hz. apply find_some in F. now apply (HP c z).
Qed.
Lemma cnt_renamed r r' x : (forall y, In y V -> r' (s x) (s y) = r x y) -> cnt (map s V) r' (s x) = cnt V r x.
Proof.
  intros H. unfold cnt. f_equal. clear Hs. induction V as [|y l IH]; [reflexivity|]. cbn [map filter]. rewrite H by now left. destruct (r x y); cbn [length]; rewrite IH; auto; intros z Hz; apply H; now right.
Qed.
Lemma vi_renamed P Q : within P -> within Q -> vi_val (map s V) (map (map s) P) (map (map s) Q) = vi_val V P Q.
Proof.
  intros HP HQ. unfold vi_val, Hc. rewrite !sumR_map.
  f_equal; apply sumR_ext; intros x Hx.
  - rewrite (cnt_renamed (rel Q)) by (intros y Hy; now apply rel_renamed). rewrite (cnt_renamed (meet (rel P) (rel Q))); [reflexivity|]. intros y Hy. unfold meet. now rewrite !rel_renamed.
  - rewrite (cnt_renamed (rel P)) by (intros y Hy; now apply rel_renamed). rewrite (cnt_renamed (meet (rel Q) (rel P))); [reflexivity|]. intros y Hy. unfold meet. now rewrite !rel_renamed.
Qed.
Lemma partition_within P : partition_of V P -> within P.
Proof. intros (_ & HP & _) c x Hc Hx. apply (Permutation_in _ HP). apply in_concat. now exists c. Qed.
Lemma partition_renamed P : partition_of V P -> partition_of (map s V) (map (map s) P).
Proof.
  intros (H1 & H2 & H3). split; [|split].
  - clear H2 H3. induction H1 as [|x l Hx H1 IH]; [constructor|]. cbn [map]. constructor; [|apply IH; intros a b Ha Hb; apply Hs; now right].
    intros Hin. apply in_map_iff in Hin. destruct Hin as (y & E & Hy). apply Hx. rewrite <- (Hs y x); [exact Hy|now right|now left|exact E].
  - rewrite <- concat_map. now apply Permutation_map.
  - intros Hin. apply in_map_iff in Hin. destruct Hin as (c & E & Hc). apply map_eq_nil in E. now subst c.
Qed.
End Rename.
Theorem C192_nvi : forall s V P Q, (2 <= length V)%nat -> partition_of V P -> partition_of V Q -> (forall x y, In x V -> In y V -> s x = s y -> x = y) ->
  norm_var_information (AList (map (map s) P)) (AList (map (map s) Q)) None = norm_var_information (AList P) (AList Q) None.
Proof.
  intros s V P Q HV HP HQ Hs. unfold norm_var_information. cbn [to_list].
  rewrite (nvi_lists_spec (map s V)); [|now apply partition_renamed|now apply partition_renamed|rewrite map_length; exact HV|now left].
  rewrite (nvi_lists_spec V P Q None HP HQ HV (or_introl eq_refl)). unfold nvi_val. rewrite map_length, (vi_renamed s V Hs); [reflexivity|now apply partition_within|now apply partition_within].
Qed.
Theorem C192_nmi : forall s V P Q, (forall c x, In c P -> In x c -> In x V) -> (forall c x, In c Q -> In x c -> In x V) -> (forall x y, In x V -> In y V -> s x = s y -> x = y) ->
  norm_mutual_information (AList (map (map s) P)) (AList (map (map s) Q)) = norm_mutual_information (AList P) (AList Q).
Proof.
  intros s V P Q HP HQ Hs. unfold norm_mutual_information. cbn [to_list]. unfold nmi_lists.
  assert (EN : forall R : list (list nat), nonempty (map (map s) R) = nonempty R) by now intros []. rewrite !EN. destruct (nonempty P && nonempty Q)%bool; [|reflexivity].
  assert (ET : total_len (map (map s) P) = total_len P). { clear. unfold total_len. generalize 0%nat. induction P as [|c P IH]; intros k; [reflexivity|]. cbn [map fold_left]. now rewrite IH, map_length. }
  rewrite ET. unfold cython_nmi. destruct (total_len P =? 0)%nat; [reflexivity|].
  assert (EM : forall R, map (fun c => (INR (length c) / INR (total_len P))%R) (map (map s) R) = map (fun c => (INR (length c) / INR (total_len P))%R) R).
  { intros R. rewrite map_map. apply map_ext. intros c. now rewrite map_length. }
  rewrite !EM. assert (EF : forall R, (forall c x, In c R -> In x c -> In x V) -> flat_map (fun c1 => map (fun c2 => (INR (inter_len c1 c2) / INR (total_len P))%R) (map (map s) Q)) (map (map s) R)
    = flat_map (fun c1 => map (fun c2 => (INR (inter_len c1 c2) / INR (total_len P))%R) Q) R).
  { intros R HR. induction R as [|c R IH]; [reflexivity|]. cbn [map flat_map]. rewrite IH by (intros d x Hd; apply HR; now right). f_equal. rewrite map_map. apply map_ext_in. intros d Hd.
    rewrite (inter_renamed s V Hs); [reflexivity|intros x Hx; apply (HR c x (or_introl eq_refl) Hx)|intros x Hx; now apply (HQ d x)]. }
  rewrite (EF P HP). reflexivity.
Qed.
Example C192_info_applies : partition_of [0; 1; 2]%nat [[0; 1]; [2]]%nat /\ partition_of [0; 1; 2]%nat [[0]; [1]; [2]]%nat /\
  let s := fun i => (10 - i)%nat in (forall x y, In x [0; 1; 2]%nat -> In y [0; 1; 2]%nat -> s x = s y -> x = y) /\ map (map s) [[0; 1]; [2]]%nat = [[10; 9]; [8]]%nat.
Proof. split; [part_tac|]. split; [part_tac|]. intros s. split; [|reflexivity]. intros x y Hx Hy. unfold s. cbn in Hx, Hy. intuition lia. Qed.
Print Assumptions C192_nvi.
Print Assumptions C192_nmi.
