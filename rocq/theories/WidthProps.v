(** Products of compact inter-event matrices: property C200. *)
From Verif Require Import Base SparseModel SparseSpec SparseProofs SparseOpsProofs SparseConvProofs SparseProps MatProofs WidthModel.
From Verif Require InitProofs.
Local Open Scope bool_scope.

(** * What is asked for *)
(** an inter-event matrix as sparse_lapl_expm and sparse_lin_approx return it: just built,
    with 1 on the rest of the diagonal, and with rows that sum to 1 *)
Definition step_matrix (n : nat) (A : wmat) : Prop :=
  ssm_ok (w_mat A) /\ s_size (w_mat A) = n /\ s_diag (w_mat A) = 1%num /\ w_width A = W32 /\
  forall i, i < n -> sumN n (full (w_mat A) i) = 1%num.
(** the product f g1 g2 ... of n x n matrices *)
Fixpoint product (n : nat) (f : nat -> nat -> num) (l : list (nat -> nat -> num)) : nat -> nat -> num :=
  match l with
  | [] => f
  | g :: r => product n (fun i j => sumN n (fun k => (f i k * g k j)%num)) r
  end.
(** [out] lists the products of the first factor, the first two, ... *)
Definition all_products (n : nat) (l : list wmat) (entry : nat -> nat -> nat -> num) : Prop :=
  forall k i j, k < length l -> i < n -> j < n ->
    match l with
    | [] => True
    | A :: r => entry k i j = product n (full (w_mat A)) (map (fun B => full (w_mat B)) (firstn k r)) i j
    end.
(** for every number of steps and either implementation of the kernels, the transition
    matrices are computed and are the products of the inter-event matrices *)
Definition C200_statement : Prop := forall compiled sp n l, scipy_ok sp -> l <> [] ->
  (forall A, In A l -> step_matrix n A) ->
  exists out, w_transitions compiled sp None l = Some out /\ length out = length l /\
    all_products n l (fun k => full (w_mat (nth k out (mkW (mkS 0 [] (mkCsr [] [] []) 0%num) W32)))).

(** * Which sums the kernels accept *)
Lemma built_obind (o : option ssm) (f : wmat -> option wmat) (g : ssm -> option ssm) :
  (forall A, f (mkW A W32) = built (g A)) -> obind (built o) f = built (obind o g).
Proof. intros H. destruct o; [apply H|reflexivity]. Qed.
Lemma one_is_one : qeqb 1%num 1%num = true.
Proof. reflexivity. Qed.
Lemma takes32 c : takes c W32 = true.
Proof. unfold takes. cbn. apply orb_true_r. Qed.
Lemma w_matmul_accepted c sp A B : takes c (w_width A) = true -> takes c (w_width B) = true ->
  w_matmul c sp A B = built (ssm_matmul sp (w_mat A) (w_mat B)).
Proof.
  intros HA HB. unfold w_matmul, ssm_matmul.
  set (a := s_diag (w_mat A)). set (b := s_diag (w_mat B)).
  assert (EaB : (if qeqb a 1%num then Some B else w_mul B a) =
     match (if qeqb a 1%num then Some (w_mat B) else ssm_mul (w_mat B) a) with
     | Some M => Some (mkW M (if qeqb a 1%num then w_width B else W32)) | None => None end).
  { destruct (qeqb a 1%num); [now destruct B|]. unfold w_mul, built. destruct (ssm_mul _ _); reflexivity. }
  rewrite EaB. destruct (if qeqb a 1%num then Some (w_mat B) else ssm_mul (w_mat B) a) as [aB|] eqn:E1; [|reflexivity]. cbn [obind].
  assert (EbA : (if qeqb b 1%num then Some A else w_mul A b) =
     match (if qeqb b 1%num then Some (w_mat A) else ssm_mul (w_mat A) b) with
     | Some M => Some (mkW M (if qeqb b 1%num then w_width A else W32)) | None => None end).
  { destruct (qeqb b 1%num); [now destruct A|]. unfold w_mul, built. destruct (ssm_mul _ _); reflexivity. }
  rewrite EbA. destruct (if qeqb b 1%num then Some (w_mat A) else ssm_mul (w_mat A) b) as [bA|] eqn:E2; [|reflexivity]. cbn [obind].
  unfold w_add at 1. cbn [w_mat w_width].
  assert (T1 : takes c (if qeqb b 1%num then w_width A else W32) = true) by (destruct (qeqb b 1%num); [exact HA|apply takes32]).
  assert (T2 : takes c (if qeqb a 1%num then w_width B else W32) = true) by (destruct (qeqb a 1%num); [exact HB|apply takes32]).
  rewrite T1, T2. cbn [andb]. apply built_obind. intros sum. unfold w_sub_diag at 1. cbn [w_mat]. apply built_obind. intros rest.
  destruct (filter _ _); [reflexivity|].
  destruct (col_map (s_nz (w_mat A)) _ 0) as [amap|]; [|reflexivity]. cbn [obind].
  destruct (col_map (s_nz (w_mat B)) _ 0) as [bmap|]; [|reflexivity]. cbn [obind].
  apply built_obind. intros AmI. apply built_obind. intros BmI. unfold w_tocsr. cbn [w_mat].
  destruct (to_full_mat AmI) as [FA|]; [|reflexivity]. cbn [obind].
  destruct (to_full_mat BmI) as [FB|]; [|reflexivity]. cbn [obind].
  apply built_obind. intros CmI. unfold w_add. cbn [w_mat w_width]. rewrite takes32. reflexivity.
Qed.
(** a factor of 64 bits that is added as it is *)
Lemma w_matmul_left64 sp A B : w_width A = W64 -> s_diag (w_mat B) = 1%num -> w_matmul true sp A B = None.
Proof.
  intros HA HB. unfold w_matmul. rewrite HB. rewrite one_is_one.
  destruct (if qeqb (s_diag (w_mat A)) 1%num then _ else _) as [aB|]; [|reflexivity]. cbn [obind].
  unfold w_add at 1. rewrite HA. reflexivity.
Qed.
Lemma w_matmul_right64 sp A B : w_width B = W64 -> s_diag (w_mat A) = 1%num -> w_matmul true sp A B = None.
Proof.
  intros HB HA. unfold w_matmul. rewrite HA. rewrite one_is_one. cbn [obind].
  destruct (if qeqb (s_diag (w_mat B)) 1%num then _ else _) as [bA|]; [|reflexivity]. cbn [obind].
  unfold w_add at 1. rewrite HB. unfold takes at 2. cbn. now rewrite andb_false_r.
Qed.

(** * With the compiled kernels it fails from the third step on, and from the second with a
    tolerance *)
Theorem C200_compiled : forall sp tol l, (forall A, In A l -> s_diag (w_mat A) = 1%num) ->
  2 < length l \/ (tol <> None /\ 1 < length l) -> w_transitions true sp tol l = None.
Proof.
  intros sp tol l Hd Hl. destruct l as [|A [|B r]]; [destruct Hl as [Hl|[_ Hl]]; inversion Hl|destruct Hl as [Hl|[_ Hl]]; cbn in Hl; lia|].
  unfold w_transitions. cbn [w_products].
  destruct tol as [t|].
  - rewrite (w_matmul_right64 sp (w_clean (Some t) A) (w_clean (Some t) B)); reflexivity.
  - destruct Hl as [Hl|[Hl _]]; [|contradiction]. destruct r as [|C r]; [cbn in Hl; lia|]. cbn [w_clean].
    destruct (w_matmul true sp A B) as [P|]; [|reflexivity]. cbn [obind w_products w_clean w_trim].
    rewrite (w_matmul_left64 sp (w_normalise P 1%num) C); [reflexivity|reflexivity|]. apply Hd. cbn. auto.
Qed.

(** * The values *)
Lemma diag_add A B C : ssm_add A B = Some C -> s_diag C = (s_diag A + s_diag B)%num.
Proof.
  unfold ssm_add, stoch_mat_op. destruct (col_map (s_nz A) _ 0); [|discriminate]. destruct (col_map (s_nz B) _ 0); [|discriminate].
  destruct (_ <=? _); [|discriminate]. unfold ssm_init. destruct (_ =? _); [|discriminate]. intros H. injection H as <-. cbn [s_diag]. ring.
Qed.
Lemma diag_init n M nz d C : ssm_init n M nz d = Some C -> s_diag C = d.
Proof. unfold ssm_init. destruct (_ =? _); [|discriminate]. intros H. now injection H as <-. Qed.
Lemma diag_matmul sp A B C : s_diag A = 1%num -> s_diag B = 1%num -> ssm_matmul sp A B = Some C -> s_diag C = 1%num.
Proof.
  intros HA HB. unfold ssm_matmul. rewrite HA, HB, one_is_one. cbn [obind].
  destruct (ssm_add A B) as [sum|] eqn:E1; [|discriminate]. cbn [obind].
  destruct (ssm_sub_diag sp sum _) as [rest|] eqn:E2; [|discriminate]. cbn [obind].
  assert (Hr : s_diag rest = 1%num).
  { unfold ssm_sub_diag in E2. rewrite (diag_init _ _ _ _ _ E2), (diag_add _ _ _ E1), HA, HB. ring. }
  destruct (filter _ _); [intros H; congruence|].
  destruct (col_map (s_nz A) _ 0) as [amap|]; [|discriminate]. cbn [obind].
  destruct (col_map (s_nz B) _ 0) as [bmap|]; [|discriminate]. cbn [obind].
  destruct (ssm_init _ _ amap _) as [AmI|]; [|discriminate]. cbn [obind].
  destruct (ssm_init _ _ bmap _) as [BmI|]; [|discriminate]. cbn [obind].
  destruct (to_full_mat AmI) as [FA|]; [|discriminate]. cbn [obind].
  destruct (to_full_mat BmI) as [FB|]; [|discriminate]. cbn [obind].
  destruct (ssm_init _ _ _ 0%num) as [CmI|] eqn:E3; [|discriminate]. cbn [obind].
  intros H. rewrite (diag_add _ _ _ H), (diag_init _ _ _ _ _ E3), Hr. ring.
Qed.

(** a product of matrices whose rows sum to 1 *)
Lemma rows_sum_product n (f g : nat -> nat -> num) : (forall i, i < n -> sumN n (f i) = 1%num) ->
  (forall i, i < n -> sumN n (g i) = 1%num) -> forall i, i < n ->
  sumN n (fun j => sumN n (fun k => (f i k * g k j)%num)) = 1%num.
Proof.
  intros Hf Hg i Hi. rewrite sumN_swap. rewrite <- (Hf i Hi). apply sumN_ext. intros k Hk.
  rewrite sumN_scal_l, (Hg k Hk). ring.
Qed.
Lemma product_ext n l : forall f g, (forall i j, i < n -> j < n -> f i j = g i j) ->
  forall i j, i < n -> j < n -> product n f l i j = product n g l i j.
Proof.
  induction l as [|h l IH]; intros f g H i j Hi Hj; cbn [product]; [now apply H|].
  apply IH; [|assumption|assumption]. intros i' j' Hi' Hj'. apply sumN_ext. intros k Hk. now rewrite H.
Qed.

(** one step where the kernels accept the arrays *)
Lemma step_product c sp n A B : scipy_ok sp -> takes c (w_width A) = true -> takes c (w_width B) = true ->
  ssm_ok (w_mat A) -> s_size (w_mat A) = n -> s_diag (w_mat A) = 1%num -> (forall i, i < n -> sumN n (full (w_mat A) i) = 1%num) ->
  ssm_ok (w_mat B) -> s_size (w_mat B) = n -> s_diag (w_mat B) = 1%num -> (forall i, i < n -> sumN n (full (w_mat B) i) = 1%num) ->
  exists P, w_matmul c sp A B = Some P /\ let T := w_normalise P 1%num in
    ssm_ok (w_mat T) /\ s_size (w_mat T) = n /\ s_diag (w_mat T) = 1%num /\
    (forall i, i < n -> sumN n (full (w_mat T) i) = 1%num) /\
    forall i j, i < n -> j < n -> full (w_mat T) i j = sumN n (fun k => (full (w_mat A) i k * full (w_mat B) k j)%num).
Proof.
  intros Hsp TA TB OA SA DA RA OB SB DB RB. rewrite (w_matmul_accepted c sp A B TA TB).
  destruct (C22_product sp (w_mat A) (w_mat B) Hsp OA OB ltac:(congruence)) as (C & E & OC & SC & F & HF & _ & HV).
  rewrite SA in *. rewrite E. cbn [built option_map]. eexists. split; [reflexivity|]. cbn zeta. unfold w_normalise. cbn [w_mat].
  assert (DC := diag_matmul _ _ _ _ DA DB E).
  assert (VC : forall i j, i < n -> j < n -> full C i j = sumN n (fun k => (full (w_mat A) i k * full (w_mat B) k j)%num)).
  { intros i j Hi Hj. unfold full at 1. rewrite HF. apply HV; now rewrite SC. }
  assert (RC : forall i, i < n -> sumN n (full C i) = 1%num).
  { intros i Hi. rewrite (sumN_ext n _ _ (fun j Hj => VC i j Hi Hj)). now apply rows_sum_product. }
  destruct (C58_row_normalise_partial C 1%num OC ltac:(discriminate) ltac:(rewrite DC; discriminate)) as [ON HN].
  rewrite SC in HN.
  assert (VN : forall i j, i < n -> j < n -> full (ssm_row_normalise C 1%num) i j = full C i j).
  { intros i j Hi Hj. destruct (HN i Hi) as [H1 _]. rewrite (RC i Hi) in H1. destruct (H1 ltac:(discriminate)) as [_ H2].
    specialize (H2 j Hj). rewrite Qcmult_1_r in H2. rewrite H2. ring. }
  split; [exact ON|]. split; [exact SC|]. split; [reflexivity|]. split.
  - intros i Hi. rewrite (sumN_ext n _ _ (fun j Hj => VN i j Hi Hj)). now apply RC.
  - intros i j Hi Hj. rewrite VN by assumption. now apply VC.
Qed.

(** ** The fallback in Python computes the products for every number of steps *)
Lemma products_fallback sp n l : scipy_ok sp -> (forall A, In A l -> step_matrix n A) -> forall T,
  ssm_ok (w_mat T) -> s_size (w_mat T) = n -> s_diag (w_mat T) = 1%num -> (forall i, i < n -> sumN n (full (w_mat T) i) = 1%num) ->
  exists out, w_products false sp None T l = Some out /\ length out = length l /\
    forall d k i j, k < length l -> i < n -> j < n ->
      full (w_mat (nth k out d)) i j = product n (full (w_mat T)) (map (fun B => full (w_mat B)) (firstn (S k) l)) i j.
Proof.
  intros Hsp. induction l as [|B l IH]; intros Hl T OT ST DT RT.
  - exists []. split; [reflexivity|]. split; [reflexivity|]. intros d k i j Hk. inversion Hk.
  - destruct (Hl B (or_introl eq_refl)) as (OB & SB & DB & _ & RB).
    destruct (step_product false sp n T B Hsp eq_refl eq_refl OT ST DT RT OB SB DB RB) as (P & E & ON & SN & DN & RN & VN).
    destruct (IH (fun A HA => Hl A (or_intror HA)) (w_normalise P 1%num) ON SN DN RN) as (out & EO & LO & VO).
    exists (w_normalise P 1%num :: out). cbn [w_products w_clean w_trim]. rewrite E. cbn [obind]. rewrite EO.
    split; [reflexivity|]. split; [cbn [length]; now rewrite LO|].
    intros d [|k] i j Hk Hi Hj.
    + cbn [nth firstn map product]. apply VN; assumption.
    + cbn [nth]. cbn [length] in Hk. rewrite VO by (assumption || lia).
      change (firstn (S (S k)) (B :: l)) with (B :: firstn (S k) l). cbn [map product].
      apply product_ext; [|assumption|assumption]. exact VN.
Qed.
Theorem C200_fallback_partial : forall sp n l, scipy_ok sp -> l <> [] -> (forall A, In A l -> step_matrix n A) ->
  exists out, w_transitions false sp None l = Some out /\ length out = length l /\
    forall d, all_products n l (fun k => full (w_mat (nth k out d))).
Proof.
  intros sp n l Hsp Hne Hl. destruct l as [|A r]; [congruence|]. clear Hne.
  destruct (Hl A (or_introl eq_refl)) as (OA & SA & DA & _ & RA).
  destruct (products_fallback sp n r Hsp (fun B HB => Hl B (or_intror HB)) A OA SA DA RA) as (out & E & L & V).
  exists (A :: out). cbn [w_transitions w_clean]. rewrite E. split; [reflexivity|]. split; [cbn [length]; now rewrite L|].
  intros d k i j Hk Hi Hj. destruct k as [|k]; [reflexivity|]. cbn [nth]. cbn [length] in Hk. apply V; [lia|assumption|assumption].
Qed.

(** ** One or two steps work with both *)
Theorem C200_short_partial : forall compiled sp n l, scipy_ok sp -> l <> [] -> length l <= 2 ->
  (forall A, In A l -> step_matrix n A) ->
  exists out, w_transitions compiled sp None l = Some out /\ length out = length l /\
    forall d, all_products n l (fun k => full (w_mat (nth k out d))).
Proof.
  intros c sp n l Hsp Hne Hlen Hl. destruct l as [|A r]; [congruence|]. clear Hne.
  destruct (Hl A (or_introl eq_refl)) as (OA & SA & DA & WA & RA).
  destruct r as [|B [|C r]]; [| |cbn in Hlen; lia].
  - exists [A]. split; [reflexivity|]. split; [reflexivity|]. intros d [|k] i j Hk Hi Hj; [reflexivity|cbn in Hk; lia].
  - destruct (Hl B ltac:(cbn; auto)) as (OB & SB & DB & WB & RB).
    destruct (step_product c sp n A B Hsp ltac:(rewrite WA; apply takes32) ltac:(rewrite WB; apply takes32) OA SA DA RA OB SB DB RB)
      as (P & E & _ & _ & _ & _ & VN).
    exists [A; w_normalise P 1%num]. cbn [w_transitions w_products w_clean w_trim]. rewrite E. cbn [obind option_map].
    split; [reflexivity|]. split; [reflexivity|]. intros d [|[|k]] i j Hk Hi Hj; [reflexivity| |cbn in Hk; lia].
    cbn [nth firstn map product]. now apply VN.
Qed.

(** ** With [force_csr] every number of steps works with both *)
Lemma products_csr sp n l : scipy_ok sp -> (forall A, In A l -> step_matrix n A) -> forall T,
  csr_ok n T -> (forall i, i < n -> sumN n (value T i) = 1%num) ->
  exists out, c_products n sp None T l = Some out /\ length out = length l /\
    forall d k i j, k < length l -> i < n -> j < n ->
      value (nth k out d) i j = product n (value T) (map (fun B => full (w_mat B)) (firstn (S k) l)) i j.
Proof.
  intros Hsp. induction l as [|B l IH]; intros Hl T OT RT.
  - exists []. split; [reflexivity|]. split; [reflexivity|]. intros d k i j Hk. inversion Hk.
  - destruct (Hl B (or_introl eq_refl)) as (OB & SB & DB & _ & RB).
    destruct (full_is_full (w_mat B) OB) as (F & EF & OF & VF). rewrite SB in OF, VF.
    destruct (Hsp n T OT) as (_ & _ & HM). destruct (HM F OF) as [OM VM].
    assert (VP : forall i j, i < n -> j < n -> value (matmul sp T F) i j = sumN n (fun k => (value T i k * full (w_mat B) k j)%num)).
    { intros i j Hi Hj. rewrite VM by assumption. apply sumN_ext. intros k Hk. now rewrite VF. }
    assert (RP : forall i, i < n -> sumN n (value (matmul sp T F) i) = 1%num).
    { intros i Hi. rewrite (sumN_ext n _ _ (fun j Hj => VP i j Hi Hj)). now apply rows_sum_product. }
    set (T1 := c_normalise n (matmul sp T F)).
    destruct (C24_row_normalise n (matmul sp T F) (fun _ => 1%num) OM ltac:(intros; discriminate)) as (ON & SN & _ & QN & _).
    fold (c_normalise n (matmul sp T F)) in ON, SN, QN. fold T1 in ON, SN, QN.
    assert (RN : forall i, i < n -> sumN n (value T1 i) = 1%num).
    { intros i Hi. apply SN; [exact Hi|]. rewrite RP by exact Hi. discriminate. }
    assert (VN : forall i j, i < n -> j < n -> value T1 i j = sumN n (fun k => (value T i k * full (w_mat B) k j)%num)).
    { intros i j Hi Hj. specialize (QN i j Hi Hj ltac:(rewrite RP by exact Hi; discriminate)). rewrite RP in QN by exact Hi.
      rewrite !Qcmult_1_r in QN. rewrite QN. now apply VP. }
    destruct (IH (fun A HA => Hl A (or_intror HA)) T1 ON RN) as (out & EO & LO & VO).
    exists (T1 :: out). cbn [c_products w_clean c_trim]. unfold w_tocsr. rewrite EF. cbn [obind]. fold T1. rewrite EO.
    split; [reflexivity|]. split; [cbn [length]; now rewrite LO|].
    intros d [|k] i j Hk Hi Hj.
    + cbn [nth firstn map product]. now apply VN.
    + cbn [nth]. cbn [length] in Hk. rewrite VO by (assumption || lia).
      change (firstn (S (S k)) (B :: l)) with (B :: firstn (S k) l). cbn [map product].
      apply product_ext; [|assumption|assumption]. exact VN.
Qed.
Theorem C200_force_csr_partial : forall sp n l, scipy_ok sp -> l <> [] -> (forall A, In A l -> step_matrix n A) ->
  exists out, c_transitions n sp None l = Some out /\ length out = length l /\
    forall d, all_products n l (fun k => value (nth k out d)).
Proof.
  intros sp n l Hsp Hne Hl. destruct l as [|A r]; [congruence|]. clear Hne.
  destruct (Hl A (or_introl eq_refl)) as (OA & SA & DA & _ & RA).
  destruct (full_is_full (w_mat A) OA) as (F & EF & OF & VF). rewrite SA in OF, VF.
  destruct (products_csr sp n r Hsp (fun B HB => Hl B (or_intror HB)) F OF) as (out & E & L & V).
  { intros i Hi. rewrite (sumN_ext n _ _ (fun j Hj => VF i j Hi Hj)). now apply RA. }
  exists (F :: out). cbn [c_transitions c_clean]. unfold w_tocsr. rewrite EF. cbn [obind]. rewrite E.
  split; [reflexivity|]. split; [cbn [length]; now rewrite L|].
  intros d k i j Hk Hi Hj. destruct k as [|k]; [now apply VF|]. cbn [nth]. cbn [length] in Hk. rewrite V by (assumption || lia).
  apply product_ext; [|assumption|assumption]. exact VF.
Qed.

(** * Three steps between two of three nodes: what is asked for fails *)
(** a contact of 0 and 1, then of 1 and 2, then of 0 and 1 *)
Definition contact01 : ssm := mkS 3 [0; 1] (mkCsr [qf 3 4; qf 1 4; qf 1 4; qf 3 4] [0; 1; 0; 1] [0; 2; 4]) 1%num.
Definition contact12 : ssm := mkS 3 [1; 2] (mkCsr [qf 1 2; qf 1 2; qf 1 2; qf 1 2] [0; 1; 0; 1] [0; 2; 4]) 1%num.
Definition three_steps : list wmat := [mkW contact01 W32; mkW contact12 W32; mkW contact01 W32].
Lemma three_steps_ok : forall A, In A three_steps -> step_matrix 3 A.
Proof.
  assert (R1 : forall i, i < 3 -> sumN 3 (full contact01 i) = 1%num).
  { intros i Hi. destruct i as [|[|[|i]]]; [vm_compute; now apply Qc_is_canon| vm_compute; now apply Qc_is_canon| vm_compute; now apply Qc_is_canon|lia]. }
  assert (R2 : forall i, i < 3 -> sumN 3 (full contact12 i) = 1%num).
  { intros i Hi. destruct i as [|[|[|i]]]; [vm_compute; now apply Qc_is_canon| vm_compute; now apply Qc_is_canon| vm_compute; now apply Qc_is_canon|lia]. }
  assert (O1 : ssm_ok contact01) by (apply ssm_okb_sound; vm_compute; reflexivity).
  assert (O2 : ssm_ok contact12) by (apply ssm_okb_sound; vm_compute; reflexivity).
  intros A [<-|[<-|[<-|[]]]]; (split; [assumption|split; [reflexivity|split; [reflexivity|split; [reflexivity|assumption]]]]).
Qed.
Theorem C200_three_steps_refuted : ~ C200_statement.
Proof.
  intros H. destruct (H true dense_scipy 3 three_steps dense_scipy_ok ltac:(discriminate) three_steps_ok) as (out & E & _).
  rewrite (C200_compiled dense_scipy None three_steps) in E; [discriminate E| |cbn; auto].
  intros A HA. apply (three_steps_ok A HA).
Qed.
(** the same steps are computed by the fallback and with [force_csr]; from 0 to 2 in three
    steps: 1/4 * 1/2 *)
Example C200_applies : scipy_ok dense_scipy /\ (forall A, In A three_steps -> step_matrix 3 A) /\
  option_map (map (fun T => full (w_mat T) 0 2)) (w_transitions false dense_scipy None three_steps) = Some [qz 0; qf 1 8; qf 1 8] /\
  option_map (map (fun T => value T 0 2)) (c_transitions 3 dense_scipy None three_steps) = Some [qz 0; qf 1 8; qf 1 8].
Proof.
  split; [exact dense_scipy_ok|]. split; [exact three_steps_ok|]. split; vm_compute; reflexivity.
Qed.
(** a factor whose remaining diagonal is not 1 is copied first, and is accepted *)
Example C200_copied : exists C, w_matmul true dense_scipy (w_normalise (mkW contact01 W32) 1%num)
    (mkW (mkS 3 [1; 2] (s_small contact12) (qf 1 2)) W32) = Some C /\ w_width C = W32.
Proof. eexists. split; [vm_compute; reflexivity|reflexivity]. Qed.

(** ** With a tolerance: the matrix of the first step *)
(** the entries above the tolerance, relative to the largest entry *)
Definition remaining (t m : num) (f : nat -> nat -> num) (i j : nat) : num := if qleb (f i j) (t * m)%num then 0%num else f i j.
Lemma remaining_nonneg t m f i j : (0 <= f i j)%num -> (0 <= remaining t m f i j)%num.
Proof. intros H. unfold remaining. destruct (qleb (f i j) (t * m)%num); [apply Qcle_refl|exact H]. Qed.
Lemma scaled_row n (f : nat -> num) j : (forall j, j < n -> (0 <= f j)%num) -> j < n ->
  (if qeqb (sumN n f) 0%num then f j else f j * (1 / sumN n f))%num = (f j / sumN n f)%num.
Proof.
  intros Hf Hj. destruct (qeqb_spec (sumN n f) 0%num) as [E|E]; [|field; exact E]. rewrite E.
  rewrite (InitProofs.row_zero_of_sum n (fun _ => f) 0 Hf E j Hj). unfold Qcdiv. ring.
Qed.
Lemma value_nonneg n M i j : csr_ok n M -> i < n -> (forall v, In v (c_data M) -> (0 <= v)%num) -> (0 <= value M i j)%num.
Proof.
  intros HM Hi HV. unfold value. apply sumL_nonneg. intros e He. destruct (fst e =? j); [|discriminate]. now apply HV, (row_entry_data n M i).
Qed.
Theorem C200_trimmed_partial : forall compiled sp n A t m, step_matrix n A -> no_repetition (s_small (w_mat A)) -> (forall v, In v (c_data (s_small (w_mat A))) -> (0 <= v)%num) ->
  (0 <= t)%num -> (c_data (s_small (w_mat A)) <> [] -> largest (s_small (w_mat A)) m) ->
  exists T, w_transitions compiled sp (Some t) [A] = Some [T] /\ forall i j, i < n -> j < n ->
    full (w_mat T) i j = if memb i (s_nz (w_mat A)) then (remaining t m (full (w_mat A)) i j / sumN n (remaining t m (full (w_mat A)) i))%num else full (w_mat A) i j.
Proof.
  intros compiled sp n A t m (OA & SA & DA & _ & RA) HN HV Ht Hm. eexists. split; [reflexivity|]. unfold w_clean, w_normalise, w_zero. cbn [w_mat].
  set (B := mkS (s_size (w_mat A)) (s_nz (w_mat A)) (set_to_zeroes (s_small (w_mat A)) t true false) (s_diag (w_mat A))).
  pose proof OA as (H1 & H2 & H3). destruct (set_to_zeroes_spec _ (s_small (w_mat A)) t true false m H1 HN Ht (or_intror HV) Hm) as [K1 K2].
  assert (OB : ssm_ok B) by (split; [exact K1|split; assumption]).
  destruct (ssm_row_normalise_spec B 1%num OB ltac:(discriminate) ltac:(cbn [B s_diag]; rewrite DA; discriminate)) as [ON HS]. cbn [B s_size] in HS. rewrite SA in HS.
  intros i j Hi Hj. rewrite (full_rep _ i j ON) by (cbn [ssm_row_normalise s_size B]; now rewrite SA). rewrite (HS i j Hi Hj). fold B.
  assert (RB : forall j, j < n -> rep B i j = if memb i (s_nz (w_mat A)) then remaining t m (full (w_mat A)) i j else full (w_mat A) i j).
  { intros k Hk. unfold remaining. rewrite (full_rep _ i k OA) by (rewrite SA; assumption). unfold rep. cbn [B s_nz s_small s_diag].
    destruct (pos i (s_nz (w_mat A))) as [a|] eqn:Ea.
    - assert (Hin : memb i (s_nz (w_mat A)) = true) by (apply memb_In, pos_In; now exists a). rewrite Hin.
      assert (La : a < length (s_nz (w_mat A))) by (eapply pos_lt; eassumption).
      destruct (pos k (s_nz (w_mat A))) as [b|] eqn:Eb.
      + assert (Lb : b < length (s_nz (w_mat A))) by (eapply pos_lt; eassumption). rewrite (K2 a b La Lb).
        rewrite (InitProofs.qabs_pos (value (s_small (w_mat A)) a b)) by now apply (value_nonneg (length (s_nz (w_mat A)))). reflexivity.
      + destruct (i =? k) eqn:Eik; [apply Nat.eqb_eq in Eik; subst k; rewrite Ea in Eb; discriminate Eb|]. now destruct (qleb 0%num (t * m)%num).
    - assert (Hin : memb i (s_nz (w_mat A)) = false) by (apply not_true_iff_false; rewrite memb_In; now apply pos_None). now rewrite Hin. }
  destruct (memb i (s_nz (w_mat A))) eqn:Em.
  - rewrite (sumN_ext n _ _ RB), (RB j Hj). apply (scaled_row n (remaining t m (full (w_mat A)) i) j); [|exact Hj]. intros k Hk. apply remaining_nonneg. rewrite (full_rep _ i k OA) by (rewrite SA; assumption).
    unfold rep. destruct (pos i (s_nz (w_mat A))) as [a|] eqn:Ea; [destruct (pos k (s_nz (w_mat A))) as [b|] eqn:Eb|]; try (destruct (i =? k); rewrite ?DA; discriminate); try discriminate.
    apply (value_nonneg (length (s_nz (w_mat A)))); [exact H1|eapply pos_lt; eassumption|exact HV].
  - rewrite (sumN_ext n _ _ RB), (RB j Hj), (RA i Hi). destruct (qeqb_spec 1%num 0%num) as [E|_]; [discriminate E|]. field; discriminate.
Qed.
(** the same with force_csr: the largest entry of the whole matrix counts *)
Theorem C200_trimmed_csr_partial : forall sp n A F t m, step_matrix n A -> w_tocsr A = Some F -> no_repetition F -> (forall v, In v (c_data F) -> (0 <= v)%num) ->
  (0 <= t)%num -> (c_data F <> [] -> largest F m) ->
  exists T, c_transitions n sp (Some t) [A] = Some [T] /\ forall i j, i < n -> j < n ->
    value T i j = (remaining t m (full (w_mat A)) i j / sumN n (remaining t m (full (w_mat A)) i))%num.
Proof.
  intros sp n A F t m (OA & SA & DA & _ & RA) EF HN HV Ht Hm. cbn [c_transitions]. rewrite EF. cbn [obind c_products option_map c_clean]. eexists. split; [reflexivity|].
  destruct (full_is_full (w_mat A) OA) as (F' & EF' & OF & VF). unfold w_tocsr in EF. rewrite EF in EF'. injection EF' as <-. rewrite SA in OF, VF.
  destruct (set_to_zeroes_spec n F t true false m OF HN Ht (or_intror HV) Hm) as [K1 K2]. set (Z := set_to_zeroes F t true false) in *.
  assert (VZ : forall i j, i < n -> j < n -> value Z i j = remaining t m (full (w_mat A)) i j).
  { intros i j Hi Hj. rewrite (K2 i j Hi Hj), (InitProofs.qabs_pos (value F i j)) by now apply (value_nonneg n). unfold remaining. now rewrite (VF i j Hi Hj). }
  destruct (C24_row_normalise n Z (fun _ => 1%num) K1 ltac:(intros; discriminate)) as (_ & _ & Z0 & QN & _). fold (c_normalise n Z) in Z0, QN.
  intros i j Hi Hj. assert (HP : forall k, k < n -> (0 <= remaining t m (full (w_mat A)) i k)%num).
  { intros k Hk. apply remaining_nonneg. rewrite <- (VF i k Hi Hk). now apply (value_nonneg n). }
  rewrite <- (scaled_row n _ j HP Hj). assert (ES : sumN n (value Z i) = sumN n (remaining t m (full (w_mat A)) i)) by (apply sumN_ext; intros k Hk; now apply VZ).
  specialize (Z0 i Hi). specialize (QN i j Hi Hj). rewrite ES in Z0, QN. destruct (qeqb_spec (sumN n (remaining t m (full (w_mat A)) i)) 0%num) as [E|E].
  - rewrite <- (VZ i j Hi Hj). unfold value. now rewrite (Z0 E).
  - specialize (QN E). rewrite (VZ i j Hi Hj) in QN. rewrite Qcmult_1_r in QN. rewrite <- QN. field. exact E.
Qed.
(* a tolerance of 1/2 deletes the smaller entries; relative to the largest entry of the block, or of the matrix *)
Example C200_trimmed_applies : step_matrix 3 (mkW contact01 W32) /\ no_repetition (s_small contact01) /\ (forall v, In v (c_data (s_small contact01)) -> (0 <= v)%num) /\ largest (s_small contact01) (qf 3 4) /\
  option_map (map (fun T => (full (w_mat T) 0 0, full (w_mat T) 0 1, w_width T))) (w_transitions true dense_scipy (Some (qf 1 2)) [mkW contact01 W32]) = Some [(1, 0, W64)]%num /\
  option_map (map (fun T => (full (w_mat T) 0 0, full (w_mat T) 0 1))) (w_transitions true dense_scipy (Some (qf 1 4)) [mkW contact01 W32]) = Some [(qf 3 4, qf 1 4)] /\
  option_map (map (fun T => (value T 0 0, value T 0 1))) (c_transitions 3 dense_scipy (Some (qf 1 4)) [mkW contact01 W32]) = Some [(1, 0)]%num.
Proof.
  split; [apply three_steps_ok; now left|]. split; [intros i; destruct i as [|[|i]]; cbn; repeat constructor; cbn; try tauto; try (intros [H|[]]; discriminate H); destruct i; repeat constructor|].
  split; [intros v [<-|[<-|[<-|[<-|[]]]]]; discriminate|]. split; [split; [intros v [<-|[<-|[<-|[<-|[]]]]]; vm_compute; discriminate|exists (qf 3 4); split; [now left|vm_compute; now apply Qc_is_canon]]|].
  split; [vm_compute; reflexivity|]. split; vm_compute; reflexivity.
Qed.
Print Assumptions C200_trimmed_partial.
Print Assumptions C200_trimmed_csr_partial.
Print Assumptions C200_compiled.
Print Assumptions C200_three_steps_refuted.
Print Assumptions C200_fallback_partial.
Print Assumptions C200_short_partial.
Print Assumptions C200_force_csr_partial.
