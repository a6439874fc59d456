(** Algebra of n x n matrices and stochastic matrices. *)
From Verif Require Import Base LouvainModel SparseModel SparseSpec EventsModel EventsSpec TransModel TransSpec.

Lemma eqm_refl n A : eqm n A A.
Proof. intros i j _ _. reflexivity. Qed.
Lemma eqm_sym n A B : eqm n A B -> eqm n B A.
Proof. intros H i j Hi Hj. symmetry. now apply H. Qed.
Lemma eqm_trans n A B C : eqm n A B -> eqm n B C -> eqm n A C.
Proof. intros H K i j Hi Hj. rewrite H by assumption. now apply K. Qed.
Lemma mmul_ext n A A' B B' : eqm n A A' -> eqm n B B' -> eqm n (mmul n A B) (mmul n A' B').
Proof. intros H K i j Hi Hj. unfold mmul. apply sumN_ext. intros k Hk. now rewrite (H i k), (K k j). Qed.
Lemma sumN_scal_l n c f : sumN n (fun k => (c * f k)%num) = (c * sumN n f)%num.
Proof. apply sumL_scal_l. Qed.
Lemma sumN_scal_r n c f : sumN n (fun k => (f k * c)%num) = (sumN n f * c)%num.
Proof. apply sumL_scal_r. Qed.
Lemma sumN_add n f g : sumN n (fun k => (f k + g k)%num) = (sumN n f + sumN n g)%num.
Proof. apply sumL_add. Qed.
Lemma sumN_sub n f g : sumN n (fun k => (f k - g k)%num) = (sumN n f - sumN n g)%num.
Proof. apply sumL_sub. Qed.
Lemma sumN_swap n m f : sumN n (fun i => sumN m (fun j => f i j)) = sumN m (fun j => sumN n (fun i => f i j)).
Proof. apply sumL_swap. Qed.
Lemma mmul_assoc n A B C : eqm n (mmul n (mmul n A B) C) (mmul n A (mmul n B C)).
Proof.
  intros i j Hi Hj. unfold mmul.
  transitivity (sumN n (fun k => sumN n (fun l => (A i l * B l k * C k j)%num))).
  - apply sumN_ext. intros k _. now rewrite <- sumN_scal_r.
  - rewrite sumN_swap. apply sumN_ext. intros l _. rewrite <- sumN_scal_l. apply sumN_ext. intros k _. ring.
Qed.
Lemma mmul_ident_r n A : eqm n (mmul n A ident) A.
Proof.
  intros i j Hi Hj. unfold mmul, ident. rewrite (sumN_ext n _ (fun k => if k =? j then A i k else 0%num)).
  - now rewrite sumN_delta.
  - intros k _. destruct (k =? j); ring.
Qed.
Lemma mmul_ident_l n A : eqm n (mmul n ident A) A.
Proof.
  intros i j Hi Hj. unfold mmul, ident. rewrite (sumN_ext n _ (fun k => if k =? i then A k j else 0%num)).
  - now rewrite sumN_delta.
  - intros k _. rewrite (Nat.eqb_sym i k). destruct (k =? i); ring.
Qed.

(** ** Stochastic matrices *)
Lemma stochastic_ext n A B : eqm n A B -> stochastic n A -> stochastic n B.
Proof.
  intros H [Hn Hs]. split.
  - intros i j Hi Hj. rewrite <- (H i j) by assumption. now apply Hn.
  - intros i Hi. rewrite <- (Hs i Hi). apply sumN_ext. intros j Hj. symmetry. now apply H.
Qed.
Lemma ident_sum n i : i < n -> sumN n (ident i) = 1%num.
Proof.
  intros Hi. unfold ident. rewrite (sumN_ext n _ (fun k => if k =? i then 1%num else 0%num)) by (intros k _; now rewrite Nat.eqb_sym). now rewrite (sumN_delta n i (fun _ => 1%num)).
Qed.
Lemma stochastic_ident n : stochastic n ident.
Proof.
  split; [|intros; now apply ident_sum]. intros i j _ _. unfold ident. destruct (i =? j); qlra.
Qed.
Lemma stochastic_mmul n A B : stochastic n A -> stochastic n B -> stochastic n (mmul n A B).
Proof.
  intros [An As] [Bn Bs]. split.
  - intros i j Hi Hj. apply sumN_nonneg. intros k Hk. apply qmult_nonneg; auto.
  - intros i Hi. unfold mmul. rewrite sumN_swap. rewrite <- (As i Hi). apply sumN_ext. intros k Hk. rewrite sumN_scal_l, (Bs k Hk). ring.
Qed.
Lemma stochastic_chain n l : (forall A, In A l -> stochastic n A) -> stochastic n (chain n l).
Proof.
  induction l as [|A l IH]; intros H; [apply stochastic_ident|]. cbn. apply stochastic_mmul; [apply H; now left|]. apply IH. intros B HB. apply H. now right.
Qed.
Lemma chain_snoc n l A : eqm n (chain n (l ++ [A])) (mmul n (chain n l) A).
Proof.
  induction l as [|B l IH]; cbn.
  - eapply eqm_trans; [apply mmul_ident_r|]. apply eqm_sym, mmul_ident_l.
  - eapply eqm_trans; [apply mmul_ext; [apply eqm_refl|exact IH]|]. apply eqm_sym, mmul_assoc.
Qed.
Lemma stochastic_le1 n A i j : stochastic n A -> i < n -> j < n -> (A i j <= 1)%num.
Proof.
  intros [Hn Hs] Hi Hj. rewrite <- (Hs i Hi). unfold sumN. apply (sumL_nonneg_term (A i)); [|apply in_seq; lia].
  intros b Hb. apply in_seq in Hb. apply Hn; lia.
Qed.
Lemma rownorm_stochastic n A : stochastic n A -> eqm n (rownorm n A) A.
Proof.
  intros [_ Hs] i j Hi Hj. unfold rownorm. rewrite (Hs i Hi). destruct (qeqb_spec 1%num 0%num) as [H|_]; [discriminate H|]. field. discriminate.
Qed.
Lemma rownorm_ext n A B : eqm n A B -> eqm n (rownorm n A) (rownorm n B).
Proof.
  intros H i j Hi Hj. unfold rownorm. rewrite (sumN_ext n (A i) (B i)) by (intros; now apply H). now rewrite (H i j).
Qed.
(** non-negative rows with a positive entry become distributions *)
Lemma rownorm_makes_stochastic n A : (forall i j, i < n -> j < n -> (0 <= A i j)%num) ->
  (forall i, i < n -> exists j, j < n /\ (0 < A i j)%num) -> stochastic n (rownorm n A).
Proof.
  intros Hn Hp.
  assert (HS : forall i, i < n -> (0 < sumN n (A i))%num).
  { intros i Hi. destruct (Hp i Hi) as (j & Hj & HA). assert (H : (A i j <= sumN n (A i))%num).
    { unfold sumN. apply (sumL_nonneg_term (A i)); [|apply in_seq; lia]. intros b Hb. apply in_seq in Hb. apply Hn; lia. }
    revert HA H. generalize (A i j) (sumN n (A i)). qlra. }
  split.
  - intros i j Hi Hj. unfold rownorm. specialize (HS i Hi). destruct (qeqb_spec (sumN n (A i)) 0%num); [now apply Hn|]. apply qdiv_nonneg; [now apply Hn|exact HS].
  - intros i Hi. specialize (HS i Hi). unfold rownorm. destruct (qeqb_spec (sumN n (A i)) 0%num) as [H0|H0]; [rewrite H0 in HS; exfalso; revert HS; apply Qcle_not_lt, Qcle_refl|].
    unfold Qcdiv. rewrite sumN_scal_r. now apply Qcmult_inv_r.
Qed.
(** a row of a distribution over n has an entry of at least 1/n *)
Lemma big_entry n f b : (forall j, j < n -> (f j <= b)%num) -> (sumN n f <= qn n * b)%num.
Proof.
  intros H. apply Qcle_trans with (sumL (fun _ => b) (seq 0 n)).
  - apply sumL_le. intros j Hj. apply in_seq in Hj. apply H. lia.
  - rewrite sumL_const, seq_length. apply Qcle_refl.
Qed.
Lemma exists_big n f b : (qn n * b < sumN n f)%num -> exists j, j < n /\ (b < f j)%num.
Proof.
  intros H. destruct (existsb (fun j => qltb b (f j)) (seq 0 n)) eqn:E.
  - apply existsb_exists in E. destruct E as (j & Hj & Hb). apply in_seq in Hj. exists j. split; [lia|]. now destruct (qltb_spec b (f j)).
  - exfalso. apply (Qclt_not_le _ _ H). apply big_entry. intros j Hj.
    destruct (qltb_spec b (f j)) as [Hb|Hb]; [|now apply Qcnot_lt_le].
    exfalso. assert (existsb (fun j => qltb b (f j)) (seq 0 n) = true); [|congruence].
    apply existsb_exists. exists j. split; [apply in_seq; lia|]. now destruct (qltb_spec b (f j)).
Qed.
(** removing entries of at most tol < 1/n leaves every row an entry *)
Lemma zeroing_stochastic n Z tol A : zeroing n Z -> (0 <= tol)%num -> (tol * qn n < 1)%num -> stochastic n A -> stochastic n (rownorm n (Z tol A)).
Proof.
  intros HZ H0 H1 HA. destruct HA as [Hn Hs] eqn:EA. clear EA. apply rownorm_makes_stochastic.
  - intros i j Hi Hj. destruct (HZ tol A H0 i j Hi Hj) as [-> | [-> _]]; [now apply Hn|]. apply Qcle_refl.
  - intros i Hi. destruct (exists_big n (A i) tol) as (j & Hj & Hb).
    { rewrite (Hs i Hi). revert H1. generalize (qn n). qlra. }
    exists j. split; [exact Hj|]. destruct (HZ tol A H0 i j Hi Hj) as [-> | [_ (a & b & Ha & Hb' & Hle)]].
    + revert H0 Hb. generalize (A i j). qlra.
    + exfalso. assert (Hab : (0 <= A a b)%num) by (now apply Hn). assert (Hab1 := stochastic_le1 n A a b (conj Hn Hs) Ha Hb').
      assert (HQ : qabs (A a b) = A a b). { unfold qabs. destruct (qltb_spec (A a b) 0%num) as [Hx|_]; [|reflexivity]. exfalso. revert Hx Hab. generalize (A a b). qlra. }
      rewrite HQ in Hle. revert Hb Hle Hab Hab1 H0. generalize (A i j) (A a b). qnra.
Qed.
(** the concrete [zeroed] satisfies the assumption *)
Lemma qmax_ge_l a b : (a <= qmax a b)%num.
Proof. unfold qmax. destruct (qleb_spec a b) as [H|H]; [exact H|apply Qcle_refl]. Qed.
Lemma qabs_nonneg x : (0 <= qabs x)%num.
Proof. unfold qabs. destruct (qltb_spec x 0%num); qlra. Qed.
Lemma absmax_attained n A : (absmax n A = 0%num /\ n = 0) \/ exists a b, a < n /\ b < n /\ absmax n A = qabs (A a b).
Proof.
  assert (HG : forall l m, let r := fold_left (fun m ij => qmax m (qabs (A (fst ij) (snd ij)))) l m in r = m \/ exists ij, In ij l /\ r = qabs (A (fst ij) (snd ij))).
  { induction l as [|ij l IH]; intros m; cbn; [now left|]. destruct (IH (qmax m (qabs (A (fst ij) (snd ij))))) as [H|(kl & Hk & H)].
    - rewrite H. unfold qmax. destruct (qleb _ _); [right; exists ij; auto|now left].
    - right. exists kl. auto. }
  destruct n as [|m].
  - left. split; reflexivity.
  - right. unfold absmax, pairs_of. specialize (HG (list_prod (seq 0 (S m)) (seq 0 (S m))) 0%num). cbv zeta in HG. destruct HG as [H|((a & b) & Hab & H)].
    + exists 0, 0. split; [lia|]. split; [lia|]. rewrite H.
      assert (HGe : forall l m0, (m0 <= fold_left (fun m ij => qmax m (qabs (A (fst ij) (snd ij)))) l m0)%num).
      { induction l as [|ij l IH]; intros m0; cbn; [apply Qcle_refl|]. eapply Qcle_trans; [apply qmax_ge_l|apply IH]. }
      cbn [seq list_prod map app fold_left] in H. assert (H1 := HGe (map (fun y => (0, y)) (seq 1 m) ++ list_prod (seq 1 m) (0 :: seq 1 m)) (qmax 0%num (qabs (A 0 0)))).
      cbn [fst snd] in H. rewrite H in H1. unfold qmax in H1. destruct (qleb_spec 0%num (qabs (A 0 0))) as [H2|H2].
      * apply Qcle_antisym; assumption.
      * exfalso. apply H2, qabs_nonneg.
    + apply in_prod_iff in Hab. destruct Hab as [Ha Hb]. apply in_seq in Ha, Hb. exists a, b. split; [lia|]. split; [lia|]. exact H.
Qed.
Lemma zeroed_zeroing n : zeroing n (zeroed n).
Proof.
  intros tol A Ht i j Hi Hj. unfold zeroed. destruct (qleb_spec (A i j) (tol * absmax n A)%num) as [H|H]; [|now left]. right. split; [reflexivity|].
  destruct (absmax_attained n A) as [[_ ->]|(a & b & Ha & Hb & E)]; [lia|]. exists a, b. rewrite <- E. auto.
Qed.
