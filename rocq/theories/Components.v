(** A program that labels the connected components of every matrix, so that what is assumed of
    [connected_components] can be met. *)
From Verif Require Import Base LouvainModel SparseModel TransModel TransSpec SmallModel SmallSpec.

Definition join (lab : nat -> nat) (e : nat * nat) : nat -> nat := fun k => if lab k =? lab (snd e) then lab (fst e) else lab k.
Definition edges (m : nat) (A : mat) : list (nat * nat) := filter (fun e => negb (qeqb (A (fst e) (snd e)) 0%num)) (list_prod (seq 0 m) (seq 0 m)).
Definition joined (m : nat) (A : mat) : nat * (nat -> nat) := (m, fold_left join (edges m A) (fun k => k)).

Lemma linked_in n (R : nat -> nat -> Prop) i j : linked n R i j -> i < n /\ j < n.
Proof. intros H. induction H as [i Hi|i j k H IH Hk HR]; [auto|]. tauto. Qed.
Lemma linked_trans n (R : nat -> nat -> Prop) i j k : linked n R i j -> linked n R j k -> linked n R i k.
Proof. intros H1 H2. induction H2 as [j _|j k l H2 IH Hl HR]; [exact H1|]. apply (linked_step n R i k l); auto. Qed.
Lemma linked_sym n (R : nat -> nat -> Prop) i j : linked n R i j -> linked n R j i.
Proof.
  intros H. induction H as [i Hi|i j k H IH Hk HR]; [now apply linked_refl|]. destruct (linked_in _ _ _ _ H) as [Hi Hj].
  apply (linked_trans n R k j i); [|exact IH]. apply (linked_step n R k k j); [now apply linked_refl|exact Hj|tauto].
Qed.
Section Labels.
Context (m : nat) (A : mat).
Let R (i j : nat) : Prop := A i j <> 0%num.
Definition sound (lab : nat -> nat) : Prop := (forall i, i < m -> lab i < m) /\ forall i j, i < m -> j < m -> lab i = lab j -> linked m R i j.
Lemma join_sound lab e : sound lab -> fst e < m -> snd e < m -> R (fst e) (snd e) -> sound (join lab e).
Proof.
  intros [H1 H2] Ha Hb HR. split; [intros i Hi; unfold join; destruct (_ =? _); auto|].
  assert (HL : linked m R (fst e) (snd e)) by (apply (linked_step _ _ (fst e) (fst e)); [now apply linked_refl|exact Hb|now left]).
  intros i j Hi Hj. unfold join. destruct (Nat.eqb_spec (lab i) (lab (snd e))) as [Ei|Ei], (Nat.eqb_spec (lab j) (lab (snd e))) as [Ej|Ej]; intros E.
  - apply H2; congruence.
  - apply (linked_trans _ _ i (snd e) j); [now apply H2|]. apply (linked_trans _ _ _ (fst e) j); [now apply linked_sym|now apply H2].
  - apply (linked_trans _ _ i (fst e) j); [now apply H2|]. apply (linked_trans _ _ _ (snd e) j); [exact HL|]. apply H2; congruence.
  - now apply H2.
Qed.
Lemma joins_sound l lab : sound lab -> (forall e, In e l -> fst e < m /\ snd e < m /\ R (fst e) (snd e)) -> sound (fold_left join l lab).
Proof. revert lab. induction l as [|e l IH]; intros lab HS Hl; [exact HS|]. cbn [fold_left]. apply IH; [|intros; apply Hl; now right]. destruct (Hl e (or_introl eq_refl)) as (H1 & H2 & H3). now apply join_sound. Qed.
Lemma joins_keep l lab i j : lab i = lab j -> fold_left join l lab i = fold_left join l lab j.
Proof. revert lab. induction l as [|e l IH]; intros lab E; [exact E|]. cbn [fold_left]. apply IH. unfold join. now rewrite E. Qed.
Lemma joins_edge l lab e : In e l -> fold_left join l lab (fst e) = fold_left join l lab (snd e).
Proof.
  revert lab. induction l as [|f l IH]; intros lab Hin; [destruct Hin|]. cbn [fold_left]. destruct Hin as [->|Hin]; [|now apply IH].
  apply joins_keep. unfold join. rewrite Nat.eqb_refl. now destruct (_ =? _).
Qed.
Lemma edges_In e : In e (edges m A) <-> fst e < m /\ snd e < m /\ R (fst e) (snd e).
Proof.
  unfold edges. rewrite filter_In. destruct e as [a b]. cbn [fst snd]. rewrite in_prod_iff, !in_seq. unfold R. destruct (qeqb_spec (A a b) 0%num) as [E|E]; cbn [negb].
  - split; [intros [_ H]; discriminate|intros (_ & _ & H); contradiction].
  - split; [intros [H _]; split; [lia|]; split; [lia|exact E]|intros (H1 & H2 & _); split; [lia|reflexivity]].
Qed.
End Labels.
Theorem joined_ok : components_ok joined.
Proof.
  intros m A. cbn [joined fst snd]. assert (HS : sound m A (fold_left join (edges m A) (fun k => k))).
  { apply joins_sound; [split; [auto|intros i j Hi _ <-; now apply linked_refl]|]. intros e He. now apply edges_In. }
  split; [apply HS|]. intros i j Hi Hj. split; [now apply HS|]. intros HL. induction HL as [i _|i j k HL IH Hk HR]; [reflexivity|].
  destruct (linked_in _ _ _ _ HL) as [_ Hj']. rewrite (IH Hi Hj'). destruct HR as [HR|HR].
  - apply (joins_edge (edges m A) _ (j, k)). now apply edges_In.
  - symmetry. apply (joins_edge (edges m A) _ (k, j)). now apply edges_In.
Qed.
