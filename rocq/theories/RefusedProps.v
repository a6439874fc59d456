(** Property C137, continued: which arguments the methods refuse. *)
From Coq Require Import String List.
From Verif Require Import Base SliceModel.
Local Open Scope string_scope.
Local Open Scope list_scope.

(** the calls of run_laplacians_transmats.py, l.355, l.365 and l.379-520: the arguments of the method
    and those that are passed *)
Definition calls : list (list string * list string) :=
  [(laplacian_args, ["t_start"; "t_stop"; "verbose"]);
   (stationary_args, ["verbose"; "use_sparse_stoch"]);
   (inter_args, ["lamda"; "verbose"; "use_sparse_stoch"; "dense_expm"]);
   (lin_inter_args, ["lamda"; "verbose"; "t_s"; "use_sparse_stoch"]);
   (trans_args, ["lamda"; "force_csr"; "tol"; "verbose"; "save_intermediate"; "reverse_time"]);
   (lin_trans_args, ["lamda"; "t_s"; "verbose"; "save_intermediate"; "reverse_time"])].
(** verbose is the only argument of the calls that a method does not take: all calls are refused, and
    without it all would be accepted *)
Theorem C137_refused_partial : forall params keywords, In (params, keywords) calls ->
  accepts params keywords = false /\ accepts params (filter (fun k => negb (String.eqb k "verbose")) keywords) = true /\
  forall k, In k keywords -> (~ In k params <-> k = "verbose").
Proof.
  assert (H : forallb (fun c => negb (accepts (fst c) (snd c)) && accepts (fst c) (filter (fun k => negb (String.eqb k "verbose")) (snd c)) &&
    forallb (fun k => Bool.eqb (existsb (String.eqb k) (fst c)) (negb (String.eqb k "verbose"))) (snd c))%bool calls = true) by reflexivity.
  intros params keywords Hc. rewrite forallb_forall in H. specialize (H _ Hc). cbn [fst snd] in H. rewrite !Bool.andb_true_iff, Bool.negb_true_iff in H. destruct H as [[H1 H2] H3].
  split; [exact H1|]. split; [exact H2|]. intros k Hk. rewrite forallb_forall in H3. specialize (H3 k Hk). apply Bool.eqb_prop in H3.
  assert (HX : In k params <-> existsb (String.eqb k) params = true).
  { rewrite existsb_exists. split; [intros HI; exists k; split; [exact HI|apply String.eqb_refl]|intros (x & Hx & E); apply String.eqb_eq in E; now subst x]. }
  rewrite HX, H3. destruct (String.eqb_spec k "verbose") as [Heq|Hne]; cbn [negb]; [split; [intros _; exact Heq|intros _ HF; discriminate HF]|split; [intros HN; now elim HN|intros E; contradiction]].
Qed.
Print Assumptions C137_refused_partial.
(** the arguments of the calls in the model of the worker are these *)
Theorem C137_calls_partial : forall o d tau ok fs, In (ok, fs) (tau_steps o d tau) -> exists params keywords, In (params, keywords) calls /\ ok = accepts params keywords.
Proof.
  intros o d tau ok fs H. unfold tau_steps in H. rewrite !in_app_iff in H. destruct H as [H|[H|H]].
  - destruct (o_expm o); [|destruct H]. destruct H as [H|[]]. injection H as <- _. exists inter_args, ["lamda"; "verbose"; "use_sparse_stoch"; "dense_expm"]. split; [cbn; tauto|reflexivity].
  - destruct (o_lin o); [|destruct H]. destruct H as [H|[]]. injection H as <- _. exists lin_inter_args, ["lamda"; "verbose"; "t_s"; "use_sparse_stoch"]. split; [cbn; tauto|reflexivity].
  - destruct (o_trans o); [|destruct H]. apply in_flat_map in H. destruct H as (r & _ & H). apply in_app_iff in H. destruct H as [H|H].
    + destruct (_ && _)%bool; [|destruct H]. destruct H as [H|[]]. injection H as <- _. exists trans_args, ["lamda"; "force_csr"; "tol"; "verbose"; "save_intermediate"; "reverse_time"]. split; [cbn; tauto|reflexivity].
    + destruct (_ && _)%bool; [|destruct H]. destruct H as [H|[]]. injection H as <- _. exists lin_trans_args, ["lamda"; "t_s"; "verbose"; "save_intermediate"; "reverse_time"]. split; [cbn; tauto|reflexivity].
Qed.
Print Assumptions C137_calls_partial.
