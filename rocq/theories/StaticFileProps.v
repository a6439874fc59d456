(** Property C207: the results saved with --compute_static_clustering. *)
From Verif Require Import Base PartitionModel PartitionSpec LouvainModel LouvainSpec MatProofs SparseLouvainProps EventsModel TransModel
  StaticModel StaticSpec StaticProps MultiModel ClustModel ClustSpec StaticRunModel StaticRunProps StaticFileModel.
Local Open Scope bool_scope.

(** ** Specification *)
Section Spec.
Context (flow static : list nat -> option summary).
(** The files after any number of runs of the script, with any options and seeds, stopped anywhere
    between two writes or not; the aggregated network may be saved at any time. *)
Inductive past : disk -> Prop :=
| past_start adj : past (mkDisk adj None None)
| past_network d : past d -> past (mkDisk true (k_saved d) (k_temp d))
| past_run d c q : past d -> past (fold_left written (firstn q (static_worker flow static c d)) d).
Definition after (c : call) (d : disk) : disk := fold_left written (static_worker flow static c d) d.
(** both kinds of clusterings can be computed *)
Definition computable (c : call) : Prop := flow (seeds_flow c) <> None /\ static (seeds_static c) <> None.
End Spec.

(** * C207: a run that asks for static clusterings, with the aggregated network there, leaves
    results that contain them *)
Definition C207_statement : Prop := forall flow static d c,
  past flow static d -> k_adjacency d = true -> o_static c = true -> computable flow static c ->
  exists f, k_saved (after flow static c d) = Some f /\ sv_static f <> None.

(** The network was not there yet when the script was run with the same options: the results were
    saved without the static part, and are now taken as complete. *)
Definition nothing : summary := mkSummary [] [] [] [] 0%num 0%num 0%num.
Theorem C207_late_network_refuted : ~ C207_statement.
Proof.
  intros H. set (c := mkCall true true false [] []). set (ok := fun _ : list nat => Some nothing).
  destruct (H ok ok (mkDisk true (Some (mkFile (Some nothing) None)) None) c) as (f & E & N).
  - assert (P := past_network ok ok _ (past_run ok ok _ c 1 (past_start ok ok false))). exact P.
  - reflexivity.
  - reflexivity.
  - split; discriminate.
  - injection E as <-. apply N. reflexivity.
Qed.
Print Assumptions C207_late_network_refuted.
(** The same when results without static clusterings had been asked for, and also, however often
    the script is started, after an interruption behind the temporary file. *)
Theorem C207_never_added : forall flow static d f cs, k_saved d = Some f -> fold_left (fun d c => after flow static c d) cs d = d.
Proof.
  intros flow static d f cs E. revert d E. induction cs as [|c cs IH]; intros d E; [reflexivity|]. cbn [fold_left].
  assert (Ea : after flow static c d = d) by (unfold after, static_worker; rewrite E; reflexivity). rewrite Ea. now apply (IH d).
Qed.
Print Assumptions C207_never_added.
Theorem C207_temporary_stays : forall flow static d x cs, k_saved d = None -> k_temp d = Some x -> k_adjacency d = true ->
  (forall c, In c cs -> o_static c = true) -> fold_left (fun d c => after flow static c d) cs d = d.
Proof.
  intros flow static d x cs E Et Ea. revert d E Et Ea. induction cs as [|c cs IH]; intros d E Et Ea Hc; [reflexivity|]. cbn [fold_left].
  assert (En : after flow static c d = d).
  { unfold after, static_worker. rewrite E, Ea, (Hc c (or_introl eq_refl)), Et. cbn [andb]. rewrite Bool.orb_true_r. reflexivity. }
  rewrite En. apply (IH d); try assumption. intros c' H'. apply Hc. now right.
Qed.
Print Assumptions C207_temporary_stays.

(** What holds: when no results and no temporary file are there, the run saves all that was asked. *)
Theorem C207_fresh_partial : forall flow static d c, k_saved d = None -> k_temp d = None -> k_adjacency d = true -> o_static c = true -> computable flow static c ->
  exists f, k_saved (after flow static c d) = Some f /\ sv_static f = static (seeds_static c) /\
    sv_static f <> None /\ sv_flow f = (if o_flow c then flow (seeds_flow c) else None) /\
    k_temp (after flow static c d) = (if o_flow c && o_before c then flow (seeds_flow c) else None).
Proof.
  intros flow static d c E Et Ea Hs [Hf Hst]. unfold after, static_worker. rewrite E, Et, Ea, Hs. cbn [andb]. rewrite Bool.orb_true_r.
  unfold part. destruct (static (seeds_static c)) as [s|] eqn:Es; [|congruence]. destruct (o_flow c).
  - destruct (flow (seeds_flow c)) as [x|]; [|congruence]. exists (mkFile (Some x) (Some s)). destruct (o_before c); cbn; repeat split; congruence.
  - exists (mkFile None (Some s)). cbn. repeat split; congruence.
Qed.
Print Assumptions C207_fresh_partial.
(** Nothing wrong is ever saved: each part is the summary of runs with the seeds of one call, and
    the flow part does not depend on the static one having been asked for. *)
Theorem C207_saved_is_computed : forall flow static d f, past flow static d -> k_saved d = Some f ->
  (forall s, sv_static f = Some s -> exists seeds, static seeds = Some s) /\ (forall s, sv_flow f = Some s -> exists seeds, flow seeds = Some s).
Proof.
  intros flow static d f HP. revert f. induction HP as [adj|d HP IH|d c q HP IH]; intros f E.
  - discriminate E.
  - exact (IH f E).
  - destruct (k_saved d) as [g|] eqn:Es.
    + assert (N : static_worker flow static c d = []) by (unfold static_worker; now rewrite Es). rewrite N, firstn_nil in E. cbn [fold_left] in E. rewrite Es in E. injection E as <-. now apply IH.
    + assert (K : forall l d0, k_saved (fold_left written l d0) = Some f -> k_saved d0 = Some f \/ In (WriteResults f) l).
      { induction l as [|w l IHl]; intros d0 E1; [now left|]. cbn [fold_left] in E1. destruct (IHl _ E1) as [H|H]; [|right; now right].
        destruct w as [s|g]; cbn [written k_saved] in H; [now left|]. injection H as <-. right. now left. }
      destruct (K _ _ E) as [H|H]; [congruence|].
      assert (Hin : In (WriteResults f) (static_worker flow static c d)) by (rewrite <- (firstn_skipn q); apply in_or_app; now left).
      clear K H E. unfold static_worker in Hin. rewrite Es in Hin. destruct (o_flow c || (o_static c && k_adjacency d)).
      * destruct (k_temp d); [contradiction|]. unfold part in Hin.
        destruct (o_flow c); [destruct (flow (seeds_flow c)) as [x|] eqn:Ef; [|contradiction]|];
        (destruct (o_static c && k_adjacency d); [destruct (static (seeds_static c)) as [y|] eqn:Ey; [|contradiction]|]);
        apply in_app_or in Hin; (destruct Hin as [Hin|Hin]; [try (destruct (o_before c)); cbn in Hin; repeat (destruct Hin as [Hin|Hin]; try discriminate); contradiction|]);
        cbn in Hin; (destruct Hin as [Hin|[]]); injection Hin as <-; cbn [sv_static sv_flow]; split; intros s E; try discriminate E; injection E as <-; eauto.
      * cbn in Hin. destruct Hin as [Hin|[]]. injection Hin as <-. split; intros s E; discriminate E.
Qed.
Print Assumptions C207_saved_is_computed.
Theorem C207_flow_unchanged : forall flow static d c, k_saved d = None -> k_temp d = None -> o_flow c = true -> computable flow static c ->
  option_map sv_flow (k_saved (after flow static c d)) =
  option_map sv_flow (k_saved (after flow static (mkCall false true (o_before c) (seeds_flow c) (seeds_static c)) d)).
Proof.
  intros flow static d c E Et Hf [H1 H2]. unfold after, static_worker. rewrite E, Et, Hf. cbn [o_flow o_static o_before seeds_flow seeds_static andb orb]. unfold part.
  destruct (flow (seeds_flow c)) as [x|]; [|congruence]. destruct (static (seeds_static c)) as [y|]; [|congruence].
  destruct (o_static c && k_adjacency d), (o_before c); reflexivity.
Qed.
Print Assumptions C207_flow_unchanged.
(** the two triangles of C206: the runs can be computed, and a fresh run saves them *)
Example C207_applies :
  let static := static_summary 6 unused_eig (resolvent_csr 6) keep_order (fun _ => SparseLouvainProps.in_order) 100 100 triangles in
  let flow := fun _ : list nat => Some nothing in
  let c := mkCall true true true [3] [4; 5] in let d := mkDisk true None None in
  computable flow static c /\ past flow static d /\
  match k_saved (after flow static c d) with
  | Some f => option_map r_best (sv_static f) = Some [[0; 1; 2]; [3; 4; 5]] /\ sv_flow f = Some nothing
  | None => False
  end.
Proof.
  cbv zeta. split; [split; [discriminate|vm_compute; discriminate]|]. split; [apply past_start|]. vm_compute. split; reflexivity.
Qed.
