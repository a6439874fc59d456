(** Property C218: the matrices between instantaneous events and the unit of time. *)
From Verif Require Import Base PartitionModel LouvainModel EventsModel EventsSpec EventsProofs LaplacianProofs MergeProofs InstProofs EventsProps
  TransModel TransSpec MatProofs TransProofs TransProps OrderInstProps InstUnitProps InstTransModel.
From Verif Require SliceSpec.

(** * What is asked for *)
(** new networks, whose matrices are computed with the rates [lamda] and [lamda'], get the same ones *)
Definition same_inter (N N' : net) (E : num -> mat -> mat) (lamda lamda' : option num) : Prop := forall g g' sparse, is_time_grid (rows N) g -> is_time_grid (rows N') g' ->
  exists st st' x x' l l', inst_inter N g E lamda None None sparse tn0 = Some st /\ inst_inter N' g' E lamda' None None sparse tn0 = Some st' /\
    t_inter st = [(x, (sparse, l))] /\ t_inter st' = [(x', (sparse, l'))] /\ length l' = length l /\
    forall k, k < length l -> eqm (num_nodes_of N) (nth k l' ident) (nth k l ident).
(** with the same options, in every unit of time *)
Definition C218_statement : Prop := forall c d reset srcs tgts starts N N' E lamda, (0 < c)%num -> starts <> [] -> length srcs = length starts -> length tgts = length starts ->
  make_inst_net reset srcs tgts starts = Some N -> make_inst_net reset srcs tgts (map (other_unit c d) starts) = Some N' -> ids_ok N = true -> no_self_contact (rows N) ->
  expm_ok (num_nodes_of N) E -> SliceSpec.by_entries (num_nodes_of N) E -> same_inter N N' E lamda lamda.

(** * C218 *)
(** with a given rate only the order of the times matters *)
Theorem C218_given_partial : forall f reset srcs tgts starts N N' E x, in_order_of f -> starts <> [] -> length srcs = length starts -> length tgts = length starts ->
  make_inst_net reset srcs tgts starts = Some N -> make_inst_net reset srcs tgts (map f starts) = Some N' -> ids_ok N = true -> no_self_contact (rows N) ->
  expm_ok (num_nodes_of N) E -> SliceSpec.by_entries (num_nodes_of N) E -> same_inter N N' E (Some x) (Some x).
Proof.
  intros f reset srcs tgts starts N N' E x Hf Hne H1 H2 HN HN' Hids Hself HE HB g g' sparse HG HG'.
  destruct (C216_order_partial f reset srcs tgts starts N Hf Hne H1 H2 HN Hids Hself) as (N1 & HN1 & Hn & HS & HR & _). rewrite HN' in HN1. injection HN1 as <-.
  assert (Hne' : map f starts <> []) by (destruct starts; [congruence|discriminate]).
  pose proof (inst_times _ _ _ _ _ Hne H1 H2 HN) as HT. pose proof (inst_times reset srcs tgts _ N' Hne' ltac:(now rewrite map_length) ltac:(now rewrite map_length) HN') as HT'. rewrite (uniq_unit f _ Hf) in HT'.
  destruct (inst_rows_are _ _ _ _ _ Hne H1 H2 HN) as (R1 & R2 & _ & _).
  destruct (HS g g' HG HG') as (ka & kb & Ls & Ls' & EL & EL' & HLen & HK).
  destruct (inst_laplacians_spec N g None None R1 Hids Hself R2 HG) as (ka1 & kb1 & Ls1 & EL1 & Sa & Sb & HLs & _).
  rewrite EL in EL1. assert (ka1 = ka /\ kb1 = kb /\ Ls1 = Ls) as (-> & -> & ->) by (repeat split; congruence). cbn [start_index stop_index] in Sa, Sb. subst ka.
  assert (Hnn : num_nodes_of N' = num_nodes_of N) by (unfold num_nodes_of; now rewrite Hn).
  assert (HTL : length (times (rows N')) = length (times (rows N))) by (rewrite HT, HT', !app_length, map_length; reflexivity).
  destruct (inter_matrices_spec (num_nodes_of N) E (times (rows N)) true x 0 kb Ls ltac:(lia) HLs) as (l & El & _).
  destruct (inter_matrices_spec (num_nodes_of N') E (times (rows N')) true x 0 kb Ls' ltac:(lia) ltac:(lia)) as (l' & El' & _).
  assert (HE' : expm_ok (num_nodes_of N') E) by now rewrite Hnn.
  assert (Q := inter_per_step (num_nodes_of N) E (times (rows N)) true x 0 kb Ls l HE ltac:(lia) HLs El). assert (Q' := inter_per_step (num_nodes_of N') E (times (rows N')) true x 0 kb Ls' l' HE' ltac:(lia) ltac:(lia) El').
  unfold inst_inter, compute_inter, ensure_lap, compute_lap. cbn [t_lap tn0]. rewrite EL, EL'. cbn [the_lamda set_lap t_inter aget t_lap tn0]. rewrite El, El'.
  eexists _, _, x, x, l, l'. split; [reflexivity|]. split; [reflexivity|]. split; [reflexivity|]. split; [reflexivity|].
  assert (Hkb : 0 < kb). { rewrite HT, app_length in Sb. cbn [length] in Sb. assert (HU := uniq_nonempty _ Hne). destruct (uniq_times starts); [congruence|cbn [length] in Sb; lia]. }
  destruct Q as [_ Q]. destruct (Q Hkb) as [L1 Q1]. destruct Q' as [_ Q']. destruct (Q' Hkb) as [L2 Q2]. split; [lia|]. intros k Hk. rewrite L1 in Hk. rewrite Hnn in Q2.
  eapply eqm_trans; [apply Q2; lia|]. eapply eqm_trans; [|apply eqm_sym, Q1; lia]. cbn [step_length]. apply HB. intros i j Hi Hj.
  rewrite (nth_indep Ls' ident (fun _ _ => 0%num)) by lia. rewrite (nth_indep Ls ident (fun _ _ => 0%num)) by lia. apply HK; [lia|exact Hi|exact Hj].
Qed.
(** the linear approximation, likewise *)
Lemma lin_approx_entries n T T' Pi Pi' t t_s : eqm n T T' -> eqm n Pi Pi' -> match lin_approx T t Pi t_s, lin_approx T' t Pi' t_s with Some A, Some A' => eqm n A A' | None, None => True | _, _ => False end.
Proof.
  intros H1 H2. unfold lin_approx. destruct (qltb t 0%num); [exact Logic.I|]. destruct (qleb t 1%num); [|destruct (qltb t t_s)]; intros i j Hi Hj; unfold mplus, mscal; rewrite ?(H1 i j Hi Hj), ?(H2 i j Hi Hj); reflexivity.
Qed.
Theorem C218_linear_partial : forall f reset srcs tgts starts N N' P x t_s g g' sparse, in_order_of f -> starts <> [] -> length srcs = length starts -> length tgts = length starts ->
  make_inst_net reset srcs tgts starts = Some N -> make_inst_net reset srcs tgts (map f starts) = Some N' -> ids_ok N = true -> no_self_contact (rows N) ->
  (forall A A', eqm (num_nodes_of N) A A' -> eqm (num_nodes_of N) (P A) (P A')) -> (0 <= x)%num -> is_time_grid (rows N) g -> is_time_grid (rows N') g' ->
  exists st st' l l', inst_lin_inter N g P (Some x) None None t_s sparse tn0 = Some st /\ inst_lin_inter N' g' P (Some x) None None t_s sparse tn0 = Some st' /\
    t_inter_lin st = [((x, t_s), l)] /\ t_inter_lin st' = [((x, t_s), l')] /\ length l' = length l /\ length (times (rows N)) = S (length l) /\
    forall k, k < length l -> eqm (num_nodes_of N) (nth k l' ident) (nth k l ident).
Proof.
  intros f reset srcs tgts starts N N' P x t_s g g' sparse Hf Hne H1 H2 HN HN' Hids Hself HP Hx HG HG'.
  destruct (C216_order_partial f reset srcs tgts starts N Hf Hne H1 H2 HN Hids Hself) as (N1 & HN1 & Hn & HS & HR & _). rewrite HN' in HN1. injection HN1 as <-.
  assert (Hne' : map f starts <> []) by (destruct starts; [congruence|discriminate]).
  pose proof (inst_times _ _ _ _ _ Hne H1 H2 HN) as HT. pose proof (inst_times reset srcs tgts _ N' Hne' ltac:(now rewrite map_length) ltac:(now rewrite map_length) HN') as HT'. rewrite (uniq_unit f _ Hf) in HT'.
  destruct (inst_rows_are _ _ _ _ _ Hne H1 H2 HN) as (R1 & R2 & _ & _).
  destruct (HS g g' HG HG') as (ka & kb & Ls & Ls' & EL & EL' & HLen & HK).
  destruct (inst_laplacians_spec N g None None R1 Hids Hself R2 HG) as (ka1 & kb1 & Ls1 & EL1 & Sa & Sb & HLs & _).
  rewrite EL in EL1. assert (ka1 = ka /\ kb1 = kb /\ Ls1 = Ls) as (-> & -> & ->) by (repeat split; congruence). cbn [start_index stop_index] in Sa, Sb. subst ka.
  assert (HTL : length (times (rows N')) = length (times (rows N))) by (rewrite HT, HT', !app_length, map_length; reflexivity).
  assert (Hkb : 0 < kb). { rewrite HT, app_length in Sb. cbn [length] in Sb. assert (HU := uniq_nonempty _ Hne). destruct (uniq_times starts); [congruence|cbn [length] in Sb; lia]. }
  set (st_of := fun L : mat => P (mminus ident L)).
  set (F := fun Ls : list mat => fun (tk : num) (L : mat) (k : nat) => match nth_error (map st_of Ls) k with Some Pi => lin_approx (mminus ident L) (tk * x)%num Pi t_s | None => None end).
  assert (HF : forall Ls0 (L : mat) k, k < length Ls0 -> F Ls0 1%num L k <> None).
  { intros Ls0 L k Hk. unfold F. rewrite (map_nth_error st_of k Ls0 (nth_error_nth' Ls0 ident Hk)). unfold lin_approx. destruct (qltb_spec (1 * x)%num 0%num) as [H|H]; [exfalso; assert (E : (1 * x = x)%num) by ring; rewrite E in H; qlra|].
    destruct (qleb (1 * x)%num 1%num); [discriminate|]. destruct (qltb (1 * x)%num t_s); discriminate. }
  destruct (per_step_spec (times (rows N)) true 0 kb Ls (F Ls) ltac:(lia) HLs) as (l & El & Ll & Hl); [intros; apply HF; lia|].
  destruct (per_step_spec (times (rows N')) true 0 kb Ls' (F Ls') ltac:(lia) ltac:(lia)) as (l' & El' & Ll' & Hl'); [intros; apply HF; lia|].
  unfold inst_lin_inter, compute_lin_inter, compute_stat, ensure_lap, compute_lap. cbn [t_stat t_lap tn0]. rewrite EL, EL'. cbn [set_lap set_stat t_stat t_lap t_inter_lin the_lamda aget tn0].
  fold st_of. change (fun L : mat => P (mminus ident L)) with st_of.
  match goal with |- context [per_step (times (rows N)) true (0, kb, Ls) ?q] => change q with (F Ls) end. match goal with |- context [per_step (times (rows N')) true (0, kb, Ls') ?q] => change q with (F Ls') end.
  rewrite El, El'. destruct l as [|A l]; [cbn in Ll; lia|]. destruct l' as [|A' l']; [cbn in Ll'; lia|].
  eexists _, _, (A :: l), (A' :: l'). split; [reflexivity|]. split; [reflexivity|]. split; [reflexivity|]. split; [reflexivity|]. split; [lia|]. split; [lia|]. intros k Hk. rewrite Ll in Hk.
  specialize (Hl k ident ltac:(lia)). specialize (Hl' k ident ltac:(lia)). cbn [tau] in Hl, Hl'. unfold F in Hl, Hl'.
  assert (K1 : k < length Ls) by lia. assert (K2 : k < length Ls') by lia. rewrite (map_nth_error st_of k Ls (nth_error_nth' Ls ident K1)) in Hl. rewrite (map_nth_error st_of k Ls' (nth_error_nth' Ls' ident K2)) in Hl'.
  assert (EK : eqm (num_nodes_of N) (nth k Ls' ident) (nth k Ls ident)).
  { intros i j Hi Hj. rewrite (nth_indep Ls' ident (fun _ _ => 0%num)) by lia. rewrite (nth_indep Ls ident (fun _ _ => 0%num)) by lia. apply HK; [lia|exact Hi|exact Hj]. }
  assert (EM : eqm (num_nodes_of N) (mminus ident (nth k Ls' ident)) (mminus ident (nth k Ls ident))) by (intros i j Hi Hj; unfold mminus; now rewrite (EK i j Hi Hj)).
  assert (Q := lin_approx_entries _ _ _ _ _ (1 * x)%num t_s EM (HP _ _ EM)). fold (st_of (nth k Ls' ident)) in Q. fold (st_of (nth k Ls ident)) in Q. rewrite Hl, Hl' in Q. exact Q.
Qed.
(** the default rate is one over the median of the times between events, but every step takes one
    unit: two events, at 0 and 1, in a third of the unit *)
Definition net218 : net := mkNet [(0, mkEv 0 1 (qn 0) (qn 1) 1%num); (1, mkEv 1 2 (qn 1) (qn 1 + 1)%num 1%num)] [0; 1; 2].
Definition net218' : net := match make_inst_net true [0; 1] [1; 2] (map (other_unit (qn 3) 0%num) [qn 0; qn 1]) with Some N => N | None => net218 end.
Lemma Estep_entries n : SliceSpec.by_entries n Estep.
Proof. intros x L L' H i j Hi Hj. unfold Estep, mminus, mscal. now rewrite (H i j Hi Hj). Qed.
Definition first_entry (o : option tn) : num := match o with Some st => match t_inter st with (_, (_, A :: _)) :: _ => A 0 0 | _ => 0%num end | None => 0%num end.
Theorem C218_default_refuted : ~ C218_statement.
Proof.
  intros H. assert (S0 : no_self_contact (rows net218)) by (intros e [<-|[<-|[]]]; cbn; lia).
  destruct (H (qn 3) 0%num true [0; 1] [1; 2] [qn 0; qn 1] net218 net218' Estep None ltac:(reflexivity) ltac:(discriminate) eq_refl eq_refl ltac:(reflexivity) ltac:(reflexivity) ltac:(reflexivity) S0 (Estep_ok _) (Estep_entries _)
    (sorted_grid (rows net218)) (sorted_grid (rows net218')) false (grid_exists _) (grid_exists _)) as (st & st' & x & x' & l & l' & E1 & E2 & T1 & T2 & HL & HK).
  assert (F1 : qeqb (first_entry (Some st)) (qf 1 2) = true) by (rewrite <- E1; vm_compute; reflexivity).
  assert (F2 : qeqb (first_entry (Some st')) (qf 1 2) = false) by (rewrite <- E2; vm_compute; reflexivity).
  cbn [first_entry] in F1, F2. rewrite T1 in F1. rewrite T2 in F2. destruct l as [|A l]; [vm_compute in F1; discriminate F1|]. destruct l' as [|A' l']; [discriminate HL|].
  specialize (HK 0 ltac:(cbn; lia) 0 0 ltac:(cbn; lia) ltac:(cbn; lia)). cbn [nth] in HK. rewrite HK in F2. congruence.
Qed.
Example C218_applies : make_inst_net true [0; 1] [1; 2] [qn 0; qn 1] = Some net218 /\ make_inst_net true [0; 1] [1; 2] (map (other_unit (qn 3) 0%num) [qn 0; qn 1]) = Some net218' /\ ids_ok net218 = true /\ no_self_contact (rows net218) /\
  in_order_of (other_unit (qn 3) 0%num) /\ expm_ok 3 Estep /\ SliceSpec.by_entries 3 Estep /\ first_entry (inst_inter net218' (sorted_grid (rows net218')) Estep (Some 1%num) None None false tn0) = qf 1 2.
Proof.
  split; [reflexivity|]. split; [reflexivity|]. split; [reflexivity|]. split; [intros e [<-|[<-|[]]]; cbn; lia|]. split; [now apply unit_order|]. split; [apply Estep_ok|]. split; [apply Estep_entries|]. vm_compute. now apply Qc_is_canon.
Qed.
Print Assumptions C218_given_partial.
Print Assumptions C218_linear_partial.
Print Assumptions C218_default_refuted.
