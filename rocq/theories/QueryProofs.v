From Verif Require Import Base BaseLemmas NetSpec NetModel NetProofs PqlSyntax PqlSpec PqlModel PqlProofs PushRules PqlRuns
  StoreSpec StoreProofs SearchModel SearchSpec QueueModel SearchMain QueryModel QuerySpec.
From Coq Require Import Classical_Prop.

(** * State formulas and reachability *)
Lemma sat_holds : forall net m c pi, stf c = true -> maximal net pi -> pi 0 = m -> (sat net m c <-> holds net pi c).
Proof.
  intros net m c pi Hs M P. split; [intros H; apply H; auto|].
  intros H rho Mr Pr. apply (stf_state net c Hs pi rho); congruence.
Qed.
Lemma path_reach : forall net pi i, maximal net pi -> reachable net (pi 0) (pi i).
Proof.
  intros net pi i M. induction i as [|i (w & H)]; [exists []; constructor|].
  destruct (M i) as [(t & H2)|(_ & ->)]; [|exists w; exact H].
  exists (w ++ [t]). eapply run_snoc; eauto.
Qed.
Lemma reach_path : forall net m m', wf_pnet net -> reachable net m m' ->
  exists pi i, maximal net pi /\ pi 0 = m /\ pi i = m'.
Proof.
  intros net m m' Hw (w & R). induction R as [m|m t m1 w m2 Hs R IH].
  - destruct (runs_exist net m Hw) as (pi & M & P). exists pi, 0. auto.
  - destruct IH as (pi & i & M & P & E).
    exists (fun n => match n with O => m | S k => pi k end), (S i). split; [|auto].
    intros [|k].
    + left. exists t. rewrite P. exact Hs.
    + apply M.
Qed.
Lemma sat_EF : forall net m c, wf_pnet net -> stf c = true ->
  (sat net m (CEF c) <-> exists m', reachable net m m' /\ sat net m' c).
Proof.
  intros net m c Hw Hs. split.
  - intros H. destruct (runs_exist net m Hw) as (pi & M & P). destruct (H pi M P) as (rho & (Mr & Pr) & i & Hi).
    exists (rho i). split; [rewrite <- P, <- Pr; apply path_reach; exact Mr|].
    apply (sat_holds net (rho i) c (shift i rho) Hs); auto using maximal_shift. unfold shift. f_equal. lia.
  - intros (m' & Hr & Hm) pi M P. destruct (reach_path net m m' Hw Hr) as (rho & i & Mr & Pr & E).
    exists rho. split; [split; [exact Mr|congruence]|]. exists i. apply Hm; [apply maximal_shift; exact Mr|]. unfold shift. rewrite Nat.add_0_r. exact E.
Qed.
Lemma sat_not : forall net m c, wf_pnet net -> stf c = true -> (sat net m (CNot c) <-> ~ sat net m c).
Proof.
  intros net m c Hw Hs. destruct (runs_exist net m Hw) as (pi & M & P).
  rewrite (sat_holds net m (CNot c) pi), (sat_holds net m c pi); auto. cbn [holds]. tauto.
Qed.
Lemma sat_AG : forall net m c, wf_pnet net -> stf c = true ->
  (sat net m (CAG c) <-> forall m', reachable net m m' -> sat net m' c).
Proof.
  intros net m c Hw Hs. split.
  - intros H m' Hr. destruct (reach_path net m m' Hw Hr) as (rho & i & Mr & Pr & E).
    apply (sat_holds net m' c (shift i rho) Hs); [apply maximal_shift; exact Mr|unfold shift; rewrite Nat.add_0_r; exact E|].
    apply (H rho Mr Pr rho); split; auto.
  - intros H pi M P rho (Mr & Pr) i. apply (H (rho i)); [rewrite <- P, <- Pr; apply path_reach; exact Mr|apply maximal_shift; exact Mr|].
    unfold shift. rewrite Nat.add_0_r. reflexivity.
Qed.
Lemma sat_and : forall net m l, sat net m (CAnd l) <-> forall c, In c l -> sat net m c.
Proof.
  intros net m l. split.
  - intros H c Hc pi M P. specialize (H pi M P). rewrite holds_and in H. auto.
  - intros H pi M P. rewrite holds_and. intros c Hc. apply (H c Hc); auto.
Qed.
Lemma sat_or : forall net m l, wf_pnet net -> forallb stf l = true -> (sat net m (COr l) <-> exists c, In c l /\ sat net m c).
Proof.
  intros net m l Hw Hs. rewrite forallb_forall in Hs. split.
  - intros H. destruct (runs_exist net m Hw) as (pi & M & P). specialize (H pi M P). rewrite holds_or in H.
    destruct H as (c & Hc & H). exists c. split; [exact Hc|]. apply (sat_holds net m c pi); auto.
  - intros (c & Hc & H) pi M P. rewrite holds_or. exists c. split; [exact Hc|]. apply H; auto.
Qed.
Lemma sat_cmp : forall net m o a b, wf_pnet net -> (sat net m (CCmp o a b) <-> cmp_holds o (den m a) (den m b)).
Proof.
  intros net m o a b Hw. destruct (runs_exist net m Hw) as (pi & M & P).
  rewrite (sat_holds net m (CCmp o a b) pi); auto. cbn [holds]. rewrite P. tauto.
Qed.
Lemma sat_conj : forall net m cs, wf_pnet net -> (sat net m (CConj false cs) <-> Forall (cons_holds m) cs).
Proof.
  intros net m cs Hw. destruct (runs_exist net m Hw) as (pi & M & P).
  rewrite (sat_holds net m (CConj false cs) pi); auto. cbn [holds]. rewrite P. tauto.
Qed.
Lemma atomic_stf : forall c, atomic c = true -> stf c = true.
Proof.
  induction c using cond_ind'; cbn [atomic stf]; auto; try discriminate.
  - rewrite !forallb_forall. intros G c Hc. rewrite Forall_forall in H. auto.
  - rewrite !forallb_forall. intros G c Hc. rewrite Forall_forall in H. auto.
Qed.
Lemma temporal_atomic : forall c, temporal c = negb (atomic c).
Proof.
  induction c using cond_ind'; cbn [atomic temporal]; auto.
  - induction H; cbn [existsb forallb]; auto. rewrite H, IHForall, negb_andb. reflexivity.
  - induction H; cbn [existsb forallb]; auto. rewrite H, IHForall, negb_andb. reflexivity.
Qed.

(** * Fireability *)
Lemma slice_in : forall (A : Type) (l : list A) a b x, In x (slice l a b) -> In x l.
Proof.
  intros A l a b x H. unfold slice in H. rewrite <- (firstn_skipn a l). apply in_or_app. right.
  rewrite <- (firstn_skipn (b - a) (skipn a l)). apply in_or_app. left. exact H.
Qed.
Lemma layout_wf : forall net, layout net -> wf_pnet (to_pnet net).
Proof. intros net L. apply (ly_wf L). Qed.
Lemma fire_cons_holds : forall m iv, (iv_inhib iv = true -> (0 < iv_tokens iv < 2 ^ 32)%N) ->
  (cons_holds m (fire_cons iv) <-> arc_ok m (inv_arc iv)).
Proof.
  intros m iv H. unfold fire_cons, cons_holds, arc_ok, inv_arc, u32max. cbn [arc_inhib arc_place arc_weight].
  destruct (iv_inhib iv); cbn [negb].
  - specialize (H eq_refl). destruct (N.ltb_spec 0 (iv_tokens iv)); [|lia]. cbn [c_lower c_upper c_place]. lia.
  - cbn [c_lower c_upper c_place]. lia.
Qed.
Lemma preset_ok : forall net t, layout net -> t < cn_ntrans net ->
  exists pre, preset net t = Ok pre /\ tr_pre (net_trans net t) = map inv_arc pre.
Proof.
  intros net t L Ht. unfold preset, rd. destruct (nth_error (cn_transitions net) t) as [a|] eqn:E.
  - cbn [bind]. eexists. split; [reflexivity|]. unfold net_trans. cbn [tr_pre]. rewrite (nth_error_nth _ _ (0, 0) E). reflexivity.
  - apply nth_error_None in E. rewrite (ly_len_tr L) in E. lia.
Qed.
Lemma fireable_sat : forall net t, layout net -> inhib_pos net -> t < cn_ntrans net ->
  exists c, fireable net t = Ok c /\ atomic c = true /\
    forall m, sat (to_pnet net) m c <-> enabled (net_trans net t) m.
Proof.
  intros net t L Hi Ht. unfold fireable. destruct (preset_ok net t L Ht) as (pre & E & Ep). rewrite E. cbn [bind].
  assert (Hp : forall iv, In iv pre -> iv_inhib iv = true -> (0 < iv_tokens iv < 2 ^ 32)%N).
  { intros iv Hv. apply Hi. unfold preset, rd in E. destruct (nth_error (cn_transitions net) t) as [a|]; [|discriminate].
    cbn [bind] in E. injection E as <-. eapply slice_in. exact Hv. }
  assert (G : forall m, Forall (cons_holds m) (map fire_cons pre) <-> enabled (net_trans net t) m).
  { intros m. unfold enabled. rewrite Ep, Forall_forall. split.
    - intros H a Ha. apply in_map_iff in Ha. destruct Ha as (iv & <- & Hv). apply fire_cons_holds; [auto|]. apply H, in_map, Hv.
    - intros H c Hc. apply in_map_iff in Hc. destruct Hc as (iv & <- & Hv). apply fire_cons_holds; [auto|]. apply H, in_map, Hv. }
  assert (W := layout_wf net L).
  destruct pre as [|iv pre].
  - exists (CBool true). split; [reflexivity|]. split; [reflexivity|]. intros m. rewrite <- G. split; [constructor|intros _ pi _ _; reflexivity].
  - eexists. split; [reflexivity|]. split; [reflexivity|]. intros m. rewrite <- G. apply sat_conj. exact W.
Qed.
Lemma map_res_ok : forall (A B : Type) (f : A -> res B) (P : A -> B -> Prop) l,
  (forall x, In x l -> exists y, f x = Ok y /\ P x y) -> exists r, map_res f l = Ok r /\ Forall2 P l r.
Proof.
  intros A B f P l. induction l as [|x l IH]; intros H; [exists []; split; [reflexivity|constructor]|].
  destruct (H x (or_introl eq_refl)) as (y & E & Py). destruct IH as (r & E2 & F); [intros z Hz; apply H; right; exact Hz|].
  exists (y :: r). cbn [map_res]. rewrite E. cbn [bind]. rewrite E2. split; [reflexivity|constructor; auto].
Qed.
Lemma Forall2_in_r : forall (A B : Type) (P : A -> B -> Prop) l r y, Forall2 P l r -> In y r -> exists x, In x l /\ P x y.
Proof. intros A B P l r y F. induction F; intros []; [subst; eauto using in_eq|]. destruct (IHF H0) as (z & ? & ?). eauto using in_cons. Qed.
Lemma Forall2_in_l : forall (A B : Type) (P : A -> B -> Prop) l r x, Forall2 P l r -> In x l -> exists y, In y r /\ P x y.
Proof. intros A B P l r x F. induction F; intros []; [subst; eauto using in_eq|]. destruct (IHF H0) as (z & ? & ?). eauto using in_cons. Qed.
Lemma fireable_any_sat : forall net ts, layout net -> inhib_pos net -> (forall t, In t ts -> t < cn_ntrans net) ->
  exists c, fireable_any net ts = Ok c /\ atomic c = true /\
    forall m, sat (to_pnet net) m c <-> exists t, In t ts /\ enabled (net_trans net t) m.
Proof.
  intros net ts L Hi Ht. assert (W := layout_wf net L).
  destruct ts as [|t [|t2 ts]].
  - exists (CBool false). split; [reflexivity|]. split; [reflexivity|]. intros m. split.
    + intros H. destruct (runs_exist _ m W) as (pi & M & P). discriminate (H pi M P).
    + intros (t & [] & _).
  - destruct (fireable_sat net t L Hi) as (c & E & A & S); [apply Ht; left; reflexivity|].
    exists c. split; [exact E|]. split; [exact A|]. intros m. rewrite S. split; [intros H; exists t; split; [left; reflexivity|exact H]|].
    intros (t' & [<-|[]] & H). exact H.
  - set (l := t :: t2 :: ts) in *.
    destruct (@map_res_ok _ _ (fireable net) (fun t c => atomic c = true /\ forall m, sat (to_pnet net) m c <-> enabled (net_trans net t) m) l)
      as (r & E & F).
    { intros x Hx. destruct (fireable_sat net x L Hi (Ht x Hx)) as (c & ? & ? & ?). exists c. auto. }
    exists (COr r). split; [unfold fireable_any, l; fold l; rewrite E; reflexivity|].
    assert (A : forallb atomic r = true).
    { apply forallb_forall. intros c Hc. destruct (Forall2_in_r _ _ _ _ _ _ F Hc) as (x & _ & A & _). exact A. }
    split; [exact A|]. intros m. rewrite sat_or; [|exact W|].
    2:{ apply forallb_forall. intros c Hc. apply atomic_stf. rewrite forallb_forall in A. auto. }
    split.
    + intros (c & Hc & S). destruct (Forall2_in_r _ _ _ _ _ _ F Hc) as (x & Hx & _ & G). exists x. split; [exact Hx|apply G; exact S].
    + intros (x & Hx & S). destruct (Forall2_in_l _ _ _ _ _ _ F Hx) as (c & Hc & _ & G). exists c. split; [exact Hc|apply G; exact S].
Qed.
Lemma k_safe_sat : forall net bound b m, layout net -> (forall m, den m bound = b) ->
  (sat (to_pnet net) m (k_safe net bound) <->
   forall m', reachable (to_pnet net) m m' -> forall p, p < cn_places net -> (Z.of_N (tokens m' p) <= b)%Z).
Proof.
  intros net bound b m L Hb. assert (W := layout_wf net L). unfold k_safe. rewrite sat_AG; [|exact W|].
  2:{ cbn [stf]. apply forallb_forall. intros c Hc. apply in_map_iff in Hc. destruct Hc as (p & <- & _). reflexivity. }
  split; intros H m' Hr; specialize (H m' Hr).
  - intros p Hp. rewrite sat_and in H. specialize (H (CCmp OpLe (Pl p) bound)).
    rewrite sat_cmp in H by exact W. cbn [cmp_holds den] in H. rewrite Hb in H. apply H.
    apply in_map_iff. exists p. split; [reflexivity|]. apply in_seq. lia.
  - apply sat_and. intros c Hc. apply in_map_iff in Hc. destruct Hc as (p & <- & Hp). apply in_seq in Hp.
    apply sat_cmp; [exact W|]. cbn [cmp_holds den]. rewrite Hb. apply H. lia.
Qed.
Lemma stable_sat : forall net m, layout net ->
  (sat (to_pnet net) m (stable net) <->
   exists p, p < cn_places net /\ forall m', reachable (to_pnet net) m m' -> tokens m' p = tokens (cn_init net) p).
Proof.
  intros net m L. assert (W := layout_wf net L). unfold stable. rewrite sat_or; [|exact W|].
  2:{ apply forallb_forall. intros c Hc. apply in_map_iff in Hc. destruct Hc as (p & <- & _). reflexivity. }
  split.
  - intros (c & Hc & H). apply in_map_iff in Hc. destruct Hc as (p & <- & Hp). apply in_seq in Hp. exists p. split; [lia|].
    intros m' Hr. rewrite sat_AG in H by auto. specialize (H m' Hr). rewrite sat_cmp in H by exact W. cbn [cmp_holds den] in H.
    unfold tokens in *. lia.
  - intros (p & Hp & H). eexists. split; [apply in_map; apply in_seq; split; [apply Nat.le_0_l|exact Hp]|].
    apply sat_AG; auto. intros m' Hr. apply sat_cmp; [exact W|]. cbn [cmp_holds den]. rewrite (H m' Hr). reflexivity.
Qed.
Lemma quasi_live_sat : forall net, layout net -> inhib_pos net -> exists c, quasi_live net = Ok c /\ stf c = true /\
  forall m, sat (to_pnet net) m c <->
    forall t, t < cn_ntrans net -> exists m', reachable (to_pnet net) m m' /\ enabled (net_trans net t) m'.
Proof.
  intros net L Hi. assert (W := layout_wf net L). unfold quasi_live.
  destruct (@map_res_ok _ _ (fun t => f <- fireable net t ;; Ok (CEF f))
    (fun t c => stf c = true /\ forall m, sat (to_pnet net) m c <-> exists m', reachable (to_pnet net) m m' /\ enabled (net_trans net t) m')
    (seq 0 (cn_ntrans net))) as (r & E & F).
  { intros x Hx. apply in_seq in Hx. destruct (fireable_sat net x L Hi) as (c & E & A & S); [lia|]. rewrite E. cbn [bind].
    exists (CEF c). split; [reflexivity|]. split; [cbn [stf]; apply atomic_stf; exact A|]. intros m. rewrite sat_EF by auto using atomic_stf.
    split; intros (m' & H1 & H2); exists m'; (split; [exact H1|apply S; exact H2]). }
  rewrite E. exists (CAnd r). split; [reflexivity|]. split.
  - apply forallb_forall. intros c Hc. destruct (Forall2_in_r _ _ _ _ _ _ F Hc) as (x & _ & A & _). exact A.
  - intros m. rewrite sat_and. split.
    + intros H t Ht. destruct (Forall2_in_l _ _ _ _ _ t F) as (c & Hc & _ & G); [apply in_seq; lia|]. apply G, H, Hc.
    + intros H c Hc. destruct (Forall2_in_r _ _ _ _ _ _ F Hc) as (x & Hx & _ & G). apply in_seq in Hx. apply G, H. lia.
Qed.
Lemma live_sat : forall net, layout net -> inhib_pos net -> exists c, live net = Ok c /\ stf c = true /\
  forall m, sat (to_pnet net) m c <->
    forall t, t < cn_ntrans net -> forall m1, reachable (to_pnet net) m m1 ->
      exists m2, reachable (to_pnet net) m1 m2 /\ enabled (net_trans net t) m2.
Proof.
  intros net L Hi. assert (W := layout_wf net L). unfold live.
  destruct (@map_res_ok _ _ (fun t => f <- fireable net t ;; Ok (CAG (CEF f)))
    (fun t c => stf c = true /\ forall m, sat (to_pnet net) m c <-> forall m1, reachable (to_pnet net) m m1 ->
      exists m', reachable (to_pnet net) m1 m' /\ enabled (net_trans net t) m')
    (seq 0 (cn_ntrans net))) as (r & E & F).
  { intros x Hx. apply in_seq in Hx. destruct (fireable_sat net x L Hi) as (c & E & A & S); [lia|]. rewrite E. cbn [bind].
    exists (CAG (CEF c)). split; [reflexivity|]. split; [cbn [stf]; apply atomic_stf; exact A|]. intros m. rewrite sat_AG by (cbn [stf]; auto using atomic_stf).
    split; intros H m1 H1; specialize (H m1 H1).
    - rewrite sat_EF in H by auto using atomic_stf. destruct H as (m' & H2 & H3); exists m'; (split; [exact H2|apply S; exact H3]).
    - apply sat_EF; auto using atomic_stf. destruct H as (m' & H2 & H3); exists m'; (split; [exact H2|apply S; exact H3]). }
  rewrite E. exists (CAnd r). split; [reflexivity|]. split.
  - apply forallb_forall. intros c Hc. destruct (Forall2_in_r _ _ _ _ _ _ F Hc) as (x & _ & A & _). exact A.
  - intros m. rewrite sat_and. split.
    + intros H t Ht. destruct (Forall2_in_l _ _ _ _ _ t F) as (c & Hc & _ & G); [apply in_seq; lia|]. apply G, H, Hc.
    + intros H c Hc. destruct (Forall2_in_r _ _ _ _ _ _ F Hc) as (x & Hx & _ & G). apply in_seq in Hx. apply G. apply H. lia.
Qed.
(** coloured stable marking: sums of the places of each group, no 32-bit overflow *)
Lemma stable_col_sat : forall net groups m, layout net ->
  (forall ps, In ps groups -> (sumN (map (tokens (cn_init net)) ps) < 2 ^ 32)%N) ->
  (sat (to_pnet net) m (stable_col net groups) <->
   exists ps, In ps groups /\ forall m', reachable (to_pnet net) m m' ->
     sumN (map (tokens m') ps) = sumN (map (tokens (cn_init net)) ps)).
Proof.
  intros net groups m L Hb. assert (W := layout_wf net L).
  assert (Hd : forall m ps, den m (mk_plus (map Pl ps)) = Z.of_N (sumN (map (tokens m) ps))).
  { intros m1 ps. rewrite mk_plus_den. induction ps as [|p ps IH]; [reflexivity|]. cbn [map fold_right]. rewrite IH.
    cbn [den]. cbn [sumN]. lia. }
  assert (Hs : forall ps s, (s + sumN (map (tokens (cn_init net)) ps) < 2 ^ 32)%N ->
     fold_left (fun s p => (s + nth p (cn_init net) 0) mod 2 ^ 32)%N ps s = (s + sumN (map (tokens (cn_init net)) ps))%N).
  { induction ps as [|p ps IH]; intros s H; cbn [fold_left map]; [cbn; lia|].
    cbn [map sumN] in H |- *. unfold tokens in H at 1. unfold tokens at 1. rewrite N.mod_small by lia. rewrite IH by lia. lia. }
  unfold stable_col. rewrite sat_or; [|exact W|].
  2:{ apply forallb_forall. intros c Hc. apply in_map_iff in Hc. destruct Hc as (p & <- & _). reflexivity. }
  split.
  - intros (c & Hc & H). apply in_map_iff in Hc. destruct Hc as (ps & <- & Hp). exists ps. split; [exact Hp|].
    intros m' Hr. rewrite sat_AG in H by auto. specialize (H m' Hr). rewrite sat_cmp in H by exact W.
    rewrite Hd in H. rewrite Hs in H by (specialize (Hb ps Hp); lia). cbn [cmp_holds den] in H. lia.
  - intros (ps & Hp & H). eexists. split; [apply in_map_iff; exists ps; split; [reflexivity|exact Hp]|].
    apply sat_AG; auto. intros m' Hr. apply sat_cmp; [exact W|]. rewrite Hd, Hs by (specialize (Hb ps Hp); lia). rewrite (H m' Hr). cbn [cmp_holds den]. lia.
Qed.
