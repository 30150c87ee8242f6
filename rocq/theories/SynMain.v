(** Synthesis: the answer is right (C35). *)
From Verif Require Import Base BaseLemmas NetSpec NetModel NetProofs StoreProofs SearchMain SynSpec SynModel SynGen SynGame SynTab SynInv SynRun.
From Coq Require Import Permutation.

Lemma idx_mk : forall okm s i, base okm s -> i < dom s -> idx (mk s i) (y_tab s) = Some i.
Proof.
  intros okm s i B I. destruct (idx (mk s i) (y_tab s)) as [j|] eqn:E.
  - apply idx_some in E. destruct E as [E1 E2]. f_equal. eapply mk_inj; eauto; apply E2.
  - exfalso. apply idx_none in E. apply E. unfold mk. apply in_map. apply nth_In. auto.
Qed.

Section OnNet.
Variable net : cnet.
Variable safety : bool.
Variable pred : list N -> bool.
Variable k : N.
Variable pick : nat -> list nat -> nat.
Hypothesis L : layout net.
Hypothesis NT : (N.of_nat (cn_ntrans net) < 2 ^ 32)%N.
Hypothesis MI : mark_ok (cn_places net) (cn_init net).
Notation pn := (to_pnet net).
Notation ctrl := (controllable net).

Definition okm (m : list N) : Prop := mark_ok (cn_places net) m /\ reachable pn (cn_init net) m.
Definition Estep (m m' : list N) : Prop := exists t, ctrl t = false /\ step pn m t m'.
Definition Cstep (m m' : list N) : Prop := exists t, ctrl t = true /\ step pn m t m'.
Notation lost := (lost pn ctrl pred k).

Lemma stream_step : forall b (R : list N -> list N -> Prop) (f : list N -> list (nat * list N) * res unit),
  (forall m m', R m m' <-> exists t, ctrl t = b /\ step pn m t m') ->
  (forall m, f m = game_stream (S (cn_ntrans net)) net (fun t => Bool.eqb (ctrl t) b) m gen_prepare) -> stream_ok okm f R.
Proof.
  intros b R f HR Hf m [M RE]. rewrite Hf. apply mark_ok_fits in M. destruct M as [M1 M2].
  destruct (@game_stream_ok net (fun t => Bool.eqb (ctrl t) b) m L M1 M2) as (G1 & G2 & G3).
  set (r := game_stream _ _ _ _ _) in *. split; [|split].
  - intros [t m'] I. destruct (G1 t m' I) as (Q1 & Q2 & Q3 & Q4). apply eqb_prop in Q1. cbn. split; [apply HR; eauto|]. split.
    + apply mark_ok_fits. auto.
    + destruct RE as [w RE]. exists (w ++ [t]). eapply run_snoc; eauto.
  - change (2 ^ 32)%N with 4294967296%N in *. lia.
  - destruct G3 as [[G3 G4]|[G3 _]]; auto. left. split; auto. intros m' H. apply HR in H. destruct H as (t & Ht & St).
    apply in_map_iff. exists (t, m'). split; auto. apply G4; auto. rewrite Ht. apply eqb_reflx.
Qed.
Lemma game_stream_ext : forall f ok ok' m g, (forall t, ok t = ok' t) -> game_stream f net ok m g = game_stream f net ok' m g.
Proof.
  intros f ok ok' m g H. assert (T : forall n t, next_trans_p net ok m t n = next_trans_p net ok' m t n).
  { induction n as [|n IH]; intros t; cbn; auto. rewrite IH, H. reflexivity. }
  assert (P : forall n p tc, next_place_p net ok m p tc n = next_place_p net ok' m p tc n).
  { induction n as [|n IH]; intros p tc; cbn; auto. rewrite IH. 
    destruct (if p =? 0 then Ok true else _) as [[|]| | |]; cbn; auto. destruct (match tc with None => _ | Some t => Ok t end); cbn; auto.
    destruct (rd (cn_ptrs net) (S p)); cbn; auto. rewrite T. reflexivity. }
  revert g. induction f as [|f IH]; intros g; cbn; auto. rewrite P. destruct (next_place_p _ _ _ _ _ _) as [[[x|] g']| | |]; auto. rewrite IH. reflexivity.
Qed.
Lemma HEs : stream_ok okm (env_stream net) Estep.
Proof.
  apply (stream_step false); [intros; unfold Estep; tauto|]. intros m. unfold env_stream. apply game_stream_ext. intros t. destruct (ctrl t); auto.
Qed.
Lemma HCs : stream_ok okm (ctrl_stream net) Cstep.
Proof.
  apply (stream_step true); [intros; unfold Cstep; tauto|]. intros m. unfold ctrl_stream. apply game_stream_ext. intros t. destruct (ctrl t); auto.
Qed.

Lemma check_bound_spec : forall m, check_bound k m = true <-> within k m.
Proof.
  intros m. unfold check_bound, within. destruct (N.ltb_spec 0 k) as [H|H].
  - rewrite negb_true_iff, N.ltb_ge. intuition lia.
  - split; auto. intros _. left. lia.
Qed.
Lemma Lenv : forall m m', Estep m m' -> lost m' -> lost m.
Proof. intros m m' (t & C & S) H. eapply lost_env; eauto. Qed.
Lemma Lctrl : forall m, has Cstep m -> (forall m', Cstep m m' -> lost m') -> lost m.
Proof. intros m (m' & t & C & S) H. apply lost_ctrl; [eauto|]. intros u m2 C2 S2. apply H. exists u. auto. Qed.
Lemma Lbad : forall m, safety = true -> new_state safety pred k m = LOSING -> lost m.
Proof.
  intros m ES H. apply lost_bad. unfold new_state in H. rewrite ES in H. destruct (check_bound k m) eqn:B; cbn in H.
  - left. destruct (pred m); auto; discriminate.
  - right. intros W. apply check_bound_spec in W. congruence.
Qed.

Notation Good := (Good safety pred k okm Estep Cstep lost).

(** The initial state. *)
Definition start : syn := mkSyn [(cn_init net, mkCf (new_state safety pred k (cn_init net)) 1 0 0 [])] [0] [].
Lemma run_start : forall fuel, synthesize net safety pred k pick fuel =
  (s2 <- main_loop safety pred k (env_stream net) (ctrl_stream net) pick fuel 0 start ;;
   Ok (s2, if safety then negb (is_losing (st s2 0)) else is_winning (st s2 0))).
Proof. reflexivity. Qed.
Lemma start_good : det (new_state safety pred k (cn_init net)) = false -> Good start.
Proof.
  intros D. assert (U : new_state safety pred k (cn_init net) = UNKNOWN).
  { unfold new_state in *. destruct (check_bound k (cn_init net)), (pred (cn_init net)), safety; cbn in *; auto; discriminate. }
  assert (Z : forall i, i < dom start -> i = 0) by (intros i; cbn; lia).
  assert (S0 : st start 0 = UNKNOWN) by exact U.
  exists (fun _ => 0). constructor.
  - split; [repeat constructor; auto|]. intros i I. rewrite (Z i I). split; auto. exists []. constructor.
  - intros i I. rewrite (Z i I). auto.
  - intros i I. rewrite (Z i I). congruence.
  - intros i I. rewrite (Z i I). congruence.
  - intros i I. rewrite (Z i I). intros _ [O|O]; congruence.
  - intros i I. rewrite (Z i I). intros _ _. left. cbn. auto.
  - cbn. split; [repeat constructor; auto|]. intros i [<-|[]]. split; [lia|]. auto.
  - intros b x c []. 
  - intros c [].
  - cbn. split; auto.
Qed.

Lemma run_good : forall fuel s b, synthesize net safety pred k pick fuel = Ok (s, b) ->
  (b = if safety then negb (is_losing (st s 0)) else is_winning (st s 0)) /\
  ((det (new_state safety pred k (cn_init net)) = true /\ s = start) \/
   (Good s /\ mk s 0 = cn_init net /\ finished s)).
Proof.
  intros fuel s b H. rewrite run_start in H. destruct (det (new_state safety pred k (cn_init net))) eqn:D.
  - destruct fuel as [|fuel]; [discriminate|]. cbn [main_loop] in H. change (c_st (cf start 0)) with (new_state safety pred k (cn_init net)) in H. rewrite D in H. cbn in H.
    inversion H; subst. split; auto.
  - pose proof (main_loop_ok safety pred k okm Estep Cstep lost _ _ pick Lenv Lctrl Lbad HEs HCs fuel 0 start (start_good D)) as M.
    destruct (main_loop _ _ _ _ _ _ _ _ _) as [s2| | |]; cbn in H; try discriminate. inversion H; subst. split; auto.
Qed.

(** Which configurations the certificate consists of. *)
Definition marks (P : cstate -> bool) (s : syn) : list (list N) := map (mk s) (filter (fun i => P (st s i)) (seq 0 (dom s))).
Lemma marks_in : forall P s m, In m (marks P s) <-> exists i, i < dom s /\ mk s i = m /\ P (st s i) = true.
Proof.
  intros P s m. unfold marks. rewrite in_map_iff. split.
  - intros (i & E & I). apply filter_In in I. destruct I as [I1 I2]. apply in_seq in I1. exists i. split; [lia|auto].
  - intros (i & I & E & H). exists i. split; auto. apply filter_In. split; auto. apply in_seq. lia.
Qed.
Lemma new_safe : forall m, safety = true -> new_state safety pred k m = UNKNOWN -> pred m = true /\ within k m.
Proof.
  intros m ES H. rewrite <- check_bound_spec. unfold new_state in H. rewrite ES in H. destruct (check_bound k m), (pred m); cbn in H; auto; discriminate.
Qed.
Lemma new_reach : forall m, safety = false -> 
  (new_state safety pred k m = UNKNOWN -> pred m = false /\ within k m) /\
  (new_state safety pred k m = WINNING -> pred m = true /\ within k m) /\
  (new_state safety pred k m = LOSING -> ~ within k m).
Proof.
  intros m ES. rewrite <- check_bound_spec. unfold new_state. rewrite ES. destruct (check_bound k m), (pred m); cbn; intuition discriminate.
Qed.

Definition openb (c : cstate) : bool := match c with PROCESSED | MAYBE => true | _ => false end.
Lemma edge_open : forall s r b x c, Inv safety pred k okm Estep Cstep lost never never s (edges s) r -> y_queue s = [] -> y_back s = [] ->
  In ((b, x), c) (edges s) -> c < dom s /\ openb (st s c) = true.
Proof.
  intros s r b x c IV Q B I. destruct (I_edge _ _ _ _ _ _ _ _ _ _ _ _ IV b x c I) as (_ & Lc & _ & _ & D). split; auto.
  destruct (st s c) eqn:S; auto; cbn in D.
  - destruct (I_unk _ _ _ _ _ _ _ _ _ _ _ _ IV c Lc (fun f => f) S) as [[_ K]|[_ K]]; [rewrite Q in K; destruct K|]. exfalso. apply (K (b, x) I).
  - destruct (D eq_refl) as [K|[]]. rewrite B in K. destruct K.
  - destruct (D eq_refl) as [K|[]]. rewrite B in K. destruct K.
Qed.

Definition self_loop_free : Prop := forall m, reachable pn (cn_init net) m -> ~ exists t, ctrl t = true /\ step pn m t m.

Theorem safe_yes : forall fuel s, safety = true -> synthesize net safety pred k pick fuel = Ok (s, true) ->
  exists g, valid pn ctrl g /\ memoryless g /\ wins_safe pn ctrl g (fun m => pred m = true) k (cn_init net).
Proof.
  intros fuel s ES H. apply run_good in H. rewrite ES in H. destruct H as [HB [[D ->]|([r IV] & M0 & FIN)]].
  { rewrite <- ES in D. exfalso. cbn in HB. change (st start 0) with (new_state safety pred k (cn_init net)) in HB. unfold new_state in *. rewrite ES in *. destruct (check_bound k (cn_init net)), (pred (cn_init net)); cbn in *; discriminate. }
  rewrite <- ES in IV.
  pose proof (I_zero _ _ _ _ _ _ _ _ _ _ _ _ IV) as [Z0 Z1].
  assert (WIN : forall P : cstate -> bool, P WINNING = true -> forall i, i < dom s -> st s i = WINNING -> 
     pred (mk s i) = true /\ within k (mk s i) /\ (forall t m', ctrl t = false -> step pn (mk s i) t m' -> In m' (marks P s)) /\
     ((exists t m', ctrl t = true /\ step pn (mk s i) t m') -> exists t m', ctrl t = true /\ step pn (mk s i) t m' /\ In m' (marks P s))).
  { intros P PW i I W. pose proof (I_win _ _ _ _ _ _ _ _ _ _ _ _ IV i I (fun f => f) W) as J. unfold WJ in J. rewrite ES in J. rewrite <- ES in J. destruct J as (J1 & J2 & J3).
    destruct (new_safe _ ES J1) as [G1 G2]. split; auto. split; auto. split.
    - intros t m' C S. destruct (J2 m' (ex_intro _ t (conj C S))) as (c & Q1 & Q2 & Q3). apply marks_in. exists c. rewrite Q3. auto.
    - intros (t & m' & C & S). destruct J3 as (c & Q1 & (t2 & Q2 & Q3) & Q4); [exists m', t; auto|]. exists t2, (mk s c). split; auto. split; auto. apply marks_in. exists c. rewrite Q4. auto. }
  destruct (is_winning (st s 0)) eqn:W0.
  - assert (W : st s 0 = WINNING) by (destruct (st s 0); try discriminate; auto).
    apply (safe_set_wins pn ctrl (ly_wf L) pred k (marks is_winning s)).
    + intros m I. apply marks_in in I. destruct I as (i & I & <- & Wi). assert (st s i = WINNING) by (destruct (st s i); try discriminate; auto).
      apply WIN; auto.
    + apply marks_in. exists 0. auto.
  - destruct FIN as [D|[Q B]]; [destruct (st s 0); discriminate|].
    set (P := fun c => openb c || is_winning c). apply (safe_set_wins pn ctrl (ly_wf L) pred k (marks P s)).
    + intros m I. apply marks_in in I. destruct I as (i & I & <- & Hi). unfold P in Hi. apply orb_true_iff in Hi. destruct Hi as [O|Wi].
      2:{ apply WIN; auto. destruct (st s i); try discriminate; auto. }
      assert (OP : is_open (st s i)) by (destruct (st s i); try discriminate; red; auto).
      destruct (I_open _ _ _ _ _ _ _ _ _ _ _ _ IV i I (fun f => f) OP) as [_ (J1 & J2 & J3 & J4 & _)].
      destruct (new_safe _ ES J1) as [G1 G2]. split; auto. split; auto.
      assert (ED : forall b c, In ((b, i), c) (edges s) -> In (mk s c) (marks P s)).
      { intros b c Hc. destruct (edge_open s r b i c IV Q B Hc) as [Lc Oc]. apply marks_in. exists c. unfold P. rewrite Oc. auto. }
      split.
      * intros t m' C S. destruct (J2 m' (ex_intro _ t (conj C S))) as (c & Q1 & Q2 & Q3). subst m'. destruct Q3 as [Q3|[[_ ->]|Q3]].
        -- apply marks_in. exists c. unfold P. rewrite Q3. auto.
        -- apply marks_in. exists i. unfold P. rewrite O. auto.
        -- eapply ED; eauto.
      * intros (t & m' & C & S). destruct OP as [OP|OP].
        -- destruct (J4 OP) as (_ & [c Hc] & _). destruct (I_edge _ _ _ _ _ _ _ _ _ _ _ _ IV _ _ _ Hc) as (_ & _ & _ & (t2 & C2 & S2) & _).
           exists t2, (mk s c). split; auto. split; auto. eapply ED; eauto.
        -- destruct (J3 OP) as [_ [[K _]|(c & Q1 & (t2 & C2 & S2) & Q3)]]; [exfalso; apply K; exists m', t; auto|].
           exists t2, (mk s c). split; auto. split; auto. apply marks_in. exists c. unfold P. rewrite Q3. auto.
    + apply marks_in. exists 0. split; auto. split; auto. unfold P. destruct (st s 0) eqn:S0; auto; try discriminate.
      specialize (Z1 eq_refl (fun f => f)). rewrite Q in Z1. destruct Z1.
Qed.

Theorem safe_no : forall fuel s, safety = true -> self_loop_free -> synthesize net safety pred k pick fuel = Ok (s, false) ->
  forall g, valid pn ctrl g -> ~ wins_safe pn ctrl g (fun m => pred m = true) k (cn_init net).
Proof.
  intros fuel s ES NS H. apply run_good in H. rewrite ES in H. destruct H as [HB H]. symmetry in HB. apply negb_false_iff in HB.
  assert (S0 : st s 0 = LOSING) by (destruct (st s 0); try discriminate; auto).
  assert (LL : lost (cn_init net)); [|intros g V; apply (lost_loses pn ctrl (ly_wf L) pred k); auto].
  destruct H as [[D ->]|([r IV] & M0 & FIN)].
  - apply Lbad; auto.
  - pose proof (I_zero _ _ _ _ _ _ _ _ _ _ _ _ IV) as [Z0 Z1]. pose proof (I_lose _ _ _ _ _ _ _ _ _ _ _ _ IV 0 Z0 (fun f => f) S0) as J. unfold LJ in J. rewrite M0 in J. apply J.
    intros m [_ R] (t & C & S). apply (NS m R). eauto.
Qed.

Theorem reach_yes : forall fuel s, safety = false -> synthesize net safety pred k pick fuel = Ok (s, true) ->
  exists g, valid pn ctrl g /\ memoryless g /\ wins_reach pn ctrl g (fun m => pred m = true) k (cn_init net).
Proof.
  intros fuel s ES H. apply run_good in H. rewrite ES in H. destruct H as [HB H]. symmetry in HB.
  assert (S0 : st s 0 = WINNING) by (destruct (st s 0); try discriminate; auto). rewrite <- ES in H.
  assert (C : exists S rk, ranked pn ctrl pred k S rk /\ In (cn_init net) S).
  2:{ destruct C as (S & rk & HR & HI). eapply ranked_wins; eauto. apply ly_wf; auto. }
  destruct H as [[D ->]|([r IV] & M0 & FIN)].
  - exists [cn_init net], (fun _ => 0). split; [|left; auto]. intros m [<-|[]]. change (st start 0) with (new_state safety pred k (cn_init net)) in S0.
    destruct (proj1 (proj2 (new_reach (cn_init net) ES)) S0) as [G W]. auto.
  - pose proof (I_zero _ _ _ _ _ _ _ _ _ _ _ _ IV) as [Z0 Z1]. pose proof (I_base _ _ _ _ _ _ _ _ _ _ _ _ IV) as BS.
    exists (marks is_winning s), (fun m => match idx m (y_tab s) with Some i => r i | None => 0 end). split.
    2:{ apply marks_in. exists 0. rewrite S0. auto. }
    intros m I. apply marks_in in I. destruct I as (i & I & <- & Wi). assert (W : st s i = WINNING) by (destruct (st s i); try discriminate; auto).
    assert (RK : forall c, c < dom s -> match idx (mk s c) (y_tab s) with Some i => r i | None => 0 end = r c) by (intros c Lc; erewrite idx_mk by eauto; auto).
    rewrite (RK i I).
    pose proof (I_win _ _ _ _ _ _ _ _ _ _ _ _ IV i I (fun f => f) W) as J. unfold WJ in J. rewrite ES in J. rewrite <- ES in J. destruct J as [J|(J1 & J2 & J3 & J4)].
    + destruct (proj1 (proj2 (new_reach _ ES)) J). auto.
    + destruct (proj1 (new_reach _ ES) J1) as [_ WI]. split; auto. right. split; [|split].
      * intros t m' C S. destruct (J2 m' (ex_intro _ t (conj C S))) as (c & Q1 & <- & Q3 & Q4). rewrite (RK c Q1). split; auto. apply marks_in. exists c. rewrite Q3. auto.
      * intros (t & m' & C & S). destruct J3 as (c & Q1 & (t2 & C2 & S2) & Q3 & Q4); [exists m', t; auto|]. exists t2, (mk s c). split; auto. split; auto. rewrite (RK c Q1). split; auto. apply marks_in. exists c. rewrite Q3. auto.
      * destruct J4 as [(m' & t & _ & S)|(m' & t & _ & S)]; eauto.
Qed.

Theorem reach_no : forall fuel s, safety = false -> synthesize net safety pred k pick fuel = Ok (s, false) ->
  forall g, valid pn ctrl g -> ~ wins_reach pn ctrl g (fun m => pred m = true) k (cn_init net).
Proof.
  intros fuel s ES H. apply run_good in H. rewrite ES in H. destruct H as [HB H]. symmetry in HB. rewrite <- ES in H.
  assert (C : exists T, trap pn ctrl pred k T /\ In (cn_init net) T).
  2:{ destruct C as (T & HT & HI). intros g V. eapply trap_loses; eauto. apply ly_wf; auto. }
  destruct H as [[D ->]|([r IV] & M0 & FIN)].
  - exists [cn_init net]. split; [|left; auto]. intros m [<-|[]]. left. apply (new_reach _ ES). change (st start 0) with (new_state safety pred k (cn_init net)) in HB.
    destruct (new_state safety pred k (cn_init net)); auto; discriminate.
  - pose proof (I_zero _ _ _ _ _ _ _ _ _ _ _ _ IV) as [Z0 Z1].
    assert (LOSE : forall P : cstate -> bool, P LOSING = true -> forall i, i < dom s -> st s i = LOSING ->
      ~ within k (mk s i) \/ (pred (mk s i) = false /\
        ((exists t m', ctrl t = false /\ step pn (mk s i) t m' /\ In m' (marks P s)) \/
         ((exists t m', ctrl t = true /\ step pn (mk s i) t m') /\ (forall t m', ctrl t = true -> step pn (mk s i) t m' -> In m' (marks P s))) \/
         (forall t m', ~ step pn (mk s i) t m')))).
    { intros P PL i I W. pose proof (I_lose _ _ _ _ _ _ _ _ _ _ _ _ IV i I (fun f => f) W) as J. unfold LJ in J. rewrite ES in J. rewrite <- ES in J. destruct J as [J|(J1 & J2)].
      - left. apply (new_reach _ ES). auto.
      - right. split; [apply (new_reach _ ES); auto|]. destruct J2 as [(c & Q1 & (t & C & S) & Q3)|[[(m1 & t1 & C1 & S1) J2]|[J2 J3]]].
        + left. exists t, (mk s c). split; auto. split; auto. apply marks_in. exists c. rewrite Q3. auto.
        + right. left. split; [eauto|]. intros t m' C S. destruct (J2 m' (ex_intro _ t (conj C S))) as (c & Q1 & Q2 & Q3). apply marks_in. exists c. rewrite Q3. auto.
        + right. right. intros t m' S. destruct (ctrl t) eqn:C; [apply J3|apply J2]; exists m', t; auto. }
    destruct (is_losing (st s 0)) eqn:W0.
    + exists (marks is_losing s). split.
      * intros m I. apply marks_in in I. destruct I as (i & I & <- & Wi). apply LOSE; auto. destruct (st s i); try discriminate; auto.
      * apply marks_in. exists 0. auto.
    + destruct FIN as [D|[Q B]]; [destruct (st s 0); discriminate|].
      set (P := fun c => openb c || is_losing c). exists (marks P s). split.
      * intros m I. apply marks_in in I. destruct I as (i & I & <- & Hi). unfold P in Hi. apply orb_true_iff in Hi. destruct Hi as [O|Wi].
        2:{ apply LOSE; auto. destruct (st s i); try discriminate; auto. }
        assert (OP : is_open (st s i)) by (destruct (st s i); try discriminate; red; auto).
        destruct (I_open _ _ _ _ _ _ _ _ _ _ _ _ IV i I (fun f => f) OP) as [_ (J1 & J2 & J3 & J4 & _)].
        right. split; [apply (new_reach _ ES); auto|].
        assert (ED : forall b c, In ((b, i), c) (edges s) -> In (mk s c) (marks P s)).
        { intros b c Hc. destruct (edge_open s r b i c IV Q B Hc) as [Lc Oc]. apply marks_in. exists c. unfold P. rewrite Oc. auto. }
        destruct OP as [OP|OP].
        -- right. left. destruct (J4 OP) as ((m1 & t1 & C1 & S1) & _ & J5). split; [eauto|]. intros t m' C S.
           destruct (J5 m' (ex_intro _ t (conj C S))) as (c & Q1 & <- & [Q3|[[_ ->]|Q3]]).
           ++ apply marks_in. exists c. unfold P. rewrite Q3. auto.
           ++ apply marks_in. exists i. unfold P. rewrite O. auto.
           ++ eapply ED; eauto.
        -- left. destruct (J3 OP) as [[c Hc] _]. destruct (I_edge _ _ _ _ _ _ _ _ _ _ _ _ IV _ _ _ Hc) as (_ & _ & _ & (t2 & C2 & S2) & _).
           exists t2, (mk s c). split; auto. split; auto. eapply ED; eauto.
      * apply marks_in. exists 0. split; auto. split; auto. unfold P. destruct (st s 0) eqn:S0; auto; try discriminate.
        specialize (Z1 eq_refl (fun f => f)). rewrite Q in Z1. destruct Z1.
Qed.
End OnNet.
