(** Synthesis: the computation ends (C35). *)
From Verif Require Import Base BaseLemmas NetSpec NetModel NetProofs StoreProofs SearchMain SynSpec SynModel SynGen SynGame SynTab SynInv SynRun SynMain.
From Coq Require Import Permutation.

Definition tally (f : nat -> nat) (n : nat) : nat := list_sum (map f (seq 0 n)).
Lemma tally_S : forall f n, tally f (S n) = tally f n + f n.
Proof. intros f n. unfold tally. rewrite seq_S, map_app. unfold list_sum. rewrite fold_right_app. cbn. generalize (map f (seq 0 n)). induction l; cbn; lia. Qed.
Lemma tally_le : forall f g n, (forall i, i < n -> f i <= g i) -> tally f n <= tally g n.
Proof. intros f g n. induction n as [|n IH]; intros H; [cbn; auto|]. rewrite !tally_S. specialize (H n) as Hn. assert (tally f n <= tally g n) by (apply IH; auto). specialize (Hn ltac:(lia)). lia. Qed.
Lemma tally_grow : forall f n n', n <= n' -> tally f n <= tally f n'.
Proof. intros f n n' H. induction H; auto. rewrite tally_S. lia. Qed.
Lemma tally_bound : forall f n, (forall i, f i <= 1) -> tally f n <= n.
Proof. intros f n H. induction n as [|n IH]; [cbn; auto|]. rewrite tally_S. specialize (H n). lia. Qed.
Lemma tally_lt : forall f g n x, x < n -> (forall i, i < n -> f i <= g i) -> f x < g x -> tally f n < tally g n.
Proof.
  intros f g n x. induction n as [|n IH]; intros X H HX; [lia|]. rewrite !tally_S. destruct (Nat.eq_dec x n) as [->|N].
  - assert (tally f n <= tally g n) by (apply tally_le; auto). lia.
  - assert (tally f n < tally g n) by (apply IH; auto; lia). specialize (H n ltac:(lia)). lia.
Qed.

Definition und (s : syn) : nat := tally (fun i => if det (st s i) then 0 else 1) (dom s).
Definition unk (c : cstate) : nat := match c with UNKNOWN => 0 | _ => 1 end.
Definition nexp (s : syn) : nat := tally (fun i => unk (st s i)) (dom s).

Lemma update_known : forall stc b a, c_st a <> UNKNOWN -> c_st (update stc b a) <> UNKNOWN.
Proof.
  intros stc b a H. unfold update. destruct b; cbv zeta; cbn [c_st c_ec c_cc];
    repeat match goal with |- context [if ?c then _ else _] => destruct c; cbn [c_st c_ec c_cc] end; try discriminate; auto.
Qed.
Lemma depender_meas : forall stc d s, snd d < dom s ->
  length (y_back (depender stc d s)) + und (depender stc d s) <= length (y_back s) + und s /\
  (forall i, st s i <> UNKNOWN -> st (depender stc d s) i <> UNKNOWN).
Proof.
  intros stc d s X. unfold depender. fold (st s (snd d)). destruct (det (st s (snd d))) eqn:D; [split; auto|]. cbv zeta.
  set (a1 := update stc (fst d) (cf s (snd d))). 
  assert (UK : st s (snd d) <> UNKNOWN -> c_st a1 <> UNKNOWN) by (apply update_known).
  assert (SS : forall c i, st (set_cf s (snd d) c) i = if Nat.eqb i (snd d) then c_st c else st s i).
  { intros c i. unfold st. destruct (Nat.eqb_spec i (snd d)) as [->|N]; [rewrite cf_set_eq|rewrite cf_set_neq]; auto. }
  assert (KN : forall c, c_st c = c_st a1 -> forall i, st s i <> UNKNOWN -> st (set_cf s (snd d) c) i <> UNKNOWN).
  { intros c Hc i H. rewrite SS. destruct (Nat.eqb_spec i (snd d)) as [->|N]; auto. rewrite Hc. auto. }
  assert (UD : forall c, und (set_cf s (snd d) c) <= und s /\ (det (c_st c) = true -> und (set_cf s (snd d) c) < und s)).
  { intros c. unfold und. rewrite dom_set. split; [|intros Dc].
    - apply tally_le. intros i _. rewrite SS. destruct (Nat.eqb_spec i (snd d)) as [->|N]; [rewrite D; destruct (det (c_st c)); auto|auto].
    - apply (tally_lt _ _ _ (snd d)); auto.
      + intros i _. rewrite SS. destruct (Nat.eqb_spec i (snd d)) as [->|N]; [rewrite D; destruct (det (c_st c)); auto|auto].
      + rewrite SS, Nat.eqb_refl, Dc, D. auto. }
  destruct (det (c_st a1)) eqn:D1.
  - set (c := mkCf (c_st a1) 2 (c_cc a1) (c_ec a1) (c_dep a1)). destruct (UD c) as [_ U]. specialize (U D1). destruct (c_wait a1 <? 2).
    + split; [|apply (KN c); auto]. change (und (push_back ?u ?v)) with (und u). cbn [push_back y_back length]. change (y_back (set_cf s (snd d) c)) with (y_back s). lia.
    + split; [|apply (KN c); auto]. change (y_back (set_cf s (snd d) c)) with (y_back s). lia.
  - split; [|apply (KN a1); auto]. destruct (UD a1) as [U _]. change (y_back (set_cf s (snd d) a1)) with (y_back s). lia.
Qed.

Section Run.
Variable safety : bool.
Variable pred : list N -> bool.
Variable kbound : N.
Variable okm : list N -> Prop.
Variable E C : list N -> list N -> Prop.
Variable lost : list N -> Prop.
Variable envs ctrls : list N -> list (nat * list N) * res unit.
Variable pick : nat -> list nat -> nat.
Hypothesis L_env : forall m m', E m m' -> lost m' -> lost m.
Hypothesis L_ctrl : forall m, has C m -> (forall m', C m m' -> lost m') -> lost m.
Hypothesis L_bad : forall m, safety = true -> new_state safety pred kbound m = LOSING -> lost m.
Hypothesis HE : stream_ok okm envs E.
Hypothesis HC : stream_ok okm ctrls C.
Variable marks : list (list N).
Hypothesis FIN : forall m, okm m -> In m marks.
Variable B : nat.
Hypothesis LB : forall m, okm m -> length (fst (envs m)) <= B /\ length (fst (ctrls m)) <= B.
Notation Inv := (Inv safety pred kbound okm E C lost).
Notation Good := (Good safety pred kbound okm E C lost).

Lemma dom_bound : forall s, base okm s -> dom s <= length marks.
Proof.
  intros s [ND OK]. unfold dom. rewrite <- (map_length fst). apply NoDup_incl_length; auto. intros m I. apply (In_nth _ _ []) in I. destruct I as (i & I & <-).
  rewrite <- mk_map. apply FIN, OK. unfold dom. rewrite map_length in I. auto.
Qed.

Lemma fold_meas : forall l next s, (forall d, In d l -> snd d < dom s) ->
  let s' := fold_left (fun s d => depender (c_st (cf s next)) d s) l s in
  length (y_back s') + und s' <= length (y_back s) + und s /\ (forall i, st s i <> UNKNOWN -> st s' i <> UNKNOWN).
Proof.
  induction l as [|d l IH]; intros next s H; cbn [fold_left]; cbv zeta; [split; auto|].
  assert (X : snd d < dom s) by (apply H; left; auto).
  destruct (depender_meas (c_st (cf s next)) d s X) as [M1 M2]. destruct (depender_keeps (c_st (cf s next)) d s X) as [D _].
  destruct (IH next (depender (c_st (cf s next)) d s)) as [J1 J2]; [intros e I; rewrite D; apply H; right; auto|]. split; [lia|auto].
Qed.
Lemma dependers_meas : forall next s, next < dom s -> (forall d, In d (c_dep (cf s next)) -> snd d < dom s) ->
  length (y_back (dependers_to_waiting next s)) + und (dependers_to_waiting next s) <= length (y_back s) + und s /\
  (forall i, st s i <> UNKNOWN -> st (dependers_to_waiting next s) i <> UNKNOWN).
Proof.
  intros next s NX H. unfold dependers_to_waiting. destruct (fold_meas _ next s H) as [M1 M2]. set (s1 := fold_left _ _ s) in *. cbv zeta. set (c := mkCf _ _ _ _ []).
  assert (SS : forall i, st (set_cf s1 next c) i = st s1 i).
  { intros i. unfold st. destruct (Nat.eq_dec next i) as [<-|N]; [|rewrite cf_set_neq; auto]. destruct (Nat.lt_ge_cases next (dom s1)) as [Lx|G]; [rewrite cf_set_eq; auto|].
    unfold cf. cbn [set_cf set_tab y_tab]. rewrite !nth_overflow; auto. rewrite upd_length; auto. }
  split.
  - change (y_back (set_cf s1 next c)) with (y_back s1). unfold und. rewrite dom_set. assert (Z : tally (fun i => if det (st (set_cf s1 next c) i) then 0 else 1) (dom s1) <= und s1).
    { apply tally_le. intros i _. rewrite SS. auto. } unfold und in *. lia.
  - intros i Hi. rewrite SS. auto.
Qed.
Lemma drain_term : forall n fuel s, Good s -> length (y_back s) + und s <= n -> n < fuel ->
  exists s', drain fuel s = Ok s' /\ (forall i, st s i <> UNKNOWN -> st s' i <> UNKNOWN).
Proof.
  induction n as [|n IH]; intros fuel s G M F; (destruct fuel as [|fuel]; [lia|]); cbn [drain]; destruct (y_back s) as [|next back] eqn:BK; eauto; [cbn in M; lia|].
  destruct G as [r IV]. destruct (I_back _ _ _ _ _ _ _ _ _ _ _ _ IV next) as [NX DN]; [rewrite BK; left; auto|].
  set (s0 := mkSyn (y_tab s) (y_queue s) back) in *.
  assert (IV0 : Inv never (is_x next) s0 (edges s0) r).
  { destruct IV as [A1 A2 A3 A4 A5 A6 A7 A8 A9 A10]. constructor; auto.
    - intros b x c I. destruct (A8 b x c I) as (Q1 & Q2 & Q3 & Q4 & Q5). repeat (split; auto). intros Dc. destruct (Q5 Dc) as [Q|[]]. rewrite BK in Q. destruct Q as [Q|Q]; auto.
      right. symmetry. exact Q.
    - intros c I. apply A9. rewrite BK. right. auto. }
  destruct (dependers_ok safety pred kbound okm E C lost L_env L_ctrl L_bad next s0 r IV0 NX DN) as (r' & IV' & _).
  destruct (dependers_meas next s0 NX) as [M1 M2].
  { intros [b x] I. apply (I_edge _ _ _ _ _ _ _ _ _ _ _ _ IV b x next). apply in_edges. auto. }
  assert (M3 : length (y_back s0) + und s0 = length back + und s) by reflexivity. cbn [length] in M.
  destruct (IH fuel (dependers_to_waiting next s0) (ex_intro _ r' IV')) as (s' & E1 & E2); [lia|lia|]. exists s'. split; [exact E1|].
  intros i Hi. apply E2. apply M2. exact Hi.
Qed.

Lemma nexp_mono : forall s s', dom s <= dom s' -> (forall i, i < dom s -> st s i <> UNKNOWN -> st s' i <> UNKNOWN) -> nexp s <= nexp s'.
Proof.
  intros s s' D H. unfold nexp. eapply Nat.le_trans; [|apply tally_grow; exact D]. apply tally_le. intros i I. specialize (H i I).
  destruct (st s i); cbn; try lia; destruct (st s' i); cbn; auto; exfalso; apply H; auto; discriminate.
Qed.
Lemma nexp_lt : forall s s' x, x < dom s -> dom s <= dom s' -> (forall i, i < dom s -> i <> x -> st s' i = st s i) -> st s x = UNKNOWN -> st s' x <> UNKNOWN -> nexp s < nexp s'.
Proof.
  intros s s' x X D H U K. unfold nexp. eapply Nat.lt_le_trans; [|apply tally_grow; exact D]. apply (tally_lt _ _ _ x); auto.
  - intros i I. destruct (Nat.eq_dec i x) as [->|N]; [rewrite U; cbn; lia|rewrite H; auto].
  - rewrite U. destruct (st s' x); cbn; auto; congruence.
Qed.
Lemma remove_length : forall i l, i < length l -> S (length (remove_at i l)) = length l.
Proof. intros i l H. unfold remove_at. rewrite app_length, firstn_length, skipn_length. lia. Qed.

Lemma main_term : forall n fuel turn s, Good s -> (2 * B + 1) * (length marks - nexp s) + length (y_queue s) <= n -> length (y_back s) <= 1 ->
  n + length marks + 2 < fuel -> main_loop safety pred kbound envs ctrls pick fuel turn s <> NoFuel.
Proof.
  induction n as [n IH] using lt_wf_ind. intros fuel turn s G M BK F. destruct fuel as [|fuel]; [lia|]. cbn [main_loop]. destruct (det (c_st (cf s 0))); [discriminate|].
  assert (U : und s <= length marks).
  { destruct G as [r IV]. eapply Nat.le_trans; [apply tally_bound; intros i; destruct (det (st s i)); lia|]. apply dom_bound. apply (I_base _ _ _ _ _ _ _ _ _ _ _ _ IV). }
  destruct (drain_term (S (length marks)) (S fuel) s G) as (s1 & DR & KN); [lia|lia|]. rewrite DR. cbn [bind].
  destruct (drain_ok safety pred kbound okm E C lost L_env L_ctrl L_bad _ _ _ G DR) as (G1 & BK1 & QE & EX & D1 & _).
  assert (NE : nexp s <= nexp s1) by (apply nexp_mono; [lia|auto]).
  assert (MM : (2 * B + 1) * (length marks - nexp s1) <= (2 * B + 1) * (length marks - nexp s)) by (apply Nat.mul_le_mono_l; lia).
  destruct (y_queue s1) as [|a q] eqn:Q; [discriminate|].
  rewrite <- Q. set (i := pick turn (y_queue s1) mod length (y_queue s1)). destruct G1 as [r IV].
  assert (LI : i < length (y_queue s1)) by (apply Nat.mod_upper_bound; rewrite Q; discriminate).
  destruct (pop_ok safety pred kbound okm E C lost pick s1 r i IV LI) as (IV2 & X & UX & WX & NQ). set (x := nth i (y_queue s1) 0) in *. set (s2 := mkSyn (y_tab s1) (remove_at i (y_queue s1)) (y_back s1)) in *. cbv zeta.
  fold (st s2 x). rewrite UX. cbn [det].
  assert (RL : S (length (y_queue s2)) = length (y_queue s1)) by (apply remove_length; auto). rewrite Q, QE in RL.
  assert (QL : length (a :: q) = length (y_queue s)) by (rewrite QE; auto).
  assert (NE2 : nexp s2 = nexp s1) by reflexivity.
  destruct (forallb (fun d => det (c_st (cf s2 (snd d)))) (c_dep (cf s2 x)) && negb (x =? 0)) eqn:FB.
  - apply andb_true_iff in FB. destruct FB as [FB NZ]. apply negb_true_iff, Nat.eqb_neq in NZ.
    pose proof (drop_ok safety pred kbound okm E C lost s2 r x IV2 X UX NQ FB NZ) as G3. set (s3 := set_cf s2 x _) in *.
    assert (NE3 : nexp s2 <= nexp s3).
    { apply nexp_mono; [unfold s3; rewrite dom_set; auto|]. intros j J K. unfold s3, st. destruct (Nat.eq_dec x j) as [<-|N]; [congruence|]. rewrite cf_set_neq; auto. }
    assert (M3 : (2 * B + 1) * (length marks - nexp s3) <= (2 * B + 1) * (length marks - nexp s)) by (apply Nat.mul_le_mono_l; lia).
    apply (IH (n - 1)); auto; try lia.
    + change (y_queue s3) with (y_queue s2). lia.
    + change (y_back s3) with (y_back s1). rewrite BK1. cbn; lia.
  - pose proof (expand_ok safety pred kbound okm E C lost envs ctrls pick L_env L_ctrl L_bad HE HC x s2 r IV2 X UX WX NQ) as EK.
    destruct (expand safety pred kbound envs ctrls x s2) as [s3| | |]; cbn [bind]; try discriminate; [|contradiction].
    destruct EK as (G3 & _ & W1 & W2 & W3 & W4 & W5).
    assert (OKX : okm (mk s2 x)) by (apply (I_base _ _ _ _ _ _ _ _ _ _ _ _ IV2); auto). destruct (LB _ OKX) as [B1 B2].
    pose proof (nexp_lt s2 s3 x X W1 W2 UX W3) as NL.
    assert (NB : nexp s3 <= length marks).
    { destruct G3 as [r3 IV3]. eapply Nat.le_trans; [apply tally_bound; intros j; destruct (st s3 j); cbn; lia|]. apply dom_bound. apply (I_base _ _ _ _ _ _ _ _ _ _ _ _ IV3). }
    assert (M3 : (2 * B + 1) * (length marks - nexp s3) + (2 * B + 1) <= (2 * B + 1) * (length marks - nexp s)).
    { replace ((2 * B + 1) * (length marks - nexp s3) + (2 * B + 1)) with ((2 * B + 1) * (S (length marks - nexp s3))) by lia. apply Nat.mul_le_mono_l. lia. }
    apply (IH (n - 1)); auto; try lia.
    change (y_back s2) with (y_back s1) in W5. rewrite BK1 in W5. cbn in W5. lia.
Qed.
End Run.

Theorem synthesis_ends : forall net safety pred k, layout net -> (N.of_nat (cn_ntrans net) < 2 ^ 32)%N -> mark_ok (cn_places net) (cn_init net) ->
  exists n, forall pick fuel, n <= fuel ->
    (exists s b, synthesize net safety pred k pick fuel = Ok (s, b)) \/
    (synthesize net safety pred k pick fuel = Throw /\
     exists m t tr, reachable (to_pnet net) (cn_init net) m /\ nth_error (pn_trans (to_pnet net)) t = Some tr /\ enabled tr m /\ overflows tr m).
Proof.
  intros net safety pred k L NT MI. destruct (marks_finite (cn_places net)) as [l HL].
  set (n := (2 * cn_ntrans net + 1) * length l + 1).
  exists (n + length l + 3). intros pick fuel F. rewrite run_start.
  assert (OV : forall m, okm net m -> snd (env_stream net m) = Throw \/ snd (ctrl_stream net m) = Throw ->
     exists m t tr, reachable (to_pnet net) (cn_init net) m /\ nth_error (pn_trans (to_pnet net)) t = Some tr /\ enabled tr m /\ overflows tr m).
  { intros m [M R] H. apply mark_ok_fits in M. destruct M as [M1 M2].
    assert (Z : forall ok, snd (game_stream (S (cn_ntrans net)) net ok m gen_prepare) = Throw -> exists t tr, nth_error (pn_trans (to_pnet net)) t = Some tr /\ enabled tr m /\ overflows tr m).
    { intros ok HT. destruct (@game_stream_ok net ok m L M1 M2) as (_ & _ & [[G _]|[_ (t & tr & _ & G1 & G2 & G3)]]); [congruence|eauto]. }
    destruct H as [H|H]; apply Z in H; destruct H as (t & tr & H1 & H2 & H3); exists m, t, tr; auto. }
  destruct (det (new_state safety pred k (cn_init net))) eqn:D.
  - destruct fuel as [|fuel]; [lia|]. cbn [main_loop]. change (c_st (cf (start net safety pred k) 0)) with (new_state safety pred k (cn_init net)). rewrite D. cbn. left. eauto.
  - pose proof (start_good net safety pred k NT MI D) as G.
    pose proof (main_loop_ok safety pred k (okm net) (Estep net) (Cstep net) (lost (to_pnet net) (controllable net) pred k) _ _ pick (Lenv net pred k) (Lctrl net pred k) (Lbad net safety pred k NT) (HEs net pred L NT) (HCs net pred L NT) fuel 0 _ G) as M.
    pose proof (main_term safety pred k (okm net) (Estep net) (Cstep net) (lost (to_pnet net) (controllable net) pred k) _ _ pick (Lenv net pred k) (Lctrl net pred k) (Lbad net safety pred k NT) (HEs net pred L NT) (HCs net pred L NT) l (fun m H => HL m (proj1 H)) (cn_ntrans net)) as T.
    assert (LB : forall m, okm net m -> length (fst (env_stream net m)) <= cn_ntrans net /\ length (fst (ctrl_stream net m)) <= cn_ntrans net).
    { intros m [M0 _]. apply mark_ok_fits in M0. destruct M0 as [M1 M2]. split; apply (@game_stream_ok net _ m L M1 M2). }
    specialize (T LB n fuel 0 _ G). 
    destruct (main_loop safety pred k (env_stream net) (ctrl_stream net) pick fuel 0 (start net safety pred k)) as [s2| | |]; cbn [bind].
    + left. eauto.
    + right. split; auto. destruct M as (m & O & H). eapply OV; eauto.
    + contradiction.
    + exfalso. apply T; [|cbn; lia|eapply Nat.lt_le_trans; [|exact F]; match goal with |- ?g => idtac g end; apply Nat.add_lt_mono_l; auto|reflexivity].
      assert (Q : (2 * cn_ntrans net + 1) * (length l - nexp (start net safety pred k)) <= (2 * cn_ntrans net + 1) * length l) by (apply Nat.mul_le_mono_l; lia).
      apply Nat.add_le_mono; [exact Q|]. cbn. lia.
Qed.
