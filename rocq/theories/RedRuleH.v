(** Rule H: the places of a loop of simple transitions are merged. *)
From Verif Require Import Base BaseLemmas NetSpec NetModel BuilderModel RedTheory RedSpec RedModel RedModelH RedProofs RedNet RedRules RedRuleJ RedAgg RedOps RedRuleA.
Set Implicit Arguments.

(** ** Merging two places between which tokens can be moved *)
Definition moved (x y : nat) (m : mk) : mk := fun q => (m q - (if Nat.eqb q x then 1 else 0) + (if Nat.eqb q y then 1 else 0))%N.
Definition moves (T : nat -> option atr) (x y : nat) : Prop := forall m, (1 <= m x)%N -> exists m', arun T m m' /\ ext m' (moved x y m).
Lemma moves_many : forall T x y, x <> y -> moves T x y -> forall k m, (N.of_nat k <= m x)%N ->
  exists m', arun T m m' /\ m' x = (m x - N.of_nat k)%N /\ m' y = (m y + N.of_nat k)%N /\ forall q, q <> x -> q <> y -> m' q = m q.
Proof.
  intros T x y Hxy M k. induction k as [|k IH]; intros m H.
  - exists m. split; [apply ar_nil, ext_refl|]. repeat split; try lia.
  - rewrite Nat2N.inj_succ in H. destruct (M m) as (m1 & R1 & E1); [lia|].
    assert (X1 : m1 x = (m x - 1)%N) by (rewrite E1; unfold moved; rewrite Nat.eqb_refl; destruct (Nat.eqb_spec x y); [contradiction|lia]).
    assert (Y1 : m1 y = (m y + 1)%N) by (rewrite E1; unfold moved; rewrite Nat.eqb_refl; destruct (Nat.eqb_spec y x); [congruence|lia]).
    destruct (IH m1) as (m2 & R2 & X2 & Y2 & O2); [lia|]. exists m2. split; [eapply arun_trans; eauto|]. rewrite Nat2N.inj_succ. split; [lia|]. split; [lia|].
    intros q Q1 Q2. rewrite (O2 q Q1 Q2), E1. unfold moved. destruct (Nat.eqb_spec q x); [contradiction|]. destruct (Nat.eqb_spec q y); [contradiction|lia].
Qed.
Definition glued (p1 p2 : nat) (f : nat -> N) : nat -> N := fun q => if Nat.eqb q p2 then 0%N else if Nat.eqb q p1 then (f p1 + f p2)%N else f q.
Definition glue (p1 p2 : nat) (t : atr) : atr := mkAtr (glued p1 p2 (a_in t)) (glued p1 p2 (a_out t)) (a_inh t).
Lemma merge_places : forall Q N N' i0 p1 p2, p1 <> p2 -> Q p1 = false -> Q p2 = false ->
  (forall t0, an_tr N i0 = Some t0 -> (forall q, a_in t0 q = if Nat.eqb q p1 then 1 else 0)%N /\ (forall q, a_out t0 q = if Nat.eqb q p2 then 1 else 0)%N) ->
  moves (an_tr N) p1 p2 -> moves (an_tr N) p2 p1 ->
  (forall i t, an_tr N i = Some t -> a_inh t p1 = None /\ a_inh t p2 = None) ->
  an_init N' p1 = (an_init N p1 + an_init N p2)%N -> (forall q, q <> p1 -> q <> p2 -> an_init N' q = an_init N q) ->
  (forall i t, an_tr N i = Some t -> i <> i0 -> exists t', an_tr N' i = Some t' /\ aeq (glue p1 p2 t) t') ->
  (forall i t', an_tr N' i = Some t' -> exists t, an_tr N i = Some t /\ aeq (glue p1 p2 t) t') ->
  same Q N N'.
Proof.
  intros Q N N' i0 p1 p2 Hne Q1 Q2 H0 M12 M21 Hi I1 Io H1 H2.
  set (R := fun m m' : mk => m' p1 = (m p1 + m p2)%N /\ forall q, q <> p1 -> q <> p2 -> m' q = m q).
  assert (E21 : Nat.eqb p2 p1 = false) by (apply Nat.eqb_neq; auto). assert (E12 : Nat.eqb p1 p2 = false) by (apply Nat.eqb_neq; auto).
  assert (RE : forall m m1 m', R m m' -> ext m1 m -> R m1 m') by (intros m m1 m' (A & B) X; split; [rewrite !X; exact A|intros q A1 A2; rewrite X; apply B; assumption]).
  split.
  - apply sim_rel with (R := R).
    + intros m Em. exists (an_init N'). split; [apply areach_init|]. apply (RE (an_init N)); [split; assumption|exact Em].
    + intros m m' i t m1 _ _ (A & B) Ht En X. destruct (Nat.eq_dec i i0) as [->|Hn].
      * exists m'. split; [apply ar_nil, ext_refl|]. destruct (H0 t Ht) as (F1 & F2). apply (RE (afire t m)); [|exact X]. pose proof (En p1) as (En1 & _). rewrite F1, Nat.eqb_refl in En1.
        split; unfold afire; [rewrite !F1, !F2, !Nat.eqb_refl, E12, E21, A; lia|]. intros q A1 A2. rewrite F1, F2. destruct (Nat.eqb_spec q p1); [contradiction|]. destruct (Nat.eqb_spec q p2); [contradiction|]. rewrite (B q A1 A2). lia.
      * destruct (H1 i t Ht Hn) as (t' & Ht' & G1 & G2 & G3). destruct (Hi i t Ht) as (J1 & J2). pose proof (En p1) as (En1 & _). pose proof (En p2) as (En2 & _). exists (afire t' m'). split.
        -- apply arun_one with (i := i) (t := t'); [exact Ht'| |apply ext_refl]. intros q. rewrite <- G1, <- G3. cbn [glue a_in a_inh]. unfold glued.
           destruct (Nat.eqb_spec q p2) as [->|D2]; [rewrite J2; split; [lia|discriminate]|]. destruct (Nat.eqb_spec q p1) as [->|D1]; [rewrite J1, A; split; [lia|discriminate]|]. rewrite (B q D1 D2). apply En.
        -- apply (RE (afire t m)); [|exact X]. split; unfold afire; rewrite <- ?G1, <- ?G2; cbn [glue a_in a_out]; unfold glued.
           ++ rewrite E12, Nat.eqb_refl, A. lia.
           ++ intros q D1 D2. rewrite <- G1, <- G2. cbn [glue a_in a_out]. unfold glued. destruct (Nat.eqb_spec q p2); [contradiction|]. destruct (Nat.eqb_spec q p1); [contradiction|]. rewrite (B q D1 D2). reflexivity.
    + intros m m' (A & B) q Hq. symmetry. apply B; intros ->; congruence.
  - apply sim_rel with (R := fun m' m => R m m').
    + intros m' Em. exists (an_init N). split; [apply areach_init|]. split; [rewrite Em; exact I1|intros q A1 A2; rewrite Em; apply Io; assumption].
    + intros m' m i t' m1' _ _ (A & B) Ht' En X. destruct (H2 i t' Ht') as (t & Ht & G1 & G2 & G3). destruct (Hi i t Ht) as (J1 & J2).
      pose proof (En p1) as (En1 & _). rewrite <- G1 in En1. cbn [glue a_in] in En1. unfold glued in En1. rewrite E12, Nat.eqb_refl, A in En1.
      assert (Pre : exists m0, arun (an_tr N) m m0 /\ R m0 m' /\ (a_in t p1 <= m0 p1)%N /\ (a_in t p2 <= m0 p2)%N).
      { destruct (N.le_gt_cases (a_in t p1) (m p1)) as [L1|L1].
        - destruct (N.le_gt_cases (a_in t p2) (m p2)) as [L2|L2].
          + exists m. split; [apply ar_nil, ext_refl|]. split; [split; assumption|]. split; assumption.
          + set (k := N.to_nat (a_in t p2 - m p2)). destruct (@moves_many _ p1 p2 Hne M12 k m) as (m0 & R0 & X0 & Y0 & O0); [unfold k; lia|]. exists m0. split; [exact R0|].
            split; [split; [rewrite X0, Y0, A; unfold k; lia|intros q D1 D2; rewrite (O0 q D1 D2); apply B; assumption]|]. rewrite X0, Y0. unfold k. lia.
        - set (k := N.to_nat (a_in t p1 - m p1)). destruct (@moves_many _ p2 p1 (not_eq_sym Hne) M21 k m) as (m0 & R0 & X0 & Y0 & O0); [unfold k; lia|]. exists m0. split; [exact R0|].
            split; [split; [rewrite X0, Y0, A; unfold k; lia|intros q D1 D2; rewrite (O0 q D2 D1); apply B; assumption]|]. rewrite X0, Y0. unfold k. lia. }
      destruct Pre as (m0 & R0 & (A0 & B0) & L1 & L2). exists (afire t m0). split.
      * eapply arun_trans; [exact R0|]. apply arun_one with (i := i) (t := t); [exact Ht| |apply ext_refl]. intros q. destruct (Nat.eq_dec q p1) as [->|D1]; [rewrite J1; split; [exact L1|discriminate]|].
        destruct (Nat.eq_dec q p2) as [->|D2]; [rewrite J2; split; [exact L2|discriminate]|]. rewrite <- (B0 q D1 D2). pose proof (En q) as Eq. rewrite <- G1, <- G3 in Eq. cbn [glue a_in a_inh] in Eq. unfold glued in Eq.
        destruct (Nat.eqb_spec q p2); [contradiction|]. destruct (Nat.eqb_spec q p1); [contradiction|]. exact Eq.
      * split.
        -- rewrite X. unfold afire. rewrite <- G1, <- G2. cbn [glue a_in a_out]. unfold glued. rewrite E12, Nat.eqb_refl, A0. lia.
        -- intros q D1 D2. rewrite X. unfold afire. rewrite <- G1, <- G2. cbn [glue a_in a_out]. unfold glued. destruct (Nat.eqb_spec q p2); [contradiction|]. destruct (Nat.eqb_spec q p1); [contradiction|]. rewrite (B0 q D1 D2). reflexivity.
    + intros m' m (A & B) q Hq. apply B; intros ->; congruence.
Qed.

(** ** Simple transitions and walks over them *)
Record edge (b : builder) (t x y : nat) : Prop := {
  e_live : live b t = true;
  e_pre : forall q, wt (bt_pre (tr_of b t)) q = if Nat.eqb q x then 1%N else 0%N;
  e_post : forall q, wt (bt_post (tr_of b t)) q = if Nat.eqb q y then 1%N else 0%N;
  e_ih : forall q, ih (bt_pre (tr_of b t)) q = None;
  e_fx : bp_inhib (pl_of b x) = false;
  e_fy : bp_inhib (pl_of b y) = false }.
Inductive walk (b : builder) : nat -> list nat -> nat -> Prop :=
| wk_nil : forall x, walk b x [] x
| wk_cons : forall x t y l z, edge b t x y -> walk b y l z -> walk b x (t :: l) z.
Lemma walk_app : forall b x l y, walk b x l y -> forall l' z, walk b y l' z -> walk b x (l ++ l') z.
Proof. intros b x l y H. induction H; intros; [assumption|]. cbn. econstructor; eauto. Qed.
Lemma walk_moves : forall b x l y, walk b x l y -> moves (an_tr (anet_of b)) x y.
Proof.
  intros b x l y H. induction H as [x|x t y l z E H IH]; intros m Hm.
  - exists m. split; [apply ar_nil, ext_refl|]. intros q. unfold moved. destruct (Nat.eqb_spec q x) as [->|_]; lia.
  - assert (En : aen (atr_of (tr_of b t)) m).
    { intros q. cbn [atr_of a_in a_inh]. rewrite (e_pre E), (e_ih E). split; [destruct (Nat.eqb_spec q x) as [->|_]; lia|discriminate]. }
    set (m1 := afire (atr_of (tr_of b t)) m).
    assert (M1 : forall q, m1 q = (m q - (if Nat.eqb q x then 1 else 0) + (if Nat.eqb q y then 1 else 0))%N) by (intros q; unfold m1, afire; cbn [atr_of a_in a_out]; rewrite (e_pre E), (e_post E); reflexivity).
    destruct (IH m1) as (m2 & R & X); [rewrite M1, Nat.eqb_refl; lia|]. exists m2. split; [eapply ar_cons; [apply tr_live; apply (e_live E)|exact En|apply ext_refl|exact R]|].
    intros q. rewrite X. unfold moved. rewrite M1. destruct (Nat.eqb q x), (Nat.eqb q y), (Nat.eqb q z); lia.
Qed.
Lemma edge_pre : forall b t x y, good b -> edge b t x y -> exists a l, bt_pre (tr_of b t) = a :: l /\ arc_place a = x /\ In a (bt_pre (tr_of b t)).
Proof.
  intros b t x y G E. destruct (bt_pre (tr_of b t)) as [|a l] eqn:P.
  - pose proof (e_pre E x) as H. rewrite P, Nat.eqb_refl in H. discriminate.
  - exists a, l. split; [reflexivity|]. split; [|left; reflexivity]. assert (Ha : In a (bt_pre (tr_of b t))) by (rewrite P; left; reflexivity).
    destruct (g_pre G t a Ha) as (_ & W & _). pose proof (in_get_arc _ a (g_spre G t) Ha) as Ga. pose proof (e_ih E (arc_place a)) as Hi. pose proof (e_pre E (arc_place a)) as Hp. unfold ih in Hi. unfold wt in Hp. rewrite Ga in Hi, Hp.
    destruct (arc_inhib a); [discriminate|]. destruct (Nat.eqb_spec (arc_place a) x); [assumption|lia].
Qed.
Lemma edge_post : forall b t x y, good b -> edge b t x y -> exists a l, bt_post (tr_of b t) = a :: l /\ arc_place a = y /\ In a (bt_post (tr_of b t)).
Proof.
  intros b t x y G E. destruct (bt_post (tr_of b t)) as [|a l] eqn:P.
  - pose proof (e_post E y) as H. rewrite P, Nat.eqb_refl in H. discriminate.
  - exists a, l. split; [reflexivity|]. split; [|left; reflexivity]. assert (Ha : In a (bt_post (tr_of b t))) by (rewrite P; left; reflexivity).
    destruct (g_post G t a Ha) as (_ & W & Hi). pose proof (in_get_arc _ a (g_spost G t) Ha) as Ga. pose proof (e_post E (arc_place a)) as Hp. unfold wt in Hp. rewrite Ga, Hi in Hp.
    destruct (Nat.eqb_spec (arc_place a) y); [assumption|lia].
Qed.
Lemma edge_skip : forall b t x y, good b -> edge b t x y -> bp_skip (pl_of b x) = false /\ bp_skip (pl_of b y) = false.
Proof.
  intros b t x y G E. destruct (edge_pre G E) as (a & l & _ & <- & Ha). destruct (edge_post G E) as (o & l' & _ & <- & Ho). split; [apply (g_pre G t a Ha)|apply (g_post G t o Ho)].
Qed.
Lemma simple_edge : forall b t, good b -> simple_tr b t = true -> exists x y, edge b t x y /\ x <> y.
Proof.
  intros b t G H. unfold simple_tr in H. apply andb_true_iff in H. destruct H as (Ht & H). apply negb_true_iff in Ht.
  destruct (bt_pre (tr_of b t)) as [|a [|]] eqn:P; try discriminate. destruct (bt_post (tr_of b t)) as [|o [|]] eqn:O; try discriminate.
  apply andb_true_iff in H. destruct H as (H & H5). apply andb_true_iff in H. destruct H as (H & H4). apply andb_true_iff in H. destruct H as (H & H3). apply andb_true_iff in H. destruct H as (H1 & H2).
  apply N.eqb_eq in H1, H2. apply negb_true_iff in H3, H4, H5. apply Nat.eqb_neq in H3.
  assert (Ha : In a (bt_pre (tr_of b t))) by (rewrite P; left; reflexivity). assert (Ho : In o (bt_post (tr_of b t))) by (rewrite O; left; reflexivity).
  pose proof (no_inh_t t G Ht a Ha) as Ia. destruct (g_post G t o Ho) as (_ & _ & Io).
  assert (W : forall (c : arc) q, wt [c] q = if Nat.eqb (arc_place c) q then (if arc_inhib c then 0%N else arc_weight c) else 0%N).
  { intros c q. rewrite wt_cons by (split; [intros z []|exact I]). reflexivity. }
  exists (arc_place a), (arc_place o). split; [|exact H3]. constructor; try assumption.
  - apply (@arc_live b t a G). left. exact Ha.
  - intros q. rewrite P, W, Ia, H1, Nat.eqb_sym. reflexivity.
  - intros q. rewrite O, W, Io, H2, Nat.eqb_sym. reflexivity.
  - intros q. rewrite P. unfold ih. cbn [get_arc]. destruct (arc_place a <? q); [reflexivity|]. destruct (Nat.eqb (arc_place a) q); [rewrite Ia|]; reflexivity.
Qed.

(** ** The merge *)
Record same_but_pre (x y : btrans) : Prop := { sq_post : bt_post y = bt_post x; sq_skip : bt_skip y = bt_skip x; sq_inh : bt_inhib y = bt_inhib x }.
Lemma sbq_refl : forall x, same_but_pre x x.
Proof. intros x. constructor; reflexivity. Qed.
Lemma ih_plus : forall l p w q, srt l -> (forall a, get_arc l p = Some a -> arc_inhib a = false) -> ih (plus_arc l p w) q = ih l q.
Proof.
  intros l p w q Hs Hi. unfold ih. rewrite get_plus by exact Hs. destruct (Nat.eqb_spec q p) as [->|_]; [|reflexivity]. destruct (get_arc l p) as [a|] eqn:E; cbn [arc_inhib]; [|reflexivity]. rewrite (Hi a eq_refl). reflexivity.
Qed.
Lemma wt_plus1 : forall l p w q, srt l -> (forall a, get_arc l p = Some a -> arc_inhib a = false) -> wt (plus_arc l p w) q = (wt l q + if Nat.eqb q p then w else 0)%N.
Proof.
  intros l p w q Hs Hi. unfold wt. rewrite get_plus by exact Hs. destruct (Nat.eqb_spec q p) as [->|_]; [|lia]. destruct (get_arc l p) as [a|] eqn:E; cbn [arc_inhib arc_weight]; [|reflexivity]. rewrite (Hi a eq_refl). reflexivity.
Qed.
Lemma place_no_inh : forall b p t a, good b -> bp_inhib (pl_of b p) = false -> in_arc b p t = Some a -> arc_inhib a = false.
Proof.
  intros b p t a G H E. destruct (arc_cons p t G E) as (_ & Ha & <-). destruct (arc_inhib a) eqn:I; [|reflexivity]. destruct (g_pre G t a Ha) as (_ & _ & X). destruct (X I). congruence.
Qed.
Lemma h_ins : forall p1 p2 l b, good b -> p1 <> p2 -> bp_skip (pl_of b p1) = false -> bp_inhib (pl_of b p1) = false -> bp_inhib (pl_of b p2) = false -> NoDup l ->
  (forall u, In u l -> In u (bp_cons (pl_of b p2))) ->
  fold_res (h_in p1 p2) l b = Throw \/
  exists b', fold_res (h_in p1 p2) l b = Ok b' /\ good b' /\ frame b b' /\ b_init b' = b_init b /\ same_flags b b' /\ pl_of b' p2 = pl_of b p2 /\
    (forall v, same_but_pre (tr_of b v) (tr_of b' v)) /\
    (forall v q, wt (bt_pre (tr_of b' v)) q = wt (bt_pre (tr_of b v)) q + (if existsb (Nat.eqb v) l then if Nat.eqb q p1 then wt (bt_pre (tr_of b v)) p2 else 0 else 0))%N /\
    (forall v q, ih (bt_pre (tr_of b' v)) q = ih (bt_pre (tr_of b v)) q).
Proof.
  intros p1 p2. induction l as [|u l IH]; intros b G Hne Hsk I1 I2 Hnd Hl.
  - right. exists b. split; [reflexivity|]. split; [exact G|]. split; [apply frame_refl|]. split; [reflexivity|]. split; [apply same_flags_refl|]. split; [reflexivity|]. split; [intros; apply sbq_refl|]. split; [intros; cbn; lia|reflexivity].
  - cbn [fold_res]. unfold h_in at 1 3. destruct (cons_arc p2 u G (Hl u (or_introl eq_refl))) as (a & E & Ha & Pa). rewrite E. cbn [some bind].
    destruct (g_pre G u a Ha) as (_ & Wa & _). assert (Lv : live b u = true) by (apply (@arc_live b u a G); left; exact Ha).
    assert (N1 : forall c, in_arc b p1 u = Some c -> arc_inhib c = false) by (intros c Hc; exact (place_no_inh p1 u G I1 Hc)).
    destruct (@add_in_ok b u p1 (arc_weight a) G Lv Hsk Wa N1) as [E1|(b1 & E1 & G1 & F1 & J1 & Fl1 & T1 & P1 & _)]; [rewrite E1; left; reflexivity|]. rewrite E1. cbn [bind]. inversion Hnd as [|x y Nd1 Nd2]; subst x y.
    assert (Pp2 : pl_of b1 p2 = pl_of b p2) by (apply P1; auto).
    destruct (IH b1 G1 Hne) as [E2|(b' & E2 & G2 & F2 & J2 & Fl2 & Pp & S2 & W2 & K2)].
    + rewrite (proj1 (Fl1 p1)). exact Hsk.
    + rewrite (proj2 (Fl1 p1)). exact I1.
    + rewrite (proj2 (Fl1 p2)). exact I2.
    + exact Nd2.
    + intros v Hv. rewrite Pp2. apply Hl. right. exact Hv.
    + left. exact E2.
    + right. exists b'. split; [exact E2|]. split; [exact G2|]. split; [eapply frame_trans; eauto|]. split; [congruence|]. split; [eapply same_flags_trans; eauto|]. split; [congruence|].
      assert (Wa2 : wt (bt_pre (tr_of b u)) p2 = arc_weight a) by (unfold wt; fold (in_arc b p2 u); rewrite E, (place_no_inh p2 u G I2 E); reflexivity).
      split; [|split].
      * intros v. destruct (S2 v) as [A B C]. rewrite T1 in A, B, C. destruct (Nat.eqb_spec v u) as [Ev|Ev]; [subst v|]; constructor; assumption.
      * intros v q. rewrite W2, T1. cbn [existsb]. destruct (Nat.eqb_spec v u) as [->|Hv]; cbn [orb]; [|reflexivity]. destruct (existsb (Nat.eqb u) l) eqn:Ex; [apply existsb_in in Ex; contradiction|].
        cbn [with_pre bt_pre]. rewrite wt_plus1; [|apply (g_spre G)|exact N1]. rewrite Wa2. destruct (Nat.eqb q p1); lia.
      * intros v q. rewrite K2, T1. destruct (Nat.eqb_spec v u) as [->|Hv]; [|reflexivity]. cbn [with_pre bt_pre]. apply ih_plus; [apply (g_spre G)|exact N1].
Qed.
Lemma h_outs : forall p1 p2 l b, good b -> p1 <> p2 -> bp_skip (pl_of b p1) = false -> NoDup l ->
  (forall u, In u l -> In u (bp_prod (pl_of b p2))) ->
  fold_res (h_out p1 p2) l b = Throw \/
  exists b', fold_res (h_out p1 p2) l b = Ok b' /\ good b' /\ frame b b' /\ b_init b' = b_init b /\ same_flags b b' /\
    (forall v, same_but_post (tr_of b v) (tr_of b' v)) /\
    (forall v q, wt (bt_post (tr_of b' v)) q = wt (bt_post (tr_of b v)) q + (if existsb (Nat.eqb v) l then if Nat.eqb q p1 then wt (bt_post (tr_of b v)) p2 else 0 else 0))%N.
Proof.
  intros p1 p2. induction l as [|u l IH]; intros b G Hne Hsk Hnd Hl.
  - right. exists b. split; [reflexivity|]. split; [exact G|]. split; [apply frame_refl|]. split; [reflexivity|]. split; [apply same_flags_refl|]. split; [intros; apply sbp_refl|]. intros; cbn; lia.
  - cbn [fold_res]. unfold h_out at 1 3. destruct (prod_arc p2 u G (Hl u (or_introl eq_refl))) as (a & E & Ha & Pa). rewrite E. cbn [some bind].
    destruct (g_post G u a Ha) as (_ & Wa & Ia). assert (Lv : live b u = true) by (apply (@arc_live b u a G); right; exact Ha).
    destruct (@add_out_ok b u p1 (arc_weight a) G Lv Hsk Wa) as [E1|(b1 & E1 & G1 & F1 & J1 & Fl1 & T1 & P1 & _)]; [rewrite E1; left; reflexivity|]. rewrite E1. cbn [bind]. inversion Hnd as [|x y Nd1 Nd2]; subst x y.
    assert (Pp2 : pl_of b1 p2 = pl_of b p2) by (apply P1; auto).
    destruct (IH b1 G1 Hne) as [E2|(b' & E2 & G2 & F2 & J2 & Fl2 & S2 & W2)].
    + rewrite (proj1 (Fl1 p1)). exact Hsk.
    + exact Nd2.
    + intros v Hv. rewrite Pp2. apply Hl. right. exact Hv.
    + left. exact E2.
    + right. exists b'. split; [exact E2|]. split; [exact G2|]. split; [eapply frame_trans; eauto|]. split; [congruence|]. split; [eapply same_flags_trans; eauto|].
      assert (Wa2 : wt (bt_post (tr_of b u)) p2 = arc_weight a) by (unfold wt; fold (out_arc b u p2); rewrite E, Ia; reflexivity).
      split.
      * intros v. destruct (S2 v) as [A B C]. rewrite T1 in A, B, C. destruct (Nat.eqb_spec v u) as [Ev|Ev]; [subst v|]; constructor; assumption.
      * intros v q. rewrite W2, T1. cbn [existsb]. destruct (Nat.eqb_spec v u) as [->|Hv]; cbn [orb]; [|reflexivity]. destruct (existsb (Nat.eqb u) l) eqn:Ex; [apply existsb_in in Ex; contradiction|].
        cbn [with_post bt_post]. rewrite wt_plus; [|apply (g_spost G)|intros x Hx; apply (g_post G u x Hx)]. rewrite Wa2. destruct (Nat.eqb q p1); lia.
Qed.
Lemma add_init_ok : forall b p v, p < length (b_init b) ->
  add_init b p v = Throw \/ exists b', add_init b p v = Ok b' /\ only_init b b' /\ forall q, init_at b' q = (if Nat.eqb q p then init_at b p + v else init_at b q)%N.
Proof.
  intros b p v Hp. unfold add_init, u32. destruct (init_at b p + v <? 4294967296)%N; cbn [bind]; [|left; reflexivity]. right. eexists. split; [reflexivity|]. split; [apply only_init_set|]. intros q. apply init_set. exact Hp.
Qed.
Lemma h_merge_ok : forall b prev p1 p2, good b -> edge b prev p1 p2 -> p1 <> p2 ->
  h_merge b prev p1 p2 = Throw \/
  exists b', h_merge b prev p1 p2 = Ok b' /\ good b' /\ frame b b' /\ live b' prev = false /\ (forall v, v <> prev -> live b' v = live b v) /\
    (forall v, v <> prev -> aeq (glue p1 p2 (atr_of (tr_of b v))) (atr_of (tr_of b' v))) /\
    init_at b' p1 = (init_at b p1 + init_at b p2)%N /\ (forall q, q <> p1 -> init_at b' q = init_at b q) /\
    (forall q, bp_inhib (pl_of b' q) = bp_inhib (pl_of b q)).
Proof.
  intros b prev p1 p2 G E Hne. unfold h_merge. destruct (proj1 (live_spec b prev) (e_live E)) as (Rt & Sk). destruct (edge_skip G E) as (Sk1 & Sk2).
  destruct (skip_transition_ok G Rt Sk) as (b1 & E1 & G1 & F1 & I1 & Fl1 & T1). rewrite E1. cbn [bind].
  destruct (@h_ins p1 p2 (bp_cons (pl_of b1 p2)) b1 G1 Hne) as [E2|(b2 & E2 & G2 & F2 & I2 & Fl2 & Pp2 & S2 & W2 & K2)]; [rewrite (proj1 (Fl1 p1)); exact Sk1|rewrite (proj2 (Fl1 p1)); apply (e_fx E)|rewrite (proj2 (Fl1 p2)); apply (e_fy E)|apply sorted_nodup, (g_scons G1)|auto|rewrite E2; left; reflexivity|].
  rewrite E2. cbn [bind]. pose proof (same_flags_trans Fl1 Fl2) as Fl12.
  destruct (@h_outs p1 p2 (bp_prod (pl_of b2 p2)) b2 G2 Hne) as [E3|(b3 & E3 & G3 & F3 & I3 & Fl3 & S3 & W3)]; [rewrite (proj1 (Fl12 p1)); exact Sk1|apply sorted_nodup, (g_sprod G2)|auto|rewrite E3; left; reflexivity|].
  rewrite E3. cbn [bind]. pose proof (same_flags_trans Fl12 Fl3) as Fl13. pose proof (frame_trans (frame_trans F1 F2) F3) as F13.
  assert (In3 : forall q, init_at b3 q = init_at b q) by (intros q; unfold init_at; rewrite I3, I2, I1; reflexivity).
  destruct (@add_init_ok b3 p1 (init_at b3 p2)) as [E4|(b4 & E4 & O4 & V4)].
  { rewrite (g_ni G3), <- (g_np G3). apply pl_range. rewrite (proj1 (Fl13 p1)). exact Sk1. }
  { rewrite E4. left. reflexivity. }
  rewrite E4. cbn [bind]. pose proof (only_init_good G3 O4) as G4. destruct (only_init_places O4) as (P4 & T4).
  destruct (@skip_place_ok b4 p2 G4) as (b5 & E5 & G5 & F5 & I5 & P5 & _ & P52 & T5); [rewrite P4, (proj1 (Fl13 p2)); exact Sk2|]. right. exists b5. split; [exact E5|]. split; [exact G5|].
  assert (F : frame b b5).
  { eapply frame_trans; [exact F13|]. eapply frame_trans; [|exact F5]. constructor; rewrite ?(oi_pn O4), ?(oi_tn O4), ?(oi_tr O4), ?(oi_pl O4); reflexivity. }
  split; [exact F|].
  assert (Sk5 : forall v, bt_skip (tr_of b5 v) = bt_skip (tr_of b1 v)) by (intros v; rewrite T5; unfold noplace; cbn [bt_skip]; rewrite T4, (sp_skip (S3 v)), (sq_skip (S2 v)); reflexivity).
  split; [unfold live; rewrite Sk5, T1, Nat.eqb_refl; cbn; apply andb_false_r|].
  split; [intros v Hv; unfold live; rewrite Sk5, T1, (f_nt F); destruct (Nat.eqb_spec v prev); [contradiction|reflexivity]|].
  assert (T1' : forall v, v <> prev -> tr_of b1 v = tr_of b v) by (intros v Hv; rewrite T1; destruct (Nat.eqb_spec v prev); [contradiction|reflexivity]).
  split; [|split; [|split]].
  - intros v Hv. rewrite T5. pose proof (without_noplace p2 v G4) as (X1 & X2 & X3).
    split; [|split]; intros q; rewrite <- ?X1, <- ?X2, <- ?X3; cbn [without glue a_in a_out a_inh atr_of]; unfold glued; destruct (Nat.eqb_spec q p2) as [->|Hq2]; try reflexivity.
    + rewrite T4, (sp_pre (S3 v)), W2, (T1' v Hv). destruct (existsb (Nat.eqb v) (bp_cons (pl_of b1 p2))) eqn:Ex.
      * destruct (Nat.eqb_spec q p1) as [->|_]; lia.
      * assert (Z : wt (bt_pre (tr_of b v)) p2 = 0%N).
        { apply wt_absent; [apply (g_spre G)|]. intros Hin. rewrite <- (T1' v Hv) in Hin. apply (g_cons G1) in Hin. apply existsb_in in Hin. congruence. }
        rewrite Z. destruct (Nat.eqb_spec q p1) as [->|_]; lia.
    + rewrite T4, W3, (sq_post (S2 v)), (T1' v Hv). destruct (existsb (Nat.eqb v) (bp_prod (pl_of b2 p2))) eqn:Ex.
      * destruct (Nat.eqb_spec q p1) as [->|_]; lia.
      * assert (Z : wt (bt_post (tr_of b v)) p2 = 0%N).
        { apply wt_absent; [apply (g_spost G)|]. intros Hin. rewrite <- (T1' v Hv), <- (sq_post (S2 v)) in Hin. apply (g_prod G2) in Hin. apply existsb_in in Hin. congruence. }
        rewrite Z. destruct (Nat.eqb_spec q p1) as [->|_]; lia.
    + unfold ih. destruct (get_arc (bt_pre (tr_of b v)) p2) as [a|] eqn:Ea; [|reflexivity]. rewrite (place_no_inh p2 v G (e_fy E) Ea). reflexivity.
    + rewrite T4, (sp_pre (S3 v)), K2, (T1' v Hv). reflexivity.
  - unfold init_at at 1. rewrite I5. fold (init_at b4 p1). rewrite V4, Nat.eqb_refl, !In3. reflexivity.
  - intros q Hq. unfold init_at at 1. rewrite I5. fold (init_at b4 q). rewrite V4. destruct (Nat.eqb_spec q p1); [contradiction|]. apply In3.
  - intros q. destruct (Nat.eq_dec q p2) as [->|Hq]; [rewrite P52|rewrite (P5 q Hq)]; rewrite P4; apply Fl13.
Qed.
Definition img (p1 p2 z : nat) : nat := if Nat.eqb z p2 then p1 else z.
Lemma edge_merge : forall b b' prev p1 p2 t x y, edge b prev p1 p2 -> p1 <> p2 -> (forall v, v <> prev -> live b' v = live b v) ->
  (forall v, v <> prev -> aeq (glue p1 p2 (atr_of (tr_of b v))) (atr_of (tr_of b' v))) -> (forall q, bp_inhib (pl_of b' q) = bp_inhib (pl_of b q)) ->
  edge b t x y -> t <> prev -> edge b' t (img p1 p2 x) (img p1 p2 y).
Proof.
  intros b b' prev p1 p2 t x y E0 Hne L A Fl E Ht. destruct (A t Ht) as (A1 & A2 & A3). cbn [glue a_in a_out a_inh atr_of] in A1, A2, A3.
  assert (Gl : forall z f, (forall q, f q = if Nat.eqb q z then 1%N else 0%N) -> forall q, glued p1 p2 f q = if Nat.eqb q (img p1 p2 z) then 1%N else 0%N).
  { intros z f Hf q. unfold glued, img. rewrite !Hf. destruct (Nat.eqb_spec z p2) as [->|Hz].
    - destruct (Nat.eqb_spec q p2) as [->|Hq2]; [destruct (Nat.eqb_spec p2 p1); [congruence|reflexivity]|]. destruct (Nat.eqb_spec q p1) as [->|Hq1]; [|reflexivity]. destruct (Nat.eqb_spec p1 p2); [contradiction|]. rewrite Nat.eqb_refl. reflexivity.
    - destruct (Nat.eqb_spec q p2) as [->|Hq2]; [destruct (Nat.eqb_spec p2 z); [congruence|reflexivity]|]. destruct (Nat.eqb_spec q p1) as [->|Hq1]; [|reflexivity]. destruct (Nat.eqb_spec p2 z); [congruence|]. lia. }
  constructor.
  - rewrite (L t Ht). apply (e_live E).
  - intros q. rewrite <- A1. apply Gl. apply (e_pre E).
  - intros q. rewrite <- A2. apply Gl. apply (e_post E).
  - intros q. rewrite <- A3. apply (e_ih E).
  - unfold img. rewrite Fl. destruct (Nat.eqb x p2); [apply (e_fx E0)|apply (e_fx E)].
  - unfold img. rewrite Fl. destruct (Nat.eqb y p2); [apply (e_fx E0)|apply (e_fy E)].
Qed.
Lemma edge_ends : forall b t x y x' y', edge b t x y -> edge b t x' y' -> x = x' /\ y = y'.
Proof.
  intros b t x y x' y' E E'. split.
  - pose proof (e_pre E x) as A. rewrite (e_pre E'), Nat.eqb_refl in A. destruct (Nat.eqb_spec x x'); [assumption|discriminate].
  - pose proof (e_post E y) as A. rewrite (e_post E'), Nat.eqb_refl in A. destruct (Nat.eqb_spec y y'); [assumption|discriminate].
Qed.
Lemma h_removed_true : forall inq ltl rest b p1 prev b' r, h_remove inq ltl b p1 prev rest true = Ok (b', r) -> r = true.
Proof.
  intros inq ltl. induction rest as [|t rest IH]; intros b p1 prev b' r H; cbn [h_remove] in H; [injection H as _ <-; reflexivity|].
  destruct (bt_pre (tr_of b t)) as [|a l]; [discriminate|]. destruct (inq (arc_place a) || inq p1); [eapply IH; exact H|]. destruct (Nat.eqb p1 (arc_place a)); [eapply IH; exact H|].
  destruct (negb ltl && h_touches inq b p1 (arc_place a)); [eapply IH; exact H|]. destruct (h_merge b prev p1 (arc_place a)); try discriminate. cbn [bind] in H. eapply IH; exact H.
Qed.
Definition h_result (inq : nat -> bool) (b : builder) (r : res (builder * bool)) : Prop :=
  match r with
  | Ok (b', f) => good b' /\ same_views inq b b' /\ (f = false -> b' = b)
  | Throw => True
  | UB | NoFuel => False
  end.
Lemma h_remove_ok : forall inq ltl rest b p1 prev removed e back, good b -> walk b p1 (prev :: rest) e -> NoDup (prev :: rest) -> walk b e back p1 ->
  h_result inq b (h_remove inq ltl b p1 prev rest removed).
Proof.
  intros inq ltl. induction rest as [|t rest IH]; intros b p1 prev removed e back G W Nd Bk; cbn [h_remove h_result].
  { split; [exact G|]. split; [apply same_views_refl|reflexivity]. }
  inversion W as [|x0 t0 p2 l0 z0 E W2]; subst x0 t0 l0 z0. pose proof W2 as W2'. inversion W2' as [|x0 t0 p3 l0 z0 Et W3]; subst x0 t0 l0 z0.
  destruct (edge_pre G Et) as (a & l & Pa & Ea & _). rewrite Pa, Ea. inversion Nd as [|x0 l0 Nd1 Nd2]; subst x0 l0.
  assert (Next : walk b e (back ++ [prev]) p2) by (eapply walk_app; [exact Bk|]; econstructor; [exact E|constructor]).
  destruct (inq p2 || inq p1) eqn:Hq; [eapply IH; eauto|]. apply orb_false_iff in Hq. destruct Hq as (Q2 & Q1).
  destruct (Nat.eqb_spec p1 p2) as [Eq|Hne]; [eapply IH; [exact G|rewrite Eq; exact W2|exact Nd2|exact Bk]|].
  destruct (negb ltl && h_touches inq b p1 p2); [eapply IH; eauto|].
  destruct (h_merge_ok G E Hne) as [Em|(b' & Em & G' & F' & Lp & Lo & A & I1 & Io & Fl)]; rewrite Em; cbn [bind]; [exact I|].
  assert (EM : forall u x y, edge b u x y -> u <> prev -> edge b' u (img p1 p2 x) (img p1 p2 y)) by (intros u x y H1 H2; eapply edge_merge; eauto).
  assert (i1 : img p1 p2 p1 = p1) by (unfold img; destruct (Nat.eqb_spec p1 p2); reflexivity). assert (i2 : img p1 p2 p2 = p1) by (unfold img; rewrite Nat.eqb_refl; reflexivity).
  assert (Wk : forall u k v, walk b u k v -> ~ In prev k -> walk b' (img p1 p2 u) k (img p1 p2 v)).
  { intros u k v H. induction H as [u|u s v k z Es H IH']; intros Hn; [constructor|]. econstructor; [apply EM; [exact Es|intros ->; apply Hn; left; reflexivity]|]. apply IH'. intros X. apply Hn. right. exact X. }
  assert (Pt : forall u k v, walk b u k v -> exists k', walk b' (img p1 p2 u) k' (img p1 p2 v)).
  { intros u k v H. induction H as [u|u s v k z Es H (k' & IH')]; [exists []; constructor|]. destruct (Nat.eq_dec s prev) as [->|Hs].
    - destruct (edge_ends Es E) as (-> & ->). rewrite i1. rewrite i2 in IH'. exists k'. exact IH'.
    - exists (s :: k'). econstructor; [apply EM; [exact Es|exact Hs]|exact IH']. }
  destruct (Pt _ _ _ Bk) as (back' & Bk'). rewrite i1 in Bk'. pose proof (Wk _ _ _ W2 Nd1) as W2''. rewrite i2 in W2''.
  assert (V : same_views inq b b').
  { apply same_views_intro; [exact G|exact G'|]. apply merge_places with (i0 := prev) (p1 := p1) (p2 := p2); try assumption.
    - intros t0 H0. apply live_tr in H0. destruct H0 as (-> & _). split; [apply (e_pre E)|apply (e_post E)].
    - apply walk_moves with (l := [prev]). econstructor; [exact E|constructor].
    - apply walk_moves with (l := (t :: rest) ++ back). eapply walk_app; eauto.
    - intros i x Hx. split; [apply (@no_inh_p b p1 G (e_fx E) i x Hx)|apply (@no_inh_p b p2 G (e_fy E) i x Hx)].
    - intros q D1 _. apply Io. exact D1.
    - intros i x Hx Hi. apply live_tr in Hx. destruct Hx as (-> & Hl). exists (atr_of (tr_of b' i)). split; [apply tr_live; rewrite (Lo i Hi); exact Hl|apply A; exact Hi].
    - intros i x Hx. apply live_tr in Hx. destruct Hx as (-> & Hl). assert (Hi : i <> prev) by (intros ->; congruence). exists (atr_of (tr_of b i)). split; [apply tr_live; rewrite <- (Lo i Hi); exact Hl|apply A; exact Hi]. }
  pose proof (IH b' p1 t true (img p1 p2 e) back' G' W2'' Nd2 Bk') as R. unfold h_result in R |- *. destruct (h_remove inq ltl b' p1 t rest true) as [[b'' r]| | |] eqn:Hr; try exact R.
  destruct R as (R1 & R2 & _). split; [exact R1|]. split; [eapply same_views_trans; eauto|]. intros ->. apply h_removed_true in Hr. discriminate.
Qed.

(** ** The search *)
Lemma from_first_spec : forall t l, In t l -> exists l1 l2, l = l1 ++ t :: l2 /\ from_first t l = t :: l2.
Proof.
  intros t. induction l as [|x l IH]; intros H; [destruct H|]. cbn [from_first]. destruct (Nat.eqb_spec x t) as [->|Hx]; [exists [], l; split; reflexivity|].
  destruct H as [H|H]; [congruence|]. destruct (IH H) as (l1 & l2 & E & F). exists (x :: l1), l2. rewrite E at 1. split; [reflexivity|exact F].
Qed.
Lemma nodup_tail : forall (l1 l2 : list nat), NoDup (l1 ++ l2) -> NoDup l2.
Proof. induction l1 as [|x l1 IH]; intros l2 H; [exact H|]. inversion H; subst. apply IH. assumption. Qed.
Lemma walk_split : forall b l1 x l2 z, walk b x (l1 ++ l2) z -> exists y, walk b x l1 y /\ walk b y l2 z.
Proof.
  intros b. induction l1 as [|t l1 IH]; intros x l2 z H; [exists x; split; [constructor|exact H]|]. cbn in H. inversion H as [|x0 t0 y l0 z0 E W]; subst x0 t0 l0 z0.
  destruct (IH _ _ _ W) as (y' & A & B). exists y'. split; [econstructor; eauto|exact B].
Qed.
Lemma cons_edge : forall b t x y q, good b -> edge b t x y -> In t (bp_cons (pl_of b q)) -> q = x.
Proof.
  intros b t x y q G E H. destruct (cons_arc q t G H) as (a & Ea & Ha & _). destruct (g_pre G t a Ha) as (_ & Wa & _). pose proof (e_pre E q) as P. pose proof (e_ih E q) as I0. unfold wt in P. unfold ih in I0. fold (in_arc b q t) in P, I0. rewrite Ea in P, I0.
  destruct (arc_inhib a); [discriminate|]. destruct (Nat.eqb_spec q x); [assumption|lia].
Qed.
Record h_inv (b : builder) (stack fl : list nat) : Prop := {
  hi_walk : forall it below, stack = it :: below -> exists s y, walk b s (rev stack) y /\ exists x, edge b it x y;
  hi_nodup : NoDup stack;
  hi_on : forall t, nth t fl 0 = 1 <-> In t stack;
  hi_len : length fl = length (b_trans b) }.
Lemma nth_upd_nat : forall (l : list nat) i v j, i < length l -> nth j (upd l i v) 0 = if Nat.eqb j i then v else nth j l 0.
Proof.
  intros l i v j Hi. destruct (Nat.eqb_spec j i) as [->|Hj]; [rewrite nth_upd_eq by exact Hi; reflexivity|]. rewrite nth_upd_neq by auto. reflexivity.
Qed.
Fixpoint weigh (l : list nat) : nat := match l with [] => 0 | f :: l' => (2 - f) + weigh l' end.
Lemma weigh_upd : forall l i v, i < length l -> nth i l 0 < v <= 2 -> weigh (upd l i v) < weigh l.
Proof.
  induction l as [|f l IH]; intros i v Hi Hv; [cbn in Hi; lia|]. destruct i as [|i]; cbn [upd nth weigh length] in *; [lia|]. specialize (IH i v ltac:(lia) Hv). lia.
Qed.
Definition h_ok (inq : nat -> bool) (b : builder) (it : nat) (stack fl : list nat) (y : nat) (r : res h_scanned) : Prop :=
  match r with
  | Ok (HMerged b') => good b' /\ same_views inq b b'
  | Ok (HPush t fl') => ~ In t stack /\ h_inv b (t :: stack) fl' /\ weigh fl' < weigh fl
  | Ok (HDone fl') => h_inv b stack fl' /\ weigh fl' <= weigh fl
  | Throw => True
  | UB | NoFuel => False
  end.
Lemma h_scan_ok : forall inq ltl b it below y l, good b -> (exists s x, walk b s (rev (it :: below)) y /\ edge b it x y) ->
  forall fl, h_inv b (it :: below) fl -> (forall t, In t l -> In t (bp_cons (pl_of b y))) ->
  h_ok inq b it (it :: below) fl y (h_scan inq ltl b it (it :: below) fl l).
Proof.
  intros inq ltl b it below y l G (s & x & W & E). induction l as [|nt l IH]; intros fl H Hl; cbn [h_scan h_ok]; [split; [exact H|lia]|].
  assert (IH' : forall fl', h_inv b (it :: below) fl' -> weigh fl' <= weigh fl -> h_ok inq b it (it :: below) fl y (h_scan inq ltl b it (it :: below) fl' l)).
  { intros fl' H' Hw. pose proof (IH fl' H' (fun t Ht => Hl t (or_intror Ht))) as R. unfold h_ok in *. destruct (h_scan inq ltl b it (it :: below) fl' l) as [[b'|t fl''|fl'']| | |]; try exact R.
    - destruct R as (R1 & R2 & R3). split; [exact R1|]. split; [exact R2|lia].
    - destruct R as (R1 & R2). split; [exact R1|lia]. }
  destruct (Nat.eqb nt it || bt_skip (tr_of b nt)) eqn:C1; [apply IH'; [exact H|lia]|]. apply orb_false_iff in C1. destruct C1 as (C1 & C2). apply Nat.eqb_neq in C1.
  pose proof (Hl nt (or_introl eq_refl)) as Hc. destruct (cons_arc y nt G Hc) as (a & _ & Ha & _). pose proof (in_pre_range _ _ _ Ha) as Rn.
  destruct (Nat.eqb (nth nt fl 0) 1 && (1 <? length (it :: below))) eqn:C3.
  - apply andb_true_iff in C3. destruct C3 as (C3 & _). apply Nat.eqb_eq in C3. apply (hi_on H) in C3. unfold h_loop.
    destruct (from_first_spec nt (rev (it :: below))) as (l1 & l2 & E1 & E2); [apply in_rev in C3; exact C3|]. rewrite E2. rewrite E1 in W. destruct (walk_split _ _ W) as (z & _ & W2).
    inversion W2 as [|x0 t0 y0 l0 z0 En W3]; subst x0 t0 l0 z0. pose proof (cons_edge y G En Hc) as Ez. subst z. destruct (edge_pre G En) as (a' & k' & Pa & Pe & _). rewrite Pa, Pe.
    assert (Nd : NoDup (nt :: l2)). { pose proof (hi_nodup H) as Nd. apply NoDup_rev in Nd. rewrite E1 in Nd. apply (@nodup_tail _ _ Nd). }
    pose proof (@h_remove_ok inq ltl l2 b y nt false y [] G W2 Nd (wk_nil b y)) as R. unfold h_result in R. destruct (h_remove inq ltl b y nt l2 false) as [[b' r]| | |]; cbn [bind]; try exact R.
    destruct R as (R1 & R2 & R3). destruct r; [split; assumption|]. rewrite (R3 eq_refl). apply IH'; [exact H|lia].
  - destruct (Nat.eqb_spec (nth nt fl 0) 0) as [C4|C4].
    + assert (Hni : ~ In nt (it :: below)) by (intros X; apply (hi_on H) in X; lia). assert (Rf : nt < length fl) by (rewrite (hi_len H); exact Rn).
      destruct (simple_tr b nt) eqn:Sm.
      * split; [exact Hni|]. split; [|apply weigh_upd; lia]. destruct (simple_edge nt G Sm) as (x' & y' & En & _). pose proof (cons_edge y G En Hc) as Ez. subst x'. constructor.
        -- intros it' below' Eq. injection Eq as <- <-. exists s, y'. split; [|exists y; exact En]. cbn [rev]. apply walk_app with (y := y); [exact W|]. econstructor; [exact En|constructor].
        -- constructor; [exact Hni|apply (hi_nodup H)].
        -- intros t. rewrite nth_upd_nat by exact Rf. destruct (Nat.eqb_spec t nt) as [->|Ht]; [split; [left; reflexivity|reflexivity]|]. rewrite (hi_on H). split; [intros X; right; exact X|intros [X|X]; [congruence|exact X]].
        -- rewrite upd_length. apply (hi_len H).
      * apply IH'; [|pose proof (@weigh_upd fl nt 2 Rf ltac:(lia)); lia]. constructor; [apply (hi_walk H)|apply (hi_nodup H)| |rewrite upd_length; apply (hi_len H)].
        intros t. rewrite nth_upd_nat by exact Rf. destruct (Nat.eqb_spec t nt) as [->|Ht]; [split; [discriminate|intros X; contradiction]|apply (hi_on H)].
    + apply IH'; [exact H|lia].
Qed.
Lemma walk_nil_inv : forall b x y, walk b x [] y -> x = y.
Proof. intros b x y H. inversion H. reflexivity. Qed.
Lemma h_search_ok : forall inq ltl fuel b stack fl, good b -> h_inv b stack fl -> weigh fl < fuel -> sound_result inq b (h_search inq ltl fuel b stack fl).
Proof.
  intros inq ltl. induction fuel as [|fuel IH]; intros b stack fl G H Hf; [lia|]. cbn [h_search]. destruct stack as [|it below]; [apply result_refl; exact G|].
  destruct (hi_walk H eq_refl) as (s & y & W & x & E). destruct (edge_post G E) as (o & l & Po & Eo & _). rewrite Po, Eo.
  pose proof (@h_scan_ok inq ltl b it below y (bp_cons (pl_of b y)) G (ex_intro _ s (ex_intro _ x (conj W E))) fl H (fun t Ht => Ht)) as R. unfold h_ok in R.
  destruct (h_scan inq ltl b it (it :: below) fl (bp_cons (pl_of b y))) as [[b'|t fl'|fl']| | |]; cbn [bind sound_result]; try exact R.
  - destruct R as (R1 & R2 & R3). apply IH; [exact G|exact R2|lia].
  - destruct R as (R1 & R2). assert (Rt : it < length fl') by (rewrite (hi_len R1); destruct (edge_post G E) as (o' & _ & _ & _ & Ho'); eapply in_post_range; exact Ho').
    assert (On : nth it fl' 0 = 1) by (apply (hi_on R1); left; reflexivity).
    apply IH; [exact G| |pose proof (@weigh_upd fl' it 2 Rt ltac:(lia)); lia]. pose proof (hi_nodup R1) as Nd. inversion Nd as [|x0 l0 Nd1 Nd2]; subst x0 l0. constructor.
    + intros it' below' ->. cbn [rev] in W. destruct (walk_split _ _ W) as (y1 & W1 & _). exists s, y1. split; [exact W1|]. cbn [rev] in W1. destruct (walk_split _ _ W1) as (z1 & _ & W2). inversion W2 as [|x0 t0 y0 l0 z0 En W3]; subst x0 t0 l0 z0. apply walk_nil_inv in W3. subst y0. exists z1. exact En.
    + exact Nd2.
    + intros t. rewrite nth_upd_nat by exact Rt. destruct (Nat.eqb_spec t it) as [->|Ht]; [split; [discriminate|intros X; contradiction]|]. rewrite (hi_on R1). split; [intros [X|X]; [congruence|exact X]|intros X; right; exact X].
    + rewrite upd_length. apply (hi_len R1).
Qed.
Lemma weigh_zero : forall n, weigh (repeat 0 n) = 2 * n.
Proof. induction n as [|n IH]; [reflexivity|]. cbn [repeat weigh]. rewrite IH. lia. Qed.
Lemma nth_repeat0 : forall n i, nth i (repeat 0 n) 0 = 0.
Proof. induction n as [|n IH]; intros [|i]; cbn; auto. Qed.
Theorem rule_h_ok : forall inq ltl b t, good b -> sound_result inq b (rule_h inq ltl b t).
Proof.
  intros inq ltl b t G. unfold rule_h. destruct (bt_skip (tr_of b t)); [apply result_refl; exact G|]. destruct (simple_tr b t) eqn:Sm; cbn [negb]; [|apply result_refl; exact G]. cbv zeta.
  destruct (simple_edge t G Sm) as (x & y & E & _). assert (Rt : t < length (repeat 0 (length (b_trans b)))) by (rewrite repeat_length; apply live_spec; apply (e_live E)).
  apply h_search_ok; [exact G| |].
  - constructor.
    + intros it below Eq. injection Eq as <- <-. exists x, y. split; [econstructor; [exact E|constructor]|exists x; exact E].
    + constructor; [intros []|constructor].
    + intros u. rewrite nth_upd_nat by exact Rt. destruct (Nat.eqb_spec u t) as [->|Hu]; [split; [left; reflexivity|reflexivity]|]. rewrite nth_repeat0. split; [discriminate|intros [X|[]]; congruence].
    + rewrite upd_length, repeat_length. reflexivity.
  - pose proof (@weigh_upd _ t 1 Rt) as X. rewrite nth_repeat0, weigh_zero in X. specialize (X ltac:(lia)). lia.
Qed.
