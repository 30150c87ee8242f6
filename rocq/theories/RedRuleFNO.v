(** Rules F, N and O: consumptions that are always possible, inhibitors that always inhibit. *)
From Verif Require Import Base BaseLemmas NetSpec NetModel BuilderModel RedTheory RedSpec RedModel RedProofs RedNet RedRules RedRuleJ RedAgg RedOps.
Set Implicit Arguments.

(** ** Nets whose transitions agree on the reachable markings *)
Lemma rework : forall Q N N', ext (an_init N) (an_init N') ->
  (forall i t', an_tr N' i = Some t' -> exists t, an_tr N i = Some t) ->
  (forall i t m, an_tr N i = Some t -> areach N m ->
     match an_tr N' i with
     | None => ~ aen t m
     | Some t' => (aen t m <-> aen t' m) /\ (aen t m -> ext (afire t m) (afire t' m))
     end) -> same Q N N'.
Proof.
  intros Q N N' Ei Sub H. apply same_steps; [exact Ei| |].
  - intros m m1 R (i & t & Ht & En & X). specialize (H i t m Ht R). destruct (an_tr N' i) as [t'|] eqn:E; [|contradiction]. destruct H as (H1 & H2).
    apply arun_one with (i := i) (t := t'); [exact E|apply H1; exact En|]. eapply ext_trans; [exact X|apply H2; exact En].
  - intros m m1 R (i & t' & Ht & En & X). destruct (Sub i t' Ht) as (t & Ht0). specialize (H i t m Ht0 R). rewrite Ht in H. destruct H as (H1 & H2). apply H1 in En.
    apply arun_one with (i := i) (t := t); [exact Ht0|exact En|]. eapply ext_trans; [exact X|]. apply ext_sym. apply H2. exact En.
Qed.
(** the arcs at [p] replaced by their joint effect *)
Definition acut (p : nat) (t : atr) : atr :=
  mkAtr (fun q => if Nat.eqb q p then 0%N else a_in t q) (fun q => if Nat.eqb q p then (a_out t q - a_in t q)%N else a_out t q) (fun q => if Nat.eqb q p then None else a_inh t q).
Lemma acut_en : forall p t t' m, aeq (acut p t) t' -> (a_in t p <= m p)%N -> (forall w, a_inh t p = Some w -> m p < w)%N -> (aen t m <-> aen t' m).
Proof.
  intros p t t' m (E1 & _ & E3) H1 H2. unfold aen. split; intros H q; specialize (H q).
  - rewrite <- E1, <- E3. cbn [acut a_in a_inh]. destruct (Nat.eqb_spec q p) as [->|_]; [split; [lia|discriminate]|exact H].
  - rewrite <- E1, <- E3 in H. cbn [acut a_in a_inh] in H. destruct (Nat.eqb_spec q p) as [Eq|_]; [subst q; split; assumption|exact H].
Qed.
Lemma acut_fire : forall p t t' m, aeq (acut p t) t' -> (a_in t p <= a_out t p)%N -> aen t m -> ext (afire t m) (afire t' m).
Proof.
  intros p t t' m (E1 & E2 & _) H En q. unfold afire. rewrite <- E1, <- E2. cbn [acut a_in a_out]. destruct (En q) as (En1 & _). destruct (Nat.eqb_spec q p) as [->|_]; lia.
Qed.

(** ** cut_arc *)
Definition cut_tr (p : nat) (x : btrans) : btrans :=
  match get_arc (bt_pre x) p, get_arc (bt_post x) p with
  | Some a, Some o => mkBT (del_arc (bt_pre x) p) (if (arc_weight a =? arc_weight o)%N then del_arc (bt_post x) p else set_weight (bt_post x) p (arc_weight o - arc_weight a)%N) (bt_player x) (bt_skip x) (bt_inhib x)
  | _, _ => x
  end.
Lemma cut_arc_ok : forall b p t a o, good b -> in_arc b p t = Some a -> out_arc b t p = Some o -> (arc_weight a <= arc_weight o)%N ->
  exists b', cut_arc b p t a = Ok b' /\ good b' /\ frame b b' /\ b_init b' = b_init b /\ same_flags b b' /\
    (forall u, tr_of b' u = if Nat.eqb u t then cut_tr p (tr_of b t) else tr_of b u) /\
    (forall q, q <> p -> pl_of b' q = pl_of b q) /\ (forall u, In u (bp_cons (pl_of b' p)) <-> In u (bp_cons (pl_of b p)) /\ u <> t).
Proof.
  intros b p t a o G Ea Eo Le. unfold cut_arc. rewrite Eo. cbn [some bind]. destruct (arc_cons _ _ G Ea) as (Hc & Ha & Hpa). destruct (arc_prod _ _ G Eo) as (Hp & Ho & Hpo).
  assert (Rt : t < length (b_trans b)) by (eapply in_pre_range; exact Ha).
  assert (K : exists b1, (if (arc_weight a =? arc_weight o)%N then skip_out_arc b t p else if (arc_weight o <? arc_weight a)%N then UB
         else Ok (set_tr b t (with_post (tr_of b t) (set_weight (bt_post (tr_of b t)) p (arc_weight o - arc_weight a))))) = Ok b1 /\ good b1 /\ frame b b1 /\ b_init b1 = b_init b /\ same_flags b b1 /\
    (forall u, tr_of b1 u = if Nat.eqb u t then with_post (tr_of b t) (if (arc_weight a =? arc_weight o)%N then del_arc (bt_post (tr_of b t)) p else set_weight (bt_post (tr_of b t)) p (arc_weight o - arc_weight a)%N) else tr_of b u) /\
    (forall q, q <> p -> pl_of b1 q = pl_of b q) /\ bp_cons (pl_of b1 p) = bp_cons (pl_of b p)).
  { destruct (N.eqb_spec (arc_weight a) (arc_weight o)) as [E|E].
    - destruct (skip_out_arc_ok p t G Hp) as (b1 & E1 & G1 & F1 & I1 & Fl1 & T1 & P1 & C1 & _). exists b1. repeat (split; [assumption|]). assumption.
    - destruct (N.ltb_spec (arc_weight o) (arc_weight a)); [lia|]. eexists. split; [reflexivity|]. set (b1 := set_tr b t _).
      assert (T : forall u, tr_of b1 u = if Nat.eqb u t then with_post (tr_of b t) (set_weight (bt_post (tr_of b t)) p (arc_weight o - arc_weight a)%N) else tr_of b u) by (intros u; apply tr_set; exact Rt).
      split; [|split; [apply frame_set_tr|split; [reflexivity|split; [intros q; split; reflexivity|split; [exact T|split; reflexivity]]]]].
      apply (@good_reweigh b b1 G); [apply frame_set_tr|reflexivity|reflexivity|]. intros u. rewrite T. destruct (Nat.eqb_spec u t) as [->|_]; cbn [with_post bt_skip bt_inhib bt_pre bt_post]; (split; [reflexivity|]); (split; [reflexivity|]); split;
        try (apply alike_refl; intros x Hx; first [apply (g_pre G _ x Hx)|apply (g_post G _ x Hx)]).
      apply alike_set; [apply (g_spost G)|intros x Hx; apply (g_post G _ x Hx)|lia]. }
  destruct K as (b1 & E1 & G1 & F1 & I1 & Fl1 & T1 & P1 & C1). rewrite E1. cbn [bind].
  destruct (@skip_in_arc_ok b1 p t G1) as (b2 & E2 & G2 & F2 & I2 & Fl2 & T2 & P2 & _ & C2); [rewrite C1; exact Hc|].
  exists b2. split; [exact E2|]. split; [exact G2|]. split; [eapply frame_trans; eauto|]. split; [congruence|]. split; [eapply same_flags_trans; eauto|].
  split; [|split; [intros q Hq; rewrite P2, P1 by exact Hq; reflexivity|intros u; rewrite C2, C1; reflexivity]].
  intros u. rewrite T2, !T1, Nat.eqb_refl. destruct (Nat.eqb_spec u t) as [->|_]; [|reflexivity]. unfold cut_tr. unfold in_arc in Ea. unfold out_arc in Eo. rewrite Ea, Eo. reflexivity.
Qed.
Lemma cut_acut : forall b p t a, good b -> in_arc b p t = Some a -> arc_inhib a = false -> (exists o, out_arc b t p = Some o /\ (arc_weight a <= arc_weight o)%N) -> aeq (acut p (atr_of (tr_of b t))) (atr_of (cut_tr p (tr_of b t))).
Proof.
  intros b p t a G Ea Ia (o & Eo & Le). unfold cut_tr. unfold in_arc in Ea. pose proof Eo as Eo'. unfold out_arc in Eo. rewrite Ea, Eo. destruct (arc_prod _ _ G Eo') as (_ & Ho & _). destruct (g_post G t o Ho) as (_ & _ & Io).
  unfold aeq, acut, atr_of, wt, ih. cbn [a_in a_out a_inh bt_pre bt_post]. split; [|split]; intros q.
  - rewrite get_del by apply (g_spre G). destruct (Nat.eqb q p); reflexivity.
  - destruct (Nat.eqb_spec q p) as [->|Hq].
    + rewrite Ea, Ia, Eo, Io. destruct (N.eqb_spec (arc_weight a) (arc_weight o)) as [E|E]; [rewrite get_del, Nat.eqb_refl by apply (g_spost G); lia|].
      rewrite get_set, Nat.eqb_refl, Eo by apply (g_spost G). cbn [arc_inhib arc_weight]. rewrite Io. reflexivity.
    + destruct (arc_weight a =? arc_weight o)%N; [rewrite get_del by apply (g_spost G)|rewrite get_set by apply (g_spost G)]; (destruct (Nat.eqb_spec q p); [contradiction|reflexivity]).
  - rewrite get_del by apply (g_spre G). destruct (Nat.eqb q p); reflexivity.
Qed.
Lemma del_acut : forall b p t a, good b -> in_arc b p t = Some a -> arc_inhib a = true -> aeq (acut p (atr_of (tr_of b t))) (atr_of (with_pre (tr_of b t) (del_arc (bt_pre (tr_of b t)) p))).
Proof.
  intros b p t a G Ea Ia. unfold in_arc in Ea. unfold aeq, acut, atr_of, wt, ih. cbn [a_in a_out a_inh bt_pre bt_post with_pre]. split; [|split]; intros q; rewrite ?get_del by apply (g_spre G); try (destruct (Nat.eqb q p); reflexivity).
  destruct (Nat.eqb_spec q p) as [->|Hq]; [|reflexivity]. rewrite Ea, Ia. lia.
Qed.

(** ** The first loop *)
Definition inh_at (b : builder) (p t : nat) : bool := match in_arc b p t with Some a => arc_inhib a | None => false end.
Definition w_at (b : builder) (p t : nat) : N := match in_arc b p t with Some a => arc_weight a | None => 0%N end.
Lemma fno_scan_ok : forall b p l s, good b -> (forall t, In t l -> In t (bp_cons (pl_of b p))) ->
  exists s', fno_scan b p l s = Ok s' /\ ((0 < fn_low s')%N -> (fn_low s' <= fn_low s)%N /\
    fn_inh s' = fn_inh s + length (filter (inh_at b p) l) /\
    (fn_rm s' = true -> fn_rm s = true /\ fn_neg s' = fn_neg s /\ fn_dis s' = fn_dis s) /\
    (forall t, In t (fn_neg s') -> In t (fn_neg s) \/ In t l) /\ (forall t, In t (fn_neg s) -> In t (fn_neg s')) /\
    (forall t a, In t l -> in_arc b p t = Some a -> arc_inhib a = false -> exists o, out_arc b t p = Some o /\ (arc_weight a <= arc_weight o \/ fn_low s' <= arc_weight o /\ In t (fn_neg s'))%N)).
Proof.
  intros b p. induction l as [|t l IH]; intros s G Hl.
  - exists s. split; [reflexivity|]. intros _. split; [lia|]. split; [cbn; lia|]. split; [auto|]. split; [auto|]. split; [auto|]. intros t a [].
  - cbn [fno_scan filter]. destruct (cons_arc p t G (Hl t (or_introl eq_refl))) as (a & Ea & _). rewrite Ea. cbn [some bind]. assert (Ei : inh_at b p t = arc_inhib a) by (unfold inh_at; rewrite Ea; reflexivity). rewrite Ei.
    assert (Hl' : forall u, In u l -> In u (bp_cons (pl_of b p))) by (intros u Hu; apply Hl; right; exact Hu).
    destruct (arc_inhib a) eqn:Ia.
    + destruct (IH (mkFno (fn_rm s) (fn_dis s) (S (fn_inh s)) (fn_low s) (fn_neg s)) G Hl') as (s' & E & K). exists s'. split; [exact E|]. intros Hp. destruct (K Hp) as (K1 & K2 & K3 & K4 & K5 & K6). cbn [fn_low fn_inh fn_rm fn_neg fn_dis] in *.
      split; [exact K1|]. split; [cbn [length]; lia|]. split; [exact K3|]. split; [intros u Hu; destruct (K4 u Hu); [left|right; right]; assumption|]. split; [exact K5|].
      intros u a' [<-|Hu] Eu Iu; [congruence|eapply K6; eauto].
    + destruct (out_arc b t p) as [o|] eqn:Eo; [|exists (mkFno (fn_rm s) (fn_dis s) (fn_inh s) 0 (fn_neg s)); split; [reflexivity|cbn; lia]].
      destruct (N.ltb_spec (arc_weight o) (arc_weight a)) as [Lt|Le].
      * destruct (IH (mkFno false (Nat.pred (fn_dis s)) (fn_inh s) (N.min (fn_low s) (arc_weight o)) (t :: fn_neg s)) G Hl') as (s' & E & K). exists s'. split; [exact E|]. intros Hp. destruct (K Hp) as (K1 & K2 & K3 & K4 & K5 & K6). cbn [fn_low fn_inh fn_rm fn_neg fn_dis] in *.
        split; [lia|]. split; [exact K2|]. split; [intros X; destruct (K3 X); discriminate|]. split; [intros u Hu; destruct (K4 u Hu) as [[<-|X]|X]; [right; left; reflexivity|left; exact X|right; right; exact X]|].
        split; [intros u Hu; apply K5; right; exact Hu|]. intros u a' [<-|Hu] Eu Iu; [|eapply K6; eauto]. exists o. split; [exact Eo|]. right. split; [lia|apply K5; left; reflexivity].
      * destruct (IH s G Hl') as (s' & E & K). exists s'. split; [exact E|]. intros Hp. destruct (K Hp) as (K1 & K2 & K3 & K4 & K5 & K6).
        split; [exact K1|]. split; [exact K2|]. split; [exact K3|]. split; [intros u Hu; destruct (K4 u Hu); [left|right; right]; assumption|]. split; [exact K5|].
        intros u a' [<-|Hu] Eu Iu; [|eapply K6; eauto]. exists o. split; [exact Eo|]. left. congruence.
Qed.

(** ** The second loop *)
Definition cuts (b : builder) (p : nat) (low : N) (neg : list nat) (t : nat) : bool := negb (existsb (Nat.eqb t) neg) && (w_at b p t <=? low)%N && negb (inh_at b p t).
Definition stops (b : builder) (p : nat) (low : N) (neg : list nat) (t : nat) : bool := negb (existsb (Nat.eqb t) neg) && (w_at b p t <=? low)%N && inh_at b p t.
Lemma fno_arcs_ok : forall p low neg l b dis inhd, good b -> NoDup l -> (forall t, In t l -> In t (bp_cons (pl_of b p))) ->
  (forall t a, In t l -> in_arc b p t = Some a -> arc_inhib a = false -> ~ In t neg -> exists o, out_arc b t p = Some o /\ (arc_weight a <= arc_weight o)%N) ->
  exists b', fno_arcs p low neg l (b, dis, inhd) = Ok (b', dis - length (filter (cuts b p low neg) l), inhd ++ filter (stops b p low neg) l) /\
    good b' /\ frame b b' /\ b_init b' = b_init b /\ same_flags b b' /\
    (forall u, tr_of b' u = if existsb (Nat.eqb u) (filter (cuts b p low neg) l) then cut_tr p (tr_of b u) else tr_of b u).
Proof.
  intros p low neg. induction l as [|t l IH]; intros b dis inhd G Nd Hl Ho.
  - exists b. cbn [fno_arcs filter length existsb]. rewrite app_nil_r, Nat.sub_0_r. split; [reflexivity|]. split; [exact G|]. split; [apply frame_refl|]. split; [reflexivity|]. split; [apply same_flags_refl|reflexivity].
  - inversion Nd as [|x y N1 N2]; subst x y. cbn [fno_arcs filter]. destruct (cons_arc p t G (Hl t (or_introl eq_refl))) as (a & Ea & _).
    assert (Ei : inh_at b p t = arc_inhib a) by (unfold inh_at; rewrite Ea; reflexivity). assert (Ew : w_at b p t = arc_weight a) by (unfold w_at; rewrite Ea; reflexivity).
    assert (Ec : cuts b p low neg t = negb (existsb (Nat.eqb t) neg) && (arc_weight a <=? low)%N && negb (arc_inhib a)) by (unfold cuts; rewrite Ei, Ew; reflexivity).
    assert (Es : stops b p low neg t = negb (existsb (Nat.eqb t) neg) && (arc_weight a <=? low)%N && arc_inhib a) by (unfold stops; rewrite Ei, Ew; reflexivity).
    rewrite Ec, Es.
    assert (Hl' : forall u, In u l -> In u (bp_cons (pl_of b p))) by (intros u Hu; apply Hl; right; exact Hu).
    assert (Ho' : forall u a, In u l -> in_arc b p u = Some a -> arc_inhib a = false -> ~ In u neg -> exists o, out_arc b u p = Some o /\ (arc_weight a <= arc_weight o)%N) by (intros u a' Hu; apply Ho; right; exact Hu).
    destruct (existsb (Nat.eqb t) neg) eqn:En; cbn [negb andb]; [apply (IH b dis inhd G N2 Hl' Ho')|].
    rewrite Ea. cbn [some bind]. destruct (N.ltb_spec low (arc_weight a)) as [Lt|Le].
    + destruct (N.leb_spec (arc_weight a) low); [lia|]. cbn [andb]. apply (IH b dis inhd G N2 Hl' Ho').
    + destruct (N.leb_spec (arc_weight a) low); [|lia]. cbn [andb]. destruct (arc_inhib a) eqn:Ia; cbn [negb].
      * destruct (IH b dis (inhd ++ [t]) G N2 Hl' Ho') as (b' & E & K). exists b'. split; [|exact K]. rewrite E, <- app_assoc. reflexivity.
      * assert (Nn : ~ In t neg) by (intros X; apply existsb_in in X; congruence). destruct (Ho t a (or_introl eq_refl) Ea Ia Nn) as (o & Eo & Lo).
        destruct (@cut_arc_ok b p t a o G Ea Eo Lo) as (b1 & E1 & G1 & F1 & I1 & Fl1 & T1 & P1 & C1). rewrite E1. cbn [bind].
        assert (Ar : forall u, In u l -> in_arc b1 p u = in_arc b p u /\ out_arc b1 u p = out_arc b u p /\ tr_of b1 u = tr_of b u).
        { intros u Hu. unfold in_arc, out_arc. rewrite T1. destruct (Nat.eqb_spec u t) as [Eu|_]; [subst u; contradiction|auto]. }
        assert (Fc : filter (cuts b1 p low neg) l = filter (cuts b p low neg) l) by (apply filter_ext_in; intros u Hu; unfold cuts, w_at, inh_at; rewrite (proj1 (Ar u Hu)); reflexivity).
        assert (Fs : filter (stops b1 p low neg) l = filter (stops b p low neg) l) by (apply filter_ext_in; intros u Hu; unfold stops, w_at, inh_at; rewrite (proj1 (Ar u Hu)); reflexivity).
        destruct (IH b1 (Nat.pred dis) inhd G1 N2) as (b' & E & G' & F' & I' & Fl' & T').
        { intros u Hu. apply C1. split; [apply Hl'; exact Hu|intros ->; contradiction]. }
        { intros u a' Hu Eu Iu Nu. destruct (Ar u Hu) as (A1 & A2 & _). rewrite A1 in Eu. rewrite A2. apply (Ho' u a' Hu Eu Iu Nu). }
        rewrite Fc, Fs in *. exists b'. split; [rewrite E; f_equal; f_equal; f_equal; cbn [length]; lia|]. split; [exact G'|]. split; [eapply frame_trans; eauto|]. split; [congruence|]. split; [eapply same_flags_trans; eauto|].
        intros u. rewrite T', T1. cbn [existsb]. destruct (Nat.eqb_spec u t) as [->|Hu]; cbn [orb]; [|reflexivity].
        destruct (existsb (Nat.eqb t) (filter (cuts b p low neg) l)) eqn:Ex; [apply existsb_in, filter_In in Ex; destruct Ex; contradiction|reflexivity].
Qed.
Lemma skip_transitions_ok : forall l b, good b -> NoDup l -> (forall t, In t l -> live b t = true) ->
  exists b', fold_res skip_transition l b = Ok b' /\ good b' /\ frame b b' /\ b_init b' = b_init b /\ same_flags b b' /\
    (forall u, tr_of b' u = if existsb (Nat.eqb u) l then gone (tr_of b u) else tr_of b u).
Proof.
  induction l as [|t l IH]; intros b G Nd H.
  - exists b. split; [reflexivity|]. split; [exact G|]. split; [apply frame_refl|]. split; [reflexivity|]. split; [apply same_flags_refl|reflexivity].
  - inversion Nd as [|x y N1 N2]; subst x y. cbn [fold_res]. pose proof (H t (or_introl eq_refl)) as Lt. apply live_spec in Lt. destruct Lt as (L1 & L2).
    destruct (skip_transition_ok G L1 L2) as (b1 & E1 & G1 & F1 & I1 & Fl1 & T1). rewrite E1. cbn [bind].
    destruct (IH b1 G1 N2) as (b' & E & G' & F' & I' & Fl' & T').
    { intros u Hu. specialize (H u (or_intror Hu)). apply live_spec in H. apply live_spec. rewrite (f_nt F1), T1. destruct (Nat.eqb_spec u t) as [Eu|_]; [subst u; contradiction|exact H]. }
    exists b'. split; [exact E|]. split; [exact G'|]. split; [eapply frame_trans; eauto|]. split; [congruence|]. split; [eapply same_flags_trans; eauto|].
    intros u. rewrite T', T1. cbn [existsb]. destruct (Nat.eqb_spec u t) as [->|Hu]; cbn [orb]; [|reflexivity]. destruct (existsb (Nat.eqb t) l); reflexivity.
Qed.
Lemma filter_all : forall {A} (f g : A -> bool) l, (forall x, f x = true -> g x = true) -> length (filter g l) <= length (filter f l) -> forall x, In x l -> g x = true -> f x = true.
Proof.
  intros A f g l H. assert (K : forall l, length (filter f l) <= length (filter g l)).
  { induction l0 as [|y l0 IH]; [reflexivity|]. cbn [filter]. destruct (f y) eqn:Ef; [rewrite (H y Ef); cbn; lia|]. destruct (g y); cbn; lia. }
  induction l as [|y l IH]; intros Hle x Hx Hg; [contradiction|]. cbn [filter] in Hle. specialize (K l). destruct (f y) eqn:Ef.
  - rewrite (H y Ef) in Hle. cbn in Hle. destruct Hx as [<-|Hx]; [exact Ef|]. apply IH; [lia|exact Hx|exact Hg].
  - destruct (g y) eqn:Eg; cbn in Hle; [lia|]. destruct Hx as [<-|Hx]; [congruence|]. apply IH; [lia|exact Hx|exact Hg].
Qed.
Lemma sound_after : forall inq b b1 r, same_views inq b b1 -> sound_result inq b1 r -> sound_result inq b r.
Proof. intros inq b b1 [b2| | |] S H; cbn in *; try exact H. destruct H as (G & V). split; [exact G|]. eapply same_views_trans; eauto. Qed.
Definition no_flag (b : builder) (p : nat) : builder := set_pl b p (mkBP (bp_cons (pl_of b p)) (bp_prod (pl_of b p)) (bp_skip (pl_of b p)) false).
Lemma no_flag_good : forall b p, good b -> p < length (b_places b) -> (forall t a, In a (bt_pre (tr_of b t)) -> arc_place a = p -> arc_inhib a = false) -> good (no_flag b p).
Proof.
  intros b p G Hp H. unfold no_flag. set (x := mkBP _ _ _ _). assert (P : forall q, pl_of (set_pl b p x) q = if Nat.eqb q p then x else pl_of b q) by (intros q; apply pl_set; exact Hp).
  eapply good_intro; [exact G|apply frame_set_pl|reflexivity| | | | | | |].
  - apply (g_skip G).
  - intros t a Ha. change (In a (bt_pre (tr_of b t))) in Ha. change (tr_of (set_pl b p x) t) with (tr_of b t). destruct (g_pre G t a Ha) as (A & B & C). rewrite P. destruct (Nat.eqb_spec (arc_place a) p) as [E|E]; [|auto].
    cbn [x bp_skip bp_inhib]. rewrite <- E. split; [exact A|]. split; [exact B|]. intros X. rewrite (H t a Ha E) in X. discriminate.
  - intros t a Ha. change (In a (bt_post (tr_of b t))) in Ha. destruct (g_post G t a Ha) as (A & B & C). rewrite P. destruct (Nat.eqb_spec (arc_place a) p) as [E|E]; [|auto]. cbn [x bp_skip]. rewrite <- E. auto.
  - intros t. split; [apply (g_spre G)|apply (g_spost G)].
  - intros q. rewrite P. destruct (Nat.eqb_spec q p) as [->|_]; split; try apply (g_scons G); apply (g_sprod G).
  - intros q t. rewrite P. destruct (Nat.eqb_spec q p) as [->|_]; apply (g_cons G).
  - intros q t. rewrite P. destruct (Nat.eqb_spec q p) as [->|_]; apply (g_prod G).
Qed.

Theorem rule_fno_ok : forall inq b p, good b -> sound_result inq b (rule_fno inq b p).
Proof.
  intros inq b p G. unfold rule_fno. destruct (bp_skip (pl_of b p)) eqn:Sk; [apply result_refl; exact G|]. set (cs := bp_cons (pl_of b p)).
  destruct (@fno_scan_ok b p cs (mkFno (negb (inq p)) (length cs) 0 (init_at b p) []) G (fun t H => H)) as (s & Es & K). rewrite Es. cbn [bind].
  destruct (match cs with [] => false | _ => true end && (fn_low s =? 0)%N) eqn:Stop; [apply result_refl; exact G|].
  assert (F : (fn_low s <= init_at b p)%N /\ fn_inh s = length (filter (inh_at b p) cs) /\ (fn_rm s = true -> inq p = false /\ fn_neg s = [] /\ fn_dis s = length cs) /\
    (forall t a, In t cs -> in_arc b p t = Some a -> arc_inhib a = false -> exists o, out_arc b t p = Some o /\ (arc_weight a <= arc_weight o \/ fn_low s <= arc_weight o /\ In t (fn_neg s))%N)).
  { destruct (N.eq_dec (fn_low s) 0) as [Z|Z].
    - destruct cs as [|c cs'] eqn:Ec; [|rewrite Z in Stop; discriminate]. cbn in Es. injection Es as <-. cbn [fn_low fn_inh fn_rm fn_neg fn_dis filter length].
      split; [lia|]. split; [reflexivity|]. split; [intros X; apply negb_true_iff in X; auto|intros t a []].
    - destruct K as (K1 & K2 & K3 & _ & _ & K6); [lia|]. cbn [fn_low fn_inh fn_rm fn_neg fn_dis] in *. split; [exact K1|]. split; [exact K2|]. split; [|exact K6].
      intros X. destruct (K3 X) as (X1 & X2 & X3). apply negb_true_iff in X1. auto. }
  clear K Es Stop. destruct F as (F1 & F2 & F3 & F4). set (low := fn_low s) in *. set (neg := fn_neg s) in *.
  assert (Low : forall m, areach (anet_of b) m -> (low <= m p)%N).
  { apply at_least; [exact G|exact F1|]. intros t a Ht Ea Ia. destruct (F4 t a Ht Ea Ia) as (o & Eo & [Q|(Q & _)]); exists o; auto. }
  destruct (@fno_arcs_ok p low neg cs b (fn_dis s) [] G (sorted_nodup _ (g_scons G p)) (fun t H => H)) as (b1 & E1 & G1 & Fr1 & I1 & Fl1 & T1).
  { intros t a Ht Ea Ia Nn. destruct (F4 t a Ht Ea Ia) as (o & Eo & [Q|(_ & Q)]); [exists o; auto|contradiction]. }
  rewrite E1. cbn [bind app]. clear E1. set (st := filter (stops b p low neg) cs). set (ct := filter (cuts b p low neg) cs) in *.
  assert (Dj : forall t, In t st -> In t ct -> False).
  { intros t H1 H2. apply filter_In in H1. apply filter_In in H2. destruct H1 as (_ & H1). destruct H2 as (_ & H2). unfold stops in H1. unfold cuts in H2. destruct (inh_at b p t); rewrite ?andb_false_r in *; discriminate. }
  assert (St : forall t, In t st -> exists a, in_arc b p t = Some a /\ arc_inhib a = true /\ (arc_weight a <= low)%N /\ In a (bt_pre (tr_of b t))).
  { intros t Ht. apply filter_In in Ht. destruct Ht as (Hc & Hs). destruct (cons_arc p t G Hc) as (a & Ea & Ha & _). exists a. split; [exact Ea|]. unfold stops, inh_at, w_at in Hs. rewrite Ea in Hs. apply andb_true_iff in Hs. destruct Hs as (Hs & Hi). apply andb_true_iff in Hs. destruct Hs as (_ & Hw). apply N.leb_le in Hw. auto. }
  assert (Ct : forall t, In t ct -> exists a o, in_arc b p t = Some a /\ arc_inhib a = false /\ (arc_weight a <= low)%N /\ out_arc b t p = Some o /\ (arc_weight a <= arc_weight o)%N).
  { intros t Ht. apply filter_In in Ht. destruct Ht as (Hc & Hs). destruct (cons_arc p t G Hc) as (a & Ea & Ha & _). unfold cuts, inh_at, w_at in Hs. rewrite Ea in Hs. apply andb_true_iff in Hs. destruct Hs as (Hs & Hi). apply andb_true_iff in Hs. destruct Hs as (Hn & Hw). apply N.leb_le in Hw. apply negb_true_iff in Hi, Hn.
    destruct (F4 t a Hc Ea Hi) as (o & Eo & [Q|(_ & Q)]); [exists a, o; auto|]. apply existsb_in in Q. fold neg in Q. congruence. }
  destruct (@skip_transitions_ok st b1 G1) as (b2 & E2 & G2 & Fr2 & I2 & Fl2 & T2).
  { apply NoDup_filter. apply sorted_nodup, (g_scons G). }
  { intros t Ht. destruct (St t Ht) as (a & Ea & _ & _ & Ha). apply (@arc_live b1 t a G1). left. rewrite T1. destruct (existsb (Nat.eqb t) ct) eqn:Ex; [apply existsb_in in Ex; destruct (Dj t Ht Ex)|exact Ha]. }
  rewrite E2. cbn [bind]. clear E2.
  assert (Fl : same_flags b b2) by (eapply same_flags_trans; eauto). assert (Fr : frame b b2) by (eapply frame_trans; eauto).
  assert (Tr : forall u, tr_of b2 u = if existsb (Nat.eqb u) st then gone (tr_of b u) else if existsb (Nat.eqb u) ct then cut_tr p (tr_of b u) else tr_of b u).
  { intros u. rewrite T2, T1. destruct (existsb (Nat.eqb u) st) eqn:Ex; [|reflexivity]. destruct (existsb (Nat.eqb u) ct) eqn:Ey; [|reflexivity]. apply existsb_in in Ex, Ey. destruct (Dj u Ex Ey). }
  assert (SkipCut : forall x, bt_skip (cut_tr p x) = bt_skip x) by (intros x; unfold cut_tr; destruct (get_arc (bt_pre x) p); [destruct (get_arc (bt_post x) p)|]; reflexivity).
  assert (V : same_views inq b b2).
  { apply same_views_intro; [exact G|exact G2|]. apply rework.
    - intros q. cbn [anet_of an_init]. unfold init_at. rewrite I2, I1. reflexivity.
    - intros i t' H. apply live_tr in H. destruct H as (_ & L). exists (atr_of (tr_of b i)). apply tr_live. apply live_spec in L. apply live_spec. rewrite (f_nt Fr), Tr in L. destruct L as (L1 & L2). split; [exact L1|].
      destruct (existsb (Nat.eqb i) st); [discriminate|]. destruct (existsb (Nat.eqb i) ct); [rewrite SkipCut in L2|]; exact L2.
    - intros i x m Hx R. apply live_tr in Hx. destruct Hx as (-> & L). pose proof (Low m R) as Lm.
      assert (L2 : live b2 i = negb (existsb (Nat.eqb i) st)).
      { unfold live in *. rewrite (f_nt Fr), Tr. apply andb_true_iff in L. destruct L as (L1 & L2). rewrite L1. cbn [andb]. destruct (existsb (Nat.eqb i) st); [reflexivity|]. destruct (existsb (Nat.eqb i) ct); [rewrite SkipCut|]; exact L2. }
      cbn [anet_of an_tr]. rewrite L2. specialize (Tr i). destruct (existsb (Nat.eqb i) st) eqn:Ex; cbn [negb].
      + apply existsb_in in Ex. destruct (St i Ex) as (a & Ea & Ia & Wa & _). intros En. destruct (En p) as (_ & En2). cbn [atr_of a_inh] in En2. unfold ih in En2. unfold in_arc in Ea. rewrite Ea, Ia in En2. specialize (En2 _ eq_refl). lia.
      + destruct (existsb (Nat.eqb i) ct) eqn:Ey; rewrite Tr; [|split; [tauto|intros _; apply ext_refl]].
        apply existsb_in in Ey. destruct (Ct i Ey) as (a & o & Ea & Ia & Wa & Eo & Wo). assert (Aq : aeq (acut p (atr_of (tr_of b i))) (atr_of (cut_tr p (tr_of b i)))) by (apply (cut_acut p i G Ea Ia); exists o; auto).
        assert (Ain : a_in (atr_of (tr_of b i)) p = arc_weight a) by (rewrite a_in_of, Ea, Ia; reflexivity).
        split; [eapply acut_en; [exact Aq|rewrite Ain; lia|]|apply (acut_fire Aq)].
        * intros w Hw. cbn [atr_of a_inh] in Hw. unfold ih in Hw. unfold in_arc in Ea. rewrite Ea, Ia in Hw. discriminate.
        * rewrite Ain, (a_out_of i p G), Eo. exact Wo. }
  assert (NoInh : fn_inh s - length st = 0 -> forall t a, In a (bt_pre (tr_of b2 t)) -> arc_place a = p -> arc_inhib a = false).
  { intros Z t a Ha Hp. rewrite Tr in Ha. destruct (existsb (Nat.eqb t) st) eqn:Ex; [destruct Ha|]. destruct (existsb (Nat.eqb t) ct) eqn:Ey.
    - exfalso. apply existsb_in in Ey. destruct (Ct t Ey) as (a' & o & Ea & _ & _ & Eo & _). unfold in_arc in Ea. unfold out_arc in Eo. unfold cut_tr in Ha. rewrite Ea, Eo in Ha. cbn [bt_pre] in Ha. apply (proj1 (@del_arc_in _ p a (g_spre G t))) in Ha. destruct Ha. contradiction.
    - destruct (arc_inhib a) eqn:Ia; [|reflexivity]. exfalso. assert (Ea : in_arc b p t = Some a) by (rewrite <- Hp; apply (in_get_arc _ a (g_spre G t) Ha)). destruct (arc_cons _ _ G Ea) as (Hc & _).
      assert (X : stops b p low neg t = true).
      { apply (@filter_all _ (stops b p low neg) (inh_at b p) cs); [intros x Hx; unfold stops in Hx; apply andb_true_iff in Hx; apply Hx|fold st; lia|exact Hc|unfold inh_at; rewrite Ea; exact Ia]. }
      assert (Y : existsb (Nat.eqb t) st = true) by (apply existsb_in; apply filter_In; auto). congruence. }
  destruct (fn_rm s && Nat.eqb (fn_inh s - length st) 0 && Nat.eqb (fn_dis s - length ct) 0 && (1 <? live_places b2)) eqn:Fin.
  - apply andb_true_iff in Fin. destruct Fin as (Fin & _). apply andb_true_iff in Fin. destruct Fin as (Fin & Fd). apply andb_true_iff in Fin. destruct Fin as (Fr0 & Fi). apply Nat.eqb_eq in Fd, Fi.
    destruct (F3 Fr0) as (Q & Nn & Ds). eapply sound_after; [exact V|]. apply skip_place_drop; [exact G2|rewrite (proj1 (Fl p)); exact Sk|exact Q|].
    assert (All : forall t, In t cs -> In t ct).
    { intros t Ht. apply filter_In. split; [exact Ht|]. apply (@filter_all _ (cuts b p low neg) (fun _ => true) cs); [reflexivity| |exact Ht|reflexivity]. fold ct. assert (Ft : filter (fun _ : nat => true) cs = cs) by (clear; induction cs as [|c l IH]; [reflexivity|cbn; f_equal; exact IH]). rewrite Ft. lia. }
    intros m t x _ Hx W q. apply live_tr in Hx. destruct Hx as (-> & _). destruct (Nat.eqb_spec q p) as [->|Hq].
    + assert (Z : get_arc (bt_pre (tr_of b2 t)) p = None).
      { apply (proj2 (in_arc_none p t G2)). intros Hc. apply (g_cons G2) in Hc. rewrite Tr in Hc. destruct (existsb (Nat.eqb t) st) eqn:Ex; [destruct Hc|]. destruct (existsb (Nat.eqb t) ct) eqn:Ey.
        - apply existsb_in in Ey. destruct (Ct t Ey) as (a' & o & Ea & _ & _ & Eo & _). unfold in_arc in Ea. unfold out_arc in Eo. unfold cut_tr in Hc. rewrite Ea, Eo in Hc. cbn [bt_pre] in Hc. apply (@del_arc_places _ p p (g_spre G t)) in Hc. destruct Hc. contradiction.
        - apply (g_cons G) in Hc. apply All in Hc. apply existsb_in in Hc. congruence. }
      unfold atr_of, wt, ih. cbn [a_in a_inh]. rewrite Z. split; [lia|discriminate].
    + specialize (W q). cbn [without a_in a_inh] in W. destruct (Nat.eqb_spec q p); [contradiction|exact W].
  - destruct (Nat.eqb_spec (fn_inh s - length st) 0) as [Z|Z]; [|split; assumption].
    fold (no_flag b2 p). assert (Rp : p < length (b_places b2)) by (apply pl_range; rewrite (proj1 (Fl p)); exact Sk).
    assert (G3 : good (no_flag b2 p)) by (apply no_flag_good; [exact G2|exact Rp|apply NoInh; exact Z]).
    split; [exact G3|]. eapply same_views_trans; [exact V|]. apply same_views_intro; [exact G2|exact G3|]. apply rework.
    + intros q. reflexivity.
    + intros i t' H. exists t'. exact H.
    + intros i x m Hx _. change (an_tr (anet_of (no_flag b2 p)) i) with (an_tr (anet_of b2) i). rewrite Hx. split; [tauto|intros _; apply ext_refl].
Qed.
