(** Rules S and T: a consumer of a place is replaced by its fusions with the producers. *)
From Verif Require Import Base BaseLemmas NetSpec NetModel BuilderModel RedTheory RedLazy RedSpec RedModel RedModelR RedModelS RedProofs RedNet RedRules RedOps RedRuleA RedNew RedRuleR RedRuleB RedSpecS.
Set Implicit Arguments.

Lemma scale_ok : forall k l, (0 < k)%N -> srt l -> pos l -> scale k l = Throw \/ exists l', scale k l = Ok l' /\ map arc_place l' = map arc_place l /\ pos l' /\
  forall q, get_arc l' q = match get_arc l q with Some a => Some (mkArc q (arc_weight a * k) (arc_inhib a)) | None => None end.
Proof.
  intros k l Hk. induction l as [|a l IH]; intros Hs Hp; cbn [scale]; [right; exists []; split; [reflexivity|]; split; [reflexivity|]; split; [exact Hp|reflexivity]|].
  unfold u32. destruct (arc_weight a * k <? 4294967296)%N; cbn [bind]; [|left; reflexivity].
  destruct IH as [E|(l' & E & M & P & G)]; [apply (proj2 Hs)|intros x Hx; apply Hp; right; exact Hx|rewrite E; left; reflexivity|]. rewrite E. cbn [bind]. right. eexists. split; [reflexivity|]. split; [cbn; rewrite M; reflexivity|]. split.
  - intros x [<-|Hx]; [cbn; pose proof (Hp a (or_introl eq_refl)); nia|apply P; exact Hx].
  - intros q. rewrite !get_cons; [|exact Hs|unfold srt; cbn [map arc_place]; rewrite M; exact Hs]. cbn [arc_place]. destruct (Nat.eqb_spec q (arc_place a)) as [->|_]; [reflexivity|apply G].
Qed.
Lemma get_others : forall p l q, srt l -> get_arc (others p l) q = if Nat.eqb q p then None else get_arc l q.
Proof.
  intros p l q Hs. destruct (Nat.eqb_spec q p) as [->|Hq].
  - apply get_arc_none; [apply others_srt; exact Hs|]. intros X. apply in_map_iff in X. destruct X as (x & E & Hx). apply others_in in Hx. tauto.
  - destruct (get_arc l q) as [a|] eqn:E.
    + apply get_arc_in in E. destruct E as (Ha & E). rewrite <- E. apply in_get_arc; [apply others_srt; exact Hs|]. apply others_in. split; [exact Ha|congruence].
    + apply get_arc_none; [apply others_srt; exact Hs|]. intros X. apply (proj1 (@get_arc_none l q Hs) E). apply in_map_iff in X. destruct X as (x & <- & Hx). apply in_map. apply others_in in Hx. apply Hx.
Qed.

(** the net has grown by transitions with the effects [L] *)
Record adds (L : list atr) (b b' : builder) (sk' : list nat) : Prop := {
  ad_good : good b';
  ad_free : free b' sk';
  ad_fl : same_flags b b';
  ad_init : b_init b' = b_init b;
  ad_keep : forall v, live b v = true -> live b' v = true /\ tr_of b' v = tr_of b v;
  ad_new : forall x, In x L -> exists j, live b j = false /\ live b' j = true /\ aeq x (atr_of (tr_of b' j));
  ad_all : forall j, live b' j = true -> live b j = true \/ exists x, In x L /\ aeq x (atr_of (tr_of b' j)) }.
Lemma adds_refl : forall b sk, good b -> free b sk -> adds [] b b sk.
Proof. intros b sk G F. constructor; auto; [apply same_flags_refl|intros x []]. Qed.
Lemma adds_trans : forall L1 L2 b b1 b2 sk1 sk2, adds L1 b b1 sk1 -> adds L2 b1 b2 sk2 -> adds (L1 ++ L2) b b2 sk2.
Proof.
  intros L1 L2 b b1 b2 sk1 sk2 A B. constructor.
  - apply (ad_good B).
  - apply (ad_free B).
  - eapply same_flags_trans; [apply (ad_fl A)|apply (ad_fl B)].
  - rewrite (ad_init B). apply (ad_init A).
  - intros v Hv. destruct (ad_keep A v Hv) as (A1 & A2). destruct (ad_keep B v A1) as (B1 & B2). split; [exact B1|congruence].
  - intros x Hx. apply in_app_iff in Hx. destruct Hx as [Hx|Hx].
    + destruct (ad_new A x Hx) as (j & A1 & A2 & A3). destruct (ad_keep B j A2) as (B1 & B2). exists j. split; [exact A1|]. split; [exact B1|]. rewrite B2. exact A3.
    + destruct (ad_new B x Hx) as (j & A1 & A2 & A3). exists j. split; [|split; assumption]. destruct (live b j) eqn:E; [|reflexivity]. destruct (ad_keep A j E). congruence.
  - intros j Hj. destruct (ad_all B j Hj) as [H|(x & Hx & E)]; [|right; exists x; split; [apply in_app_iff; right; exact Hx|exact E]].
    destruct (ad_keep B j H) as (_ & T). destruct (ad_all A j H) as [H'|(x & Hx & E)]; [left; exact H'|]. right. exists x. split; [apply in_app_iff; left; exact Hx|rewrite T; exact E].
Qed.

Section S.
Variable inq : nat -> bool.
Variables remove_loops all_reach : bool.
Variable moves : nat -> bool.
Variable p : nat.

(** what the checks establish about a producer and a consumer *)
Record s_prod (b : builder) (u : nat) : Prop := {
  sp_inh : bt_inhib (tr_of b u) = false;
  sp_one : exists o, bt_post (tr_of b u) = [o] /\ arc_place o = p;
  sp_in : ~ In p (map arc_place (bt_pre (tr_of b u)));
  sp_soft : forall a, In a (bt_pre (tr_of b u)) -> bp_inhib (pl_of b (arc_place a)) = false /\ inq (arc_place a) = false }.
Record s_cons (b : builder) (c : nat) : Prop := {
  sc_in : In p (map arc_place (bt_pre (tr_of b c)));
  sc_out : ~ In p (map arc_place (bt_post (tr_of b c))) }.

Lemma s_new_ok : forall b sk mv u c k w ki, good b -> free b sk -> live b u = true -> live b c = true -> bp_inhib (pl_of b p) = false -> s_prod b u -> s_cons b c -> (0 < ki)%N -> (ki <= k)%N -> (0 < w)%N ->
  s_new moves p u c k w (b, sk, mv) ki = Throw \/
  exists b' sk' mv', s_new moves p u c k w (b, sk, mv) ki = Ok (b', sk', mv') /\ ((forall n, moves n = false) -> mv = false -> mv' = false) /\
    adds [joined p ki ((k - ki) * w) (atr_of (tr_of b u)) (atr_of (tr_of b c))] b b' sk'.
Proof.
  intros b sk mv u c k w ki G Fr Lu Lc Hih Pu Pc Hki Hk Hw. unfold s_new.
  destruct (new_slot b sk) as ((b1, id), sk1) eqn:En. destruct (new_slot_ok G Fr En) as (G1 & Hid & Ep & Eo & Lid & Len & Pl & In1 & Pn & T1 & L1 & Fr1 & Nid & Inc).
  rewrite !T1. rewrite T1 in Ep, Eo. rewrite Ep, Eo.
  change (filter (fun a => negb (Nat.eqb (arc_place a) p)) (bt_pre (tr_of b c))) with (others p (bt_pre (tr_of b c))).
  set (prod := tr_of b u) in *. set (con := tr_of b c) in *. set (rest := others p (bt_pre con)).
  assert (Sc : srt (bt_post con) /\ pos (bt_post con)) by (split; [apply (g_spost G)|intros o Ho; apply (g_post G c o Ho)]). destruct Sc as (Sc1 & Sc2).
  destruct (@scale_ok ki (bt_post con) Hki Sc1 Sc2) as [E|(ps & E & Mps & Pps & Gps)]; [rewrite E; left; reflexivity|]. rewrite E. cbn [bind].
  assert (Sps : srt ps) by (unfold srt; rewrite Mps; exact Sc1).
  destruct (@add_arcs_ok ps []) as [E1|(post1 & E1 & S1 & P1 & Gt1)]; try assumption; [exact I|intros x []|intros q x y Hx; discriminate|rewrite E1; left; reflexivity|]. rewrite E1. cbn [bind].
  assert (Sr : srt rest) by (apply others_srt; apply (g_spre G)). assert (Pr : pos rest) by (intros x Hx; apply others_in in Hx; apply (g_pre G c x); apply Hx).
  destruct (@add_arcs_ok rest []) as [E2|(pre1 & E2 & S2 & P2 & Gt2)]; try assumption; [exact I|intros x []|intros q x y Hx; discriminate|rewrite E2; left; reflexivity|]. rewrite E2. cbn [bind].
  assert (Su : srt (bt_pre prod)) by apply (g_spre G). assert (Ppu : pos (bt_pre prod)) by (intros x Hx; apply (g_pre G u x Hx)).
  assert (Gr : forall q, get_arc rest q = if Nat.eqb q p then None else get_arc (bt_pre con) q) by (intros q; apply get_others; apply (g_spre G)).
  assert (Iu : forall q x, get_arc (bt_pre prod) q = Some x -> arc_inhib x = false) by (intros q x Hx; apply get_arc_in in Hx; apply (no_inh_t u G (sp_inh Pu) x); apply Hx).
  assert (Ir : forall q x y, get_arc (bt_pre prod) q = Some x -> get_arc (bt_pre con) q = Some y -> arc_inhib y = false).
  { intros q x y Hx Hy. apply get_arc_in in Hx. apply get_arc_in in Hy. destruct Hx as (Hx & Ex), Hy as (Hy & Ey). destruct (arc_inhib y) eqn:Iy; [|reflexivity]. destruct (g_pre G c y Hy) as (_ & _ & A). destruct (A Iy) as (_ & B). rewrite Ey, <- Ex in B. rewrite (proj1 (sp_soft Pu x Hx)) in B. discriminate. }
  assert (Gp1 : forall q, get_arc pre1 q = if Nat.eqb q p then None else match get_arc (bt_pre con) q with Some a => Some (mkArc q (arc_weight a) (arc_inhib a)) | None => None end).
  { intros q. rewrite Gt2, Gr. destruct (Nat.eqb q p); [reflexivity|]. destruct (get_arc (bt_pre con) q); reflexivity. }
  destruct (@add_arcs_ok (bt_pre prod) pre1) as [E3|(pre & E3 & S3 & P3 & Gt3)]; try assumption; [intros q x y Hx Hy; split; [|apply (Iu _ _ Hy)]|rewrite E3; left; reflexivity|].
  { rewrite Gp1 in Hx. destruct (Nat.eqb q p); [discriminate|]. destruct (get_arc (bt_pre con) q) as [z|] eqn:Ez; [|discriminate]. injection Hx as <-. cbn. apply (Ir q y z Hy Ez). }
  rewrite E3. cbn [bind].
  assert (Ico : forall q x, get_arc (bt_post con) q = Some x -> arc_inhib x = false) by (intros q x Hx; apply get_arc_in in Hx; apply (g_post G c x); apply Hx).
  assert (Gp : forall q, get_arc post1 q = match get_arc (bt_post con) q with Some a => Some (mkArc q (arc_weight a * ki) false) | None => None end).
  { intros q. rewrite Gt1, Gps. destruct (get_arc (bt_post con) q) as [a|] eqn:Ea; [|reflexivity]. cbn. rewrite (Ico _ _ Ea). reflexivity. }
  assert (Np1 : get_arc post1 p = None) by (rewrite Gp, (proj2 (@get_arc_none _ p Sc1) (sc_out Pc)); reflexivity).
  destruct (sp_one Pu) as (o & Epo & Eop). fold prod in Epo.
  assert (Io : arc_inhib o = false) by (apply (g_post G u o); fold prod; rewrite Epo; left; reflexivity).
  (* what is left in [p] *)
  set (r := ((k - ki) * w)%N).
  assert (Post : (if (ki =? k)%N then Ok post1 else match bt_post prod with a :: _ => v <- u32 r ;; add_arc post1 (mkArc (arc_place a) v (arc_inhib a)) | [] => UB end) = Throw \/
    exists post, (if (ki =? k)%N then Ok post1 else match bt_post prod with a :: _ => v <- u32 r ;; add_arc post1 (mkArc (arc_place a) v (arc_inhib a)) | [] => UB end) = Ok post /\ srt post /\ pos post /\
      forall q, get_arc post q = if Nat.eqb q p then (if (ki =? k)%N then None else Some (mkArc p r false)) else get_arc post1 q).
  { rewrite Epo. destruct (N.eqb_spec ki k) as [Ek|Ek].
    - right. exists post1. split; [reflexivity|]. split; [exact S1|]. split; [exact P1|]. intros q. destruct (Nat.eqb_spec q p) as [->|_]; [exact Np1|reflexivity].
    - unfold u32. destruct (r <? 4294967296)%N; cbn [bind]; [|left; reflexivity]. rewrite Eop, Io.
      destruct (@add_arc_ok post1 (mkArc p r false) S1 P1) as [E4|(post & E4 & S4 & P4 & G4)]; [cbn; unfold r; nia|intros x; cbn; rewrite Np1; discriminate|left; exact E4|].
      right. exists post. split; [exact E4|]. split; [exact S4|]. split; [exact P4|]. intros q. rewrite G4. cbn [arc_place arc_weight arc_inhib]. destruct (Nat.eqb_spec q p) as [->|_]; [|reflexivity]. rewrite Np1. reflexivity. }
  destruct Post as [E4|(post & E4 & S4 & P4 & Gt4)]; [rewrite E4; left; reflexivity|]. rewrite E4. cbn [bind]. right.
  set (x := mkBT pre post (bt_player (tr_of b id)) false (existsb arc_inhib rest)).
  assert (Ip : forall y, get_arc (bt_pre con) p = Some y -> arc_inhib y = false).
  { intros y Hy. apply get_arc_in in Hy. destruct Hy as (Hy & Ey). destruct (arc_inhib y) eqn:Iy; [|reflexivity]. destruct (g_pre G c y Hy) as (_ & _ & A). destruct (A Iy) as (_ & B). rewrite Ey in B. congruence. }
  assert (Nu : get_arc (bt_pre prod) p = None) by (apply get_arc_none; [exact Su|apply (sp_in Pu)]).
  assert (Aeq : aeq (joined p ki r (atr_of prod) (atr_of con)) (atr_of x)).
  { split; [|split]; intros q; cbn [joined atr_of a_in a_out a_inh x bt_pre bt_post].
    - unfold wt at 3. rewrite Gt3, Gp1. destruct (Nat.eqb_spec q p) as [->|_]; [rewrite Nu; reflexivity|]. unfold wt. destruct (get_arc (bt_pre prod) q) as [y|] eqn:Ey.
      + cbn [arc_inhib arc_weight]. rewrite (Iu _ _ Ey). destruct (get_arc (bt_pre con) q) as [z|] eqn:Ez; cbn [weight_of arc_weight]; [rewrite (Ir _ _ _ Ey Ez)|]; lia.
      + destruct (get_arc (bt_pre con) q) as [z|] eqn:Ez; cbn [arc_inhib arc_weight]; [|reflexivity]. destruct (arc_inhib z); reflexivity.
    - unfold wt at 2. rewrite Gt4, Gp. destruct (Nat.eqb_spec q p) as [->|_].
      + destruct (N.eqb_spec ki k) as [Ek|_]; [unfold r; rewrite Ek, N.sub_diag; reflexivity|reflexivity].
      + unfold wt. destruct (get_arc (bt_post con) q) as [z|] eqn:Ez; cbn [arc_inhib arc_weight]; [rewrite (Ico _ _ Ez); lia|lia].
    - unfold ih at 2. rewrite Gt3, Gp1. unfold ih. destruct (get_arc (bt_pre prod) q) as [y|] eqn:Ey.
      + cbn [arc_inhib]. rewrite (Iu _ _ Ey). destruct (get_arc (bt_pre con) q) as [z|] eqn:Ez; [rewrite (Ir _ _ _ Ey Ez)|]; reflexivity.
      + destruct (Nat.eqb_spec q p) as [->|_].
        * destruct (get_arc (bt_pre con) p) as [z|] eqn:Ez; [rewrite (Ip z eq_refl)|]; reflexivity.
        * destruct (get_arc (bt_pre con) q) as [z|] eqn:Ez; [|reflexivity]. cbn [arc_inhib arc_weight]. destruct (arc_inhib z); reflexivity. }
  assert (Pl1 : forall q, pl_of b1 q = pl_of b q) by (intros q; unfold pl_of; rewrite Pl; reflexivity).
  assert (Skp : bp_skip (pl_of b p) = false) by (rewrite <- Eop; apply (g_post G u o); fold prod; rewrite Epo; left; reflexivity).
  assert (Ft : fits b1 x).
  { constructor; cbn [x bt_skip bt_pre bt_post bt_inhib]; try assumption; [reflexivity| |].
    - intros y Hy. pose proof (in_get_arc _ y S3 Hy) as Gy. rewrite Gt3 in Gy. rewrite Pl1. destruct (get_arc (bt_pre prod) (arc_place y)) as [z|] eqn:Ez.
      + injection Gy as Ey. pose proof (Iu _ _ Ez) as Iz. apply get_arc_in in Ez. destruct Ez as (Hz & Pz). destruct (g_pre G u z Hz) as (A1 & A2 & A3). rewrite Pz in A1. split; [exact A1|]. split; [apply P3; exact Hy|]. intros Iy. rewrite <- Ey in Iy. cbn in Iy. congruence.
      + rewrite Gp1 in Gy. destruct (Nat.eqb_spec (arc_place y) p) as [_|Hne]; [discriminate|]. destruct (get_arc (bt_pre con) (arc_place y)) as [z|] eqn:Ez2; [|discriminate]. injection Gy as Ey.
        apply get_arc_in in Ez2. destruct Ez2 as (Hz & Pz). destruct (g_pre G c z Hz) as (A1 & A2 & A3). rewrite Pz in A1. split; [exact A1|]. split; [apply P3; exact Hy|].
        intros Iy. assert (Iz : arc_inhib z = true) by (rewrite <- Ey in Iy; exact Iy). destruct (A3 Iz) as (_ & B). rewrite Pz in B. split; [|exact B]. apply existsb_exists. exists z. split; [|exact Iz]. apply others_in. split; [exact Hz|congruence].
    - intros y Hy. pose proof (in_get_arc _ y S4 Hy) as Gy. rewrite Gt4 in Gy. rewrite Pl1. destruct (Nat.eqb_spec (arc_place y) p) as [Eyp|_].
      + rewrite Eyp. split; [exact Skp|]. split; [apply P4; exact Hy|]. destruct (ki =? k)%N; [discriminate|]. injection Gy as Ey. rewrite <- Ey. reflexivity.
      + rewrite Gp in Gy. destruct (get_arc (bt_post con) (arc_place y)) as [z|] eqn:Ez; [|discriminate]. injection Gy as Ey. apply get_arc_in in Ez. destruct Ez as (Hz & Pz). split; [rewrite <- Pz; apply (g_post G c z Hz)|]. split; [apply P4; exact Hy|]. rewrite <- Ey. reflexivity. }
  destruct (@link_ok b1 id x G1 Hid) as (G' & F' & In' & Fl' & T' & C'); [rewrite T1; exact Ep|rewrite T1; exact Eo|exact Ft|]. set (b' := link b1 id x) in *.
  assert (Fl : same_flags b b') by (intros q; destruct (Fl' q) as (A & B); rewrite A, B, Pl1; split; reflexivity).
  assert (Tv : forall v, v <> id -> tr_of b' v = tr_of b v) by (intros v Hv; rewrite T'; destruct (Nat.eqb_spec v id); [contradiction|apply T1]).
  assert (Ti : tr_of b' id = x) by (rewrite T', Nat.eqb_refl; reflexivity).
  assert (Lv : forall v, v <> id -> live b' v = live b v) by (intros v Hv; unfold live; rewrite (f_nt F'), (Tv v Hv); pose proof (L1 v Hv) as X; unfold live in X; rewrite T1 in X; exact X).
  assert (Li : live b' id = true) by (apply live_spec; rewrite (f_nt F'), Ti; split; [exact Hid|reflexivity]).
  assert (Nl : forall v, live b v = true -> v <> id) by (intros v Hv ->; congruence).
  exists b', sk1, (mv || match sk with [] => moves (length (b_trans b)) | _ :: _ => false end). split; [reflexivity|]. split; [intros Hm ->; destruct sk; [apply Hm|reflexivity]|].
  constructor.
  - exact G'.
  - split; [apply (proj1 Fr1)|]. intros t Ht. destruct (proj2 Fr1 t Ht) as (A & B). rewrite (f_nt F'). split; [exact A|]. rewrite (Tv t); [rewrite T1 in B; exact B|]. intros ->. contradiction.
  - exact Fl.
  - rewrite In', In1. reflexivity.
  - intros v Hv. rewrite (Lv v (Nl v Hv)), (Tv v (Nl v Hv)). split; [exact Hv|reflexivity].
  - intros v [<-|[]]. exists id. split; [exact Lid|]. split; [exact Li|]. rewrite Ti. exact Aeq.
  - intros j Hj. destruct (Nat.eq_dec j id) as [->|Hne]; [right; eexists; split; [left; reflexivity|rewrite Ti; exact Aeq]|left; rewrite <- (Lv j Hne); exact Hj].
Qed.

(** a consumer is replaced *)
Record swapped (L : list atr) (c : nat) (b b' : builder) (sk' : list nat) : Prop := {
  sw_good : good b';
  sw_free : free b' sk';
  sw_fl : same_flags b b';
  sw_init : b_init b' = b_init b;
  sw_keep : forall v, v <> c -> live b v = true -> live b' v = true /\ tr_of b' v = tr_of b v;
  sw_new : forall x, In x L -> exists j, live b' j = true /\ aeq x (atr_of (tr_of b' j));
  sw_all : forall j, live b' j = true -> (j <> c /\ live b j = true) \/ exists x, In x L /\ aeq x (atr_of (tr_of b' j)) }.
Lemma swap_ok : forall L c b b1 sk1, adds L b b1 sk1 -> live b c = true -> exists b2 sk2, skip_push (b1, sk1) c = Ok (b2, sk2) /\ swapped L c b b2 sk2.
Proof.
  intros L c b b1 sk1 A Lc. destruct (ad_keep A c Lc) as (Lc1 & Tc1). destruct (proj1 (live_spec b1 c) Lc1) as (Rc & Sc).
  destruct (skip_transition_ok (ad_good A) Rc Sc) as (b2 & E & G2 & F2 & I2 & Fl2 & T2). unfold skip_push. rewrite E. cbn [bind].
  assert (Tv : forall v, v <> c -> tr_of b2 v = tr_of b1 v) by (intros v Hv; rewrite T2; destruct (Nat.eqb_spec v c); [contradiction|reflexivity]).
  assert (Tg : tr_of b2 c = gone (tr_of b1 c)) by (rewrite T2, Nat.eqb_refl; reflexivity).
  assert (Lv : forall v, v <> c -> live b2 v = live b1 v) by (intros v Hv; unfold live; rewrite (f_nt F2), (Tv v Hv); reflexivity).
  assert (Lg : live b2 c = false) by (unfold live; rewrite Tg; apply andb_false_r).
  exists b2, (c :: sk1). split; [reflexivity|]. constructor.
  - exact G2.
  - destruct (ad_free A) as (Fn & Ff). split.
    + constructor; [|exact Fn]. intros H. destruct (Ff c H). congruence.
    + intros t [<-|Ht]; rewrite (f_nt F2); [rewrite Tg; split; [exact Rc|reflexivity]|]. destruct (Ff t Ht) as (X & Y). split; [exact X|]. destruct (Nat.eq_dec t c) as [->|Hne]; [rewrite Tg; reflexivity|rewrite (Tv t Hne); exact Y].
  - eapply same_flags_trans; [apply (ad_fl A)|exact Fl2].
  - rewrite I2. apply (ad_init A).
  - intros v Hv Lb. destruct (ad_keep A v Lb) as (X & Y). rewrite (Lv v Hv), (Tv v Hv). split; assumption.
  - intros x Hx. destruct (ad_new A x Hx) as (j & X & Y & Z). assert (Hj : j <> c) by (intros ->; congruence). exists j. rewrite (Lv j Hj), (Tv j Hj). split; assumption.
  - intros j Hj. assert (Hne : j <> c) by (intros ->; congruence). rewrite (Lv j Hne) in Hj. rewrite (Tv j Hne). destruct (ad_all A j Hj) as [H|H]; [left; split; assumption|right; exact H].
Qed.

(** loops that make transitions *)
Lemma fold_adds : forall {X} (f : builder * list nat * bool -> X -> res (builder * list nat * bool)) (g : X -> list atr) (Inv : builder -> Prop) (M : bool -> Prop) l,
  (forall L b b' sk', Inv b -> adds L b b' sk' -> Inv b') ->
  (forall x, In x l -> forall b sk mv, Inv b -> good b -> free b sk -> M mv -> f (b, sk, mv) x = Throw \/
     exists b' sk' mv', f (b, sk, mv) x = Ok (b', sk', mv') /\ M mv' /\ adds (g x) b b' sk') ->
  forall b sk mv, Inv b -> good b -> free b sk -> M mv -> fold_res f l (b, sk, mv) = Throw \/
     exists b' sk' mv', fold_res f l (b, sk, mv) = Ok (b', sk', mv') /\ M mv' /\ adds (flat_map g l) b b' sk'.
Proof.
  intros X f g Inv M l HI. induction l as [|x l IH]; intros Hf b sk mv I G F Hm.
  - right. exists b, sk, mv. split; [reflexivity|]. split; [exact Hm|apply adds_refl; assumption].
  - cbn [fold_res flat_map]. destruct (Hf x (or_introl eq_refl) b sk mv I G F Hm) as [E|(b1 & sk1 & mv1 & E & M1 & A1)]; rewrite E; cbn [bind]; [left; reflexivity|].
    destruct (IH (fun y Hy => Hf y (or_intror Hy)) b1 sk1 mv1 (HI _ _ _ _ I A1) (ad_good A1) (ad_free A1) M1) as [E2|(b2 & sk2 & mv2 & E2 & M2 & A2)]; [left; exact E2|].
    right. exists b2, sk2, mv2. split; [exact E2|]. split; [exact M2|]. eapply adds_trans; eauto.
Qed.

Lemma s_prod_keep : forall b b' u, same_flags b b' -> tr_of b' u = tr_of b u -> s_prod b u -> s_prod b' u.
Proof. intros b b' u Fl T [A B C D]. constructor; rewrite ?T; try assumption. intros a Ha. rewrite (proj2 (Fl (arc_place a))). apply D. exact Ha. Qed.
Lemma s_cons_keep : forall b b' c, tr_of b' c = tr_of b c -> s_cons b c -> s_cons b' c.
Proof. intros b b' c T [A B]. constructor; rewrite T; assumption. Qed.

Arguments s_prod_keep {b b' u} _ _ _.
Arguments s_cons_keep {b b' c} _ _.

(** the fusions of a consumer *)
Definition kw (b : builder) (u : nat) : N := wt (bt_post (tr_of b u)) p.
Definition cw (b : builder) (c : nat) : N := wt (bt_pre (tr_of b c)) p.
Definition effect1 (b : builder) (c u : nat) : list atr := [joined p 1 0 (atr_of (tr_of b u)) (atr_of (tr_of b c))].
Definition effectk (b : builder) (c u : nat) : list atr :=
  map (fun n => joined p (N.of_nat n) ((kw b u / cw b c - N.of_nat n) * cw b c) (atr_of (tr_of b u)) (atr_of (tr_of b c))) (seq 1 (N.to_nat (kw b u / cw b c))).
Definition kept (b : builder) (us : list nat) (c : nat) (b' : builder) : Prop :=
  same_flags b b' /\ forall v, In v (c :: us) -> live b' v = true /\ tr_of b' v = tr_of b v.
Lemma kept_adds : forall b us c L b1 b2 sk, kept b us c b1 -> adds L b1 b2 sk -> kept b us c b2.
Proof.
  intros b us c L b1 b2 sk (Fl & K) A. split; [eapply same_flags_trans; [exact Fl|apply (ad_fl A)]|]. intros v Hv. destruct (K v Hv) as (X & Y). destruct (ad_keep A v X) as (X' & Y'). split; [exact X'|congruence].
Qed.
Lemma s_prods_ok : forall b sk us c one, good b -> free b sk -> bp_inhib (pl_of b p) = false -> live b c = true -> s_cons b c -> (forall u, In u us -> live b u = true /\ s_prod b u) ->
  (atomic remove_loops all_reach && negb one = true -> (forall u, In u us -> (0 < cw b c)%N) /\ ((forall n, moves n = false) \/ length us <= 1)) ->
  let L := if atomic remove_loops all_reach && negb one then flat_map (effectk b c) us else flat_map (effect1 b c) us in
  fold_res (s_producer remove_loops all_reach moves p c one) us (b, sk, false) = Throw \/
  exists b' sk' mv, fold_res (s_producer remove_loops all_reach moves p c one) us (b, sk, false) = Ok (b', sk', mv) /\ adds L b b' sk'.
Proof.
  intros b sk us c one G Fr Hih Lc Pc Pu Hm. cbn zeta.
  assert (K0 : kept b us c b) by (split; [apply same_flags_refl|intros v [<-|Hv]; [split; [exact Lc|reflexivity]|split; [apply Pu; exact Hv|reflexivity]]]).
  destruct (atomic remove_loops all_reach && negb one) eqn:Em.
  - destruct (Hm eq_refl) as (Wc & Mv). clear Hm.
    assert (Step : forall u, In u us -> forall b1 sk1 mv, kept b us c b1 -> good b1 -> free b1 sk1 -> mv = false ->
      s_producer remove_loops all_reach moves p c one (b1, sk1, mv) u = Throw \/
      exists b' sk' mv', s_producer remove_loops all_reach moves p c one (b1, sk1, mv) u = Ok (b', sk', mv') /\
         ((forall n, moves n = false) -> mv' = false) /\ adds (effectk b c u) b1 b' sk').
    { intros u Hu b1 sk1 mv (Fl & K) G1 F1 ->. unfold s_producer. rewrite Em. destruct (K u (or_intror Hu)) as (Lu1 & Tu). destruct (K c (or_introl eq_refl)) as (Lc1 & Tc). destruct (Pu u Hu) as (_ & Su).
      pose proof (s_prod_keep Fl Tu Su) as Su1. pose proof (s_cons_keep Tc Pc) as Sc1.
      assert (Ia : exists a, in_arc b1 p c = Some a /\ arc_weight a = cw b c).
      { destruct (get_arc (bt_pre (tr_of b1 c)) p) as [a|] eqn:Ea; [|exfalso; apply (proj1 (@get_arc_none _ p (g_spre G1 c)) Ea), (sc_in Sc1)]. exists a. split; [exact Ea|]. unfold cw, wt. rewrite <- Tc, Ea.
        destruct (arc_inhib a) eqn:Ii; [|reflexivity]. exfalso. apply get_arc_in in Ea. destruct Ea as (Ha & Pa). destruct (g_pre G1 c a Ha) as (_ & _ & X). destruct (X Ii) as (_ & Y). rewrite Pa, (proj2 (Fl p)) in Y. congruence. }
      destruct Ia as (a & Ea & Wa). rewrite Ea. cbn [some bind].
      destruct (sp_one Su1) as (o & Eo & Po).
      assert (Go : out_arc b1 u p = Some o) by (unfold out_arc; rewrite Eo; cbn [get_arc]; rewrite Po, Nat.ltb_irrefl, Nat.eqb_refl; reflexivity).
      rewrite Go. cbn [some bind]. assert (Wo : arc_weight o = kw b u).
      { assert (Ho : In o (bt_post (tr_of b1 u))) by (rewrite Eo; left; reflexivity). unfold kw. rewrite <- Tu, <- Po. symmetry. apply in_wt; [apply (g_spost G1)|exact Ho|apply (g_post G1 u o Ho)]. }
      rewrite Wa, Wo. pose proof (Wc u Hu) as Wp. destruct (N.eqb_spec (cw b c) 0); [lia|].
      destruct (@fold_adds N (s_new moves p u c (kw b u / cw b c) (cw b c)) (fun ki => [joined p ki ((kw b u / cw b c - ki) * cw b c) (atr_of (tr_of b u)) (atr_of (tr_of b c))])
                 (kept b us c) (fun mv => (forall n, moves n = false) -> mv = false) (map N.of_nat (seq 1 (N.to_nat (kw b u / cw b c))))) with (b := b1) (sk := sk1) (mv := false) as [E|(b' & sk' & mv' & E & M' & A')].
      - intros L b2 b3 sk3. apply kept_adds.
      - intros ki Hki b2 sk2 mv2 (Fl2 & K2) G2 F2 M2. apply in_map_iff in Hki. destruct Hki as (n1 & <- & Hn). apply in_seq in Hn.
        destruct (K2 u (or_intror Hu)) as (Lu2 & Tu2). destruct (K2 c (or_introl eq_refl)) as (Lc2 & Tc2). rewrite <- Tu2, <- Tc2.
        destruct (@s_new_ok b2 sk2 mv2 u c (kw b u / cw b c) (cw b c) (N.of_nat n1) G2 F2 Lu2 Lc2) as [E|(b' & sk' & mv' & E & M' & A')]; [rewrite (proj2 (Fl2 p)); exact Hih|exact (s_prod_keep Fl2 Tu2 Su)|exact (s_cons_keep Tc2 Pc)|lia|lia|exact Wp|left; exact E|].
        right. exists b', sk', mv'. split; [exact E|]. split; [intros Z; apply M'; [exact Z|apply M2; exact Z]|exact A'].
      - split; assumption.
      - exact G1.
      - exact F1.
      - reflexivity.
      - left. exact E.
      - right. exists b', sk', mv'. split; [exact E|]. split; [exact M'|]. assert (El : effectk b c u = flat_map (fun ki => [joined p ki ((kw b u / cw b c - ki) * cw b c) (atr_of (tr_of b u)) (atr_of (tr_of b c))]) (map N.of_nat (seq 1 (N.to_nat (kw b u / cw b c))))).
        { unfold effectk. generalize (seq 1 (N.to_nat (kw b u / cw b c))). intros sq. induction sq as [|n0 sq IH]; [reflexivity|]. cbn [map flat_map app]. rewrite IH. reflexivity. }
        rewrite El. exact A'. }
    destruct Mv as [Mv|Mv].
    + destruct (@fold_adds nat (s_producer remove_loops all_reach moves p c one) (effectk b c) (kept b us c) (fun mv => mv = false) us) with (b := b) (sk := sk) (mv := false) as [E|(b' & sk' & mv' & E & M' & A')]; [| | exact K0|exact G|exact Fr|reflexivity|left; exact E|right; exists b', sk', mv'; split; [exact E|exact A']].
      * intros L b2 b3 sk3. apply kept_adds.
      * intros u Hu b1 sk1 mv K1 G1 F1 M1. destruct (Step u Hu b1 sk1 mv K1 G1 F1 M1) as [E|(b' & sk' & mv' & E & M' & A')]; [left; exact E|right; exists b', sk', mv'; split; [exact E|split; [apply M'; exact Mv|exact A']]].
    + destruct us as [|u [|u' us]]; [right; exists b, sk, false; split; [reflexivity|apply adds_refl; assumption]| |cbn in Mv; lia].
      cbn [fold_res flat_map]. destruct (Step u (or_introl eq_refl) b sk false K0 G Fr eq_refl) as [E|(b' & sk' & mv' & E & _ & A')].
      * left. rewrite E. reflexivity.
      * right. exists b', sk', mv'. rewrite E. cbn [bind]. split; [reflexivity|]. rewrite app_nil_r. exact A'.
  - clear Hm. destruct (@fold_adds nat (s_producer remove_loops all_reach moves p c one) (effect1 b c) (kept b us c) (fun _ => True) us) with (b := b) (sk := sk) (mv := false) as [E|(b' & sk' & mv' & E & M' & A')]; [| | exact K0|exact G|exact Fr|exact I|left; exact E|right; exists b', sk', mv'; split; [exact E|exact A']].
    + intros L b2 b3 sk3. apply kept_adds.
    + intros u Hu b1 sk1 mv (Fl & K) G1 F1 _. unfold s_producer. rewrite Em. destruct (K u (or_intror Hu)) as (Lu1 & Tu). destruct (K c (or_introl eq_refl)) as (Lc1 & Tc). destruct (Pu u Hu) as (_ & Su).
      destruct (@s_new_ok b1 sk1 mv u c 1 1 1 G1 F1 Lu1 Lc1) as [E|(b' & sk' & mv' & E & _ & A')]; [rewrite (proj2 (Fl p)); exact Hih|exact (s_prod_keep Fl Tu Su)|exact (s_cons_keep Tc Pc)|lia|lia|lia|left; exact E|].
      right. exists b', sk', mv'. split; [exact E|]. split; [exact I|]. unfold effect1. rewrite <- Tu, <- Tc. exact A'.
Qed.

Lemma prod_facts : forall b, good b -> (forall v, In v (bp_prod (pl_of b p)) -> s_prod b v) -> forall i u, an_tr (anet_of b) i = Some u -> a_out u p <> 0%N ->
  In i (bp_prod (pl_of b p)) /\ u = atr_of (tr_of b i) /\ a_in u p = 0%N /\ (forall q, q <> p -> a_out u q = 0%N) /\ (forall q, a_inh u q = None) /\
  (forall q, a_in u q <> 0%N -> inq q = false /\ forall j t, an_tr (anet_of b) j = Some t -> a_inh t q = None).
Proof.
  intros b G HP i u Hu Z. apply live_tr in Hu. destruct Hu as (-> & _). cbn [atr_of a_out] in Z.
  assert (Hi : In i (bp_prod (pl_of b p))) by (apply (@prod_wt p b i G); lia). destruct (HP i Hi) as [A (o & B & Bo) C D].
  split; [exact Hi|]. split; [reflexivity|]. cbn [atr_of a_in a_out a_inh]. split; [apply wt_absent; [apply (g_spre G)|exact C]|]. split.
  - intros q Hq. apply wt_absent; [apply (g_spost G)|]. rewrite B. cbn. intros [X|[]]. congruence.
  - split.
    + intros q. unfold ih. destruct (get_arc (bt_pre (tr_of b i)) q) as [a|] eqn:Ea; [|reflexivity]. apply get_arc_in in Ea. rewrite (no_inh_t i G A a); [reflexivity|apply Ea].
    + intros q Hq. destruct (@wt_in _ q (g_spre G i) Hq) as (a & Ha & Ea & _). destruct (D a Ha) as (D1 & D2). rewrite Ea in D1, D2. split; [exact D2|]. intros j t Ht. exact (@no_inh_p b q G D1 j t Ht).
Qed.
Lemma swapped_init : forall L c b b' sk, swapped L c b b' sk -> ext (an_init (anet_of b)) (an_init (anet_of b')).
Proof. intros L c b b' sk S q. cbn [anet_of an_init]. unfold init_at. rewrite (sw_init S). reflexivity. Qed.
Lemma swapped_keep : forall L c b b' sk, swapped L c b b' sk -> forall i t, i <> c -> an_tr (anet_of b) i = Some t -> an_tr (anet_of b') i = Some t.
Proof. intros L c b b' sk S i t Hi Ht. apply live_tr in Ht. destruct Ht as (-> & Li). destruct (sw_keep S Hi Li) as (A & B). rewrite (tr_live _ _ A), B. reflexivity. Qed.
Lemma swapped_back : forall L c b b' sk, swapped L c b b' sk -> forall j x, an_tr (anet_of b') j = Some x -> (j <> c /\ an_tr (anet_of b) j = Some x) \/ exists y, In y L /\ aeq y x.
Proof.
  intros L c b b' sk S j x Hx. apply live_tr in Hx. destruct Hx as (-> & Lj). destruct (sw_all S j Lj) as [(A & B)|H]; [left; split; [exact A|]|right; exact H].
  destruct (sw_keep S A B) as (_ & T). rewrite T. apply tr_live. exact B.
Qed.
Lemma swapped_new : forall L c b b' sk, swapped L c b b' sk -> forall y, In y L -> exists j x, an_tr (anet_of b') j = Some x /\ aeq y x.
Proof. intros L c b b' sk S y Hy. destruct (sw_new S y Hy) as (j & A & B). exists j, (atr_of (tr_of b' j)). split; [apply tr_live; exact A|exact B]. Qed.

Lemma con_facts : forall b c, good b -> bp_inhib (pl_of b p) = false -> s_cons b c -> (0 < cw b c)%N.
Proof.
  intros b c G Hih Pc. pose proof (sc_in Pc) as H. apply in_map_iff in H. destruct H as (a & Ea & Ha). destruct (g_pre G c a Ha) as (_ & Wa & Ia).
  assert (I : arc_inhib a = false) by (destruct (arc_inhib a); [|reflexivity]; destruct (Ia eq_refl) as (_ & X); rewrite Ea in X; congruence).
  unfold cw. rewrite <- Ea, (@in_wt _ a (g_spre G c) Ha I). exact Wa.
Qed.
Lemma lazy_step : forall b c us b2 sk2, good b -> inq p = false -> bp_inhib (pl_of b p) = false -> live b c = true -> s_cons b c ->
  (forall v, In v (bp_prod (pl_of b p)) <-> In v us) -> (forall u, In u us -> s_prod b u /\ kw b u = cw b c) -> (init_at b p < cw b c)%N ->
  swapped (flat_map (effect1 b c) us) c b b2 sk2 ->
  same inq (anet_of b) (anet_of b2) /\ forall v, In v (bp_prod (pl_of b2 p)) <-> In v us.
Proof.
  intros b c us b2 sk2 G Hq Hih Lc Pc Hus Pu Hi S.
  assert (PF := @prod_facts b G (fun v Hv => proj1 (Pu v (proj1 (Hus v) Hv)))).
  assert (Oc : wt (bt_post (tr_of b c)) p = 0%N) by (apply wt_absent; [apply (g_spost G)|apply (sc_out Pc)]).
  assert (Nc : ~ In c us) by (intros H; apply Hus in H; apply (g_prod G) in H; apply (sc_out Pc); exact H).
  assert (Eff : forall y, In y (flat_map (effect1 b c) us) <-> exists u, In u us /\ y = joined p 1 0 (atr_of (tr_of b u)) (atr_of (tr_of b c))).
  { intros y. rewrite in_flat_map. unfold effect1. split; intros (u & Hu & Hy); exists u; (split; [exact Hu|]); [destruct Hy as [<-|[]]; reflexivity|left; symmetry; exact Hy]. }
  assert (Lu : forall u, In u us -> live b u = true).
  { intros u Hu. destruct (sp_one (proj1 (Pu u Hu))) as (o & E & _). apply (@arc_live b u o G). right. rewrite E. left. reflexivity. }
  split.
  - apply (@lazy_all inq (anet_of b) (anet_of b2) p c (atr_of (tr_of b c)) (cw b c)).
    + apply con_facts; assumption.
    + exact (swapped_init S).
    + exact Hq.
    + exact (@no_inh_p b p G Hih).
    + apply tr_live. exact Lc.
    + reflexivity.
    + exact Oc.
    + exact Hi.
    + intros i t Hic Ht. exists t. split; [exact (swapped_keep S Hic Ht)|apply aeq_refl].
    + intros i u Hu Z. apply (PF i u Hu Z).
    + intros i u Hu Z. apply (PF i u Hu Z).
    + intros i u Hu Z. apply (PF i u Hu Z).
    + intros i u Hu Z. apply (PF i u Hu Z).
    + intros i u Hu Z. destruct (PF i u Hu Z) as (A & -> & _). apply Hus in A. apply (proj2 (Pu i A)).
    + intros i u Hu Z. destruct (PF i u Hu Z) as (A & -> & _). apply Hus in A. apply (swapped_new S). apply Eff. exists i. split; [exact A|reflexivity].
    + intros j x Hx. destruct (swapped_back S _ Hx) as [(A & B)|(y & A & B)]; [left; exists x; split; [exact A|split; [exact B|apply aeq_refl]]|]. right.
      apply Eff in A. destruct A as (u & Hu & ->). exists u, (atr_of (tr_of b u)). split; [apply tr_live; apply Lu; exact Hu|]. split; [|exact B]. cbn [atr_of a_out]. apply Hus in Hu. apply (@prod_wt p b u G) in Hu. lia.
  - intros v. rewrite (@prod_wt p b2 v (sw_good S)). split.
    + intros W. assert (Hv : In v (bp_prod (pl_of b2 p))) by (apply (@prod_wt p b2 v (sw_good S)); exact W). destruct (prod_arc p v (sw_good S) Hv) as (a & _ & Ha & _).
      assert (Lv : live b2 v = true) by (apply (@arc_live b2 v a (sw_good S)); right; exact Ha).
      destruct (sw_all S v Lv) as [(A & B)|(y & A & (_ & B & _))].
      * destruct (sw_keep S A B) as (_ & T). rewrite T in W. apply Hus. apply (@prod_wt p b v G). exact W.
      * apply Eff in A. destruct A as (u & _ & ->). specialize (B p). cbn [joined a_out atr_of] in B. rewrite Nat.eqb_refl in B. lia.
    + intros Hv. assert (Hne : v <> c) by (intros ->; contradiction). destruct (sw_keep S Hne (Lu v Hv)) as (_ & T). rewrite T. apply (@prod_wt p b v G). apply Hus. exact Hv.
Qed.

Lemma eager_step : forall b c us b2 sk2 a, good b -> inq p = false -> bp_inhib (pl_of b p) = false -> live b c = true -> s_cons b c ->
  (forall v, In v (bp_prod (pl_of b p)) <-> In v us) -> (forall u, In u us -> s_prod b u /\ (kw b u mod cw b c = 0)%N) -> (init_at b p < cw b c)%N ->
  bp_cons (pl_of b p) = [c] -> bt_pre (tr_of b c) = [a] -> (forall o, In o (bt_post (tr_of b c)) -> bp_inhib (pl_of b (arc_place o)) = false /\ inq (arc_place o) = false) ->
  swapped (flat_map (effectk b c) us) c b b2 sk2 ->
  same inq (anet_of b) (anet_of b2) /\ forall v, In v (bp_prod (pl_of b2 p)) -> s_prod b2 v \/
    exists j, live b2 j = true /\ ~ In j (bp_prod (pl_of b2 p)) /\ (forall q, a_in (atr_of (tr_of b2 j)) q = a_in (atr_of (tr_of b2 v)) q) /\ (forall q, a_inh (atr_of (tr_of b2 j)) q = a_inh (atr_of (tr_of b2 v)) q) /\
      forall q, q <> p -> (a_out (atr_of (tr_of b2 v)) q <= a_out (atr_of (tr_of b2 j)) q)%N /\ (a_out (atr_of (tr_of b2 v)) q <> a_out (atr_of (tr_of b2 j)) q -> bp_inhib (pl_of b2 q) = false /\ inq q = false).
Proof.
  intros b c us b2 sk2 a G Hq Hih Lc Pc Hus Pu Hi Hone Epre Hpost S.
  assert (PF := @prod_facts b G (fun v Hv => proj1 (Pu v (proj1 (Hus v) Hv)))).
  assert (Oc : wt (bt_post (tr_of b c)) p = 0%N) by (apply wt_absent; [apply (g_spost G)|apply (sc_out Pc)]).
  assert (Nc : ~ In c us) by (intros H; apply Hus in H; apply (g_prod G) in H; apply (sc_out Pc); exact H).
  assert (Wc : (0 < cw b c)%N) by (apply con_facts; assumption).
  assert (Div : forall u, In u us -> exists k, (0 < k)%N /\ kw b u = (k * cw b c)%N /\ (kw b u / cw b c = k)%N).
  { intros u Hu. destruct (Pu u Hu) as (_ & M). apply N.mod_divide in M; [|lia]. destruct M as (k & M). apply Hus in Hu. apply (@prod_wt p b u G) in Hu. fold (kw b u) in Hu. exists k. split; [nia|]. split; [exact M|]. rewrite M. apply N.div_mul. lia. }
  assert (Eff : forall y, In y (flat_map (effectk b c) us) <-> exists u k n, In u us /\ kw b u = (k * cw b c)%N /\ (0 < n)%N /\ (n <= k)%N /\ y = joined p n ((k - n) * cw b c) (atr_of (tr_of b u)) (atr_of (tr_of b c))).
  { intros y. rewrite in_flat_map. unfold effectk. split.
    - intros (u & Hu & Hy). apply in_map_iff in Hy. destruct Hy as (n & <- & Hn). apply in_seq in Hn. destruct (Div u Hu) as (k & K1 & K2 & K3). rewrite K3 in *. exists u, k, (N.of_nat n). split; [exact Hu|]. split; [exact K2|]. split; [lia|]. split; [lia|reflexivity].
    - intros (u & k & n & Hu & K2 & N1 & N2 & ->). exists u. split; [exact Hu|]. assert (K3 : (kw b u / cw b c = k)%N) by (rewrite K2; apply N.div_mul; lia). rewrite K3. apply in_map_iff. exists (N.to_nat n). rewrite N2Nat.id. split; [reflexivity|]. apply in_seq. lia. }
  assert (Lu : forall u, In u us -> live b u = true).
  { intros u Hu. destruct (sp_one (proj1 (Pu u Hu))) as (o & E & _). apply (@arc_live b u o G). right. rewrite E. left. reflexivity. }
  assert (Ap : arc_place a = p) by (pose proof (sc_in Pc) as X; rewrite Epre in X; destruct X as [X|[]]; exact X).
  assert (Ia : arc_inhib a = false).
  { assert (Ha : In a (bt_pre (tr_of b c))) by (rewrite Epre; left; reflexivity). destruct (arc_inhib a) eqn:I; [|reflexivity]. destruct (g_pre G c a Ha) as (_ & _ & X). destruct (X I) as (_ & Y). rewrite Ap in Y. congruence. }
  assert (Cp : forall q, q <> p -> wt (bt_pre (tr_of b c)) q = 0%N) by (intros q Hne; apply wt_absent; [apply (g_spre G)|]; rewrite Epre; cbn; intros [X|[]]; congruence).
  assert (Ci : forall q, ih (bt_pre (tr_of b c)) q = None).
  { intros q. unfold ih. destruct (get_arc (bt_pre (tr_of b c)) q) as [y|] eqn:Ey; [|reflexivity]. apply get_arc_in in Ey. rewrite Epre in Ey. destruct Ey as ([<-|[]] & _). rewrite Ia. reflexivity. }
  assert (Cs : forall q, wt (bt_post (tr_of b c)) q <> 0%N -> bp_inhib (pl_of b q) = false /\ inq q = false).
  { intros q Hne. destruct (@wt_in _ q (g_spost G c) Hne) as (o & Ho & Eo & _). rewrite <- Eo. apply Hpost. exact Ho. }
  split.
  - apply (@eager_all inq (anet_of b) (anet_of b2) p c (atr_of (tr_of b c)) (cw b c)).
    + exact Wc.
    + exact (swapped_init S).
    + exact Hq.
    + exact (@no_inh_p b p G Hih).
    + apply tr_live. exact Lc.
    + reflexivity.
    + exact Oc.
    + exact Hi.
    + intros i t Hic Ht. exists t. split; [exact (swapped_keep S Hic Ht)|apply aeq_refl].
    + intros i u Hu Z. apply (PF i u Hu Z).
    + intros i u Hu Z. apply (PF i u Hu Z).
    + intros i u Hu Z. apply (PF i u Hu Z).
    + intros i t Ht Hic. apply (@cons_zero b p i t G Ht). rewrite Hone. intros [X|[]]. congruence.
    + exact Cp.
    + exact Ci.
    + intros q Hne. destruct (Cs q Hne) as (A & B). split; [exact B|]. intros j t Ht. exact (@no_inh_p b q G A j t Ht).
    + intros i u Hu Z. destruct (PF i u Hu Z) as (A & -> & _). apply Hus in A. destruct (Div i A) as (k & K1 & K2 & _). exists k. split; [exact K1|exact K2].
    + intros i u k Hu Ek Hk. assert (Z : a_out u p <> 0%N) by (rewrite Ek; nia). destruct (PF i u Hu Z) as (A & -> & _). apply Hus in A. apply (swapped_new S). apply Eff. exists i, k, k. split; [exact A|]. split; [exact Ek|]. split; [exact Hk|]. split; [lia|]. rewrite N.sub_diag, N.mul_0_l. reflexivity.
    + intros j x Hx. destruct (swapped_back S _ Hx) as [(A & B)|(y & A & B)]; [left; exists x; split; [exact A|split; [exact B|apply aeq_refl]]|]. right.
      apply Eff in A. destruct A as (u & k & n & Hu & K & N1 & N2 & ->). exists u, (atr_of (tr_of b u)), k, n. split; [apply tr_live; apply Lu; exact Hu|]. split; [exact K|]. split; [exact N1|]. split; [exact N2|exact B].
  - intros v Hv. destruct (prod_arc p v (sw_good S) Hv) as (o & _ & Ho & _). assert (Lv : live b2 v = true) by (apply (@arc_live b2 v o (sw_good S)); right; exact Ho).
    destruct (sw_all S v Lv) as [(A & B)|(y & A & E)].
    + destruct (sw_keep S A B) as (_ & T). left. apply (@s_prod_keep b b2 v (sw_fl S) T). apply Pu. apply Hus. apply (@prod_wt p b v G). rewrite <- T. apply (@prod_wt p b2 v (sw_good S)). exact Hv.
    + right. apply Eff in A. destruct A as (u & k & n & Hu & K & N1 & N2 & ->).
      destruct (sw_new S (joined p k 0 (atr_of (tr_of b u)) (atr_of (tr_of b c)))) as (j & Lj & Ej).
      { apply Eff. exists u, k, k. split; [exact Hu|]. split; [exact K|]. split; [lia|]. split; [lia|]. rewrite N.sub_diag, N.mul_0_l. reflexivity. }
      destruct E as (E1 & E2 & E3), Ej as (J1 & J2 & J3). exists j. split; [exact Lj|]. split.
      * intros X. apply (@prod_wt p b2 j (sw_good S)) in X. specialize (J2 p). cbn [joined a_out atr_of] in J2. rewrite Nat.eqb_refl in J2. lia.
      * split; [intros q; rewrite <- J1, <- E1; reflexivity|]. split; [intros q; rewrite <- J3, <- E3; reflexivity|]. intros q Hne. rewrite <- J2, <- E2. cbn [joined a_out]. destruct (Nat.eqb_spec q p); [contradiction|]. cbn [atr_of a_out]. split; [nia|].
        intros X. rewrite (proj2 (sw_fl S q)). apply Cs. intros Z. rewrite Z in X. lia.
Qed.

(** The end: the producers of the place, and the place, are removed. *)
Definition droppable (b : builder) (v : nat) : Prop := s_prod b v \/
  exists j, live b j = true /\ ~ In j (bp_prod (pl_of b p)) /\ (forall q, a_in (atr_of (tr_of b j)) q = a_in (atr_of (tr_of b v)) q) /\ (forall q, a_inh (atr_of (tr_of b j)) q = a_inh (atr_of (tr_of b v)) q) /\
    forall q, q <> p -> (a_out (atr_of (tr_of b v)) q <= a_out (atr_of (tr_of b j)) q)%N /\ (a_out (atr_of (tr_of b v)) q <> a_out (atr_of (tr_of b j)) q -> bp_inhib (pl_of b q) = false /\ inq q = false).
Lemma skip_all : forall l b sk, good b -> free b sk -> NoDup l -> (forall v, In v l -> live b v = true) ->
  exists b' sk', fold_res skip_push l (b, sk) = Ok (b', sk') /\ good b' /\ free b' sk' /\ same_flags b b' /\ b_init b' = b_init b /\
    (forall v, ~ In v l -> live b' v = live b v /\ tr_of b' v = tr_of b v) /\ forall v, In v l -> live b' v = false.
Proof.
  induction l as [|c l IH]; intros b sk G Fr Nd Hl.
  - exists b, sk. split; [reflexivity|]. split; [exact G|]. split; [exact Fr|]. split; [apply same_flags_refl|]. split; [reflexivity|]. split; [intros; split; reflexivity|intros v []].
  - cbn [fold_res]. destruct (@swap_ok [] c b b sk) as (b1 & sk1 & E & S); [apply adds_refl; assumption|apply Hl; left; reflexivity|]. rewrite E. cbn [bind]. inversion Nd as [|x y N1 N2]; subst x y.
    assert (L1 : forall v, v <> c -> live b1 v = live b v).
    { intros v Hv. destruct (live b v) eqn:Ev; [apply (sw_keep S Hv Ev)|]. destruct (live b1 v) eqn:Ev1; [|reflexivity]. destruct (sw_all S v Ev1) as [(_ & X)|(x & [] & _)]. congruence. }
    assert (Lc : live b1 c = false) by (destruct (live b1 c) eqn:Ec; [|reflexivity]; destruct (sw_all S c Ec) as [(X & _)|(x & [] & _)]; contradiction).
    destruct (IH b1 sk1 (sw_good S) (sw_free S) N2) as (b' & sk' & E' & G' & F' & Fl' & I' & K' & D').
    + intros v Hv. rewrite L1; [apply Hl; right; exact Hv|]. intros ->. contradiction.
    + exists b', sk'. split; [exact E'|]. split; [exact G'|]. split; [exact F'|]. split; [eapply same_flags_trans; [apply (sw_fl S)|exact Fl']|]. split; [rewrite I'; apply (sw_init S)|]. split.
      * intros v Hv. assert (Hne : v <> c) by (intros ->; apply Hv; left; reflexivity). assert (Hn : ~ In v l) by (intros X; apply Hv; right; exact X). destruct (K' v Hn) as (A & B). rewrite A, B, (L1 v Hne). split; [reflexivity|].
        clear - E Hne G Hl. unfold skip_push in E. pose proof (Hl c (or_introl eq_refl)) as Lc. apply live_spec in Lc. destruct Lc as (Rc & Sc). destruct (skip_transition_ok G Rc Sc) as (b2 & E2 & _ & _ & _ & _ & T2). rewrite E2 in E. cbn [bind] in E. injection E as <- _.
        rewrite T2. destruct (Nat.eqb_spec v c); [contradiction|reflexivity].
      * intros v [<-|Hv]; [|apply D'; exact Hv]. rewrite (proj1 (K' _ N1)). exact Lc.
Qed.
Lemma drop_stage : forall b sk, good b -> free b sk -> inq p = false -> bp_skip (pl_of b p) = false -> bp_inhib (pl_of b p) = false -> bp_cons (pl_of b p) = [] ->
  (forall v, In v (bp_prod (pl_of b p)) -> droppable b v) ->
  exists b2 sk2 b3, fold_res skip_push (bp_prod (pl_of b p)) (b, sk) = Ok (b2, sk2) /\ skip_place b2 p = Ok b3 /\ good b3 /\ free b3 sk2 /\ same_views inq b b3.
Proof.
  intros b sk G Fr Hq Hs Hih Hc Hd.
  assert (Lv : forall v, In v (bp_prod (pl_of b p)) -> live b v = true) by (intros v Hv; destruct (prod_arc p v G Hv) as (o & _ & Ho & _); apply (@arc_live b v o G); right; exact Ho).
  destruct (@skip_all (bp_prod (pl_of b p)) b sk G Fr) as (b2 & sk2 & E & G2 & F2 & Fl2 & I2 & K2 & D2); [apply sorted_nodup, (g_sprod G)|exact Lv|].
  assert (Same : same inq (anet_of b) (anet_of b2)).
  { apply (@drop_producers inq (anet_of b) (anet_of b2) p).
    - intros q. cbn [anet_of an_init]. unfold init_at. rewrite I2. reflexivity.
    - exact Hq.
    - intros i t Ht. split; [apply (@cons_zero b p i t G Ht); rewrite Hc; intros []|exact (@no_inh_p b p G Hih i t Ht)].
    - intros i t Ht. apply live_tr in Ht. destruct Ht as (-> & Li). destruct (in_dec Nat.eq_dec i (bp_prod (pl_of b p))) as [Hin|Hin]; [rewrite (D2 i Hin) in Li; discriminate|]. destruct (K2 i Hin) as (A & B). rewrite B. apply tr_live. rewrite <- A. exact Li.
    - intros i t Ht. apply live_tr in Ht. destruct Ht as (-> & Li). destruct (in_dec Nat.eq_dec i (bp_prod (pl_of b p))) as [Hin|Hin].
      + right. destruct (Hd i Hin) as [[A (o & B & Bo) C D]|(j & Lj & Nj & A1 & A2 & A3)].
        * left. cbn [atr_of a_in a_out]. split; [intros q Hne; apply wt_absent; [apply (g_spost G)|]; rewrite B; cbn; intros [X|[]]; congruence|].
          intros q Hne. destruct (@wt_in _ q (g_spre G i) Hne) as (a & Ha & Ea & _). destruct (D a Ha) as (D1 & D2'). rewrite Ea in D1, D2'. split; [exact D2'|]. intros j s Hj. exact (@no_inh_p b q G D1 j s Hj).
        * right. exists j, (atr_of (tr_of b j)). destruct (K2 j Nj) as (B1 & B2). split; [rewrite <- B2; apply tr_live; rewrite B1; exact Lj|]. split; [exact A1|]. split; [exact A2|]. split; [intros q Hne; apply (A3 q Hne)|].
          intros q Hne X. destruct (A3 q Hne) as (_ & Y). destruct (Y X) as (Y1 & Y2). split; [exact Y2|]. intros j' s Hj'. exact (@no_inh_p b q G Y1 j' s Hj').
      + left. destruct (K2 i Hin) as (A & B). rewrite <- B. apply tr_live. rewrite A. exact Li. }
  destruct (@skip_isolated inq p b2 G2) as (b3 & E3 & G3 & V3 & T3).
  { rewrite (proj1 (Fl2 p)). exact Hs. } { exact Hq. }
  { destruct (bp_cons (pl_of b2 p)) as [|v l] eqn:Ev; [reflexivity|]. exfalso. assert (Hv : In v (bp_cons (pl_of b2 p))) by (rewrite Ev; left; reflexivity). destruct (cons_arc p v G2 Hv) as (a & _ & Ha & Pa). assert (L2 : live b2 v = true) by (apply (@arc_live b2 v a G2); left; exact Ha).
    destruct (in_dec Nat.eq_dec v (bp_prod (pl_of b p))) as [Hin|Hin]; [rewrite (D2 v Hin) in L2; discriminate|]. destruct (K2 v Hin) as (_ & T). apply (g_cons G2) in Hv. rewrite T in Hv. apply (g_cons G) in Hv. rewrite Hc in Hv. exact Hv. }
  exists b2, sk2, b3. split; [exact E|]. split; [exact E3|]. split; [exact G3|]. split.
  - destruct F2 as (A & B). split; [exact A|]. intros t Ht. destruct (T3 t) as (-> & ->). apply B. exact Ht.
  - eapply same_views_trans; [apply same_views_intro; [exact G|exact G2|exact Same]|exact V3].
Qed.

(** ** The checks *)
Definition marks (b : builder) (done : list nat) (c : nat) (f : bool * bool) : Prop :=
  (atomic remove_loops all_reach = false -> snd f = true) /\
  (fst f = true -> (forall u, In u done -> (init_at b p < cw b c)%N /\ (kw b u mod cw b c = 0)%N) /\ snd f = forallb (fun u => (kw b u =? cw b c)%N) done).
Lemma in_arc_cw : forall b c, good b -> bp_inhib (pl_of b p) = false -> In c (bp_cons (pl_of b p)) -> exists a, in_arc b p c = Some a /\ arc_weight a = cw b c /\ (0 < cw b c)%N.
Proof.
  intros b c G Hih Hc. destruct (cons_arc p c G Hc) as (a & Ea & Ha & Pa). exists a. split; [exact Ea|]. destruct (g_pre G c a Ha) as (_ & Wa & Ia).
  assert (I : arc_inhib a = false) by (destruct (arc_inhib a); [|reflexivity]; destruct (Ia eq_refl) as (_ & X); rewrite Pa in X; congruence).
  unfold cw. rewrite <- Pa, (@in_wt _ a (g_spre G c) Ha I). split; [reflexivity|exact Wa].
Qed.
Lemma out_arc_kw : forall b u, good b -> In u (bp_prod (pl_of b p)) -> exists o, out_arc b u p = Some o /\ arc_weight o = kw b u.
Proof.
  intros b u G Hu. destruct (prod_arc p u G Hu) as (o & Eo & Ho & Po). exists o. split; [exact Eo|]. unfold kw. rewrite <- Po. symmetry. apply in_wt; [apply (g_spost G)|exact Ho|apply (g_post G u o Ho)].
Qed.
Lemma s_flags_ok : forall b u done, good b -> bp_inhib (pl_of b p) = false -> forall cs fl, (forall c, In c cs -> In c (bp_cons (pl_of b p))) -> Forall2 (marks b done) cs fl ->
  exists r, s_flags remove_loops all_reach b p (kw b u) cs fl = Ok r /\ forall fl', r = Some fl' -> Forall2 (marks b (u :: done)) cs fl'.
Proof.
  intros b u done G Hih. induction cs as [|c cs IH]; intros fl Hcs F; inversion F as [|c' f cs' fl' M F']; subst.
  - exists (Some []). split; [reflexivity|]. intros fl' [= <-]. constructor.
  - destruct f as (t, o). cbn [s_flags]. destruct (@in_arc_cw b c G Hih (Hcs c (or_introl eq_refl))) as (a & Ea & Wa & Wp). rewrite Ea. cbn [some bind]. rewrite Wa.
    destruct (IH fl' (fun x Hx => Hcs x (or_intror Hx)) F') as (r & Er & Hr). unfold marks in M. cbn [fst snd] in M. destruct M as (M1 & M2).
    assert (Fin : forall o1, (atomic remove_loops all_reach = false -> o1 = true) -> marks b (u :: done) c (false, o1)) by (intros o1 Ho; split; cbn [fst snd]; [exact Ho|discriminate]).
    destruct (atomic remove_loops all_reach) eqn:Ea_.
    + destruct (N.ltb_spec (init_at b p) (cw b c)) as [Li|Li]; cbn [negb].
      * destruct (N.eqb_spec (cw b c) 0); [lia|]. destruct (N.eqb_spec (kw b u mod cw b c) 0) as [Em|Em]; cbn [negb]; rewrite Er; cbn [bind]; eexists; (split; [reflexivity|]); intros fl2 E2; destruct r as [fl3|]; try discriminate; injection E2 as <-.
        -- constructor; [|apply Hr; reflexivity]. split; cbn [fst snd]; [rewrite Ea_; discriminate|]. intros Ht. destruct (M2 Ht) as (M3 & M4). split; [intros v [<-|Hv]; [split; [exact Li|exact Em]|apply M3; exact Hv]|]. cbn [forallb]. rewrite M4. apply andb_comm.
        -- constructor; [|apply Hr; reflexivity]. apply Fin. discriminate.
      * rewrite Er. cbn [bind]. eexists. split; [reflexivity|]. intros fl2 E2. destruct r as [fl3|]; [|discriminate]. injection E2 as <-. constructor; [|apply Hr; reflexivity]. apply Fin. discriminate.
    + destruct (N.ltb_spec (init_at b p) (cw b c)) as [Li|Li]; cbn [negb orb]; [|eexists; split; [reflexivity|discriminate]].
      destruct (N.eqb_spec (kw b u) (cw b c)) as [Ek|Ek]; cbn [negb]; [|eexists; split; [reflexivity|discriminate]]. rewrite Er. cbn [bind]. eexists. split; [reflexivity|]. intros fl2 E2. destruct r as [fl3|]; [|discriminate]. injection E2 as <-. constructor; [|apply Hr; reflexivity].
      split; cbn [fst snd]; [intros _; apply M1; reflexivity|]. intros Ht. destruct (M2 Ht) as (M3 & M4). split; [intros v [<-|Hv]; [split; [exact Li|rewrite Ek; apply N.mod_same; lia]|apply M3; exact Hv]|]. cbn [forallb]. rewrite <- M4, Ek, N.eqb_refl. reflexivity.
Qed.
Lemma s_checks_ok : forall b, good b -> bp_inhib (pl_of b p) = false -> forall us done fl, (forall u, In u us -> In u (bp_prod (pl_of b p))) -> Forall2 (marks b done) (bp_cons (pl_of b p)) fl ->
  exists r, s_checks inq remove_loops all_reach b p us fl = Ok r /\ forall fl', r = Some fl' -> Forall2 (marks b (rev us ++ done)) (bp_cons (pl_of b p)) fl' /\
    forall u, In u us -> bt_inhib (tr_of b u) = false /\ length (bt_post (tr_of b u)) = 1 /\ forall a, In a (bt_pre (tr_of b u)) -> bp_inhib (pl_of b (arc_place a)) = false /\ inq (arc_place a) = false.
Proof.
  intros b G Hih. induction us as [|u us IH]; intros done fl Hus F; cbn [s_checks].
  - exists (Some fl). split; [reflexivity|]. intros fl' [= <-]. split; [exact F|intros u []].
  - destruct (bt_inhib (tr_of b u)) eqn:Ei; cbn [orb]; [eexists; split; [reflexivity|discriminate]|]. destruct (Nat.eqb_spec (length (bt_post (tr_of b u))) 1) as [El|El]; cbn [negb]; [|eexists; split; [reflexivity|discriminate]].
    destruct (@out_arc_kw b u G (Hus u (or_introl eq_refl))) as (o & Eo & Wo). rewrite Eo. cbn [some bind]. rewrite Wo.
    destruct (@s_flags_ok b u done G Hih (bp_cons (pl_of b p)) fl (fun c Hc => Hc) F) as (r & Er & Hr). rewrite Er. cbn [bind]. destruct r as [fl1|]; [|eexists; split; [reflexivity|discriminate]].
    destruct (negb (forallb fst fl1) && none_found (map fst fl1)); [eexists; split; [reflexivity|discriminate]|].
    destruct (existsb _ (bt_pre (tr_of b u))) eqn:Ex; [eexists; split; [reflexivity|discriminate]|].
    destruct (IH (u :: done) fl1 (fun v Hv => Hus v (or_intror Hv)) (Hr fl1 eq_refl)) as (r2 & Er2 & Hr2). exists r2. split; [exact Er2|]. intros fl' E. destruct (Hr2 fl' E) as (A & B). split; [cbn [rev]; rewrite <- app_assoc; exact A|].
    intros v [<-|Hv]; [|apply B; exact Hv]. split; [exact Ei|]. split; [exact El|]. intros a Ha.
    match type of Ex with existsb ?f _ = false => assert (X : f a = false) end.
    { match goal with |- ?f = false => destruct f eqn:Y end; [|reflexivity]. match type of Ex with existsb ?f ?l = false => assert (Z : existsb f l = true) by (apply existsb_exists; exists a; split; [exact Ha|exact Y]) end. congruence. }
    apply orb_false_iff in X. destruct X as (X & _). apply orb_false_iff in X. exact X.
Qed.

(** ** The loop over the consumers, when each is fired once *)
Record linv (b : builder) (us : list nat) (b1 : builder) (sk1 : list nat) (rest : list nat) : Prop := {
  li_good : good b1;
  li_free : free b1 sk1;
  li_fl : same_flags b b1;
  li_init : b_init b1 = b_init b;
  li_same : same inq (anet_of b) (anet_of b1);
  li_prod : forall v, In v (bp_prod (pl_of b1 p)) <-> In v us;
  li_us : forall u, In u us -> live b1 u = true /\ tr_of b1 u = tr_of b u;
  li_rest : forall c, In c rest -> live b1 c = true /\ tr_of b1 c = tr_of b c }.
Lemma s_loop_ok : forall b us, good b -> inq p = false -> bp_inhib (pl_of b p) = false -> us <> [] -> (forall u, In u us -> s_prod b u) ->
  forall l, NoDup (map fst l) -> (forall c, In c (map fst l) -> s_cons b c) ->
    (forall c t o, In (c, (t, o)) l -> t = true -> o = true /\ forall u, In u us -> (init_at b p < cw b c)%N /\ kw b u = cw b c) ->
  forall b1 sk1, linv b us b1 sk1 (map fst l) -> fold_res (s_consumer inq remove_loops all_reach moves p us) l (b1, sk1) = Throw \/
    exists b2 sk2, fold_res (s_consumer inq remove_loops all_reach moves p us) l (b1, sk1) = Ok (b2, sk2) /\ linv b us b2 sk2 [].
Proof.
  intros b us G Hq Hih Une Pu. induction l as [|(c, (t, o)) l IH]; intros Nd Hc Hl b1 sk1 V.
  - right. exists b1, sk1. split; [reflexivity|exact V].
  - cbn [map fst] in Nd, Hc, V. inversion Nd as [|x y N1 N2]; subst x y. cbn [fold_res].
    assert (IHl := IH N2 (fun x Hx => Hc x (or_intror Hx)) (fun x t' o' Hx => Hl x t' o' (or_intror Hx))). unfold s_consumer at 1 3.
    destruct t; cbn [negb bind].
    2: { apply IHl. destruct V. constructor; try assumption. intros x Hx. apply li_rest0. right. exact Hx. }
    destruct (Hl c true o (or_introl eq_refl) eq_refl) as (-> & Hex). cbn [negb]. rewrite !andb_false_r. cbn [andb].
    pose proof (li_good V) as G1. destruct (li_rest V c (or_introl eq_refl)) as (Lc & Tc).
    assert (Hih1 : bp_inhib (pl_of b1 p) = false) by (rewrite (proj2 (li_fl V p)); exact Hih).
    assert (Sc : s_cons b1 c) by (apply (@s_cons_keep b b1 c Tc); apply Hc; left; reflexivity).
    assert (Su : forall u, In u us -> live b1 u = true /\ s_prod b1 u) by (intros u Hu; destruct (li_us V u Hu) as (A & B); split; [exact A|exact (@s_prod_keep b b1 u (li_fl V) B (Pu u Hu))]).
    assert (Hex1 : forall u, In u us -> (init_at b1 p < cw b1 c)%N /\ kw b1 u = cw b1 c).
    { intros u Hu. destruct (Hex u Hu) as (A & B). unfold kw, cw in *. rewrite Tc, (proj2 (li_us V u Hu)). unfold init_at in *. rewrite (li_init V). split; assumption. }
    destruct (@s_prods_ok b1 sk1 us c true G1 (li_free V) Hih1 Lc Sc Su) as [E|(b2 & sk2 & mv & E & A)]; [rewrite andb_false_r; discriminate|rewrite E; left; reflexivity|]. rewrite E. cbn [bind]. cbn [negb] in A. rewrite andb_false_r in A.
    destruct (@swap_ok _ c b1 b2 sk2 A Lc) as (b3 & sk3 & E3 & S3). rewrite E3. cbn [bind].
    destruct (@lazy_step b1 c us b3 sk3 G1 Hq Hih1 Lc Sc (li_prod V)) as (Same & Pr).
    { intros u Hu. split; [apply (Su u Hu)|apply (Hex1 u Hu)]. } { destruct us as [|u0 us0]; [contradiction|]. apply (Hex1 u0). left. reflexivity. } { exact S3. }
    apply IHl.
    assert (Nc : ~ In c us) by (intros H; apply (li_prod V) in H; apply (g_prod G1) in H; apply (sc_out Sc); exact H).
    constructor.
    + apply (sw_good S3).
    + apply (sw_free S3).
    + eapply same_flags_trans; [apply (li_fl V)|apply (sw_fl S3)].
    + rewrite (sw_init S3). apply (li_init V).
    + eapply same_trans; [apply (li_same V)|exact Same].
    + exact Pr.
    + intros u Hu. destruct (li_us V u Hu) as (X & Y). assert (Hne : u <> c) by (intros ->; contradiction). destruct (sw_keep S3 Hne X) as (X' & Y'). split; [exact X'|congruence].
    + intros x Hx. destruct (li_rest V x (or_intror Hx)) as (X & Y). assert (Hne : x <> c) by (intros ->; contradiction). destruct (sw_keep S3 Hne X) as (X' & Y'). split; [exact X'|congruence].
Qed.

Lemma forall2_combine : forall {A B} (R : A -> B -> Prop) l1 l2, Forall2 R l1 l2 -> map fst (combine l1 l2) = l1 /\ forall x y, In (x, y) (combine l1 l2) -> R x y.
Proof.
  intros A B R l1 l2 H. induction H as [|a b l1 l2 Hab H (IH1 & IH2)]; cbn [combine map fst]; [split; [reflexivity|intros x y []]|]. split; [rewrite IH1; reflexivity|]. intros x y [E|Hin]; [injection E as <- <-; exact Hab|apply IH2; exact Hin].
Qed.
Theorem rule_s_ok : forall b sk, good b -> free b sk -> s_fair inq moves b p -> sound_new inq b (rule_s inq remove_loops all_reach moves b sk p).
Proof.
  intros b sk G Fr Fair.
  assert (Triv : sound_new inq b (Ok (b, sk))) by (cbn; split; [exact G|split; [exact Fr|apply same_views_refl]]).
  unfold rule_s. destruct (bp_skip (pl_of b p)) eqn:Esk; [exact Triv|]. destruct (bp_inhib (pl_of b p)) eqn:Eih; [exact Triv|]. destruct (inq p) eqn:Eq; [exact Triv|]. cbn [orb].
  destruct (bp_prod (pl_of b p)) as [|u0 us0] eqn:Ep; [exact Triv|]. destruct (bp_cons (pl_of b p)) as [|c0 cs0] eqn:Ec; [exact Triv|].
  assert (Une : bp_prod (pl_of b p) <> []) by (rewrite Ep; discriminate). rewrite <- Ep, <- Ec in *. clear Ep Ec u0 us0 c0 cs0.
  set (us := bp_prod (pl_of b p)) in *. set (cs := bp_cons (pl_of b p)) in *.
  destruct (disjoint us cs) eqn:Ed; [|exact Triv]. cbn [negb]. pose proof (@disjoint_ok _ _ (g_sprod G p) (g_scons G p) Ed) as Dj.
  destruct (@s_checks_ok b G Eih us [] (map (fun _ => (true, true)) cs) (fun u Hu => Hu)) as (r & Er & Hr).
  { fold cs. generalize cs. intros l. clear. induction l as [|c l IH]; cbn [map]; constructor; [|apply IH]. split; cbn [fst snd forallb]; [reflexivity|]. intros _. split; [intros u []|reflexivity]. }
  rewrite Er. cbn [bind]. destruct r as [fl|]; [|exact Triv]. destruct (Hr fl eq_refl) as (M & Pu0). rewrite app_nil_r in M. clear Hr Er. fold cs in M.
  destruct (@forall2_combine _ _ _ _ _ M) as (Cf & Cm).
  assert (Pu : forall u, In u us -> s_prod b u).
  { intros u Hu. destruct (Pu0 u Hu) as (A & B & C). constructor; [exact A| | |exact C].
    - pose proof Hu as Hu'. apply (g_prod G) in Hu'. destruct (bt_post (tr_of b u)) as [|o [|o' l]]; cbn in B; try discriminate. exists o. split; [reflexivity|]. destruct Hu' as [X|[]]. exact X.
    - intros X. apply (g_cons G) in X. exact (Dj u Hu X). }
  assert (Pc : forall c, In c cs -> s_cons b c) by (intros c Hc; constructor; [apply (g_cons G); exact Hc|intros X; apply (g_prod G) in X; exact (Dj c X Hc)]).
  assert (Lu : forall u, In u us -> live b u = true) by (intros u Hu; destruct (prod_arc p u G Hu) as (o & _ & Ho & _); apply (@arc_live b u o G); right; exact Ho).
  assert (Lc : forall c, In c cs -> live b c = true) by (intros c Hc; destruct (cons_arc p c G Hc) as (o & _ & Ho & _); apply (@arc_live b c o G); left; exact Ho).
  assert (Fin : forall b1 sk1, good b1 -> free b1 sk1 -> same_flags b b1 -> same inq (anet_of b) (anet_of b1) -> (forall v, In v (bp_prod (pl_of b1 p)) -> droppable b1 v) ->
    sound_new inq b (match bp_cons (pl_of b1 p) with [] => s2 <- fold_res skip_push (bp_prod (pl_of b1 p)) (b1, sk1) ;; let '(b2, sk2) := s2 in b3 <- skip_place b2 p ;; Ok (b3, sk2) | _ :: _ => Ok (b1, sk1) end)).
  { intros b1 sk1 G1 F1 Fl1 S1 D1. destruct (bp_cons (pl_of b1 p)) as [|v l] eqn:Ecs; [|cbn; split; [exact G1|split; [exact F1|apply same_views_intro; assumption]]].
    destruct (@drop_stage b1 sk1 G1 F1 Eq) as (b2 & sk2 & b3 & E2 & E3 & G3 & F3 & V3); [rewrite (proj1 (Fl1 p)); exact Esk|rewrite (proj2 (Fl1 p)); exact Eih|exact Ecs|exact D1|]. rewrite E2. cbn [bind]. rewrite E3. cbn [bind sound_new].
    split; [exact G3|]. split; [exact F3|]. eapply same_views_trans; [apply same_views_intro; [exact G|exact G1|exact S1]|exact V3]. }
  assert (Kw : forall u, In u us -> exists o, out_arc b u p = Some o /\ arc_weight o = kw b u) by (intros u Hu; apply out_arc_kw; assumption).
  assert (Cw : forall c, In c cs -> exists a, in_arc b p c = Some a /\ arc_weight a = cw b c /\ (0 < cw b c)%N) by (intros c Hc; apply in_arc_cw; assumption).
  assert (Mk : forall c t o, In (c, (t, o)) (combine cs fl) -> t = true -> In c cs /\ (forall u, In u us -> (init_at b p < cw b c)%N /\ (kw b u mod cw b c = 0)%N) /\ (o = true -> forall u, In u us -> kw b u = cw b c) /\ ((forall u, In u us -> kw b u = cw b c) -> o = true) /\ (atomic remove_loops all_reach = false -> o = true)).
  { intros c t o Hin Ht. destruct (Cm _ _ Hin) as (M1 & M2). cbn [fst snd] in M1, M2. destruct (M2 Ht) as (M3 & M4). split; [rewrite <- Cf; exact (in_map fst _ _ Hin)|]. split; [intros u Hu; apply M3; apply -> in_rev; exact Hu|]. split; [|split; [|exact M1]].
    - intros -> u Hu. symmetry in M4. rewrite forallb_forall in M4. apply N.eqb_eq. apply M4. apply -> in_rev. exact Hu.
    - intros H. rewrite M4. apply forallb_forall. intros u Hu. apply N.eqb_eq. apply H. apply in_rev. exact Hu. }
  assert (Lazy : (forall c t o, In (c, (t, o)) (combine cs fl) -> t = true -> o = true) ->
    sound_new inq b (s <- fold_res (s_consumer inq remove_loops all_reach moves p us) (combine cs fl) (b, sk) ;; let '(b1, sk1) := s in
      match bp_cons (pl_of b1 p) with [] => s2 <- fold_res skip_push (bp_prod (pl_of b1 p)) (b1, sk1) ;; let '(b2, sk2) := s2 in b3 <- skip_place b2 p ;; Ok (b3, sk2) | _ :: _ => Ok (b1, sk1) end)).
  { intros Hone. destruct (@s_loop_ok b us G Eq Eih Une Pu (combine cs fl)) with (b1 := b) (sk1 := sk) as [E|(b1 & sk1 & E & V)].
    - rewrite Cf. apply sorted_nodup, (g_scons G).
    - rewrite Cf. exact Pc.
    - intros c t o Hin Ht. pose proof (Hone c t o Hin Ht) as Ho. destruct (Mk c t o Hin Ht) as (_ & A & B & _). split; [exact Ho|]. intros u Hu. split; [apply (A u Hu)|apply (B Ho u Hu)].
    - constructor; try assumption; [apply same_flags_refl|reflexivity|apply same_refl|intros v; reflexivity| |].
      + intros u Hu. split; [apply Lu; exact Hu|reflexivity].
      + rewrite Cf. intros c Hc. split; [apply Lc; exact Hc|reflexivity].
    - rewrite E. exact I.
    - rewrite E. cbn [bind]. apply Fin; [apply (li_good V)|apply (li_free V)|apply (li_fl V)|apply (li_same V)|]. intros v Hv. left. apply (li_prod V) in Hv. destruct (li_us V v Hv) as (_ & T). exact (@s_prod_keep b b1 v (li_fl V) T (Pu v Hv)). }
  destruct Fair as [(c & Hone & Hnq & Hmv)|Fair].
  - fold cs in Hone. rewrite Hone in *. assert (Fl1 : exists t o, fl = [(t, o)]) by (inversion M as [|? f ? fl' _ M']; inversion M'; subst; destruct f as (t, o); exists t, o; reflexivity). destruct Fl1 as (t & o & ->).
    cbn [combine] in *. destruct (Bool.bool_dec (t && negb o) true) as [Eto|Eto].
    2: { apply Lazy. intros c' t' o' [E|[]] Ht. injection E as <- <- <-. rewrite Ht in Eto. cbn [andb] in Eto. destruct o; [reflexivity|contradiction Eto; reflexivity]. }
    apply andb_true_iff in Eto. destruct Eto as (-> & Eo). apply negb_true_iff in Eo. subst o.
    destruct (Mk c true false (or_introl eq_refl) eq_refl) as (_ & A & _ & _ & At).
    assert (Eat : atomic remove_loops all_reach = true) by (destruct (atomic remove_loops all_reach); [reflexivity|discriminate (At eq_refl)]).
    cbn [fold_res]. unfold s_consumer. cbn [negb]. rewrite Eat. cbn [andb].
    assert (Hc : In c [c]) by (left; reflexivity).
    destruct (Nat.eqb_spec (length (bt_pre (tr_of b c))) 1) as [El|El]; cbn [negb orb bind]; [|apply Fin; try assumption; [apply same_flags_refl|apply same_refl|intros v Hv; left; apply Pu; exact Hv]].
    destruct (existsb _ (bt_post (tr_of b c))) eqn:Ex; cbn [bind]; [apply Fin; try assumption; [apply same_flags_refl|apply same_refl|intros v Hv; left; apply Pu; exact Hv]|].
    assert (Hpost : forall x, In x (bt_post (tr_of b c)) -> bp_inhib (pl_of b (arc_place x)) = false /\ inq (arc_place x) = false).
    { intros x Hx. split; [|apply Hnq; exact Hx]. destruct (bp_inhib (pl_of b (arc_place x))) eqn:Ix; [|reflexivity].
      match type of Ex with existsb ?f ?l = false => assert (Z : existsb f l = true) by (apply existsb_exists; exists x; split; [exact Hx|cbn beta; rewrite Ix; reflexivity]) end. congruence. }
    assert (Wc : (0 < cw b c)%N) by (destruct (Cw c Hc) as (a & _ & _ & W); exact W).
    destruct (bt_pre (tr_of b c)) as [|a [|a' pre]] eqn:Epre; cbn in El; try discriminate.
    destruct (@s_prods_ok b sk us c false G Fr Eih (Lc c Hc) (Pc c Hc)) as [E|(b1 & sk1 & mv & E & Ad)].
    { intros u Hu. split; [apply Lu|apply Pu]; exact Hu. } { intros _. split; [intros u Hu; exact Wc|exact Hmv]. }
    { rewrite E. exact I. }
    rewrite E. cbn [bind]. rewrite Eat in Ad. cbn [andb negb] in Ad.
    destruct (@swap_ok _ c b b1 sk1 Ad (Lc c Hc)) as (b2 & sk2 & E2 & S2). rewrite E2. cbn [bind].
    destruct (@eager_step b c us b2 sk2 a G Eq Eih (Lc c Hc) (Pc c Hc)) as (Same & Pr).
    { intros v. reflexivity. } { intros u Hu. split; [apply Pu; exact Hu|apply (A u Hu)]. } { destruct us as [|u1 us1]; [contradiction|]. apply (A u1). left. reflexivity. } { exact Hone. } { exact Epre. } { exact Hpost. } { exact S2. }
    apply Fin; [apply (sw_good S2)|apply (sw_free S2)|apply (sw_fl S2)|exact Same|exact Pr].
  - apply Lazy. intros c t o Hin Ht. destruct (Mk c t o Hin Ht) as (Hc & A & _ & B & _). apply B. intros u Hu. destruct (Cw c Hc) as (a & Ea & Wa & _). destruct (Kw u Hu) as (x & Ex & Wx). rewrite <- Wa, <- Wx. apply (Fair c Hc) with (u := u); try assumption.
    intros a' Ea'. assert (a' = a) by congruence. subst a'. rewrite Wa. split; [apply (A u Hu)|]. intros v y Hv Hy. destruct (Kw v Hv) as (y' & Ey & Wy). assert (y' = y) by congruence. subst y'. rewrite Wy. apply (A v Hv).
Qed.
End S.
