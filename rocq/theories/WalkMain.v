(** The random walk on a net as built. *)
From Verif Require Import Base BaseLemmas NetSpec NetModel NetProofs StoreSpec StoreProofs SearchModel SearchMain
  PqlSyntax StubModel StubSearch CtlMain WalkModel WalkSpec WalkProofs WalkFind.
Set Implicit Arguments.

(** The generator of the walk: all enabled transitions, or the stubborn ones for the goals. *)
Definition walk_gen (net : cnet) (o : option (bool * list cond)) : list N -> list (nat * list N) * res unit :=
  match o with None => net_stream net | Some (mk, gs) => stub_stream net mk gs end.

(** A net and potencies the walk can be started on. *)
Definition walkable (net : cnet) (o : option (bool * list cond)) (pots : list N) : Prop :=
  layout net /\ 0 < cn_places net /\ mark_ok (cn_places net) (cn_init net) /\
  (pots = [] \/ length pots = cn_ntrans net) /\ (o <> None -> dirs_ok net).

(** Some reachable marking enables a transition that exceeds the token limit. *)
Definition can_overflow (net : cnet) : Prop :=
  exists m t tr, reachable (to_pnet net) (cn_init net) m /\ nth_error (pn_trans (to_pnet net)) t = Some tr /\ enabled tr m /\ overflows tr m.

Lemma init_pots_len : forall n pots, pots = [] \/ length pots = n -> length (init_pots n pots) = n.
Proof. intros n pots [->|H]; cbn; [apply repeat_length|]. destruct pots; cbn in *; [rewrite repeat_length; lia|rewrite map_length; exact H]. Qed.

Lemma step_lt : forall net m t m', step (to_pnet net) m t m' -> t < cn_ntrans net.
Proof. intros net m t m' (tr & Hn & _). apply net_trans_inv in Hn. apply Hn. Qed.

Lemma gen_sound : forall net o pots, walkable net o pots -> forall m, mark_ok (cn_places net) m ->
  (forall t m', In (t, m') (fst (walk_gen net o m)) -> step (to_pnet net) m t m' /\ mark_ok (cn_places net) m' /\ t < cn_ntrans net) /\
  (snd (walk_gen net o m) = Ok tt \/ snd (walk_gen net o m) = Throw /\
    exists t tr, nth_error (pn_trans (to_pnet net)) t = Some tr /\ enabled tr m /\ overflows tr m).
Proof.
  intros net o pots (L & Hp & _ & _ & Hd) m Hm. apply mark_ok_fits in Hm. destruct Hm as (H1 & H2). destruct o as [[mk gs]|]; cbn [walk_gen].
  - destruct (@stub_stream_ok net L Hp (Hd ltac:(discriminate)) mk gs m H1 H2) as (A & B). split.
    + intros t m' Hi. destruct (A t m' Hi) as (_ & A1 & A2 & A3). split; [exact A1|]. split; [apply mark_ok_fits; auto|]. eapply step_lt; eauto.
    + destruct B as [(B & _)|(B & C)]; auto.
  - destruct (@net_stream_ok net m L H1 H2) as (A & B). split.
    + intros t m' Hi. destruct (A t m' Hi) as (A1 & A2 & A3). split; [exact A1|]. split; [apply mark_ok_fits; auto|]. eapply step_lt; eauto.
    + destruct B as [(B & _)|(B & C)]; auto.
Qed.

Section Final.
  Variable net : cnet.
  Variable o : option (bool * list cond).
  Variable pots : list N.
  Hypothesis HW : walkable net o pots.
  Notation P := (to_pnet net).
  Notation init := (cn_init net).

  Section Any.
  Variable qs : list query.
  Variable dist : list N -> N.
  Variable handle : nat -> rslt -> rslt * bool.
  Variable prints keep : bool.
  Variable k : N.
  Variable rnd : nat -> N.
  Variable accept : N -> N -> N -> bool.
  Definition walk (fuel wfuel : nat) (rs0 : list rslt) (qst0 : list N) (heur : nat) (depth inc : N) : res (wst * bool) :=
    random_walk qs dist handle prints (walk_gen net o) k keep rnd accept fuel wfuel (cn_places net) (cn_ntrans net) init
      rs0 qst0 heur pots depth inc.

  Lemma walk_outcome : forall fuel wfuel rs0 qst0 heur depth inc,
    (forall i, fst (handle i Satisfied) <> Unknown) -> length rs0 = length qs -> heur < length qs ->
    match walk fuel wfuel rs0 qst0 heur depth inc with
    | Ok (s, b) => b = true /\ log_ok P init qs prints k keep (v_log s) /\ res_ok handle rs0 s
    | Throw => can_overflow net
    | UB => (keep = true /\ prints = true /\ 2 <= length qs) \/ (2147483647 < N.of_nat wfuel)%N
    | NoFuel => True
    end.
  Proof.
    intros fuel wfuel rs0 qst0 heur depth inc Hh Hr Hq. assert (HW' := HW). destruct HW' as (L & Hp & Hi & Hpt & Hd).
    assert (X := @random_walk_ok P (cn_places net) (cn_ntrans net) init (mark_ok (cn_places net)) (can_overflow net) qs dist handle prints (walk_gen net o) k keep rnd accept
      Hi (fun m Hm => proj1 Hm) Hp).
    assert (X1 := fun m t m' (Hm : mark_ok (cn_places net) m) => proj1 (gen_sound HW Hm) t m'). specialize (X X1).
    assert (X2 : forall m w, mark_ok (cn_places net) m -> run P init w m -> snd (walk_gen net o m) = Ok tt \/ snd (walk_gen net o m) = Throw /\ can_overflow net).
    { intros m w Hm R. destruct (proj2 (gen_sound HW Hm)) as [Y|(Y & t & tr & Y1 & Y2 & Y3)]; [left; exact Y|right]. split; [exact Y|]. exists m, t, tr. split; [exists w; exact R|auto]. }
    specialize (X X2 rs0 fuel wfuel qst0 heur pots depth inc Hr Hq (init_pots_len Hpt)).
    unfold walk. destruct (random_walk _ _ _ _ _ _ _ _ _ _ _ _ _ _ _ _ _ _ _ _) as [[s b]| | |]; auto.
    destruct X as ((X3 & _ & _ & _ & _ & X4) & X5). auto.
  Qed.
  End Any.

  Lemma log_in : forall qs prints k keep l1 e l2, log_ok P init qs prints k keep (l1 ++ e :: l2) ->
    truthful P k init qs (keep = true /\ prints = true /\ untraced l2) e.
  Proof. induction l1 as [|x l1 IH]; intros e l2 H; cbn in H; [apply H|]. apply IH. apply H. Qed.

  (** Predicates as queries. *)
  Lemma satisfied_ok : forall fs dist handle prints keep k rnd accept fuel wfuel rs0 qst0 heur depth inc s b l1 e l2,
    (forall i, fst (handle i Satisfied) <> Unknown) -> length rs0 = length fs -> heur < length fs ->
    walk (map pure_query fs) dist handle prints keep k rnd accept fuel wfuel rs0 qst0 heur depth inc = Ok (s, b) ->
    v_log s = l1 ++ e :: l2 ->
    ev_result e = Satisfied /\ exists f m w, nth_error fs (ev_query e) = Some f /\ f m = true /\ inner_run P k init w m /\
      (keep = true -> prints = true -> untraced l2 -> ev_trace e = Ok w).
  Proof.
    intros fs dist handle prints keep k rnd accept fuel wfuel rs0 qst0 heur depth inc s b l1 e l2 Hh Hr Hq E El.
    assert (X := @walk_outcome (map pure_query fs) dist handle prints keep k rnd accept fuel wfuel rs0 qst0 heur depth inc Hh). rewrite map_length in X. specialize (X Hr Hq). rewrite E in X.
    destruct X as (_ & X & _). rewrite El in X. apply log_in in X. destruct X as (X1 & q & st & m & w & X2 & X3 & X4 & X5). split; [exact X1|].
    rewrite nth_error_map in X2. destruct (nth_error fs (ev_query e)) as [f|]; [|discriminate]. injection X2 as <-. exists f, m, w. split; [reflexivity|]. split; [exact X3|]. split; [exact X4|]. auto.
  Qed.

  Lemma all_satisfied : forall fs dist handle prints keep k rnd accept fuel wfuel qst0 heur depth inc s b,
    (forall i, fst (handle i Satisfied) <> Unknown) -> (forall i, snd (handle i Satisfied) = false) -> heur < length fs ->
    walk (map pure_query fs) dist handle prints keep k rnd accept fuel wfuel (map (fun _ => Unknown) fs) qst0 heur depth inc = Ok (s, b) ->
    b = true /\ forall i f, nth_error fs i = Some f -> nth i (v_res s) Unknown = fst (handle i Satisfied) /\
      exists m w, f m = true /\ inner_run P k init w m.
  Proof.
    intros fs dist handle prints keep k rnd accept fuel wfuel qst0 heur depth inc s b Hh Hs Hq E.
    assert (X := @walk_outcome (map pure_query fs) dist handle prints keep k rnd accept fuel wfuel (map (fun _ => Unknown) fs) qst0 heur depth inc Hh). rewrite !map_length in X. specialize (X eq_refl Hq). rewrite E in X.
    destruct X as (X0 & _ & X). split; [exact X0|]. intros i f Hi.
    assert (Kn := @random_walk_known (cn_places net) (cn_ntrans net) init (map pure_query fs) dist handle prints (walk_gen net o) k keep rnd accept (proj1 (proj2 HW)) Hh (map (fun _ => Unknown) fs) Hs fuel wfuel qst0 heur pots depth inc s b ltac:(rewrite !map_length; reflexivity) E).
    assert (Li := nth_error_lt _ _ Hi). specialize (Kn i ltac:(rewrite map_length; exact Li)).
    destruct (X i) as [Y|(e & Y1 & Y2 & Y3)].
    - exfalso. apply Kn. rewrite Y. clear. revert i. induction fs as [|g fs IH]; intros [|i]; cbn; auto.
    - split; [exact Y3|]. apply in_split in Y1. destruct Y1 as (l1 & l2 & Y1).
      destruct (@satisfied_ok fs dist handle prints keep k rnd accept fuel wfuel (map (fun _ => Unknown) fs) qst0 heur depth inc s b l1 e l2 Hh ltac:(rewrite map_length; reflexivity) Hq E Y1) as (_ & g & m & w & Z1 & Z2 & Z3 & _).
      rewrite Y2, Hi in Z1. injection Z1 as <-. exists m, w. auto.
  Qed.
End Final.

(** Firing does not fill a place up to 2^32-1 tokens. *)
Lemma step_below : forall net m t m' p, layout net -> length m = cn_places net -> step (to_pnet net) m t m' ->
  (forall tr, nth_error (pn_trans (to_pnet net)) t = Some tr -> ~ overflows tr m) -> (tokens m p < 2 ^ 32 - 1)%N -> (tokens m' p < 2 ^ 32 - 1)%N.
Proof.
  intros net m t m' p L Hm (tr & Hn & Hfi) Hno Hfp. specialize (Hno tr Hn). apply net_trans_inv in Hn. destruct Hn as (Ht & ->).
  destruct Hfi as (_ & Hlen & Htok).
  destruct (Nat.lt_ge_cases p (length m)) as [Hp|Hp].
  2:{ unfold tokens. rewrite nth_overflow by lia. lia. }
  destruct (Htok p Hp) as (Hle & ->).
  destruct (wf_net_trans L Ht) as (_ & Hpost & _ & Hnd).
  destruct (in_dec Nat.eq_dec p (map arc_place (tr_post (net_trans net t)))) as [Hi2|Hi2].
  + apply in_map_iff in Hi2. destruct Hi2 as (a & <- & Ha).
    assert (Hw : weight_at (tr_post (net_trans net t)) (arc_place a) = arc_weight a).
    { clear - Ha Hnd Hpost. induction (tr_post (net_trans net t)) as [|b l IH]; [contradiction|].
      rewrite weight_at_cons. simpl in Hnd. inversion Hnd as [|? ? Hn1 Hn2]; subst.
      destruct Ha as [->|Ha].
      - rewrite Nat.eqb_refl, (proj2 (Hpost a (or_introl eq_refl))), weight_at_notin by exact Hn1. simpl. lia.
      - destruct (Nat.eqb_spec (arc_place b) (arc_place a)) as [E|_].
        + exfalso. apply Hn1. rewrite E. apply in_map. exact Ha.
        + cbn [andb]. rewrite IH; [lia|intros; apply Hpost; right; assumption|exact Hn2|exact Ha]. }
    rewrite Hw. destruct (N.lt_ge_cases (tokens m (arc_place a) - weight_at (tr_pre (net_trans net t)) (arc_place a) + arc_weight a) (2 ^ 32 - 1)) as [Hlt|Hge]; [lia|].
    exfalso. apply Hno. exists a. auto.
  + rewrite (weight_at_notin _ _ Hi2). lia.
Qed.

Lemma filter_len : forall A (g : A -> bool) l, length (filter g l) <= length l.
Proof. induction l as [|x l IH]; cbn; [lia|]. destruct (g x); cbn; lia. Qed.
Lemma net_stream_len : forall net m, layout net -> length m = cn_places net -> fits32 m -> snd (net_stream net m) = Ok tt ->
  length (fst (net_stream net m)) <= cn_ntrans net.
Proof.
  intros net m L Hm Hf He. unfold net_stream in *. rewrite gen_stream_ok in *; auto.
  2:{ split; cbn; [lia|exact I]. }
  2:{ unfold cursor, gen_prepare; cbn [g_t g_p]. rewrite gptr_0 by exact L. lia. }
  2:{ unfold cursor, gen_prepare; cbn [g_t g_p]. rewrite gptr_0 by exact L. lia. }
  2:{ split; cbn; [lia|exact I]. }
  2:{ unfold cursor, gen_prepare; cbn [g_t g_p]. rewrite gptr_0 by exact L. lia. }
  2:{ unfold cursor, gen_prepare; cbn [g_t g_p]. rewrite gptr_0 by exact L. lia. }
  unfold cursor, gen_prepare in *; cbn [g_t g_p] in *. rewrite gptr_0, Nat.sub_0_r in * by exact L.
  set (l := filter _ _) in *.
  assert (Hl : forall t, In t l -> t < cn_ntrans net /\ enabled (net_trans net t) m).
  { intros t. unfold l. rewrite filter_In, in_seq, enabledb_spec. intuition lia. }
  destruct (@fire_stream_ok net m L Hm Hf l Hl) as (_ & [(_ & H3)|(H2 & _)]); [|congruence].
  rewrite <- (map_length fst), H3. unfold l. etransitivity; [apply filter_len|]. rewrite seq_length. lia.
Qed.

Lemma accept_exact_0 : forall p t, (1 <= p -> 1 <= t -> accept_exact 0 p t = true)%N.
Proof. intros p t H1 H2. unfold accept_exact. destruct (N.eqb_spec t 0) as [E|_]; [lia|]. apply N.leb_le. lia. Qed.
Lemma accept_exact_max : forall p t, (p < t -> accept_exact 2147483647 p t = false)%N.
Proof. intros p t H1. unfold accept_exact. destruct (N.eqb_spec t 0) as [E|_]; [lia|]. apply N.leb_gt. nia. Qed.

Section Goal.
  Variable net : cnet.
  Variable pots : list N.
  Variable f : list N -> bool.
  Variable k : N.
  Hypothesis HW : walkable net None pots.
  Hypothesis Hno : no_overflow net.
  Hypothesis H0 : (tokens (cn_init net) 0 < 2 ^ 32 - 1)%N.
  Notation P := (to_pnet net).
  Notation init := (cn_init net).

  Lemma ok_marking : forall m, reachable P init m -> mark_ok (cn_places net) m -> (tokens m 0 < 2 ^ 32 - 1)%N ->
    okm (net_stream net) (cn_ntrans net) m /\ (forall t m', step P m t m' -> In (t, m') (fst (net_stream net m)) /\ mark_ok (cn_places net) m' /\ (tokens m' 0 < 2 ^ 32 - 1)%N).
  Proof.
    intros m R Hm Ht. destruct HW as (L & Hp & _). assert (Hm' := Hm). apply mark_ok_fits in Hm'. destruct Hm' as (Hl & Hf).
    destruct (gen_sound HW Hm) as (S1 & _). cbn [walk_gen] in S1.
    destruct (@net_stream_ok net m L Hl Hf) as (_ & [(S2 & S3)|(_ & t & tr & T1 & T2 & T3)]); [|exfalso; exact (@Hno m t tr R T1 T2 T3)].
    split.
    - split; [exact S2|]. split; [apply net_stream_len; auto|]. split; [intros [t m'] Hi; apply (S1 _ _ Hi)|]. split.
      + unfold tokens in Ht. unfold no_mark. change (2 ^ 32 - 1)%N with 4294967295%N in Ht. lia.
      + intros ->. cbn in Hl. lia.
    - intros t m' St. split; [apply S3; exact St|]. split; [apply (S1 _ _ (S3 _ _ St))|]. eapply step_below; eauto.
      intros tr Hn. destruct St as (tr' & Hn' & Hfi). intros Ov. rewrite Hn in Hn'. injection Hn' as <-. exact (@Hno m t tr R Hn (proj1 Hfi) Ov).
  Qed.

  Lemma line_of : forall w m gm, reachable P init m -> mark_ok (cn_places net) m -> (tokens m 0 < 2 ^ 32 - 1)%N -> run P m w gm ->
    (forall w1 w2 m1, w = w1 ++ w2 -> w1 <> [] -> w2 <> [] -> run P m w1 m1 -> over_bound k m1 = false) -> f gm = true -> w <> [] ->
    line f (net_stream net) k (cn_ntrans net) m w gm.
  Proof.
    induction w as [|t w IH]; intros m gm R Hm Ht Hr Hb Hf Hne; [congruence|]. inversion Hr as [|? ? m1 ? ? HS HR]; subst.
    destruct (ok_marking R Hm Ht) as (O & St). destruct (St _ _ HS) as (I1 & I2 & I3). destruct w as [|u w].
    - inversion HR; subst. apply line_last; auto.
    - apply line_step with (m' := m1); auto.
      + apply (Hb [t] (u :: w)); auto; try discriminate. econstructor; [exact HS|constructor].
      + apply IH; auto; [destruct R as (w0 & R0); exists (w0 ++ [t]); eapply run_snoc; eauto| |discriminate].
        intros w1 w2 m2 E N1 N2 R2. apply (Hb (t :: w1) w2); auto; [rewrite E; reflexivity|discriminate|econstructor; eauto].
  Qed.

  Lemma goal_found : forall dist handle prints keep accept RM D B w gm qst0 depth inc,
    (forall p t, 1 <= p -> 1 <= t -> accept 0 p t = true)%N -> (forall p t, p < t -> accept RM p t = false)%N ->
    (forall m, dist m <= D)%N -> (forall p, In p (init_pots (cn_ntrans net) pots) -> 1 <= p <= B)%N ->
    inner_run P k init w gm -> f gm = true ->
    (N.of_nat (length w) <= depth)%N -> (N.of_nat (length w) <= 2147483648)%N ->
    (N.of_nat (cn_ntrans net) * (B + N.of_nat (length w * cn_ntrans net) * D) < 4294967296)%N ->
    exists rnd fuel wfuel s e,
      walk net None pots [pure_query f] dist handle prints keep k rnd accept fuel wfuel [Unknown] qst0 0 depth inc = Ok (s, true) /\
      In e (v_log s) /\ ev_query e = 0 /\ ev_result e = Satisfied.
  Proof.
    intros dist handle prints keep accept RM D B w gm qst0 depth inc A0 AM HD HB (Hr & Hb) Hf Hd Hd2 Hroom.
    assert (HW' := HW). destruct HW' as (L & Hp & Hi & Hpt & _).
    assert (E0 : forall rnd fuel wfuel, walk net None pots [pure_query f] dist handle prints keep k rnd accept fuel wfuel [Unknown] qst0 0 depth inc =
      (let s0 := mkW (Base.upd (repeat 0%N (cn_places net)) 0 no_mark) (init_pots (cn_ntrans net) pots) 0 0 0 1 0 (repeat 0%N (cn_places net)) [] 0 0 [Unknown] qst0 0 0 [] 0 1 in
       c <- wcheck [pure_query f] handle prints init s0 ;;
       if snd c then Ok (fst c, true) else
       walks [pure_query f] dist handle prints (net_stream net) k keep rnd accept fuel wfuel init (dist init) depth inc (if keep then set_sat (fst c) 1 else fst c))).
    { intros rnd fuel wfuel. unfold walk, random_walk. cbn [rd nth_error bind]. rewrite wr_ok by (rewrite repeat_length; exact Hp). reflexivity. }
    set (s0 := mkW _ _ _ _ _ _ _ _ _ _ _ _ _ _ _ _ _ _) in E0. cbn zeta in E0.
    destruct (f init) eqn:Fi.
    - assert (Hc : exists s, wcheck [pure_query f] handle prints init s0 = Ok (s, true) /\ found s).
      { unfold wcheck. cbn [wcheck_loop]. cbn [s0 v_res nth is_unknown pure_query fst snd]. rewrite Fi. unfold wcallback. unfold s0. cbn [set_qst v_sat v_stack v_qst v_next v_pots v_cdist v_ndist v_total v_disc v_maxtok v_bound v_prev v_rand v_res v_heur v_log v_expanded v_explored].
        replace (if prints then walk_trace 0 [] else Ok ([], [])) with (Ok (@nil nat, @nil nat)) by (destruct prints; reflexivity). cbn [bind fst snd].
        set (s2 := mkW _ _ _ _ _ _ _ _ _ _ _ _ _ _ _ _ _ _). assert (F : found s2) by (eexists; split; [left; reflexivity|split; reflexivity]).
        destruct (snd (handle 0 Satisfied)); eexists; (split; [reflexivity|]); [exact F|]. unfold wheur. rewrite andb_false_r. exact F. }
      destruct Hc as (s & Ec & e & F1 & F2 & F3). exists (fun _ => 0%N), 0, 0, s, e. rewrite E0, Ec. cbn. auto.
    - assert (Hne : w <> []) by (intros ->; inversion Hr; subst; congruence).
      assert (HL := @line_of w init gm (ex_intro _ [] (run_nil P init)) Hi H0 Hr Hb Hf Hne).
      assert (Hc : exists s, wcheck [pure_query f] handle prints init s0 = Ok (s, false) /\ v_res s = [Unknown] /\ v_pots s = v_pots s0 /\ v_sat s = 0 /\ v_rand s = 0).
      { unfold wcheck. cbn [wcheck_loop]. cbn [s0 v_res nth is_unknown pure_query fst snd]. rewrite Fi. unfold wheur. rewrite andb_false_r. eexists. split; [reflexivity|]. repeat split. }
      destruct Hc as (s & Ec & C1 & C2 & C3 & C4).
      set (s1 := set_next (if keep then set_stack (if keep then set_sat s 1 else s) [] else (if keep then set_sat s 1 else s)) init (dist init)).
      assert (X := @walk_find f dist handle prints (net_stream net) k keep accept RM D (cn_ntrans net) A0 AM HD init w gm HL B s1 0%N (length w) depth eq_refl).
      destruct X as (rl & s' & (e & F1 & F2 & F3) & E); try lia.
      { unfold stw, lim. split; [unfold s1; destruct keep; exact C1|].
        assert (Ps : v_pots s1 = init_pots (cn_ntrans net) pots) by (unfold s1; destruct keep; cbn; rewrite C2; reflexivity). rewrite Ps.
        split; [split; [apply init_pots_len; exact Hpt|exact HB]|]. split; [unfold s1; destruct keep; apply HD|]. intros ->. unfold s1. exact C3. }
      assert (R0 : v_rand s1 = 0) by (unfold s1; destruct keep; exact C4).
      destruct (agree_of 0 rl) as (rnd & Ha). exists rnd, 1, (length w), s', e. split; [|auto]. rewrite E0, Ec. cbn [bind fst snd]. cbn [walks]. fold s1.
      rewrite (E rnd) by (rewrite R0; exact Ha). reflexivity.
  Qed.
End Goal.
