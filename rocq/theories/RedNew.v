(** New transitions: the arcs of a transition that is built by addPreArc and addPostArc, and the
    vectors at the places. *)
From Verif Require Import Base BaseLemmas NetSpec NetModel BuilderModel RedTheory RedSpec RedModel RedModelR RedProofs RedNet RedRules RedOps RedRuleA.
Set Implicit Arguments.

(** ** Adding arcs *)
Definition pos (l : list arc) : Prop := forall a, In a l -> (0 < arc_weight a)%N.
Definition weight_of (o : option arc) : N := match o with Some a => arc_weight a | None => 0%N end.
(** two arcs at the same place are not inhibitor arcs *)
Definition compat (l l2 : list arc) : Prop := forall q x a, get_arc l q = Some x -> get_arc l2 q = Some a -> arc_inhib x = false /\ arc_inhib a = false.
Lemma add_arc_ok : forall l a, srt l -> pos l -> (0 < arc_weight a)%N -> (forall x, get_arc l (arc_place a) = Some x -> arc_inhib x = false /\ arc_inhib a = false) ->
  add_arc l a = Throw \/ exists l', add_arc l a = Ok l' /\ srt l' /\ pos l' /\
    forall q, get_arc l' q = if Nat.eqb q (arc_place a) then Some (mkArc q (weight_of (get_arc l q) + arc_weight a) (arc_inhib a)) else get_arc l q.
Proof.
  intros l a Hs Hp Wa Hc. unfold add_arc. destruct (get_arc l (arc_place a)) as [x|] eqn:E.
  - destruct (Hc x eq_refl) as (Ix & Ia). unfold u32. destruct (N.ltb_spec (arc_weight x + arc_weight a) 4294967296); cbn [bind]; [|left; reflexivity]. right.
    destruct (N.eqb_spec (arc_weight x + arc_weight a) 0); [lia|]. eexists. split; [reflexivity|]. split; [apply set_weight_srt; exact Hs|].
    assert (Gs : forall q, get_arc (set_weight l (arc_place a) (arc_weight x + arc_weight a)) q = if Nat.eqb q (arc_place a) then Some (mkArc q (weight_of (get_arc l q) + arc_weight a) (arc_inhib a)) else get_arc l q).
    { intros q. rewrite get_set by exact Hs. destruct (Nat.eqb_spec q (arc_place a)) as [->|_]; [|reflexivity]. rewrite E. cbn [weight_of]. destruct (get_arc_in _ _ E) as (_ & Ep). rewrite ?Ep, Ia, Ix. reflexivity. }
    split; [|exact Gs]. intros y Hy. pose proof (in_get_arc _ y (set_weight_srt _ _ _ Hs) Hy) as Gy. rewrite Gs in Gy.
    destruct (Nat.eqb_spec (arc_place y) (arc_place a)) as [Ey|_]; [injection Gy as <-; cbn; lia|]. apply get_arc_in in Gy. apply Hp. tauto.
  - destruct (N.eqb_spec (arc_weight a) 0); [lia|]. right. assert (Na : ~ In (arc_place a) (map arc_place l)) by (apply get_arc_none; assumption).
    eexists. split; [reflexivity|]. split; [apply put_arc_srt; assumption|]. split.
    + intros y Hy. apply put_arc_in in Hy. destruct Hy as [->|Hy]; [exact Wa|apply Hp; exact Hy].
    + intros q. rewrite get_put by assumption. destruct (Nat.eqb_spec q (arc_place a)) as [->|_]; [|reflexivity]. rewrite E. destruct a; reflexivity.
Qed.
Lemma get_cons : forall a l q, srt (a :: l) -> get_arc (a :: l) q = if Nat.eqb q (arc_place a) then Some a else get_arc l q.
Proof.
  intros a l q (Lt & Hs). cbn [get_arc]. destruct (Nat.ltb_spec (arc_place a) q) as [L|L].
  - destruct (Nat.eqb_spec q (arc_place a)); [lia|reflexivity].
  - rewrite Nat.eqb_sym. destruct (Nat.eqb_spec q (arc_place a)) as [_|Hne]; [reflexivity|]. symmetry. apply get_arc_none; [exact Hs|].
    intros Hin. specialize (Lt _ Hin). cbn in Lt. lia.
Qed.
Lemma add_arcs_ok : forall l2 l, srt l -> pos l -> srt l2 -> pos l2 -> compat l l2 ->
  fold_res add_arc l2 l = Throw \/ exists l', fold_res add_arc l2 l = Ok l' /\ srt l' /\ pos l' /\
    forall q, get_arc l' q = match get_arc l2 q with Some a => Some (mkArc q (weight_of (get_arc l q) + arc_weight a) (arc_inhib a)) | None => get_arc l q end.
Proof.
  induction l2 as [|a l2 IH]; intros l Hs Hp Hs2 Hp2 Hc.
  - right. exists l. split; [reflexivity|]. split; [exact Hs|]. split; [exact Hp|]. reflexivity.
  - cbn [fold_res]. pose proof (in_get_arc _ a Hs2 (or_introl eq_refl)) as Ga.
    destruct (@add_arc_ok l a Hs Hp (Hp2 a (or_introl eq_refl))) as [E|(l1 & E & S1 & P1 & G1)].
    { intros x Hx. exact (Hc _ _ _ Hx Ga). }
    { rewrite E. left. reflexivity. }
    rewrite E. cbn [bind]. assert (Gt : forall q, get_arc (a :: l2) q = if Nat.eqb q (arc_place a) then Some a else get_arc l2 q) by (intros q; apply get_cons; exact Hs2). destruct Hs2 as (Lt & Hs2).
    destruct (IH l1 S1 P1 Hs2) as [E'|(l' & E' & S' & P' & G')].
    + intros y Hy. apply Hp2. right. exact Hy.
    + intros q x y Hx Hy. rewrite G1 in Hx. destruct (Nat.eqb_spec q (arc_place a)) as [->|Hq].
      * exfalso. destruct (get_arc_in _ _ Hy) as (Hin & Ep). pose proof (Lt _ (in_map arc_place _ _ Hin)). lia.
      * apply (Hc q x y Hx). rewrite Gt. destruct (Nat.eqb_spec q (arc_place a)); [contradiction|exact Hy].
    + left. exact E'.
    + right. exists l'. split; [exact E'|]. split; [exact S'|]. split; [exact P'|]. intros q. rewrite G', Gt, G1.
      destruct (Nat.eqb_spec q (arc_place a)) as [->|Hq]; [|reflexivity].
      destruct (get_arc l2 (arc_place a)) as [y|] eqn:Ey; [|reflexivity]. exfalso. destruct (get_arc_in _ _ Ey) as (Hin & Ep). pose proof (Lt _ (in_map arc_place _ _ Hin)). lia.
Qed.

(** ** The vectors at the places *)
Lemma add_id_ok : forall l x, sorted l -> sorted (add_id l x) /\ (forall y, In y (add_id l x) <-> y = x \/ In y l).
Proof.
  intros l x Hs. unfold add_id. destruct (existsb (Nat.eqb x) l) eqn:E.
  - apply existsb_in in E. split; [exact Hs|]. intros y. split; [tauto|]. intros [->|H]; [exact E|exact H].
  - assert (Ni : ~ In x l) by (intros H; apply existsb_in in H; congruence). apply insert_id_ok; assumption.
Qed.
Lemma add_conss : forall id l b, (forall a, In a l -> bp_skip (pl_of b (arc_place a)) = false /\ (arc_inhib a = true -> bp_inhib (pl_of b (arc_place a)) = true)) ->
  (forall p, sorted (bp_cons (pl_of b p))) ->
  let b' := fold_left (add_cons id) l b in
  frame b b' /\ b_init b' = b_init b /\ b_trans b' = b_trans b /\ same_flags b b' /\ (forall p, bp_prod (pl_of b' p) = bp_prod (pl_of b p)) /\
  (forall p, sorted (bp_cons (pl_of b' p))) /\ (forall p y, In y (bp_cons (pl_of b' p)) <-> In y (bp_cons (pl_of b p)) \/ (y = id /\ In p (map arc_place l))).
Proof.
  intros id. induction l as [|a l IH]; intros b Ha Hs; cbn [fold_left].
  - split; [apply frame_refl|]. split; [reflexivity|]. split; [reflexivity|]. split; [apply same_flags_refl|]. split; [reflexivity|]. split; [exact Hs|]. intros p y. cbn. tauto.
  - set (b1 := add_cons id b a). destruct (Ha a (or_introl eq_refl)) as (Sk & Inh). pose proof (pl_range _ _ Sk) as Rp.
    assert (P : forall q, pl_of b1 q = if Nat.eqb q (arc_place a) then mkBP (add_id (bp_cons (pl_of b (arc_place a))) id) (bp_prod (pl_of b (arc_place a))) (bp_skip (pl_of b (arc_place a))) (bp_inhib (pl_of b (arc_place a)) || arc_inhib a) else pl_of b q) by (intros q; apply pl_set; exact Rp).
    assert (Fl : same_flags b b1).
    { intros q. rewrite P. destruct (Nat.eqb_spec q (arc_place a)) as [->|_]; [|split; reflexivity]. cbn. split; [reflexivity|]. destruct (arc_inhib a); [rewrite (Inh eq_refl); reflexivity|apply orb_false_r]. }
    destruct (add_id_ok (bp_cons (pl_of b (arc_place a))) id (Hs _)) as (S1 & M1).
    destruct (IH b1) as (F2 & I2 & T2 & Fl2 & Pr2 & S2 & M2).
    + intros x Hx. destruct (Ha x (or_intror Hx)) as (A & B). destruct (Fl (arc_place x)) as (E1 & E2). rewrite E1, E2. tauto.
    + intros p. rewrite P. destruct (Nat.eqb p (arc_place a)); [exact S1|apply Hs].
    + split; [eapply frame_trans; [apply frame_set_pl|exact F2]|]. split; [exact I2|]. split; [exact T2|]. split; [eapply same_flags_trans; eauto|]. split; [|split; [exact S2|]].
      * intros p. rewrite Pr2, P. destruct (Nat.eqb_spec p (arc_place a)) as [->|_]; reflexivity.
      * intros p y. rewrite M2, P. cbn [map In]. destruct (Nat.eqb_spec p (arc_place a)) as [->|Hp]; cbn [bp_cons].
        -- rewrite M1. tauto.
        -- split; [intros [H|(H1 & H2)]; [left; exact H|right; split; [exact H1|right; exact H2]]|intros [H|(H1 & [H2|H2])]; [left; exact H|congruence|right; split; assumption]].
Qed.
Lemma add_prods : forall id l b, (forall a, In a l -> bp_skip (pl_of b (arc_place a)) = false) ->
  (forall p, sorted (bp_prod (pl_of b p))) ->
  let b' := fold_left (add_prod id) l b in
  frame b b' /\ b_init b' = b_init b /\ b_trans b' = b_trans b /\ same_flags b b' /\ (forall p, bp_cons (pl_of b' p) = bp_cons (pl_of b p)) /\
  (forall p, sorted (bp_prod (pl_of b' p))) /\ (forall p y, In y (bp_prod (pl_of b' p)) <-> In y (bp_prod (pl_of b p)) \/ (y = id /\ In p (map arc_place l))).
Proof.
  intros id. induction l as [|a l IH]; intros b Ha Hs; cbn [fold_left].
  - split; [apply frame_refl|]. split; [reflexivity|]. split; [reflexivity|]. split; [apply same_flags_refl|]. split; [reflexivity|]. split; [exact Hs|]. intros p y. cbn. tauto.
  - set (b1 := add_prod id b a). pose proof (Ha a (or_introl eq_refl)) as Sk. pose proof (pl_range _ _ Sk) as Rp.
    assert (P : forall q, pl_of b1 q = if Nat.eqb q (arc_place a) then with_prod (pl_of b (arc_place a)) (add_id (bp_prod (pl_of b (arc_place a))) id) else pl_of b q) by (intros q; apply pl_set; exact Rp).
    assert (Fl : same_flags b b1).
    { intros q. rewrite P. destruct (Nat.eqb_spec q (arc_place a)) as [->|_]; split; reflexivity. }
    destruct (add_id_ok (bp_prod (pl_of b (arc_place a))) id (Hs _)) as (S1 & M1).
    destruct (IH b1) as (F2 & I2 & T2 & Fl2 & Pr2 & S2 & M2).
    + intros x Hx. rewrite (proj1 (Fl (arc_place x))). apply Ha. right. exact Hx.
    + intros p. rewrite P. destruct (Nat.eqb p (arc_place a)); [exact S1|apply Hs].
    + split; [eapply frame_trans; [apply frame_set_pl|exact F2]|]. split; [exact I2|]. split; [exact T2|]. split; [eapply same_flags_trans; eauto|]. split; [|split; [exact S2|]].
      * intros p. rewrite Pr2, P. destruct (Nat.eqb_spec p (arc_place a)) as [->|_]; reflexivity.
      * intros p y. rewrite M2, P. cbn [map In]. destruct (Nat.eqb_spec p (arc_place a)) as [->|Hp]; cbn [with_prod bp_prod].
        -- rewrite M1. tauto.
        -- split; [intros [H|(H1 & H2)]; [left; exact H|right; split; [exact H1|right; exact H2]]|intros [H|(H1 & [H2|H2])]; [left; exact H|congruence|right; split; assumption]].
Qed.
(** what a new transition must satisfy *)
Record fits (b : builder) (x : btrans) : Prop := {
  ft_skip : bt_skip x = false;
  ft_pre : forall a, In a (bt_pre x) -> bp_skip (pl_of b (arc_place a)) = false /\ (0 < arc_weight a)%N /\
             (arc_inhib a = true -> bt_inhib x = true /\ bp_inhib (pl_of b (arc_place a)) = true);
  ft_post : forall a, In a (bt_post x) -> bp_skip (pl_of b (arc_place a)) = false /\ (0 < arc_weight a)%N /\ arc_inhib a = false;
  ft_spre : srt (bt_pre x);
  ft_spost : srt (bt_post x) }.
Lemma link_ok : forall b id x, good b -> id < length (b_trans b) -> bt_pre (tr_of b id) = [] -> bt_post (tr_of b id) = [] -> fits b x ->
  let b' := link b id x in
  good b' /\ frame b b' /\ b_init b' = b_init b /\ same_flags b b' /\ (forall u, tr_of b' u = if Nat.eqb u id then x else tr_of b u) /\
  (forall p, ~ In p (map arc_place (bt_pre x)) -> bp_cons (pl_of b' p) = bp_cons (pl_of b p)).
Proof.
  intros b id x G Hid E1 E2 [X1 X2 X3 X4 X5]. unfold link. set (b1 := set_tr b id x).
  destruct (@add_conss id (bt_pre x) b1) as (F2 & I2 & T2 & Fl2 & Pr2 & S2 & M2).
  { intros a Ha. destruct (X2 a Ha) as (A & _ & B). split; [exact A|]. intros Hi. apply B. exact Hi. } { apply (g_scons G). }
  set (b2 := fold_left (add_cons id) (bt_pre x) b1) in *.
  destruct (@add_prods id (bt_post x) b2) as (F3 & I3 & T3 & Fl3 & C3 & S3 & M3).
  { intros a Ha. rewrite (proj1 (Fl2 (arc_place a))). apply (X3 a Ha). } { intros p. rewrite Pr2. apply (g_sprod G). }
  set (b3 := fold_left (add_prod id) (bt_post x) b2) in *. cbn zeta.
  assert (T : forall u, tr_of b3 u = if Nat.eqb u id then x else tr_of b u).
  { intros u. unfold tr_of. rewrite T3, T2. fold (tr_of b1 u). apply tr_set. exact Hid. }
  assert (F : frame b b3) by (eapply frame_trans; [apply frame_set_tr|]; eapply frame_trans; eauto).
  assert (Fl : same_flags b b3) by (eapply same_flags_trans; [|exact Fl3]; intros p; apply (Fl2 p)).
  assert (I : b_init b3 = b_init b) by (rewrite I3, I2; reflexivity).
  split; [|split; [exact F|split; [exact I|split; [exact Fl|split; [exact T|]]]]].
  - eapply good_intro; [exact G|exact F|congruence| | | | | | |].
    + intros u. rewrite T. destruct (Nat.eqb_spec u id) as [_|_]; [congruence|apply (g_skip G)].
    + intros u a. rewrite T. destruct (Fl (arc_place a)) as (A1 & A2). rewrite A1, A2. destruct (Nat.eqb_spec u id) as [_|_]; [apply X2|apply (g_pre G)].
    + intros u a. rewrite T. destruct (Fl (arc_place a)) as (A1 & A2). rewrite A1. destruct (Nat.eqb_spec u id) as [_|_]; [apply X3|apply (g_post G)].
    + intros u. rewrite T. destruct (Nat.eqb_spec u id) as [_|_]; [split; assumption|split; [apply (g_spre G)|apply (g_spost G)]].
    + intros p. rewrite C3. split; [apply S2|apply S3].
    + intros p u. rewrite C3, M2, T. change (pl_of b1 p) with (pl_of b p). rewrite (g_cons G). destruct (Nat.eqb_spec u id) as [->|Hu]; [|tauto]. rewrite E1. cbn. tauto.
    + intros p u. rewrite M3, Pr2, T. change (pl_of b1 p) with (pl_of b p). rewrite (g_prod G). destruct (Nat.eqb_spec u id) as [->|Hu]; [|tauto]. rewrite E2. cbn. tauto.
  - intros p Hp. apply sorted_ext; [rewrite C3; apply S2|apply (g_scons G)|]. intros y. rewrite C3, M2. change (pl_of b1 p) with (pl_of b p). tauto.
Qed.

(** ** Identifiers of removed transitions *)
Lemma fresh_name_new : forall l, ~ In (fresh_name l) l.
Proof. intros l H. unfold fresh_name in H. assert (X : Forall (fun k => k <= list_max l) l) by (apply list_max_le; lia). rewrite Forall_forall in X. specialize (X _ H). lia. Qed.
Lemma nodup_snoc : forall (l : list nat) x, NoDup l -> ~ In x l -> NoDup (l ++ [x]).
Proof.
  induction l as [|y l IH]; intros x Hn Hx; cbn; [constructor; [intros []|constructor]|]. inversion Hn as [|? ? A B]; subst. constructor.
  - intros H. apply in_app_iff in H. destruct H as [H|[H|[]]]; [contradiction|]. apply Hx. left. symmetry. exact H.
  - apply IH; [exact B|]. intros H. apply Hx. right. exact H.
Qed.
Lemma new_slot_ok : forall b sk b0 id sk', good b -> free b sk -> new_slot b sk = (b0, id, sk') ->
  good b0 /\ id < length (b_trans b0) /\ bt_pre (tr_of b0 id) = [] /\ bt_post (tr_of b0 id) = [] /\ live b id = false /\
  length (b_trans b) <= length (b_trans b0) /\ b_places b0 = b_places b /\ b_init b0 = b_init b /\ b_pnames b0 = b_pnames b /\
  (forall v, tr_of b0 v = tr_of b v) /\ (forall v, v <> id -> live b0 v = live b v) /\ free b0 sk' /\ ~ In id sk' /\ incl sk' sk.
Proof.
  intros b sk b0 id sk' G (Nd & Hf) E. destruct sk as [|t sk]; cbn in E; injection E as <- <- <-.
  - cbn [b_trans b_places b_init b_pnames].
    assert (T : forall v, tr_of (mkB (b_pnames b) (b_tnames b ++ [fresh_name (b_tnames b)]) (b_trans b ++ [btrans0]) (b_places b) (b_init b)) v = tr_of b v).
    { intros v. unfold tr_of. cbn [b_trans]. destruct (Nat.lt_ge_cases v (length (b_trans b))) as [L|L]; [apply app_nth1; exact L|]. rewrite app_nth2 by exact L. rewrite (nth_overflow (b_trans b)) by exact L.
      destruct (v - length (b_trans b)) as [|k]; [reflexivity|]. cbn. destruct k; reflexivity. }
    split; [|split; [rewrite app_length; cbn; lia|]].
    + destruct G as [A1 A2 A3 A4 A5 A6 A7 A8 A9 A10 A11 A12 A13 A14]. constructor; intros; rewrite ?T in *; cbn [b_pnames b_tnames b_trans b_places b_init]; auto.
      1: rewrite !app_length; cbn; lia.
      1: apply nodup_snoc; [exact A5|apply fresh_name_new].
      all: first [apply (A7 _ _ H)|apply (A8 _ _ H)|apply A11|apply A12|apply A13|apply A14].
    + rewrite T. unfold tr_of at 1 2. rewrite nth_overflow by lia. split; [reflexivity|]. split; [reflexivity|]. split; [unfold live; rewrite Nat.ltb_irrefl; reflexivity|].
      split; [rewrite app_length; lia|]. split; [reflexivity|]. split; [reflexivity|]. split; [reflexivity|]. split; [exact T|]. split; [|split; [split; [constructor|intros t []]|split; [intros []|intros t []]]].
      intros v Hv. unfold live. rewrite T. cbn [b_trans]. rewrite app_length. change (length [btrans0]) with 1. destruct (Nat.ltb_spec v (length (b_trans b))), (Nat.ltb_spec v (length (b_trans b) + 1)); try reflexivity; lia.
  - inversion Nd as [|x y N1 N2]; subst x y. destruct (Hf t (or_introl eq_refl)) as (R & Sk). destruct (g_skip G t Sk) as (E1 & E2).
    split; [exact G|]. split; [exact R|]. split; [exact E1|]. split; [exact E2|]. split; [unfold live; rewrite Sk; apply andb_false_r|]. split; [lia|].
    split; [reflexivity|]. split; [reflexivity|]. split; [reflexivity|]. split; [reflexivity|]. split; [reflexivity|].
    split; [split; [exact N2|intros v Hv; apply Hf; right; exact Hv]|]. split; [exact N1|]. intros v Hv. right. exact Hv.
Qed.
