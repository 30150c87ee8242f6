(** The elementary changes keep the builder consistent, and their effect on the net. *)
From Verif Require Import Base BaseLemmas NetSpec NetModel BuilderModel RedTheory RedSpec RedModel.
Set Implicit Arguments.

(** ** Sorted lists *)
Lemma sorted_app_inv : forall l1 l2, sorted (l1 ++ l2) -> sorted l1 /\ sorted l2.
Proof. induction l1 as [|x l1 IH]; intros l2 H; [split; [exact I|exact H]|]. destruct H as (A & B). destruct (IH _ B) as (C & D). split; [|exact D]. split; [|exact C]. intros y Hy. apply A. apply in_or_app. left. exact Hy. Qed.
Lemma sorted_ext : forall l l', sorted l -> sorted l' -> (forall x, In x l <-> In x l') -> l = l'.
Proof.
  induction l as [|x l IH]; intros [|y l'] (* *) Hs Hs' H.
  - reflexivity.
  - exfalso. apply (proj2 (H y)). left. reflexivity.
  - exfalso. apply (proj1 (H x)). left. reflexivity.
  - destruct Hs as (A & B). destruct Hs' as (A' & B').
    assert (x = y).
    { destruct (proj1 (H x) (or_introl eq_refl)) as [E|E]; [symmetry; exact E|]. destruct (proj2 (H y) (or_introl eq_refl)) as [E'|E']; [exact E'|].
      pose proof (A _ E'). pose proof (A' _ E). lia. }
    subst y. f_equal. apply IH; [exact B|exact B'|]. intros z. split; intros Hz.
    + destruct (proj1 (H z) (or_intror Hz)) as [E|E]; [subst z; specialize (A _ Hz); lia|exact E].
    + destruct (proj2 (H z) (or_intror Hz)) as [E|E]; [subst z; specialize (A' _ Hz); lia|exact E].
Qed.
Lemma sorted_nodup : forall l, sorted l -> NoDup l.
Proof. induction l as [|x l IH]; intros H; [constructor|]. destruct H as (A & B). constructor; [|apply IH; exact B]. intros Hx. specialize (A _ Hx). lia. Qed.

Lemma erase_id_ok : forall l x, sorted l -> In x l -> exists l', erase_id l x = Ok l' /\ sorted l' /\ (forall y, In y l' <-> In y l /\ y <> x).
Proof.
  induction l as [|y l IH]; intros x Hs Hx; [contradiction|]. cbn [erase_id]. destruct Hs as (A & B).
  destruct (Nat.ltb_spec y x) as [L|L].
  - destruct Hx as [->|Hx]; [lia|]. destruct (IH x B Hx) as (l' & E & S' & M). rewrite E. cbn [bind]. exists (y :: l'). split; [reflexivity|]. split.
    + split; [|exact S']. intros z Hz. apply A. apply M in Hz. tauto.
    + intros z. cbn. rewrite M. split; [intros [->|(C & D)]; [split; [left; reflexivity|lia]|tauto]|intros ([->|C] & D); tauto].
  - assert (y = x). { destruct Hx as [E|Hx]; [exact E|]. specialize (A _ Hx). lia. }
    subst y. rewrite Nat.eqb_refl. exists l. split; [reflexivity|]. split; [exact B|].
    intros z. cbn. split; [intros Hz; split; [right; exact Hz|specialize (A _ Hz); lia]|intros ([->|C] & D); [congruence|exact C]].
Qed.
Lemma insert_id_ok : forall l x, sorted l -> ~ In x l -> sorted (insert_id l x) /\ (forall y, In y (insert_id l x) <-> y = x \/ In y l).
Proof.
  induction l as [|y l IH]; intros x Hs Hx.
  - cbn. split; [split; [intros y []|exact I]|]. intros z. split; [intros [->|[]]; left; reflexivity|intros [->|[]]; left; reflexivity].
  - cbn [insert_id]. destruct Hs as (A & B). destruct (Nat.ltb_spec y x) as [L|L].
    + destruct (IH x B) as (S' & M); [intros H; apply Hx; right; exact H|]. split.
      * split; [|exact S']. intros z Hz. apply M in Hz. destruct Hz as [->|Hz]; [exact L|apply A; exact Hz].
      * intros z. cbn. rewrite M. tauto.
    + assert (x < y) by (assert (x <> y) by (intros ->; apply Hx; left; reflexivity); lia). split.
      * split; [|split; assumption]. intros z [<-|Hz]; [assumption|]. specialize (A _ Hz). lia.
      * intros z. cbn. split; [intros [->|[->|H1]]; tauto|intros [->|[->|H1]]; tauto].
Qed.

(** ** Arcs of sorted vectors *)
Definition srt (l : list arc) : Prop := sorted (map arc_place l).
Lemma get_arc_in : forall l p a, get_arc l p = Some a -> In a l /\ arc_place a = p.
Proof.
  induction l as [|x l IH]; intros p a H; [discriminate|]. cbn [get_arc] in H.
  destruct (arc_place x <? p); [destruct (IH _ _ H); split; [right|]; assumption|].
  destruct (Nat.eqb_spec (arc_place x) p); [injection H as <-; split; [left; reflexivity|assumption]|discriminate].
Qed.
Lemma in_get_arc : forall l a, srt l -> In a l -> get_arc l (arc_place a) = Some a.
Proof.
  induction l as [|x l IH]; intros a Hs H; [contradiction|]. destruct Hs as (A & B). cbn [get_arc].
  destruct H as [->|H]; [rewrite Nat.ltb_irrefl, Nat.eqb_refl; reflexivity|].
  assert (arc_place x < arc_place a) as L by (apply A; apply in_map; exact H). apply Nat.ltb_lt in L. rewrite L. apply IH; assumption.
Qed.
Lemma get_arc_none : forall l p, srt l -> (get_arc l p = None <-> ~ In p (map arc_place l)).
Proof.
  intros l p S'. split.
  - intros H Hp. apply in_map_iff in Hp. destruct Hp as (a & <- & Ha). rewrite (in_get_arc _ _ S' Ha) in H. discriminate.
  - intros H. destruct (get_arc l p) as [a|] eqn:E; [|reflexivity]. exfalso. apply H. apply get_arc_in in E. destruct E as (Ha & <-). apply in_map. exact Ha.
Qed.
Lemma get_arc_some : forall l p, srt l -> In p (map arc_place l) -> exists a, get_arc l p = Some a /\ In a l /\ arc_place a = p.
Proof. intros l p S' H. apply in_map_iff in H. destruct H as (a & <- & Ha). exists a. split; [apply in_get_arc; assumption|split; [exact Ha|reflexivity]]. Qed.

Lemma del_arc_in : forall l p a, srt l -> (In a (del_arc l p) <-> In a l /\ arc_place a <> p).
Proof.
  induction l as [|x l IH]; intros p a Hs; [cbn; tauto|]. destruct Hs as (A & B). cbn [del_arc].
  assert (L : forall y, In y l -> arc_place x < arc_place y) by (intros y Hy; apply A, in_map, Hy).
  destruct (Nat.ltb_spec (arc_place x) p).
  - cbn. rewrite (IH p a B). split; [intros [->|H1]; [split; [left; reflexivity|lia]|tauto]|intros ([->|H1] & H2); tauto].
  - destruct (Nat.eqb_spec (arc_place x) p) as [E|E].
    + cbn. split; [intros Ha; split; [right; exact Ha|specialize (L _ Ha); lia]|intros ([->|H1] & H2); [congruence|exact H1]].
    + cbn. split; [intros Ha; split; [exact Ha|]|tauto]. destruct Ha as [->|Ha]; [exact E|specialize (L _ Ha); lia].
Qed.
Lemma del_arc_srt : forall l p, srt l -> srt (del_arc l p).
Proof.
  induction l as [|x l IH]; intros p Hs; [exact I|]. destruct Hs as (A & B). cbn [del_arc].
  destruct (arc_place x <? p); [|destruct (Nat.eqb (arc_place x) p); [exact B|split; assumption]].
  split; [|apply IH; exact B]. intros y Hy. apply in_map_iff in Hy. destruct Hy as (a & <- & Ha). apply (@del_arc_in _ p a B) in Ha. apply A, in_map, Ha.
Qed.
Lemma put_arc_in : forall l x a, In a (put_arc l x) <-> a = x \/ In a l.
Proof.
  induction l as [|y l IH]; intros x a; cbn [put_arc]; [cbn; split; [intros [->|[]]; tauto|intros [->|[]]; tauto]|].
  destruct (arc_place y <? arc_place x); cbn; [rewrite IH; tauto|]. split; [intros [->|[->|H1]]; tauto|intros [->|[->|H1]]; tauto].
Qed.
Lemma put_arc_srt : forall l x, srt l -> ~ In (arc_place x) (map arc_place l) -> srt (put_arc l x).
Proof.
  induction l as [|y l IH]; intros x Hs Hx; [split; [intros z []|exact I]|]. destruct Hs as (A & B). cbn [put_arc].
  destruct (Nat.ltb_spec (arc_place y) (arc_place x)) as [L|L].
  - split; [|apply IH; [exact B|intros H; apply Hx; right; exact H]].
    intros z Hz. apply in_map_iff in Hz. destruct Hz as (a & <- & Ha). apply put_arc_in in Ha. destruct Ha as [->|Ha]; [exact L|apply A, in_map, Ha].
  - assert (arc_place x < arc_place y) by (assert (arc_place x <> arc_place y) by (intros E; apply Hx; left; symmetry; exact E); lia).
    split; [|split; assumption]. cbn [map]. intros z [<-|Hz]; [assumption|]. specialize (A _ Hz). lia.
Qed.
Lemma set_weight_places : forall l p w, map arc_place (set_weight l p w) = map arc_place l.
Proof. induction l as [|x l IH]; intros p w; [reflexivity|]. cbn [set_weight]. destruct (arc_place x <? p); [cbn; rewrite IH; reflexivity|destruct (Nat.eqb (arc_place x) p); reflexivity]. Qed.
Lemma set_weight_srt : forall l p w, srt l -> srt (set_weight l p w).
Proof. intros l p w H. unfold srt. rewrite set_weight_places. exact H. Qed.
Lemma set_weight_in : forall l p w a, srt l -> In a (set_weight l p w) ->
  (In a l /\ arc_place a <> p) \/ (arc_place a = p /\ arc_weight a = w /\ exists a0, In a0 l /\ arc_place a0 = p /\ arc_inhib a = arc_inhib a0).
Proof.
  induction l as [|x l IH]; intros p w a Hs H; [contradiction|]. destruct Hs as (A & B). cbn [set_weight] in H.
  assert (L : forall y, In y l -> arc_place x < arc_place y) by (intros y Hy; apply A, in_map, Hy).
  destruct (Nat.ltb_spec (arc_place x) p).
  - destruct H as [<-|H]; [left; split; [left; reflexivity|lia]|]. destruct (IH _ _ _ B H) as [(H1 & H2)|(H1 & H2 & a0 & H3 & H4)]; [left; split; [right|]; assumption|right].
    split; [exact H1|]. split; [exact H2|]. exists a0. split; [right; exact H3|exact H4].
  - destruct (Nat.eqb_spec (arc_place x) p) as [E|E].
    + destruct H as [<-|H]; [right|left; split; [right; exact H|specialize (L _ H); lia]].
      split; [exact E|]. split; [reflexivity|]. exists x. split; [left; reflexivity|]. split; [exact E|reflexivity].
    + left. split; [exact H|]. destruct H as [<-|H]; [exact E|specialize (L _ H); lia].
Qed.

(** lookups after the changes *)
Lemma get_del : forall l p q, srt l -> get_arc (del_arc l p) q = if Nat.eqb q p then None else get_arc l q.
Proof.
  intros l p q Hs. destruct (Nat.eqb_spec q p) as [->|Hq].
  - apply get_arc_none; [apply del_arc_srt; exact Hs|]. intros H. apply in_map_iff in H. destruct H as (a & E & Ha). apply (@del_arc_in _ p a Hs) in Ha. tauto.
  - destruct (get_arc l q) as [a|] eqn:E.
    + apply get_arc_in in E. destruct E as (Ha & <-). apply in_get_arc; [apply del_arc_srt; exact Hs|]. apply del_arc_in; tauto.
    + apply get_arc_none; [apply del_arc_srt; exact Hs|]. apply get_arc_none in E; [|exact Hs]. intros H. apply E. apply in_map_iff in H. destruct H as (a & <- & Ha). apply in_map. apply (@del_arc_in _ p a Hs) in Ha. tauto.
Qed.
Lemma get_put : forall l x q, srt l -> ~ In (arc_place x) (map arc_place l) -> get_arc (put_arc l x) q = if Nat.eqb q (arc_place x) then Some x else get_arc l q.
Proof.
  intros l x q Hs Hx. pose proof (@put_arc_srt _ x Hs Hx) as Hs'. destruct (Nat.eqb_spec q (arc_place x)) as [->|Hq].
  - apply in_get_arc; [exact Hs'|]. apply put_arc_in. left. reflexivity.
  - destruct (get_arc l q) as [a|] eqn:E.
    + apply get_arc_in in E. destruct E as (Ha & <-). apply in_get_arc; [exact Hs'|]. apply put_arc_in. right. exact Ha.
    + apply get_arc_none; [exact Hs'|]. apply get_arc_none in E; [|exact Hs]. intros H. apply in_map_iff in H. destruct H as (a & <- & Ha). apply put_arc_in in Ha. destruct Ha as [->|Ha]; [congruence|]. apply E, in_map, Ha.
Qed.
Lemma get_set : forall l p w q, srt l -> get_arc (set_weight l p w) q =
  if Nat.eqb q p then match get_arc l p with Some a => Some (mkArc (arc_place a) w (arc_inhib a)) | None => None end else get_arc l q.
Proof.
  induction l as [|x l IH]; intros p w q Hs; [destruct (Nat.eqb q p); reflexivity|]. destruct Hs as (A & B). cbn [set_weight get_arc].
  destruct (Nat.ltb_spec (arc_place x) p) as [L|L].
  - cbn [get_arc]. destruct (Nat.ltb_spec (arc_place x) q) as [L'|L']; [apply IH; exact B|].
    destruct (Nat.eqb_spec q p) as [->|Hq]; [lia|reflexivity].
  - destruct (Nat.eqb_spec (arc_place x) p) as [E|E].
    + cbn [get_arc]. cbn [arc_place]. rewrite E. destruct (Nat.eqb_spec q p) as [->|Hq]; [rewrite Nat.ltb_irrefl, Nat.eqb_refl; reflexivity|].
      destruct (p <? q) eqn:Z; [reflexivity|]. destruct (Nat.eqb_spec p q); [congruence|reflexivity].
    + cbn [get_arc]. destruct (Nat.eqb_spec q p) as [->|Hq]; [|reflexivity]. destruct (Nat.ltb_spec (arc_place x) p) as [L'|_]; [lia|]. destruct (Nat.eqb_spec (arc_place x) p); [contradiction|reflexivity].
Qed.

(** ** Weights *)
Definition wt (l : list arc) (p : nat) : N := match get_arc l p with Some a => if arc_inhib a then 0%N else arc_weight a | None => 0%N end.
Definition ih (l : list arc) (p : nat) : option N := match get_arc l p with Some a => if arc_inhib a then Some (arc_weight a) else None | None => None end.
Definition atr_of (x : btrans) : atr := mkAtr (wt (bt_pre x)) (wt (bt_post x)) (ih (bt_pre x)).
Definition live (b : builder) (t : nat) : bool := (t <? length (b_trans b)) && negb (bt_skip (tr_of b t)).
Definition anet_of (b : builder) : anet := mkAnet (init_at b) (fun t => if live b t then Some (atr_of (tr_of b t)) else None).

(** ** Reading after writing *)
Lemma tr_set : forall b t x u, t < length (b_trans b) -> tr_of (set_tr b t x) u = if Nat.eqb u t then x else tr_of b u.
Proof. intros b t x u H. unfold tr_of, set_tr. cbn [b_trans]. destruct (Nat.eqb_spec u t) as [->|E]; [apply nth_upd_eq; exact H|apply nth_upd_neq; congruence]. Qed.
Lemma pl_set : forall b p x q, p < length (b_places b) -> pl_of (set_pl b p x) q = if Nat.eqb q p then x else pl_of b q.
Proof. intros b t x u H. unfold pl_of, set_pl. cbn [b_places]. destruct (Nat.eqb_spec u t) as [->|E]; [apply nth_upd_eq; exact H|apply nth_upd_neq; congruence]. Qed.
Lemma init_set : forall b p v q, p < length (b_init b) -> init_at (set_init b p v) q = if Nat.eqb q p then v else init_at b q.
Proof. intros b t x u H. unfold init_at, set_init. cbn [b_init]. destruct (Nat.eqb_spec u t) as [->|E]; [apply nth_upd_eq; exact H|apply nth_upd_neq; congruence]. Qed.
Lemma tr_range : forall b t, bt_pre (tr_of b t) <> [] \/ bt_post (tr_of b t) <> [] \/ bt_skip (tr_of b t) = true -> t < length (b_trans b).
Proof. intros b t H. destruct (Nat.lt_ge_cases t (length (b_trans b))) as [L|L]; [exact L|]. exfalso. unfold tr_of in H. rewrite nth_overflow in H by exact L. cbn in H. destruct H as [H|[H|H]]; congruence. Qed.
Lemma pl_range : forall b p, bp_skip (pl_of b p) = false -> p < length (b_places b).
Proof. intros b t H. destruct (Nat.lt_ge_cases t (length (b_places b))) as [L|L]; [exact L|]. exfalso. unfold pl_of in H. rewrite nth_overflow in H by exact L. discriminate. Qed.
Lemma in_pre_range : forall b t a, In a (bt_pre (tr_of b t)) -> t < length (b_trans b).
Proof. intros b t a H. apply tr_range. left. intros E. rewrite E in H. contradiction. Qed.
Lemma in_post_range : forall b t a, In a (bt_post (tr_of b t)) -> t < length (b_trans b).
Proof. intros b t a H. apply tr_range. right. left. intros E. rewrite E in H. contradiction. Qed.

(** what a change leaves alone *)
Record frame (b b' : builder) : Prop := {
  f_pn : b_pnames b' = b_pnames b; f_tn : b_tnames b' = b_tnames b;
  f_np : length (b_places b') = length (b_places b); f_nt : length (b_trans b') = length (b_trans b) }.
Lemma frame_refl : forall b, frame b b.
Proof. intros b. constructor; reflexivity. Qed.
Lemma frame_trans : forall a b c, frame a b -> frame b c -> frame a c.
Proof. intros a b c [A1 A2 A3 A4] [B1 B2 B3 B4]. constructor; congruence. Qed.
Lemma frame_set_tr : forall b t x, frame b (set_tr b t x).
Proof. intros. constructor; cbn; try reflexivity. apply upd_length. Qed.
Lemma frame_set_pl : forall b t x, frame b (set_pl b t x).
Proof. intros. constructor; cbn; try reflexivity. apply upd_length. Qed.
Lemma frame_set_init : forall b t x, frame b (set_init b t x).
Proof. intros. constructor; reflexivity. Qed.
(** flags of places *)
Definition same_flags (b b' : builder) : Prop := forall p, bp_skip (pl_of b' p) = bp_skip (pl_of b p) /\ bp_inhib (pl_of b' p) = bp_inhib (pl_of b p).
Lemma same_flags_refl : forall b, same_flags b b.
Proof. intros b p. split; reflexivity. Qed.
Lemma same_flags_trans : forall a b c, same_flags a b -> same_flags b c -> same_flags a c.
Proof. intros a b c H1 H2 p. destruct (H1 p), (H2 p). split; congruence. Qed.

(** To show that a changed builder is good: the transitions and the places. *)
Lemma good_intro : forall b b', good b -> frame b b' -> length (b_init b') = length (b_init b) ->
  (forall t, bt_skip (tr_of b' t) = true -> bt_pre (tr_of b' t) = [] /\ bt_post (tr_of b' t) = []) ->
  (forall t a, In a (bt_pre (tr_of b' t)) -> bp_skip (pl_of b' (arc_place a)) = false /\ (0 < arc_weight a)%N /\
     (arc_inhib a = true -> bt_inhib (tr_of b' t) = true /\ bp_inhib (pl_of b' (arc_place a)) = true)) ->
  (forall t a, In a (bt_post (tr_of b' t)) -> bp_skip (pl_of b' (arc_place a)) = false /\ (0 < arc_weight a)%N /\ arc_inhib a = false) ->
  (forall t, srt (bt_pre (tr_of b' t)) /\ srt (bt_post (tr_of b' t))) ->
  (forall p, sorted (bp_cons (pl_of b' p)) /\ sorted (bp_prod (pl_of b' p))) ->
  (forall p t, In t (bp_cons (pl_of b' p)) <-> In p (map arc_place (bt_pre (tr_of b' t)))) ->
  (forall p t, In t (bp_prod (pl_of b' p)) <-> In p (map arc_place (bt_post (tr_of b' t)))) -> good b'.
Proof.
  intros b b' G [F1 F2 F3 F4] Li H1 H2 H3 H4 H5 H6 H7. constructor; try assumption; try (intros t; first [apply H4|apply H5]).
  - rewrite F3, F1. apply (g_np G).
  - rewrite F4, F2. apply (g_nt G).
  - rewrite Li, F1. apply (g_ni G).
  - rewrite F1. apply (g_pn G).
  - rewrite F2. apply (g_tn G).
Qed.

(** ** skipTransition *)
Lemma rm_prods : forall t l b, (forall a, In a l -> bp_skip (pl_of b (arc_place a)) = false) -> NoDup (map arc_place l) ->
  (forall p, sorted (bp_prod (pl_of b p))) -> (forall a, In a l -> In t (bp_prod (pl_of b (arc_place a)))) ->
  exists b', fold_res (rm_prod t) l b = Ok b' /\ frame b b' /\ b_init b' = b_init b /\ b_trans b' = b_trans b /\ same_flags b b' /\
    (forall p, bp_cons (pl_of b' p) = bp_cons (pl_of b p)) /\ (forall p, sorted (bp_prod (pl_of b' p))) /\
    (forall p u, In u (bp_prod (pl_of b' p)) <-> In u (bp_prod (pl_of b p)) /\ ~ (u = t /\ In p (map arc_place l))).
Proof.
  intros t. induction l as [|a l IH]; intros b Hlive Hnd Hs Hin.
  - exists b. split; [reflexivity|]. split; [apply frame_refl|]. repeat (split; [reflexivity|]). split; [apply same_flags_refl|]. split; [reflexivity|]. split; [exact Hs|]. intros p u. cbn. tauto.
  - cbn [fold_res rm_prod]. unfold rm_prod at 1. destruct (erase_id_ok _ _ (Hs (arc_place a)) (Hin a (or_introl eq_refl))) as (l' & E & S' & M). rewrite E. cbn [bind].
    assert (Hr : arc_place a < length (b_places b)) by (apply pl_range, Hlive; left; reflexivity).
    inversion Hnd as [|x y Hnd1 Hnd2]; subst.
    set (b1 := set_pl b (arc_place a) (with_prod (pl_of b (arc_place a)) l')).
    assert (P1 : forall q, pl_of b1 q = if Nat.eqb q (arc_place a) then with_prod (pl_of b (arc_place a)) l' else pl_of b q) by (intros q; apply pl_set; exact Hr).
    destruct (IH b1) as (b' & E' & F & I1 & I2 & Fl & C & S2 & M2).
    + intros a' Ha'. rewrite P1. destruct (Nat.eqb_spec (arc_place a') (arc_place a)) as [Q|Q]; [cbn; apply Hlive; left; reflexivity|apply Hlive; right; exact Ha'].
    + exact Hnd2.
    + intros q. rewrite P1. destruct (Nat.eqb q (arc_place a)); [exact S'|apply Hs].
    + intros a' Ha'. rewrite P1. destruct (Nat.eqb_spec (arc_place a') (arc_place a)) as [Q|Q]; [|apply Hin; right; exact Ha'].
      exfalso. apply Hnd1. rewrite <- Q. apply in_map. exact Ha'.
    + exists b'. split; [exact E'|]. split; [eapply frame_trans; [apply frame_set_pl|exact F]|]. split; [exact I1|]. split; [exact I2|].
      split; [|split; [|split; [exact S2|]]].
      * intros q. destruct (Fl q) as (A1 & A2). rewrite A1, A2, P1. destruct (Nat.eqb_spec q (arc_place a)) as [->|_]; split; reflexivity.
      * intros q. rewrite C, P1. destruct (Nat.eqb_spec q (arc_place a)) as [->|_]; reflexivity.
      * intros q u. rewrite M2, P1. destruct (Nat.eqb_spec q (arc_place a)) as [->|Q]; cbn.
        { rewrite M. split; [intros ((H1 & H2) & H3); split; [exact H1|intros (H4 & _); contradiction]|intros (H1 & H2); split; [split; [exact H1|intros ->; apply H2; split; [reflexivity|left; reflexivity]]|intros (-> & _); apply H2; split; [reflexivity|left; reflexivity]]]. }
        { split; intros (H1 & H2); (split; [exact H1|]); intros (H3 & H4); apply H2; (split; [exact H3|]); [destruct H4 as [H4|H4]; [congruence|exact H4]|right; exact H4]. }
Qed.
Lemma rm_conss : forall t l b, (forall a, In a l -> bp_skip (pl_of b (arc_place a)) = false) -> NoDup (map arc_place l) ->
  (forall p, sorted (bp_cons (pl_of b p))) -> (forall a, In a l -> In t (bp_cons (pl_of b (arc_place a)))) ->
  exists b', fold_res (rm_cons t) l b = Ok b' /\ frame b b' /\ b_init b' = b_init b /\ b_trans b' = b_trans b /\ same_flags b b' /\
    (forall p, bp_prod (pl_of b' p) = bp_prod (pl_of b p)) /\ (forall p, sorted (bp_cons (pl_of b' p))) /\
    (forall p u, In u (bp_cons (pl_of b' p)) <-> In u (bp_cons (pl_of b p)) /\ ~ (u = t /\ In p (map arc_place l))).
Proof.
  intros t. induction l as [|a l IH]; intros b Hlive Hnd Hs Hin.
  - exists b. split; [reflexivity|]. split; [apply frame_refl|]. repeat (split; [reflexivity|]). split; [apply same_flags_refl|]. split; [reflexivity|]. split; [exact Hs|]. intros p u. cbn. tauto.
  - cbn [fold_res rm_cons]. unfold rm_cons at 1. destruct (erase_id_ok _ _ (Hs (arc_place a)) (Hin a (or_introl eq_refl))) as (l' & E & S' & M). rewrite E. cbn [bind].
    assert (Hr : arc_place a < length (b_places b)) by (apply pl_range, Hlive; left; reflexivity).
    inversion Hnd as [|x y Hnd1 Hnd2]; subst.
    set (b1 := set_pl b (arc_place a) (with_cons (pl_of b (arc_place a)) l')).
    assert (P1 : forall q, pl_of b1 q = if Nat.eqb q (arc_place a) then with_cons (pl_of b (arc_place a)) l' else pl_of b q) by (intros q; apply pl_set; exact Hr).
    destruct (IH b1) as (b' & E' & F & I1 & I2 & Fl & C & S2 & M2).
    + intros a' Ha'. rewrite P1. destruct (Nat.eqb_spec (arc_place a') (arc_place a)) as [Q|Q]; [cbn; apply Hlive; left; reflexivity|apply Hlive; right; exact Ha'].
    + exact Hnd2.
    + intros q. rewrite P1. destruct (Nat.eqb q (arc_place a)); [exact S'|apply Hs].
    + intros a' Ha'. rewrite P1. destruct (Nat.eqb_spec (arc_place a') (arc_place a)) as [Q|Q]; [|apply Hin; right; exact Ha'].
      exfalso. apply Hnd1. rewrite <- Q. apply in_map. exact Ha'.
    + exists b'. split; [exact E'|]. split; [eapply frame_trans; [apply frame_set_pl|exact F]|]. split; [exact I1|]. split; [exact I2|].
      split; [|split; [|split; [exact S2|]]].
      * intros q. destruct (Fl q) as (A1 & A2). rewrite A1, A2, P1. destruct (Nat.eqb_spec q (arc_place a)) as [->|_]; split; reflexivity.
      * intros q. rewrite C, P1. destruct (Nat.eqb_spec q (arc_place a)) as [->|_]; reflexivity.
      * intros q u. rewrite M2, P1. destruct (Nat.eqb_spec q (arc_place a)) as [->|Q]; cbn.
        { rewrite M. split; [intros ((H1 & H2) & H3); split; [exact H1|intros (H4 & _); contradiction]|intros (H1 & H2); split; [split; [exact H1|intros ->; apply H2; split; [reflexivity|left; reflexivity]]|intros (-> & _); apply H2; split; [reflexivity|left; reflexivity]]]. }
        { split; intros (H1 & H2); (split; [exact H1|]); intros (H3 & H4); apply H2; (split; [exact H3|]); [destruct H4 as [H4|H4]; [congruence|exact H4]|right; exact H4]. }
Qed.

Definition gone (x : btrans) : btrans := mkBT [] [] (bt_player x) true (bt_inhib x).
Lemma skip_transition_ok : forall b t, good b -> t < length (b_trans b) -> bt_skip (tr_of b t) = false ->
  exists b', skip_transition b t = Ok b' /\ good b' /\ frame b b' /\ b_init b' = b_init b /\ same_flags b b' /\
    (forall u, tr_of b' u = if Nat.eqb u t then gone (tr_of b t) else tr_of b u).
Proof.
  intros b t G Ht Hsk. unfold skip_transition. rewrite Hsk.
  destruct (@rm_prods t (bt_post (tr_of b t)) b) as (b1 & E1 & F1 & I1 & T1 & Fl1 & C1 & S1 & M1).
  { intros a Ha. apply (g_post G t a Ha). } { apply sorted_nodup, (g_spost G). } { apply (g_sprod G). } { intros a Ha. apply (g_prod G). apply in_map. exact Ha. }
  rewrite E1. cbn [bind].
  destruct (@rm_conss t (bt_pre (tr_of b t)) b1) as (b2 & E2 & F2 & I2 & T2 & Fl2 & C2 & S2 & M2).
  { intros a Ha. rewrite (proj1 (Fl1 _)). apply (g_pre G t a Ha). } { apply sorted_nodup, (g_spre G). } { intros p. rewrite C1. apply (g_scons G). } { intros a Ha. rewrite C1. apply (g_cons G). apply in_map. exact Ha. }
  rewrite E2. cbn [bind]. fold (gone (tr_of b t)).
  assert (Ht2 : t < length (b_trans b2)) by (rewrite T2, T1; exact Ht).
  assert (Tr : forall u, tr_of (set_tr b2 t (gone (tr_of b t))) u = if Nat.eqb u t then gone (tr_of b t) else tr_of b u).
  { intros u. rewrite tr_set by exact Ht2. unfold tr_of. rewrite T2, T1. reflexivity. }
  assert (Fr : frame b (set_tr b2 t (gone (tr_of b t)))) by (eapply frame_trans; [exact F1|]; eapply frame_trans; [exact F2|apply frame_set_tr]).
  assert (Pl : forall p, pl_of (set_tr b2 t (gone (tr_of b t))) p = pl_of b2 p) by reflexivity.
  assert (Fl : same_flags b (set_tr b2 t (gone (tr_of b t)))) by (eapply same_flags_trans; [exact Fl1|exact Fl2]).
  exists (set_tr b2 t (gone (tr_of b t))). split; [reflexivity|]. split; [|split; [exact Fr|split; [cbn; congruence|split; [exact Fl|exact Tr]]]].
  eapply good_intro; [exact G|exact Fr|cbn; congruence| | | | | | |].
  - intros u. rewrite Tr. destruct (Nat.eqb u t); [intros _; split; reflexivity|apply (g_skip G)].
  - intros u a. rewrite Tr. destruct (Nat.eqb u t); [intros []|]. intros Ha. destruct (g_pre G u a Ha) as (H1 & H2 & H3). destruct (Fl (arc_place a)) as (A1 & A2). rewrite A1, A2. tauto.
  - intros u a. rewrite Tr. destruct (Nat.eqb u t); [intros []|]. intros Ha. destruct (g_post G u a Ha) as (H1 & H2 & H3). destruct (Fl (arc_place a)) as (A1 & A2). rewrite A1. tauto.
  - intros u. rewrite Tr. destruct (Nat.eqb u t); [split; exact I|split; [apply (g_spre G)|apply (g_spost G)]].
  - intros p. rewrite Pl. split; [apply S2|rewrite C2; apply S1].
  - intros p u. rewrite Pl, M2, C1, (g_cons G), Tr. destruct (Nat.eqb_spec u t) as [->|Hu]; [cbn|tauto]. split; [intros (A & B)|intros []]. apply B. split; [reflexivity|exact A].
  - intros p u. rewrite Pl, C2, M1, (g_prod G), Tr. destruct (Nat.eqb_spec u t) as [->|Hu]; [cbn|tauto]. split; [intros (A & B)|intros []]. apply B. split; [reflexivity|exact A].
Qed.

(** ** skipPlace *)
Lemma rm_pres : forall p l b, NoDup l -> (forall t, In t l -> t < length (b_trans b)) ->
  let b' := fold_left (rm_pre p) l b in
  frame b b' /\ b_init b' = b_init b /\ b_places b' = b_places b /\
  (forall u, tr_of b' u = if existsb (Nat.eqb u) l then with_pre (tr_of b u) (del_arc (bt_pre (tr_of b u)) p) else tr_of b u).
Proof.
  intros p. induction l as [|t l IH]; intros b Hnd Hr; cbn [fold_left].
  - split; [apply frame_refl|]. repeat (split; [reflexivity|]). reflexivity.
  - inversion Hnd as [|x y H1 H2]; subst. destruct (IH (rm_pre p b t) H2) as (F & I1 & P & T); [intros u Hu; unfold rm_pre; cbn; rewrite upd_length; apply Hr; right; exact Hu|].
    split; [eapply frame_trans; [apply frame_set_tr|exact F]|]. split; [exact I1|]. split; [exact P|].
    intros u. rewrite T. cbn [existsb]. assert (Q : tr_of (rm_pre p b t) u = if Nat.eqb u t then with_pre (tr_of b t) (del_arc (bt_pre (tr_of b t)) p) else tr_of b u) by (apply tr_set, Hr; left; reflexivity).
    rewrite Q. clear Q. destruct (Nat.eqb_spec u t) as [Eu|Hu]; [subst u|reflexivity]. cbn [orb].
    destruct (existsb (Nat.eqb t) l) eqn:Ex; [|reflexivity]. exfalso. apply H1. apply existsb_exists in Ex. destruct Ex as (z & Hz & Ez). apply Nat.eqb_eq in Ez. subst z. exact Hz.
Qed.
Lemma rm_posts : forall p l b, NoDup l -> (forall t, In t l -> t < length (b_trans b)) ->
  let b' := fold_left (rm_post p) l b in
  frame b b' /\ b_init b' = b_init b /\ b_places b' = b_places b /\
  (forall u, tr_of b' u = if existsb (Nat.eqb u) l then with_post (tr_of b u) (del_arc (bt_post (tr_of b u)) p) else tr_of b u).
Proof.
  intros p. induction l as [|t l IH]; intros b Hnd Hr; cbn [fold_left].
  - split; [apply frame_refl|]. repeat (split; [reflexivity|]). reflexivity.
  - inversion Hnd as [|x y H1 H2]; subst. destruct (IH (rm_post p b t) H2) as (F & I1 & P & T); [intros u Hu; unfold rm_post; cbn; rewrite upd_length; apply Hr; right; exact Hu|].
    split; [eapply frame_trans; [apply frame_set_tr|exact F]|]. split; [exact I1|]. split; [exact P|].
    intros u. rewrite T. cbn [existsb]. assert (Q : tr_of (rm_post p b t) u = if Nat.eqb u t then with_post (tr_of b t) (del_arc (bt_post (tr_of b t)) p) else tr_of b u) by (apply tr_set, Hr; left; reflexivity).
    rewrite Q. clear Q. destruct (Nat.eqb_spec u t) as [Eu|Hu]; [subst u|reflexivity]. cbn [orb].
    destruct (existsb (Nat.eqb t) l) eqn:Ex; [|reflexivity]. exfalso. apply H1. apply existsb_exists in Ex. destruct Ex as (z & Hz & Ez). apply Nat.eqb_eq in Ez. subst z. exact Hz.
Qed.
Lemma del_arc_absent : forall l p, srt l -> ~ In p (map arc_place l) -> del_arc l p = l.
Proof.
  induction l as [|x l IH]; intros p Hs H; [reflexivity|]. destruct Hs as (A & B). cbn [del_arc]. destruct (arc_place x <? p); [rewrite IH; [reflexivity|exact B|intros Hp; apply H; right; exact Hp]|].
  destruct (Nat.eqb_spec (arc_place x) p) as [E|E]; [exfalso; apply H; left; exact E|reflexivity].
Qed.
Lemma existsb_in : forall x l, existsb (Nat.eqb x) l = true <-> In x l.
Proof. intros x l. rewrite existsb_exists. split; [intros (y & Hy & E); apply Nat.eqb_eq in E; subst; exact Hy|intros H; exists x; split; [exact H|apply Nat.eqb_refl]]. Qed.

Definition noplace (p : nat) (x : btrans) : btrans :=
  mkBT (del_arc (bt_pre x) p) (del_arc (bt_post x) p) (bt_player x) (bt_skip x) (bt_inhib x).
Lemma skip_place_ok : forall b p, good b -> bp_skip (pl_of b p) = false ->
  exists b', skip_place b p = Ok b' /\ good b' /\ frame b b' /\ b_init b' = b_init b /\
    (forall q, q <> p -> pl_of b' q = pl_of b q) /\ bp_skip (pl_of b' p) = true /\ bp_inhib (pl_of b' p) = bp_inhib (pl_of b p) /\
    (forall u, tr_of b' u = noplace p (tr_of b u)).
Proof.
  intros b p G Hp. unfold skip_place. rewrite Hp. pose proof (pl_range _ _ Hp) as Hr.
  assert (Rc : forall t, In t (bp_cons (pl_of b p)) -> t < length (b_trans b)).
  { intros t Ht. apply (g_cons G) in Ht. apply in_map_iff in Ht. destruct Ht as (a & _ & Ha). eapply in_pre_range; exact Ha. }
  assert (Rp : forall t, In t (bp_prod (pl_of b p)) -> t < length (b_trans b)).
  { intros t Ht. apply (g_prod G) in Ht. apply in_map_iff in Ht. destruct Ht as (a & _ & Ha). eapply in_post_range; exact Ha. }
  destruct (@rm_pres p (bp_cons (pl_of b p)) b (sorted_nodup _ (g_scons G p)) Rc) as (F1 & I1 & P1 & T1).
  set (b1 := fold_left (rm_pre p) (bp_cons (pl_of b p)) b) in *.
  destruct (@rm_posts p (bp_prod (pl_of b p)) b1 (sorted_nodup _ (g_sprod G p))) as (F2 & I2 & P2 & T2); [intros t Ht; rewrite (f_nt F1); apply Rp; exact Ht|].
  set (b2 := fold_left (rm_post p) (bp_prod (pl_of b p)) b1) in *.
  set (b' := set_pl b2 p (mkBP [] [] true (bp_inhib (pl_of b p)))).
  assert (T : forall u, tr_of b' u = noplace p (tr_of b u)).
  { intros u. change (tr_of b' u) with (tr_of b2 u). rewrite T2, T1. unfold noplace.
    assert (A : existsb (Nat.eqb u) (bp_cons (pl_of b p)) = false -> del_arc (bt_pre (tr_of b u)) p = bt_pre (tr_of b u)).
    { intros E. apply del_arc_absent; [apply (g_spre G)|]. rewrite <- (g_cons G). rewrite <- existsb_in. congruence. }
    assert (B : existsb (Nat.eqb u) (bp_prod (pl_of b p)) = false -> del_arc (bt_post (tr_of b u)) p = bt_post (tr_of b u)).
    { intros E. apply del_arc_absent; [apply (g_spost G)|]. rewrite <- (g_prod G). rewrite <- existsb_in. congruence. }
    destruct (existsb (Nat.eqb u) (bp_cons (pl_of b p))), (existsb (Nat.eqb u) (bp_prod (pl_of b p))); cbn.
    - reflexivity.
    - rewrite B by reflexivity. reflexivity.
    - rewrite A by reflexivity. reflexivity.
    - rewrite A, B by reflexivity. destruct (tr_of b u); reflexivity. }
  assert (Hr2 : p < length (b_places b2)) by (rewrite P2, P1; exact Hr).
  assert (Pl : forall q, pl_of b' q = if Nat.eqb q p then mkBP [] [] true (bp_inhib (pl_of b p)) else pl_of b q).
  { intros q. unfold b'. rewrite pl_set by exact Hr2. unfold pl_of. rewrite P2, P1. reflexivity. }
  assert (Fr : frame b b') by (eapply frame_trans; [exact F1|]; eapply frame_trans; [exact F2|apply frame_set_pl]).
  exists b'. split; [reflexivity|]. split; [|split; [exact Fr|split; [cbn; congruence|split; [|split; [|split; [|exact T]]]]]].
  - eapply good_intro; [exact G|exact Fr|cbn; congruence| | | | | | |].
    + intros u. rewrite T. unfold noplace. cbn [bt_skip bt_pre bt_post]. intros H. destruct (g_skip G u H) as (A & B). rewrite A, B. split; reflexivity.
    + intros u a. rewrite T. cbn [noplace bt_pre]. intros Ha. apply del_arc_in in Ha; [|apply (g_spre G)]. destruct Ha as (Ha & Hn). rewrite Pl. destruct (Nat.eqb_spec (arc_place a) p); [contradiction|]. apply (g_pre G u a Ha).
    + intros u a. rewrite T. cbn [noplace bt_post]. intros Ha. apply del_arc_in in Ha; [|apply (g_spost G)]. destruct Ha as (Ha & Hn). rewrite Pl. destruct (Nat.eqb_spec (arc_place a) p); [contradiction|]. apply (g_post G u a Ha).
    + intros u. rewrite T. split; apply del_arc_srt; [apply (g_spre G)|apply (g_spost G)].
    + intros q. rewrite Pl. destruct (Nat.eqb q p); [split; exact I|split; [apply (g_scons G)|apply (g_sprod G)]].
    + intros q u. rewrite Pl, T. cbn [noplace bt_pre]. destruct (Nat.eqb_spec q p) as [->|Hq]; cbn.
      * split; [intros []|]. intros H. apply in_map_iff in H. destruct H as (a & E & Ha). apply del_arc_in in Ha; [tauto|apply (g_spre G)].
      * rewrite (g_cons G). split; intros H; apply in_map_iff in H; destruct H as (a & <- & Ha); apply in_map; [apply del_arc_in; [apply (g_spre G)|tauto]|apply del_arc_in in Ha; [tauto|apply (g_spre G)]].
    + intros q u. rewrite Pl, T. cbn [noplace bt_post]. destruct (Nat.eqb_spec q p) as [->|Hq]; cbn.
      * split; [intros []|]. intros H. apply in_map_iff in H. destruct H as (a & E & Ha). apply del_arc_in in Ha; [tauto|apply (g_spost G)].
      * rewrite (g_prod G). split; intros H; apply in_map_iff in H; destruct H as (a & <- & Ha); apply in_map; [apply del_arc_in; [apply (g_spost G)|tauto]|apply del_arc_in in Ha; [tauto|apply (g_spost G)]].
  - intros q Hq. rewrite Pl. destruct (Nat.eqb_spec q p); [contradiction|reflexivity].
  - rewrite Pl, Nat.eqb_refl. reflexivity.
  - rewrite Pl, Nat.eqb_refl. reflexivity.
Qed.
