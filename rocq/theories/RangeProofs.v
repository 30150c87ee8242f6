(** Proofs about the interval vectors of trace abstraction refinement. *)
From Verif Require Import Base RangeSpec RangeModel.
From Coq Require Import Sorted.
Set Implicit Arguments.

Ltac bl := rewrite ?andb_true_iff, ?orb_true_iff, ?negb_true_iff, ?N.leb_le, ?N.ltb_lt, ?N.leb_gt, ?N.ltb_ge, ?N.eqb_eq, ?N.eqb_neq in *.
Ltac cmp := repeat match goal with
  | |- context [(?a <=? ?b)%N] => destruct (N.leb_spec a b)
  | |- context [(?a <? ?b)%N] => destruct (N.ltb_spec a b)
  | |- context [(?a =? ?b)%N] => destruct (N.eqb_spec a b)
  end.
Lemma rmax_inf : rmax = infinite. Proof. reflexivity. Qed.
Lemma unbound_spec : forall r, unbound r = true <-> unbounded r.
Proof. intros [a b]. unfold unbound, no_lower, no_upper, unbounded. cbn [fst snd]. bl. rewrite rmax_inf. tauto. Qed.
Lemma unbound_neg : forall r, unbound r = false <-> ~ unbounded r.
Proof. intros r. rewrite <- unbound_spec. destruct (unbound r); split; congruence. Qed.

Lemma r_contains_ok : forall r v, (v <= infinite)%N -> (contains r v = true <-> in_range r v).
Proof. intros [a b] v Hv. unfold contains, in_range. cbn. bl. split; [tauto|]. intros (A & [E|E]); split; auto. subst. exact Hv. Qed.
Lemma r_and_ok : forall r s v, (snd r <= infinite)%N -> (snd s <= infinite)%N -> (in_range (r_and r s) v <-> in_range r v /\ in_range s v).
Proof. intros [a b] [c d] v. unfold r_and, in_range. cbn [fst snd]. set (i := infinite). intros. lia. Qed.
Lemma r_or_ok : forall r s v, (snd r <= infinite)%N -> (snd s <= infinite)%N -> in_range r v \/ in_range s v -> in_range (r_or r s) v.
Proof. intros [a b] [c d] v. unfold r_or, in_range. cbn [fst snd]. set (i := infinite). intros. lia. Qed.
Lemma r_or_least : forall r s u, sound_range r -> sound_range s -> sound_range u ->
  (forall v, in_range r v \/ in_range s v -> in_range u v) -> forall v, in_range (r_or r s) v -> in_range u v.
Proof.
  intros [a b] [c d] [e f]. unfold sound_range, r_or, in_range. cbn [fst snd]. set (i := infinite). intros (A & B) (C & D) (E & F) H v Hv.
  assert (H1 : (e <= a)%N) by (apply (H a); left; lia). assert (H2 : (e <= c)%N) by (apply (H c); right; lia).
  split; [lia|]. destruct (N.eq_dec f i) as [Ef|Ef]; [left; exact Ef|]. right.
  assert (K1 : (b <= f)%N) by (destruct (H b) as (_ & [K|K]); [left; lia|congruence|exact K]).
  assert (K2 : (d <= f)%N) by (destruct (H d) as (_ & [K|K]); [right; lia|congruence|exact K]).
  destruct Hv as (_ & [Hv|Hv]); lia.
Qed.
Lemma r_intersects_ok : forall r s, sound_range r -> sound_range s -> (r_intersects r s = true <-> exists v, in_range r v /\ in_range s v).
Proof.
  intros [a b] [c d]. unfold sound_range, r_intersects, in_range. cbn [fst snd]. set (i := infinite). intros (A & B) (C & D). bl. split.
  - intros (H & K). exists (N.max a c). lia.
  - intros (v & H & K). lia.
Qed.
Lemma r_compare_ok : forall r s, sound_range r -> sound_range s ->
  (fst (r_compare r s) = true <-> forall v, in_range s v -> in_range r v) /\ (snd (r_compare r s) = true <-> forall v, in_range r v -> in_range s v).
Proof.
  assert (G : forall r s, sound_range r -> sound_range s -> ((fst r <= fst s /\ snd s <= snd r)%N <-> forall v, in_range s v -> in_range r v)).
  { intros [a b] [c d]. unfold sound_range, in_range. cbn [fst snd]. set (i := infinite). intros (A & B) (C & D). split.
    - intros (H & K) v Hv. lia.
    - intros H. pose proof (H c). pose proof (H d). pose proof (H (N.max c (N.succ b))). lia. }
  intros r s Hr Hs. unfold r_compare. cbn [fst snd]. bl. split; [exact (G r s Hr Hs)|exact (G s r Hs Hr)].
Qed.
(** the vectors of values that lead into the range when [k] is added, or taken away *)
Lemma r_sub_ok : forall r k r', (snd r <= infinite)%N -> r_sub r k = Ok r' -> forall v, in_range r' v <-> in_range r (v + k)%N.
Proof.
  intros [a b] k r'. unfold r_sub, in_range. cbn [fst snd]. rewrite rmax_inf. set (i := infinite). intros Hb. cmp; intros E; try discriminate; injection E as <-; cbn [fst snd]; intros v; lia.
Qed.
Lemma r_sub_defined : forall r k, (k <= snd r)%N -> exists r', r_sub r k = Ok r'.
Proof. intros [a b] k H. unfold r_sub. cbn [fst snd] in *. cmp; eauto; lia. Qed.
Lemma r_add_ok : forall r k r', (k <= infinite)%N -> (snd r <= infinite)%N -> r_add r k = Ok r' -> forall v, in_range r v -> in_range r' (v + k)%N.
Proof.
  intros [a b] k r'. unfold r_add, in_range. cbn [fst snd]. rewrite rmax_inf. set (i := infinite). cmp; intros; try discriminate; match goal with E : Ok _ = Ok _ |- _ => injection E as <- end; cbn [fst snd]; lia.
Qed.
Lemma r_add_exact : forall r k r', (snd r = infinite \/ (snd r + k < infinite)%N) -> r_add r k = Ok r' -> forall v, in_range r' (v + k)%N <-> in_range r v.
Proof.
  intros [a b] k r'. unfold r_add, in_range. cbn [fst snd]. rewrite rmax_inf. set (i := infinite). cmp; intros; try discriminate; match goal with E : Ok _ = Ok _ |- _ => injection E as <- end; cbn [fst snd]; lia.
Qed.

(** * Vectors *)
Lemma sorted_cons : forall p r l, sorted_vec ((p, r) :: l) -> sorted_vec l /\ forall q t, In (q, t) l -> p < q.
Proof.
  intros p r l H. inversion H as [|x y A B]; subst. split; [exact A|]. intros q t Hi. rewrite Forall_forall in B. apply B. apply (in_map fst) in Hi. exact Hi.
Qed.
Lemma lookup_ok : forall l p, sorted_vec l -> forall r, lookup l p = Some r <-> In (p, r) l.
Proof.
  induction l as [|[q t] l IH]; intros p Hs r; cbn [lookup]; [split; [discriminate|intros []]|].
  destruct (sorted_cons Hs) as (Sl & Hl). destruct (Nat.ltb_spec q p) as [A|A].
  - rewrite (IH p Sl r). split; [intros H; right; exact H|]. intros [E|H]; [injection E as -> ->; lia|exact H].
  - destruct (Nat.eqb_spec q p) as [->|B].
    + split; [intros E; injection E as ->; left; reflexivity|]. intros [E|H]; [injection E as ->; reflexivity|]. specialize (Hl _ _ H). lia.
    + split; [discriminate|]. intros [E|H]; [injection E as -> ->; congruence|]. specialize (Hl _ _ H). lia.
Qed.
Lemma lookup_none : forall l p, sorted_vec l -> lookup l p = None <-> forall r, ~ In (p, r) l.
Proof.
  intros l p Hs. split.
  - intros H r Hi. apply (lookup_ok p Hs) in Hi. congruence.
  - intros H. destruct (lookup l p) as [r|] eqn:E; [|reflexivity]. apply (lookup_ok p Hs) in E. destruct (H r E).
Qed.
Lemma at_place_in : forall l p f, sorted_vec l -> forall q r, In (q, r) (at_place l p f) <->
  (q <> p /\ In (q, r) l) \/ (q = p /\ r = f (match lookup l p with Some t => t | None => (0%N, rmax) end)).
Proof.
  induction l as [|[x t] l IH]; intros p f Hs q r; cbn [at_place lookup].
  - cbn. split; [intros [E|[]]; injection E as <- <-; auto|intros [(_ & [])|(-> & ->)]; auto].
  - destruct (sorted_cons Hs) as (Sl & Hl). destruct (Nat.ltb_spec x p) as [A|A].
    + cbn [In]. rewrite (IH p f Sl q r). split.
      * intros [E|[(H & K)|H]]; [injection E as <- <-; left; split; [lia|left; reflexivity]|left; auto|right; exact H].
      * intros [(H & [E|K])|H]; [left; exact E|right; left; auto|right; right; exact H].
    + destruct (Nat.eqb_spec x p) as [->|B]; cbn [In].
      * split.
        -- intros [E|H]; [injection E as <- <-; right; auto|]. left. split; [specialize (Hl _ _ H); lia|right; exact H].
        -- intros [(H & [E|K])|(-> & ->)]; [injection E as <- <-; congruence|right; exact K|left; reflexivity].
      * split.
        -- intros [E|[E|H]]; [injection E as <- <-; right; auto|injection E as <- <-; left; split; [congruence|left; reflexivity]|].
           left. split; [specialize (Hl _ _ H); lia|right; exact H].
        -- intros [(H & K)|(-> & ->)]; [right; exact K|left; reflexivity].
Qed.
Lemma at_place_fst : forall l p f x, In x (map fst (at_place l p f)) -> x = p \/ In x (map fst l).
Proof.
  induction l as [|[q r] l IH]; intros p f x; cbn [at_place map fst].
  - intros [<-|[]]. auto.
  - destruct (q <? p); [|destruct (Nat.eqb q p)]; cbn [map fst In].
    + intros [<-|H]; [auto|]. destruct (IH _ _ _ H); auto.
    + auto.
    + intros [<-|H]; auto.
Qed.
Lemma at_place_sorted : forall l p f, sorted_vec l -> sorted_vec (at_place l p f).
Proof.
  induction l as [|[q r] l IH]; intros p f Hs; cbn [at_place]; [repeat constructor|].
  destruct (sorted_cons Hs) as (Sl & Hl). destruct (Nat.ltb_spec q p) as [A|A].
  - unfold sorted_vec. cbn [map fst]. constructor; [exact (IH p f Sl)|]. apply Forall_forall. intros x Hx. destruct (at_place_fst _ _ _ _ Hx) as [->|Hx']; [exact A|].
    apply in_map_iff in Hx'. destruct Hx' as ([y t] & <- & Hy). exact (Hl _ _ Hy).
  - destruct (Nat.eqb_spec q p) as [->|B]; [exact Hs|]. unfold sorted_vec. cbn [map fst]. constructor; [exact Hs|].
    apply Forall_forall. intros x Hx. change (q :: map fst l) with (map fst ((q, r) :: l)) in Hx. apply in_map_iff in Hx. destruct Hx as ([y t] & <- & [E|Hy]); [injection E as <- <-; cbn; lia|].
    specialize (Hl _ _ Hy). cbn. lia.
Qed.
Lemma find_or_add_ok : forall l p m, sorted_vec l -> (in_vec (find_or_add l p) m <-> in_vec l m).
Proof.
  intros l p m Hs. unfold in_vec, find_or_add. split.
  - intros H q r Hi. destruct (Nat.eq_dec q p) as [->|E].
    + apply H. apply at_place_in; [exact Hs|]. right. split; [reflexivity|]. apply (lookup_ok p Hs) in Hi. rewrite Hi. reflexivity.
    + apply H. apply at_place_in; auto.
  - intros H q r Hi. apply at_place_in in Hi; [|exact Hs]. destruct Hi as [(E & Hi)|(-> & ->)]; [auto|].
    destruct (lookup l p) as [t|] eqn:E; [apply H, (lookup_ok p Hs), E|]. split; [cbn; lia|left; reflexivity].
Qed.
Lemma compact_ok : forall l m, in_vec (compact l) m <-> in_vec l m.
Proof.
  intros l m. unfold in_vec, compact. split; intros H p r Hi.
  - destruct (unbound r) eqn:E; [apply unbound_spec in E; destruct E as (E1 & E2); split; [lia|left; exact E2]|].
    apply H, filter_In. split; [exact Hi|]. cbn [snd]. rewrite E. reflexivity.
  - apply filter_In in Hi. apply H, Hi.
Qed.
Lemma compact_compact : forall l, compact_vec (compact l).
Proof. intros l p r Hi. apply filter_In in Hi. destruct Hi as (_ & H). cbn [snd] in H. apply negb_true_iff, unbound_neg in H. exact H. Qed.
Lemma sorted_filter : forall f l, sorted_vec l -> sorted_vec (filter f l).
Proof.
  intros f. induction l as [|[p r] l IH]; intros Hs; [constructor|]. destruct (sorted_cons Hs) as (Sl & Hl). cbn [filter]. destruct (f (p, r)); [|exact (IH Sl)].
  unfold sorted_vec. cbn [map fst]. constructor; [exact (IH Sl)|]. apply Forall_forall. intros x Hx. apply in_map_iff in Hx. destruct Hx as ([q t] & <- & Hi).
  apply filter_In in Hi. exact (Hl _ _ (proj1 Hi)).
Qed.

Lemma v_and_one_ok : forall l p x m, sound_vec l -> (snd x <= infinite)%N -> (in_vec (v_and_one l p x) m <-> in_vec l m /\ in_range x (m p)).
Proof.
  induction l as [|[q r] l IH]; intros p x m Hs Hx; cbn [v_and_one].
  - unfold in_vec. cbn. split; [intros H; split; [intros ? ? []|auto]|intros (_ & H) ? ? [E|[]]; injection E as <- <-; exact H].
  - assert (Hr : sound_range r) by (apply (Hs q r); left; reflexivity). assert (Hl : sound_vec l) by (intros ? ? Hi; eapply Hs; right; exact Hi).
    destruct (q <? p); [|destruct (Nat.eqb_spec q p) as [->|E]].
    + specialize (IH p x m Hl Hx). unfold in_vec in *. split.
      * intros H. destruct (proj1 IH) as (A & B); [intros ? ? Hi; apply H; right; exact Hi|]. split; [|exact B]. intros y t [E|Hi]; [apply H; left; exact E|exact (A _ _ Hi)].
      * intros (A & B) y t [E|Hi]; [apply A; left; exact E|]. apply (proj2 IH); [|exact Hi]. split; [intros ? ? Hj; apply A; right; exact Hj|exact B].
    + unfold in_vec. split.
      * intros H. assert (K : in_range (r_and r x) (m p)) by (apply H; left; reflexivity). apply r_and_ok in K; [|apply Hr|exact Hx].
        split; [|apply K]. intros y t [E|Hi]; [injection E as <- <-; apply K|apply H; right; exact Hi].
      * intros (A & B) y t [E|Hi]; [injection E as <- <-; apply r_and_ok; [apply Hr|exact Hx|]; split; [apply A; left; reflexivity|exact B]|apply A; right; exact Hi].
    + unfold in_vec. split.
      * intros H. split; [intros y t Hi; apply H; right; exact Hi|apply H; left; reflexivity].
      * intros (A & B) y t [E'|Hi]; [injection E' as <- <-; exact B|exact (A _ _ Hi)].
Qed.
(** the intersection of two vectors *)
Lemma in_vec_cons : forall p r l m, in_vec ((p, r) :: l) m <-> in_range r (m p) /\ in_vec l m.
Proof.
  intros. unfold in_vec. split.
  - intros H. split; [apply H; left; reflexivity|intros ? ? Hi; apply H; right; exact Hi].
  - intros (A & B) ? ? [E|Hi]; [injection E as <- <-; exact A|exact (B _ _ Hi)].
Qed.
Lemma in_vec_nil : forall m, in_vec [] m. Proof. intros m ? ? []. Qed.
Lemma sound_cons : forall p r l, sound_vec ((p, r) :: l) -> sound_range r /\ sound_vec l.
Proof. intros p r l H. split; [apply (H p r); left; reflexivity|intros ? ? Hi; eapply H; right; exact Hi]. Qed.
Lemma v_and_ok : forall s o m, sound_vec s -> sound_vec o -> (in_vec (v_and s o) m <-> in_vec s m /\ in_vec o m).
Proof.
  induction s as [|[p r] s IH]; intros o m Hs Ho.
  - destruct o; cbn [v_and]; split; try tauto; intros H; split; auto using in_vec_nil.
  - destruct (sound_cons Hs) as (Hr & Hs'). induction o as [|[q t] o IHo].
    + cbn [v_and]. rewrite !in_vec_cons, (IH [] m Hs' Ho). tauto.
    + destruct (sound_cons Ho) as (Ht & Ho').
      change (v_and ((p, r) :: s) ((q, t) :: o)) with
        (if q <? p then (q, t) :: v_and ((p, r) :: s) o else if Nat.eqb q p then (p, r_and r t) :: v_and s ((q, t) :: o) else (p, r) :: v_and s ((q, t) :: o)).
      destruct (q <? p); [|destruct (Nat.eqb_spec q p) as [->|E]]; rewrite in_vec_cons.
      * rewrite (IHo Ho'), !in_vec_cons. tauto.
      * rewrite (IH _ m Hs' Ho), !in_vec_cons. rewrite r_and_ok by (apply Hr || apply Ht). tauto.
      * rewrite (IH _ m Hs' Ho), !in_vec_cons. tauto.
Qed.

(** * Comparison *)
Definition subset (o s : rvec) : Prop := forall m, in_vec o m -> in_vec s m.
Lemma outside : forall r, sound_range r -> ~ unbounded r -> exists v, ~ in_range r v.
Proof.
  intros [a b] (A & B) U. unfold unbounded, in_range in *. cbn [fst snd] in *. revert A B U. set (i := infinite). intros A B U.
  destruct (N.eq_dec a 0) as [->|E]; [|exists 0%N; lia]. exists (N.succ b). lia.
Qed.
Definition upd (m : nat -> N) (p : nat) (v : N) : nat -> N := fun q => if Nat.eqb q p then v else m q.
Lemma in_vec_upd : forall l m p v, (forall r, ~ In (p, r) l) -> in_vec l m -> in_vec l (upd m p v).
Proof. intros l m p v H K q r Hi. unfold upd. destruct (Nat.eqb_spec q p) as [->|E]; [destruct (H r Hi)|exact (K q r Hi)]. Qed.
Lemma inhabited : forall l, sorted_vec l -> sound_vec l -> exists m, in_vec l m.
Proof.
  induction l as [|[p r] l IH]; intros Hs Hv; [exists (fun _ => 0%N); apply in_vec_nil|].
  destruct (sorted_cons Hs) as (Sl & Hl). destruct (sound_cons Hv) as (Hr & Vl). destruct (IH Sl Vl) as (m & Hm).
  exists (upd m p (fst r)). apply in_vec_cons. split.
  - unfold upd. rewrite Nat.eqb_refl. destruct r as [a b]. destruct Hr as (A & B). unfold in_range. cbn [fst snd] in *. lia.
  - apply in_vec_upd; [|exact Hm]. intros r' Hi. specialize (Hl _ _ Hi). lia.
Qed.
Lemma subset_nil : forall o, subset o []. Proof. intros o m _. apply in_vec_nil. Qed.
Lemma subset_fresh : forall p r o s, sorted_vec o -> sound_vec o -> sound_range r -> ~ unbounded r -> (forall t, ~ In (p, t) o) -> ~ subset o ((p, r) :: s).
Proof.
  intros p r o s So Vo Hr U F H. destruct (inhabited So Vo) as (m & Hm). destruct (outside Hr U) as (v & Hv).
  assert (K : in_vec ((p, r) :: s) (upd m p v)) by (apply H, in_vec_upd; auto). apply in_vec_cons in K. destruct K as (K & _). unfold upd in K. rewrite Nat.eqb_refl in K. auto.
Qed.
Lemma subset_same : forall p r t s o, sorted_vec ((p, r) :: s) -> sorted_vec ((p, t) :: o) -> sound_vec ((p, r) :: s) -> sound_vec ((p, t) :: o) ->
  (subset ((p, t) :: o) ((p, r) :: s) <-> (forall v, in_range t v -> in_range r v) /\ subset o s).
Proof.
  intros p r t s o Ss So Vs Vo. destruct (sorted_cons Ss) as (Ss' & Hs). destruct (sorted_cons So) as (So' & Ho).
  destruct (sound_cons Vs) as (Hr & Vs'). destruct (sound_cons Vo) as (Ht & Vo').
  assert (Fo : forall x, ~ In (p, x) o) by (intros x Hi; specialize (Ho _ _ Hi); lia).
  assert (Fs : forall x, ~ In (p, x) s) by (intros x Hi; specialize (Hs _ _ Hi); lia). split.
  - intros H. split.
    + intros v Hv. destruct (inhabited So' Vo') as (m & Hm).
      assert (K : in_vec ((p, r) :: s) (upd m p v)) by (apply H, in_vec_cons; split; [unfold upd; rewrite Nat.eqb_refl; exact Hv|apply in_vec_upd; auto]).
      apply in_vec_cons in K. destruct K as (K & _). unfold upd in K. rewrite Nat.eqb_refl in K. exact K.
    + intros m Hm. assert (Hv : in_range t (fst t)) by (destruct t, Ht; unfold in_range; cbn [fst snd] in *; lia).
      assert (K : in_vec ((p, r) :: s) (upd m p (fst t))) by (apply H, in_vec_cons; split; [unfold upd; rewrite Nat.eqb_refl; exact Hv|apply in_vec_upd; auto]).
      apply in_vec_cons in K. destruct K as (_ & K). intros q x Hi. specialize (K q x Hi). unfold upd in K. destruct (Nat.eqb_spec q p) as [->|]; [destruct (Fs x Hi)|exact K].
  - intros (A & B) m Hm. apply in_vec_cons in Hm. destruct Hm as (M1 & M2). apply in_vec_cons. auto.
Qed.
Lemma subset_skip : forall q t o s, sorted_vec ((q, t) :: o) -> sound_vec ((q, t) :: o) -> (forall x, ~ In (q, x) s) -> (subset ((q, t) :: o) s <-> subset o s).
Proof.
  intros q t o s So Vo F. destruct (sorted_cons So) as (So' & Ho). destruct (sound_cons Vo) as (Ht & Vo'). split.
  - intros H m Hm. assert (Hv : in_range t (fst t)) by (destruct t, Ht; unfold in_range; cbn [fst snd] in *; lia).
    assert (K : in_vec s (upd m q (fst t))).
    { apply H, in_vec_cons. split; [unfold upd; rewrite Nat.eqb_refl; exact Hv|]. apply in_vec_upd; [|exact Hm]. intros x Hi. specialize (Ho _ _ Hi). lia. }
    intros p x Hi. specialize (K p x Hi). unfold upd in K. destruct (Nat.eqb_spec p q) as [->|]; [destruct (F x Hi)|exact K].
  - intros H m Hm. apply in_vec_cons in Hm. apply H, Hm.
Qed.
Lemma compact_cons : forall p r l, compact_vec ((p, r) :: l) -> ~ unbounded r /\ compact_vec l.
Proof. intros p r l H. split; [apply (H p r); left; reflexivity|intros ? ? Hi; eapply H; right; exact Hi]. Qed.

Lemma v_compare_ok : forall s o a b, sorted_vec s -> sorted_vec o -> compact_vec s -> compact_vec o -> sound_vec s -> sound_vec o ->
  (fst (v_compare s o a b) = true <-> a = true /\ subset o s) /\ (snd (v_compare s o a b) = true <-> b = true /\ subset s o).
Proof.
  induction s as [|[p r] s IH]; intros o a b Ss So Cs Co Vs Vo.
  - destruct o as [|[q t] o]; cbn [v_compare fst snd].
    + rewrite andb_true_r. split; (split; [intros E; split; [exact E|apply subset_nil]|intros H; apply H]).
    + rewrite andb_false_r. split; [split; [intros E; split; [exact E|apply subset_nil]|intros H; apply H]|]. split; [discriminate|]. intros (_ & H). exfalso.
      destruct (compact_cons Co) as (U & _). destruct (sound_cons Vo) as (Ht & _). exact (@subset_fresh q t [] o Ss Vs Ht U (fun x H => H) H).
  - destruct (sorted_cons Ss) as (Ss' & Hs). destruct (sound_cons Vs) as (Hr & Vs'). destruct (compact_cons Cs) as (Ur & Cs').
    revert a b. induction o as [|[q t] o IHo]; intros a b.
    + cbn [v_compare fst snd]. split.
      * split; [discriminate|]. intros (_ & H). exfalso. exact (@subset_fresh p r [] s So Vo Hr Ur (fun x H => H) H).
      * split; [intros E; split; [exact E|apply subset_nil]|intros H; apply H].
    + destruct (sorted_cons So) as (So' & Ho). destruct (sound_cons Vo) as (Ht & Vo'). destruct (compact_cons Co) as (Ut & Co').
      change (v_compare ((p, r) :: s) ((q, t) :: o) a b) with
        (if Nat.eqb p q then
           let c := r_compare r t in let a := a && fst c in let b := b && (b && snd c) in
           if negb a && negb b then (a, b) else v_compare s o a b
         else if p <? q then if negb b then (false, b) else v_compare s ((q, t) :: o) false b
         else if negb a then (a, false) else v_compare ((p, r) :: s) o a false).
      destruct (Nat.eqb_spec p q) as [<-|Ne].
      * destruct (r_compare_ok Hr Ht) as (R1 & R2). cbv zeta. rewrite (subset_same Ss So Vs Vo), (subset_same So Ss Vo Vs).
        destruct (negb (a && fst (r_compare r t)) && negb (b && (b && snd (r_compare r t)))) eqn:E.
        -- cbn [fst snd]. apply andb_prop in E. destruct E as (E1 & E2). apply negb_true_iff in E1, E2. rewrite E1, E2.
           destruct a, b; cbn [andb] in E1, E2; rewrite <- ?R1, <- ?R2, ?E1, ?E2; intuition discriminate.
        -- destruct (IH o (a && fst (r_compare r t)) (b && (b && snd (r_compare r t))) Ss' So' Cs' Co' Vs' Vo') as (I1 & I2).
           rewrite I1, I2, !andb_true_iff, R1, R2. tauto.
      * destruct (Nat.ltb_spec p q) as [Lt|Ge].
        -- assert (F : forall x, ~ In (p, x) ((q, t) :: o)) by (intros x [E|Hi]; [injection E as -> ->; congruence|specialize (Ho _ _ Hi); lia]).
           pose proof (@subset_fresh p r ((q, t) :: o) s So Vo Hr Ur F) as N. destruct b; cbn [negb].
           ++ destruct (IH ((q, t) :: o) false true Ss' So Cs' Co Vs' Vo) as (I1 & I2). rewrite I1, I2. split; [intuition discriminate|]. rewrite (@subset_skip _ _ _ _ Ss Vs F). tauto.
           ++ cbn [fst snd]. intuition discriminate.
        -- assert (F : forall x, ~ In (q, x) ((p, r) :: s)) by (intros x [E|Hi]; [injection E as -> ->; congruence|specialize (Hs _ _ Hi); lia]).
           pose proof (@subset_fresh q t ((p, r) :: s) o Ss Vs Ht Ut F) as N. destruct a; cbn [negb].
           ++ destruct (IHo So' Co' Vo' true false) as (I1 & I2). rewrite I1, I2. split; [|intuition discriminate]. rewrite (@subset_skip _ _ _ _ So Vo F). tauto.
           ++ cbn [fst snd]. intuition discriminate.
Qed.

(** * Order, restriction *)
Lemma v_less_irrefl : forall l, v_less l l = false.
Proof.
  intros l. unfold v_less. rewrite Nat.eqb_refl. cbn [negb]. induction l as [|[p [a b]] l IH]; [reflexivity|]. cbn [v_less_eqlen fst snd].
  rewrite Nat.eqb_refl, !N.eqb_refl. exact IH.
Qed.
Lemma v_less_trans : forall x y z, v_less x y = true -> v_less y z = true -> v_less x z = true.
Proof.
  intros x y z. unfold v_less.
  destruct (Nat.eqb_spec (length x) (length y)) as [E1|E1]; destruct (Nat.eqb_spec (length y) (length z)) as [E2|E2]; destruct (Nat.eqb_spec (length x) (length z)) as [E3|E3];
    cbn [negb]; rewrite ?Nat.ltb_lt; intros; try lia.
  clear E1 E2 E3. revert y z H H0. induction x as [|[p [a b]] x IH]; intros [|[q [c d]] y] [|[w [e f]] z]; cbn [v_less_eqlen fst snd]; try discriminate.
  destruct (Nat.eqb_spec p q); destruct (Nat.eqb_spec q w); destruct (Nat.eqb_spec p w); cbn [negb]; rewrite ?Nat.ltb_lt; intros; try lia.
  destruct (N.eqb_spec a c); destruct (N.eqb_spec c e); destruct (N.eqb_spec a e); cbn [negb] in *; rewrite ?N.ltb_lt in *; try lia.
  destruct (N.eqb_spec b d); destruct (N.eqb_spec d f); destruct (N.eqb_spec b f); cbn [negb] in *; rewrite ?N.ltb_lt in *; try lia. eauto.
Qed.
Lemma v_less_total : forall x y, v_less x y = false -> v_less y x = false -> x = y.
Proof.
  intros x y. unfold v_less. destruct (Nat.eqb_spec (length x) (length y)) as [E|E]; destruct (Nat.eqb_spec (length y) (length x)) as [E'|E']; cbn [negb]; rewrite ?Nat.ltb_ge; intros H1 H2; try lia.
  clear E'. revert y E H1 H2. induction x as [|[p [a b]] x IH]; intros [|[q [c d]] y] E; cbn [length] in E; try discriminate; [reflexivity|]. cbn [v_less_eqlen fst snd].
  rewrite (Nat.eqb_sym q p), (N.eqb_sym c a), (N.eqb_sym d b).
  destruct (Nat.eqb_spec p q) as [->|]; cbn [negb]; rewrite ?Nat.ltb_ge; [|intros; lia].
  destruct (N.eqb_spec a c) as [->|]; cbn [negb]; rewrite ?N.ltb_ge; [|intros; lia].
  destruct (N.eqb_spec b d) as [->|]; cbn [negb]; rewrite ?N.ltb_ge; [|intros; lia]. intros. f_equal. apply IH; auto.
Qed.

Lemma skip_to_spec : forall l p, sorted_vec l -> sorted_vec (skip_to l p) /\
  (forall q r, In (q, r) (skip_to l p) -> In (q, r) l) /\
  (forall q r, In (q, r) l -> p <= q -> ~ unbounded r -> In (q, r) (skip_to l p)) /\
  match skip_to l p with [] => True | (q, r) :: _ => p <= q /\ ~ unbounded r end.
Proof.
  induction l as [|[q r] l IH]; intros p Hs; [cbn; auto|]. destruct (sorted_cons Hs) as (Sl & Hl). cbn [skip_to]. destruct (Nat.ltb_spec q p) as [A|A]; cbn [orb].
  - destruct (IH p Sl) as (I1 & I2 & I3 & I4). split; [exact I1|]. split; [intros; right; auto|]. split; [|exact I4]. intros x t [E|Hi]; [injection E as <- <-; lia|apply I3; exact Hi].
  - destruct (unbound r) eqn:U.
    + apply unbound_spec in U. destruct (IH p Sl) as (I1 & I2 & I3 & I4). split; [exact I1|]. split; [intros; right; auto|]. split; [|exact I4].
      intros x t [E|Hi]; [injection E as <- <-; tauto|apply I3; exact Hi].
    + apply unbound_neg in U. split; [exact Hs|]. split; [auto|]. split; [auto|]. auto.
Qed.
Lemma restricts_ok : forall ws l, sorted_vec l -> StronglySorted le ws ->
  (restricts l ws = true <-> exists p r, In (p, r) l /\ In p ws /\ ~ unbounded r).
Proof.
  induction ws as [|p ws IH]; intros l Hs Hw; [cbn; split; [discriminate|intros (? & ? & _ & [] & _)]|].
  inversion Hw as [|x y Hw' Hp]; subst. rewrite Forall_forall in Hp. cbn [restricts].
  destruct (skip_to_spec p Hs) as (I1 & I2 & I3 & I4). destruct (skip_to l p) as [|[q r] l'].
  - split; [discriminate|]. intros (x & t & H1 & [<-|H2] & H3); [destruct (I3 _ _ H1); auto|]. destruct (I3 _ _ H1 (Hp _ H2) H3).
  - destruct I4 as (Lq & U). destruct (Nat.eqb_spec q p) as [->|Ne].
    + split; [|reflexivity]. intros _. exists p, r. split; [apply I2; left; reflexivity|]. split; [left; reflexivity|exact U].
    + rewrite (IH _ I1 Hw'). split.
      * intros (x & t & H1 & H2 & H3). exists x, t. split; [apply I2, H1|]. split; [right; exact H2|exact H3].
      * intros (x & t & H1 & [<-|H2] & H3).
        -- specialize (I3 _ _ H1 (le_n _) H3). destruct I3 as [E|Hi]; [injection E as -> ->; congruence|]. destruct (sorted_cons I1) as (_ & K). specialize (K _ _ Hi). lia.
        -- exists x, t. split; [apply I3; auto|]. auto.
Qed.
