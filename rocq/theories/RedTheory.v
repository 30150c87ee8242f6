(** Abstract nets (markings as functions, transitions given by their weights) and the
    arguments behind the structural reduction rules. *)
From Verif Require Import Base.
Set Implicit Arguments.

Definition mk := nat -> N.
Record atr := mkAtr { a_in : nat -> N; a_out : nat -> N; a_inh : nat -> option N }.
Record anet := mkAnet { an_init : mk; an_tr : nat -> option atr }.
Definition aen (t : atr) (m : mk) : Prop := forall p, (a_in t p <= m p)%N /\ forall w, a_inh t p = Some w -> (m p < w)%N.
Definition afire (t : atr) (m : mk) : mk := fun p => (m p - a_in t p + a_out t p)%N.
Definition ext (m m' : mk) : Prop := forall p, m p = m' p.

Inductive arun (T : nat -> option atr) : mk -> mk -> Prop :=
| ar_nil : forall m m', ext m m' -> arun T m m'
| ar_cons : forall m i t m1 m2, T i = Some t -> aen t m -> ext m1 (afire t m) -> arun T m1 m2 -> arun T m m2.
Definition areach (N : anet) (m : mk) : Prop := arun (an_tr N) (an_init N) m.

Definition sim (Q : nat -> bool) (N N' : anet) : Prop :=
  forall m, areach N m -> exists m', areach N' m' /\ forall p, Q p = true -> m p = m' p.
Definition same (Q : nat -> bool) (N N' : anet) : Prop := sim Q N N' /\ sim Q N' N.

Lemma ext_refl : forall m, ext m m.
Proof. intros m p. reflexivity. Qed.
Lemma ext_sym : forall m m', ext m m' -> ext m' m.
Proof. intros m m' H p. symmetry. apply H. Qed.
Lemma ext_trans : forall a b c, ext a b -> ext b c -> ext a c.
Proof. intros a b c H1 H2 p. rewrite H1. apply H2. Qed.
Lemma same_refl : forall Q N, same Q N N.
Proof. intros Q N. split; intros m H; exists m; auto. Qed.
Lemma same_sym : forall Q N N', same Q N N' -> same Q N' N.
Proof. intros Q N N' (A & B). split; auto. Qed.
Lemma sim_trans : forall Q A B C, sim Q A B -> sim Q B C -> sim Q A C.
Proof.
  intros Q A B C H1 H2 m Hm. destruct (H1 m Hm) as (m' & R & E). destruct (H2 m' R) as (m'' & R' & E').
  exists m''. split; [exact R'|]. intros p Hp. rewrite E by exact Hp. apply E'. exact Hp.
Qed.
Lemma same_trans : forall Q A B C, same Q A B -> same Q B C -> same Q A C.
Proof. intros Q A B C (H1 & H2) (H3 & H4). split; eapply sim_trans; eauto. Qed.

Lemma aen_ext : forall t m m', ext m m' -> aen t m -> aen t m'.
Proof. intros t m m' E H p. rewrite <- E. apply H. Qed.
Lemma afire_ext : forall t m m', ext m m' -> ext (afire t m) (afire t m').
Proof. intros t m m' E p. unfold afire. rewrite E. reflexivity. Qed.
Lemma arun_ext_l : forall T m m', arun T m m' -> forall m0, ext m0 m -> arun T m0 m'.
Proof.
  intros T m m' H. destruct H as [m m' E|m i t m1 m2 Ht Hen E H]; intros m0 E0; [apply ar_nil; eapply ext_trans; eauto|].
  eapply ar_cons; [exact Ht|eapply aen_ext; [apply ext_sym; exact E0|exact Hen]| |exact H].
  eapply ext_trans; [exact E|]. apply afire_ext. apply ext_sym. exact E0.
Qed.
Lemma arun_ext_r : forall T m m', arun T m m' -> forall m1, ext m' m1 -> arun T m m1.
Proof. intros T m m' H. induction H; intros; [apply ar_nil; eapply ext_trans; eauto|eapply ar_cons; eauto]. Qed.
Lemma arun_trans : forall T m m', arun T m m' -> forall m2, arun T m' m2 -> arun T m m2.
Proof. intros T m m' H. induction H; intros; [eapply arun_ext_l; eauto|eapply ar_cons; eauto]. Qed.
Lemma arun_one : forall T m i t m1, T i = Some t -> aen t m -> ext m1 (afire t m) -> arun T m m1.
Proof. intros. eapply ar_cons; eauto. apply ar_nil, ext_refl. Qed.
Lemma areach_init : forall N, areach N (an_init N).
Proof. intros N. apply ar_nil, ext_refl. Qed.
Lemma areach_run : forall N m m', areach N m -> arun (an_tr N) m m' -> areach N m'.
Proof. intros. eapply arun_trans; eauto. Qed.
Lemma areach_step : forall N m i t m1, areach N m -> an_tr N i = Some t -> aen t m -> ext m1 (afire t m) -> areach N m1.
Proof. intros. eapply areach_run; eauto. eapply arun_one; eauto. Qed.

(** induction over reachable markings *)
Lemma areach_ind : forall N (P : mk -> Prop),
  (forall m, ext m (an_init N) -> P m) ->
  (forall m i t m1, areach N m -> P m -> an_tr N i = Some t -> aen t m -> ext m1 (afire t m) -> P m1) ->
  forall m, areach N m -> P m.
Proof.
  intros N P H0 H1.
  assert (G : forall m0 m, arun (an_tr N) m0 m -> areach N m0 -> (forall m, ext m m0 -> P m) -> P m).
  { intros m0 m H. induction H as [m m' E|m i t m1 m2 Ht Hen E H IH]; intros R Hp; [apply Hp; apply ext_sym; exact E|].
    apply IH; [eapply areach_step; eauto|]. intros m' E'. eapply H1; [exact R|apply Hp; apply ext_refl|exact Ht|exact Hen|].
    eapply ext_trans; eauto. }
  intros m H. eapply G; [exact H|apply areach_init|exact H0].
Qed.

(** a simulation relation *)
Lemma sim_rel : forall Q N N' (R : mk -> mk -> Prop),
  (forall m, ext m (an_init N) -> exists m', areach N' m' /\ R m m') ->
  (forall m m' i t m1, areach N m -> areach N' m' -> R m m' -> an_tr N i = Some t -> aen t m -> ext m1 (afire t m) ->
     exists m1', arun (an_tr N') m' m1' /\ R m1 m1') ->
  (forall m m', R m m' -> forall p, Q p = true -> m p = m' p) -> sim Q N N'.
Proof.
  intros Q N N' R H0 H1 H2.
  assert (G : forall m, areach N m -> exists m', areach N' m' /\ R m m').
  { intros m H. revert m H. apply (@areach_ind N (fun m => exists m', areach N' m' /\ R m m')); [exact H0|].
    intros m i t m1 Hm (m' & Hm' & Hr) Ht Hen E. destruct (H1 m m' i t m1 Hm Hm' Hr Ht Hen E) as (m1' & A & B).
    exists m1'. split; [eapply areach_run; eauto|exact B]. }
  intros m Hm. destruct (G m Hm) as (m' & A & B). exists m'. split; [exact A|]. apply H2. exact B.
Qed.

(** ** Nets with the same steps in all markings reachable in the first *)
Definition step_of (T : nat -> option atr) (m m1 : mk) : Prop := exists i t, T i = Some t /\ aen t m /\ ext m1 (afire t m).
Lemma same_steps : forall Q N N', ext (an_init N) (an_init N') ->
  (forall m m1, areach N m -> step_of (an_tr N) m m1 -> arun (an_tr N') m m1) ->
  (forall m m1, areach N m -> step_of (an_tr N') m m1 -> arun (an_tr N) m m1) -> same Q N N'.
Proof.
  intros Q N N' E H1 H2. split.
  - apply sim_rel with (R := fun m m' => ext m m').
    + intros m Em. exists (an_init N'). split; [apply areach_init|eapply ext_trans; eauto].
    + intros m m' i t m1 Hm Hm' Em Ht Hen E1. exists m1. split; [|apply ext_refl].
      eapply arun_ext_l; [apply H1; [exact Hm|exists i, t; eauto]|apply ext_sym; exact Em].
    + intros m m' Em p _. apply Em.
  - apply sim_rel with (R := fun m m' => ext m m').
    + intros m Em. exists (an_init N). split; [apply areach_init|eapply ext_trans; [exact Em|apply ext_sym; exact E]].
    + intros m m' i t m1 Hm Hm' Em Ht Hen E1. exists m1. split; [|apply ext_refl].
      apply H2; [exact Hm'|]. exists i, t. split; [exact Ht|]. split; [eapply aen_ext; eauto|]. eapply ext_trans; [exact E1|apply afire_ext; exact Em].
    + intros m m' Em p _. apply Em.
Qed.
(** in particular nets with equal transitions *)
Definition aeq (t t' : atr) : Prop := (forall p, a_in t p = a_in t' p) /\ (forall p, a_out t p = a_out t' p) /\ (forall p, a_inh t p = a_inh t' p).
Lemma aeq_refl : forall t, aeq t t.
Proof. intros t. repeat split. Qed.
Lemma aeq_en : forall t t' m, aeq t t' -> aen t m -> aen t' m.
Proof. intros t t' m (A & _ & B) H p. rewrite <- A, <- B. apply H. Qed.
Lemma aeq_fire : forall t t' m, aeq t t' -> ext (afire t m) (afire t' m).
Proof. intros t t' m (A & B & _) p. unfold afire. rewrite A, B. reflexivity. Qed.

(** ** Removal of transitions whose effect is not needed *)
(** [m'] has at least the tokens of [m] in [U], and the same in [E] *)
Definition above (U E : nat -> Prop) (m m' : mk) : Prop := (forall p, U p -> (m p <= m' p)%N) /\ (forall p, E p -> m p = m' p).
(** enabledness depends on [U] and [E] only *)
Definition looks_at (U E : nat -> Prop) (t : atr) : Prop :=
  (forall p, a_in t p <> 0%N -> U p \/ E p) /\ (forall p w, a_inh t p = Some w -> E p).
Lemma above_en : forall U E t m m', looks_at U E t -> above U E m m' -> aen t m -> aen t m'.
Proof.
  intros U E t m m' (L1 & L2) (A & B) H p. destruct (H p) as (H1 & H2). split.
  - destruct (N.eq_dec (a_in t p) 0) as [Z|Z]; [rewrite Z; lia|]. destruct (L1 p Z) as [X|X]; [specialize (A p X); lia|rewrite <- (B p X); exact H1].
  - intros w Hw. rewrite <- (B p (L2 p w Hw)). apply H2. exact Hw.
Qed.
Lemma above_fire : forall U E t m m', above U E m m' -> aen t m -> aen t m' -> above U E (afire t m) (afire t m').
Proof.
  intros U E t m m' (A & B) H H'. unfold above, afire. split; intros p Hp; destruct (H p) as (H1 & _); destruct (H' p) as (H1' & _).
  - specialize (A p Hp). lia.
  - rewrite (B p Hp). reflexivity.
Qed.
Lemma above_run : forall U E T, (forall i t, T i = Some t -> looks_at U E t) ->
  forall m m1, arun T m m1 -> forall m', above U E m m' -> exists m1', arun T m' m1' /\ above U E m1 m1'.
Proof.
  intros U E T HL m m1 H. induction H as [m m1 X|m i t ma mb Ht Hen X H IH]; intros m' A.
  - exists m'. split; [apply ar_nil, ext_refl|]. destruct A as (A & B). split; intros p Hp; rewrite <- X; auto.
  - pose proof (above_en (HL i t Ht) A Hen) as Hen'. destruct (IH (afire t m')) as (m1' & R & A').
    + pose proof (above_fire A Hen Hen') as (F1 & F2). split; intros p Hp; rewrite X; auto.
    + exists m1'. split; [|exact A']. eapply ar_cons; eauto. apply ext_refl.
Qed.
Lemma above_trans : forall U E a b c, above U E a b -> above U E b c -> above U E a c.
Proof. intros U E a b c (A & B) (C & D). split; intros p Hp; [specialize (A p Hp); specialize (C p Hp); lia|rewrite B, D by exact Hp; reflexivity]. Qed.

Lemma drop_transitions : forall Q N N' (U E : nat -> Prop), ext (an_init N) (an_init N') ->
  (forall i t, an_tr N' i = Some t -> an_tr N i = Some t) ->
  (forall i t, an_tr N' i = Some t -> looks_at U E t) ->
  (forall p, Q p = true -> E p) ->
  (forall m i t, areach N m -> an_tr N i = Some t -> aen t m -> exists m1, arun (an_tr N') m m1 /\ above U E (afire t m) m1) ->
  same Q N N'.
Proof.
  intros Q N N' U E Ei Sub HL HQ Hm. split.
  - apply sim_rel with (R := fun m m' => above U E m m').
    + intros m Em. exists (an_init N'). split; [apply areach_init|]. split; intros p _; rewrite Em, Ei; [lia|reflexivity].
    + intros m m' i t m1 R R' A Ht Hen X. destruct (Hm m i t R Ht Hen) as (m2 & B & C).
      destruct (above_run HL B A) as (m3 & B' & C'). exists m3. split; [exact B'|].
      eapply above_trans; [|exact C']. destruct C as (C1 & C2). split; intros p Hp; rewrite X; auto.
    + intros m m' (_ & A) p Hp. apply A, HQ, Hp.
  - apply sim_rel with (R := fun m m' => ext m m').
    + intros m Em. exists (an_init N). split; [apply areach_init|]. eapply ext_trans; [exact Em|apply ext_sym; exact Ei].
    + intros m m' i t m1 R R' A Ht Hen X. exists m1. split; [|apply ext_refl]. eapply arun_one; [apply Sub; exact Ht|eapply aen_ext; eauto|].
      eapply ext_trans; [exact X|apply afire_ext; exact A].
    + intros m m' A p _. apply A.
Qed.
(** special case: the transitions removed are never enabled *)
Lemma drop_dead : forall Q N N', ext (an_init N) (an_init N') ->
  (forall i t, an_tr N' i = Some t -> an_tr N i = Some t) ->
  (forall m i t, areach N m -> an_tr N i = Some t -> aen t m -> an_tr N' i = Some t) -> same Q N N'.
Proof.
  intros Q N N' Ei Sub Hd. apply same_steps; [exact Ei| |].
  - intros m m1 R (i & t & Ht & Hen & X). eapply arun_one; eauto.
  - intros m m1 R (i & t & Ht & Hen & X). eapply arun_one; eauto.
Qed.

(** ** Removal of a place that never disables anything by itself *)
Definition without (p0 : nat) (t : atr) : atr :=
  mkAtr (fun p => if Nat.eqb p p0 then 0%N else a_in t p) (fun p => if Nat.eqb p p0 then 0%N else a_out t p)
        (fun p => if Nat.eqb p p0 then None else a_inh t p).
Definition except (p0 : nat) (m m' : mk) : Prop := forall p, p <> p0 -> m p = m' p.
Lemma drop_place : forall Q N N' p0, Q p0 = false -> except p0 (an_init N) (an_init N') ->
  (forall i t', an_tr N' i = Some t' -> exists t, an_tr N i = Some t /\ aeq (without p0 t) t') ->
  (forall i t, an_tr N i = Some t -> exists t', an_tr N' i = Some t' /\ aeq (without p0 t) t') ->
  (forall m i t, areach N m -> an_tr N i = Some t -> aen (without p0 t) m -> aen t m) ->
  same Q N N'.
Proof.
  intros Q N N' p0 HQ Ei H1 H2 Hen. split.
  - apply sim_rel with (R := except p0).
    + intros m Em. exists (an_init N'). split; [apply areach_init|]. intros p Hp. rewrite Em. apply Ei. exact Hp.
    + intros m m' i t m1 R R' A Ht He X. destruct (H2 i t Ht) as (t' & Ht' & (E1 & E2 & E3)). exists (afire t' m'). split.
      * eapply arun_one; [exact Ht'| |apply ext_refl]. intros p. rewrite <- E1, <- E3. cbn. destruct (Nat.eqb_spec p p0) as [->|Hp]; [split; [lia|discriminate]|].
        rewrite <- (A p Hp). apply He.
      * intros p Hp. rewrite X. unfold afire. rewrite <- E1, <- E2. cbn. destruct (Nat.eqb_spec p p0) as [->|_]; [contradiction|]. rewrite (A p Hp). reflexivity.
    + intros m m' A p Hp. apply A. intros ->. congruence.
  - apply sim_rel with (R := fun m' m => except p0 m m').
    + intros m Em. exists (an_init N). split; [apply areach_init|]. intros p Hp. rewrite Em. apply Ei. exact Hp.
    + intros m' m i t' m1' R' R A Ht' He X. destruct (H1 i t' Ht') as (t & Ht & (E1 & E2 & E3)). exists (afire t m).
      assert (W : aen (without p0 t) m).
      { intros p. cbn. destruct (Nat.eqb_spec p p0) as [->|Hp]; [split; [lia|discriminate]|].
        rewrite (A p Hp). specialize (He p). rewrite <- E1, <- E3 in He. cbn in He. destruct (Nat.eqb_spec p p0) as [->|_]; [contradiction|]. exact He. }
      split; [eapply arun_one; [exact Ht|eapply Hen; eauto|apply ext_refl]|].
      intros p Hp. rewrite X. unfold afire. rewrite <- E1, <- E2. cbn. destruct (Nat.eqb_spec p p0) as [->|_]; [contradiction|]. rewrite (A p Hp). reflexivity.
    + intros m' m A p Hp. symmetry. apply A. intros ->. congruence.
Qed.

(** ** Division of all weights at a place *)
Definition scaled (p0 : nat) (k : N) (t : atr) : atr :=
  mkAtr (fun p => if Nat.eqb p p0 then (a_in t p / k)%N else a_in t p) (fun p => if Nat.eqb p p0 then (a_out t p / k)%N else a_out t p)
        (fun p => if Nat.eqb p p0 then match a_inh t p with Some w => Some (w / k)%N | None => None end else a_inh t p).
Lemma scale_place : forall Q N N' p0 k, Q p0 = false -> (0 < k)%N -> except p0 (an_init N) (an_init N') -> an_init N' p0 = (an_init N p0 / k)%N ->
  (forall i t, an_tr N i = Some t -> (a_in t p0 mod k = 0 /\ a_out t p0 mod k = 0 /\ forall w, a_inh t p0 = Some w -> w mod k = 0)%N) ->
  (forall i t', an_tr N' i = Some t' -> exists t, an_tr N i = Some t /\ aeq (scaled p0 k t) t') ->
  (forall i t, an_tr N i = Some t -> exists t', an_tr N' i = Some t' /\ aeq (scaled p0 k t) t') ->
  same Q N N'.
Proof.
  intros Q N N' p0 k HQ Hk Ei Ei0 Hd H1 H2.
  assert (Hm : forall w, (w mod k = 0 -> exists j, w = k * j)%N) by (intros w Hw; exists (w / k)%N; rewrite (N.div_mod w k) at 1 by lia; rewrite Hw; lia).
  assert (Hdiv : forall j, (k * j / k = j)%N) by (intros j; rewrite N.mul_comm, N.div_mul by lia; reflexivity).
  set (R := fun m m' : mk => except p0 m m' /\ m' p0 = (m p0 / k)%N).
  assert (K : forall i t m m', an_tr N i = Some t -> R m m' -> (aen t m <-> aen (scaled p0 k t) m') /\ (aen t m -> R (afire t m) (afire (scaled p0 k t) m'))).
  { intros i t m m' Ht (A & B). destruct (Hd i t Ht) as (D1 & D2 & D3). destruct (Hm _ D1) as (ji & Ji). destruct (Hm _ D2) as (jo & Jo).
    assert (Le : forall j, (k * j <= m p0 <-> j <= m p0 / k)%N).
    { intros j. split; intros H; [apply N.div_le_lower_bound; lia|]. pose proof (N.mul_div_le (m p0) k ltac:(lia)). nia. }
    split.
    - split; intros H p; specialize (H p); cbn [a_in a_out a_inh scaled] in *; destruct (Nat.eqb_spec p p0) as [Ep|Hp]; [subst p| |subst p|].
      + rewrite B. destruct H as (X & Y). split; [rewrite Ji in *; rewrite Hdiv; apply Le; exact X|]. intros w Hw. destruct (a_inh t p0) as [w0|] eqn:Ew; [|discriminate]. injection Hw as <-.
        destruct (Hm _ (D3 _ eq_refl)) as (jw & Jw). specialize (Y _ eq_refl). rewrite Jw, Hdiv in *. assert (~ (jw <= m p0 / k)%N); [rewrite <- Le; lia|lia].
      + rewrite <- (A p Hp). exact H.
      + rewrite B in H. destruct H as (X & Y). split; [rewrite Ji in *; rewrite Hdiv in X; apply Le; exact X|]. intros w Hw. rewrite Hw in Y. specialize (Y _ eq_refl).
        destruct (Hm _ (D3 _ Hw)) as (jw & Jw). rewrite Jw, Hdiv in *. assert (~ (k * jw <= m p0)%N); [rewrite Le; lia|lia].
      + rewrite (A p Hp). exact H.
    - intros Hen. split.
      + intros p Hp. unfold afire. cbn. destruct (Nat.eqb_spec p p0) as [->|_]; [contradiction|]. rewrite (A p Hp). reflexivity.
      + unfold afire. cbn. rewrite Nat.eqb_refl, B, Ji, Jo, !Hdiv. destruct (Hen p0) as (X & _). rewrite Ji in X.
        apply N.div_unique with (r := (m p0 mod k)%N); [apply N.mod_lt; lia|]. pose proof (N.div_mod (m p0) k ltac:(lia)) as Q1. pose proof (proj1 (Le ji) X). nia. }
  assert (RE : forall m m1 m', R m m' -> ext m1 m -> R m1 m').
  { intros m m1 m' (A & B) X. split; [intros p Hp; rewrite X; apply A; exact Hp|rewrite X; exact B]. }
  split.
  - apply sim_rel with (R := R).
    + intros m Em. exists (an_init N'). split; [apply areach_init|]. eapply RE; [|exact Em]. split; assumption.
    + intros m m' i t m1 _ _ A Ht He X. destruct (K i t m m' Ht A) as (K1 & K2). destruct (H2 i t Ht) as (t' & Ht' & Eq). exists (afire (scaled p0 k t) m'). split.
      * eapply arun_one; [exact Ht'|eapply aeq_en; [exact Eq|apply K1; exact He]|apply aeq_fire; exact Eq].
      * eapply RE; [apply K2; exact He|exact X].
    + intros m m' (A & _) p Hp. apply A. intros ->. congruence.
  - apply sim_rel with (R := fun m' m => R m m').
    + intros m' Em. exists (an_init N). split; [apply areach_init|]. split; [intros p Hp; rewrite Em; apply Ei; exact Hp|rewrite Em; exact Ei0].
    + intros m' m i t' m1' _ _ A Ht' He X. destruct (H1 i t' Ht') as (t & Ht & (E1 & E2 & E3)). destruct (K i t m m' Ht A) as (K1 & K2).
      assert (He' : aen t m) by (apply K1; intros p; rewrite E1, E3; apply He).
      exists (afire t m). split; [eapply arun_one; [exact Ht|exact He'|apply ext_refl]|].
      destruct (K2 He') as (A1 & A2). assert (X' : forall p, m1' p = afire (scaled p0 k t) m' p) by (intros p; rewrite X; unfold afire; rewrite E1, E2; reflexivity).
      split; [intros p Hp; rewrite X'; apply A1; exact Hp|rewrite X'; exact A2].
    + intros m' m (A & _) p Hp. symmetry. apply A. intros ->. congruence.
Qed.
