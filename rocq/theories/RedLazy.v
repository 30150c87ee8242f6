(** The arguments on abstract nets for rules S and T: a consumer [c] of [p0] is replaced by its
    fusions with the producers of [p0]. *)
From Verif Require Import Base RedTheory.
Set Implicit Arguments.

(** firing [u], and then [c] [i] times; [r] tokens stay in [p0] *)
Definition joined (p0 : nat) (i r : N) (u c : atr) : atr :=
  mkAtr (fun q => if Nat.eqb q p0 then 0 else a_in u q + a_in c q)%N
        (fun q => if Nat.eqb q p0 then r else i * a_out c q)%N (a_inh c).

Section Lazy.
Variables (Q : nat -> bool) (NA NB : anet) (p0 ic : nat) (c : atr) (w : N).
Hypothesis Hw : (0 < w)%N.
Hypothesis Hinit : ext (an_init NA) (an_init NB).
Hypothesis HQ : Q p0 = false.
Hypothesis Hinh : forall i t, an_tr NA i = Some t -> a_inh t p0 = None.
Hypothesis Hc : an_tr NA ic = Some c.
Hypothesis Cin : a_in c p0 = w.
Hypothesis Cout : a_out c p0 = 0%N.
Hypothesis Hi : (an_init NA p0 < w)%N.
Hypothesis Hkeep : forall i t, i <> ic -> an_tr NA i = Some t -> exists t', an_tr NB i = Some t' /\ aeq t t'.
Hypothesis Uin : forall i u, an_tr NA i = Some u -> a_out u p0 <> 0%N -> a_in u p0 = 0%N.
Hypothesis Uout : forall i u, an_tr NA i = Some u -> a_out u p0 <> 0%N -> forall q, q <> p0 -> a_out u q = 0%N.
Hypothesis Uinh : forall i u, an_tr NA i = Some u -> a_out u p0 <> 0%N -> forall q, a_inh u q = None.
Hypothesis Upre : forall i u, an_tr NA i = Some u -> a_out u p0 <> 0%N -> forall q, a_in u q <> 0%N -> Q q = false /\ forall j t, an_tr NA j = Some t -> a_inh t q = None.
Arguments Hinh {i t} _.
Arguments Hkeep {i t} _ _.
Arguments Uin {i u} _ _.
Arguments Uout {i u} _ _ {q} _.
Arguments Uinh {i u} _ _ _.
Arguments Upre {i u} _ _ {q} _.

(** *** All producers put exactly what [c] takes: they are fired when needed *)
Section One.
Hypothesis Uw : forall i u, an_tr NA i = Some u -> a_out u p0 <> 0%N -> a_out u p0 = w.
Hypothesis Hnew : forall i u, an_tr NA i = Some u -> a_out u p0 <> 0%N -> exists j x, an_tr NB j = Some x /\ aeq (joined p0 1 0 u c) x.
Hypothesis Hback : forall j x, an_tr NB j = Some x -> (exists t, j <> ic /\ an_tr NA j = Some t /\ aeq t x) \/
  (exists i u, an_tr NA i = Some u /\ a_out u p0 <> 0%N /\ aeq (joined p0 1 0 u c) x).
Arguments Uw {i u} _ _.
Arguments Hnew {i u} _ _.
Arguments Hback {j x} _.

Definition waits (u : atr) : Prop := exists i, an_tr NA i = Some u /\ a_out u p0 <> 0%N.
Fixpoint owed (l : list atr) (q : nat) : N := match l with [] => 0%N | u :: l' => (a_in u q + owed l' q)%N end.
Lemma owed_app : forall l1 l2 q, owed (l1 ++ l2) q = (owed l1 q + owed l2 q)%N.
Proof. induction l1 as [|u l IH]; intros l2 q; cbn; [reflexivity|rewrite IH; lia]. Qed.
Lemma owed_soft : forall l, Forall waits l -> forall q, owed l q <> 0%N -> Q q = false /\ forall j t, an_tr NA j = Some t -> a_inh t q = None.
Proof.
  induction l as [|u l IH]; intros F q H; cbn in H; [lia|]. inversion F as [|? ? (i & A & B) F']; subst. destruct (N.eq_dec (a_in u q) 0) as [Z|Z]; [apply IH; [exact F'|lia]|exact (Upre A B Z)].
Qed.
Definition later (m m' : mk) (l : list atr) : Prop := Forall waits l /\ m p0 = (m' p0 + N.of_nat (length l) * w)%N /\ forall q, q <> p0 -> m' q = (m q + owed l q)%N.
(** the transitions that wait are fired *)
Lemma catch_up : forall l m m', Forall waits l -> (forall q, q <> p0 -> m' q = (m q + owed l q)%N) -> m p0 = (m' p0 + N.of_nat (length l) * w)%N -> arun (an_tr NB) m' m.
Proof.
  induction l as [|u l IH]; intros m m' F Hq Hp.
  - apply ar_nil. intros q. destruct (Nat.eq_dec q p0) as [->|Hne]; [cbn in Hp; lia|rewrite (Hq q Hne); cbn; lia].
  - inversion F as [|? ? (i & A & B) F']; subst. assert (Hne : i <> ic) by (intros ->; assert (u = c) by congruence; congruence).
    destruct (Hkeep Hne A) as (t' & Ht' & G). apply ar_cons with (i := i) (t := t') (m1 := afire u m'); [exact Ht'| |exact (aeq_fire m' G)|].
    + apply (aeq_en G). intros q. split; [|rewrite (Uinh A B q); discriminate]. destruct (Nat.eq_dec q p0) as [->|Hn]; [rewrite (Uin A B); lia|rewrite (Hq q Hn); cbn; lia].
    + apply IH; [exact F'| |].
      * intros q Hn. unfold afire. rewrite (Hq q Hn), (Uout A B Hn). cbn [owed]. lia.
      * unfold afire. rewrite (Uin A B), (Uw A B), Hp. cbn [length]. lia.
Qed.
Lemma enough : forall a x n, (x < w)%N -> (a <= x + N.of_nat n * w)%N -> exists r, r <= n /\ (a <= x + N.of_nat r * w)%N /\ (x + N.of_nat r * w < a + w)%N.
Proof.
  intros a x n Hx. induction n as [|n IH]; intros H; [exists 0; cbn in *; split; [lia|split; lia]|].
  destruct (N.le_gt_cases a (x + N.of_nat n * w)) as [L|L].
  - destruct (IH L) as (r & R1 & R2). exists r. split; [lia|exact R2].
  - exists (S n). split; [lia|]. split; [exact H|]. rewrite Nat2N.inj_succ, N.mul_succ_l in *. lia.
Qed.
Lemma joined_steps : forall i u m, an_tr NA i = Some u -> a_out u p0 = w -> a_out u p0 <> 0%N -> aen (joined p0 1 0 u c) m ->
  arun (an_tr NA) m (afire (joined p0 1 0 u c) m).
Proof.
  intros i u m A W B En. apply ar_cons with (i := i) (t := u) (m1 := afire u m); [exact A| |apply ext_refl|].
  - intros q. destruct (En q) as (E & _). cbn [joined a_in] in E. split; [|rewrite (Uinh A B q); discriminate]. destruct (Nat.eqb_spec q p0) as [Eqp|Hne]; [subst q; rewrite (Uin A B); lia|lia].
  - apply arun_one with (i := ic) (t := c); [exact Hc| |].
    + intros q. destruct (En q) as (E & E2). cbn [joined a_in a_inh] in E, E2. destruct (Nat.eqb_spec q p0) as [Eqp|Hne]; [subst q|].
      * unfold afire. rewrite (Hinh Hc), W, Cin. split; [lia|discriminate].
      * unfold afire. rewrite (Uout A B Hne). split; [lia|]. intros v Hv. specialize (E2 v Hv). lia.
    + intros q. unfold afire. cbn [joined a_in a_out]. destruct (Nat.eqb_spec q p0) as [Eqp|Hne]; [subst q; rewrite (Uin A B), W, Cin, Cout; lia|]. rewrite (Uout A B Hne). destruct (En q) as (E & _). cbn [joined a_in] in E. destruct (Nat.eqb_spec q p0); [contradiction|]. lia.
Qed.
Theorem lazy_all : same Q NA NB.
Proof.
  split.
  - apply sim_rel with (R := fun m m' => exists l, later m m' l /\ (m' p0 < w)%N).
    + intros m Em. exists (an_init NB). split; [apply areach_init|]. exists []. rewrite <- Hinit. split; [|exact Hi]. split; [constructor|]. rewrite Em, <- Hinit. split; [cbn; lia|]. intros q _. rewrite Em, <- Hinit. cbn. lia.
    + intros m m' i t m1 _ _ (l & (F & Mp & Mq) & Lt) Ht En X.
      destruct (N.eq_dec (a_out t p0) 0) as [Z|Z].
      * destruct (Nat.eq_dec i ic) as [->|Hne].
        -- rewrite Hc in Ht. injection Ht as <-. destruct l as [|u l].
           { exfalso. pose proof (proj1 (En p0)) as E. rewrite Cin, Mp in E. cbn in E. lia. }
           inversion F as [|? ? (iu & A & B) F']; subst. destruct (Hnew A B) as (j & x & Hx & G). exists (afire (joined p0 1 0 u c) m'). split.
           ++ apply arun_one with (i := j) (t := x); [exact Hx| |exact (aeq_fire m' G)]. apply (aeq_en G). intros q. destruct (En q) as (E1 & E2). cbn [joined a_in a_inh]. destruct (Nat.eqb_spec q p0) as [Eqp|Hq]; [subst q|].
              ** rewrite (Hinh Hc). split; [lia|discriminate].
              ** rewrite (Mq q Hq). cbn [owed]. split; [lia|]. intros v Hv. destruct (N.eq_dec (owed (u :: l) q) 0) as [Y|Y]; [cbn [owed] in Y; rewrite Y; specialize (E2 v Hv); lia|].
                 destruct (owed_soft F q Y) as (_ & K). specialize (K _ _ Hc). congruence.
           ++ exists l. unfold afire at 2. cbn [joined a_in a_out]. rewrite Nat.eqb_refl. split; [|lia]. split; [exact F'|]. rewrite X. unfold afire. cbn [joined a_in a_out]. rewrite Nat.eqb_refl, Cin, Cout, Mp. cbn [length]. split; [lia|].
              intros q Hq. rewrite X. unfold afire. destruct (Nat.eqb_spec q p0); [contradiction|]. rewrite (Mq q Hq). cbn [owed]. pose proof (proj1 (En q)). lia.
        -- destruct (Hkeep Hne Ht) as (t' & Ht' & G).
           destruct (@enough (a_in t p0) (m' p0) (length l) Lt) as (r & R1 & R2 & R3); [pose proof (proj1 (En p0)); lia|].
           set (l1 := firstn r l). set (l2 := skipn r l). assert (El : l = l1 ++ l2) by (symmetry; apply firstn_skipn).
           assert (L1 : length l1 = r) by (apply firstn_length_le; exact R1). assert (Fl : Forall waits l1 /\ Forall waits l2) by (apply Forall_app; rewrite <- El; exact F). destruct Fl as (F1 & F2).
           set (mm := fun q => if Nat.eqb q p0 then (m' p0 + N.of_nat r * w)%N else (m q + owed l2 q)%N).
           assert (C1 : arun (an_tr NB) m' mm).
           { apply catch_up with (l := l1); [exact F1| |].
             - intros q Hq. unfold mm. destruct (Nat.eqb_spec q p0); [contradiction|]. rewrite (Mq q Hq), El, owed_app. lia.
             - unfold mm. rewrite Nat.eqb_refl, L1. reflexivity. }
           exists (afire t mm). split.
           ++ eapply arun_trans; [exact C1|]. apply arun_one with (i := i) (t := t'); [exact Ht'| |exact (aeq_fire mm G)]. apply (aeq_en G). intros q. destruct (En q) as (E1 & E2). unfold mm. destruct (Nat.eqb_spec q p0) as [Eqp|Hq]; [subst q|].
              ** rewrite (Hinh Ht). split; [exact R2|discriminate].
              ** split; [lia|]. intros v Hv. destruct (N.eq_dec (owed l2 q) 0) as [Y|Y]; [rewrite Y; specialize (E2 v Hv); lia|]. destruct (owed_soft F2 q Y) as (_ & K). specialize (K _ _ Ht). congruence.
           ++ exists l2. unfold afire at 2. unfold mm at 2. rewrite Nat.eqb_refl, Z. split; [|lia]. split; [exact F2|]. rewrite X. unfold afire, mm. rewrite Nat.eqb_refl, Z. split.
              ** rewrite Mp, El, app_length, L1, Nat2N.inj_add, N.mul_add_distr_r. revert R2. generalize (N.of_nat r * w)%N (N.of_nat (length l2) * w)%N. intros; lia.
              ** intros q Hq. rewrite X. unfold afire. destruct (Nat.eqb_spec q p0); [contradiction|]. pose proof (proj1 (En q)). lia.
      * exists m'. split; [apply ar_nil, ext_refl|]. exists (t :: l). split; [|exact Lt]. split; [constructor; [exists i; split; assumption|exact F]|]. rewrite X. unfold afire. rewrite (Uin Ht Z), (Uw Ht Z), Mp. cbn [length]. split; [lia|].
        intros q Hq. rewrite X. unfold afire. rewrite (Uout Ht Z Hq), (Mq q Hq). cbn [owed]. pose proof (proj1 (En q)). lia.
    + intros m m' (l & (F & Mp & Mq) & _) q Hq. assert (Hne : q <> p0) by (intros ->; congruence). rewrite (Mq q Hne). destruct (N.eq_dec (owed l q) 0) as [Y|Y]; [lia|]. destruct (owed_soft F q Y). congruence.
  - apply sim_rel with (R := fun m m' => ext m m').
    + intros m Em. exists (an_init NA). split; [apply areach_init|]. eapply ext_trans; [exact Em|apply ext_sym; exact Hinit].
    + intros m m' j x m1 _ _ E Hx En X. exists (afire x m'). split; [|eapply ext_trans; [exact X|apply afire_ext; exact E]]. pose proof (aen_ext E En) as En'.
      destruct (Hback Hx) as [(t & _ & Ht & G)|(i & u & A & B & G)].
      * apply arun_one with (i := j) (t := t); [exact Ht| |apply ext_sym; exact (aeq_fire m' G)]. destruct G as (G1 & G2 & G3). intros q. rewrite G1, G3. apply En'.
      * eapply arun_ext_r; [|exact (aeq_fire m' G)]. apply joined_steps with (i := i); [exact A|apply (Uw A B)|exact B|]. destruct G as (G1 & G2 & G3). intros q. rewrite G1, G3. apply En'.
    + intros m m' E q _. apply E.
Qed.
End One.

(** *** [c] is the only consumer and only empties [p0]: it is fired as soon as possible *)
Section Many.
Hypothesis Hothers : forall i t, an_tr NA i = Some t -> i <> ic -> a_in t p0 = 0%N.
Hypothesis Cpre : forall q, q <> p0 -> a_in c q = 0%N.
Hypothesis Cinh : forall q, a_inh c q = None.
Hypothesis Cpost : forall q, a_out c q <> 0%N -> Q q = false /\ forall j t, an_tr NA j = Some t -> a_inh t q = None.
Hypothesis Uk : forall i u, an_tr NA i = Some u -> a_out u p0 <> 0%N -> exists k, (0 < k)%N /\ a_out u p0 = (k * w)%N.
Hypothesis Hnew : forall i u k, an_tr NA i = Some u -> a_out u p0 = (k * w)%N -> (0 < k)%N -> exists j x, an_tr NB j = Some x /\ aeq (joined p0 k 0 u c) x.
Hypothesis Hback : forall j x, an_tr NB j = Some x -> (exists t, j <> ic /\ an_tr NA j = Some t /\ aeq t x) \/
  (exists i u k n, an_tr NA i = Some u /\ a_out u p0 = (k * w)%N /\ (0 < n)%N /\ (n <= k)%N /\ aeq (joined p0 n ((k - n) * w) u c) x).
Arguments Hothers {i t} _ _.
Arguments Cpre {q} _.
Arguments Cpost {q} _.
Arguments Uk {i u} _ _.
Arguments Hnew {i u k} _ _ _.
Arguments Hback {j x} _.

(** [c] fired [n] times *)
Lemma empties : forall n m, (N.of_nat n * w <= m p0)%N -> arun (an_tr NA) m (fun q => if Nat.eqb q p0 then (m p0 - N.of_nat n * w)%N else (m q + N.of_nat n * a_out c q)%N).
Proof.
  induction n as [|n IH]; intros m H.
  - apply ar_nil. intros q. destruct (Nat.eqb_spec q p0) as [->|_]; cbn; lia.
  - rewrite Nat2N.inj_succ, N.mul_succ_l in H. eapply ar_cons with (i := ic) (t := c) (m1 := afire c m); [exact Hc| |apply ext_refl|].
    + intros q. rewrite Cinh. split; [|discriminate]. destruct (Nat.eq_dec q p0) as [->|Hne]; [rewrite Cin; lia|rewrite (Cpre Hne); lia].
    + eapply arun_ext_r; [apply IH; unfold afire; rewrite Cin, Cout; lia|]. intros q. cbn beta. unfold afire. destruct (Nat.eqb_spec q p0) as [Eqp|Hne]; [subst q; rewrite Cin, Cout, Nat2N.inj_succ, N.mul_succ_l; lia|]. rewrite (Cpre Hne), Nat2N.inj_succ, N.mul_succ_l. lia.
Qed.
Theorem eager_all : same Q NA NB.
Proof.
  split.
  - apply sim_rel with (R := fun m m' => exists j, m p0 = (m' p0 + j * w)%N /\ (forall q, q <> p0 -> m' q = (m q + j * a_out c q)%N) /\ (m' p0 < w)%N).
    + intros m Em. exists (an_init NB). split; [apply areach_init|]. exists 0%N. rewrite Em, <- Hinit. split; [lia|]. split; [|exact Hi]. intros q _. rewrite Em, <- Hinit. lia.
    + intros m m' i t m1 _ _ (j & Mp & Mq & Lt) Ht En X.
      destruct (Nat.eq_dec i ic) as [->|Hne].
      * rewrite Hc in Ht. injection Ht as <-. assert (Hj : j <> 0%N) by (intros ->; pose proof (proj1 (En p0)) as E; rewrite Cin, Mp in E; lia).
        assert (Ej : exists j', j = N.succ j') by (exists (N.pred j); lia). destruct Ej as (j' & ->).
        exists m'. split; [apply ar_nil, ext_refl|]. exists j'. split; [|split; [|exact Lt]].
        -- rewrite X. unfold afire. rewrite Cin, Cout, Mp, N.mul_succ_l. lia.
        -- intros q Hq. rewrite X. unfold afire. rewrite (Cpre Hq), (Mq q Hq), N.mul_succ_l. lia.
      * assert (En' : forall q, (a_in t q <= m' q)%N /\ forall v, a_inh t q = Some v -> (m' q < v)%N).
        { intros q. destruct (En q) as (E1 & E2). destruct (Nat.eq_dec q p0) as [->|Hq]; [rewrite (Hothers Ht Hne), (Hinh Ht); split; [lia|discriminate]|]. rewrite (Mq q Hq). split; [generalize (j * a_out c q)%N; intros; lia|].
          intros v Hv. destruct (N.eq_dec (a_out c q) 0) as [Y|Y]; [rewrite Y; specialize (E2 v Hv); lia|]. destruct (Cpost Y) as (_ & K). specialize (K _ _ Ht). congruence. }
        destruct (N.eq_dec (a_out t p0) 0) as [Z|Z].
        -- destruct (Hkeep Hne Ht) as (t' & Ht' & G). exists (afire t m'). split.
           ++ apply arun_one with (i := i) (t := t'); [exact Ht'|apply (aeq_en G); exact En'|exact (aeq_fire m' G)].
           ++ exists j. split; [|split].
              ** rewrite X. unfold afire. rewrite (Hothers Ht Hne), Z, Mp. lia.
              ** intros q Hq. rewrite X. unfold afire. rewrite (Mq q Hq). pose proof (proj1 (En q)). generalize (j * a_out c q)%N. intros; lia.
              ** unfold afire. rewrite (Hothers Ht Hne), Z. lia.
        -- destruct (Uk Ht Z) as (k & Hk & Ek). destruct (Hnew Ht Ek Hk) as (jx & x & Hx & G). exists (afire (joined p0 k 0 t c) m'). split.
           ++ apply arun_one with (i := jx) (t := x); [exact Hx| |exact (aeq_fire m' G)]. apply (aeq_en G). intros q. cbn [joined a_in a_inh]. rewrite Cinh. split; [|discriminate]. destruct (Nat.eqb_spec q p0) as [Eqp|Hq]; [subst q; lia|]. rewrite (Cpre Hq), N.add_0_r. apply En'.
           ++ exists (j + k)%N. split; [|split].
              ** rewrite X. unfold afire. cbn [joined a_in a_out]. rewrite Nat.eqb_refl, (Uin Ht Z), Ek, Mp. lia.
              ** intros q Hq. rewrite X. unfold afire. cbn [joined a_in a_out]. destruct (Nat.eqb_spec q p0); [contradiction|]. rewrite (Cpre Hq), (Uout Ht Z Hq), (Mq q Hq). pose proof (proj1 (En q)). rewrite N.mul_add_distr_r. generalize (j * a_out c q)%N (k * a_out c q)%N. intros; lia.
              ** unfold afire. cbn [joined a_in a_out]. rewrite Nat.eqb_refl. lia.
    + intros m m' (j & Mp & Mq & _) q Hq. assert (Hne : q <> p0) by (intros ->; congruence). rewrite (Mq q Hne). destruct (N.eq_dec (a_out c q) 0) as [Y|Y]; [rewrite Y; lia|]. destruct (Cpost Y). congruence.
  - apply sim_rel with (R := fun m m' => ext m m').
    + intros m Em. exists (an_init NA). split; [apply areach_init|]. eapply ext_trans; [exact Em|apply ext_sym; exact Hinit].
    + intros m m' j x m1 _ _ E Hx En X. exists (afire x m'). split; [|eapply ext_trans; [exact X|apply afire_ext; exact E]]. pose proof (aen_ext E En) as En'.
      destruct (Hback Hx) as [(t & _ & Ht & G)|(i & u & k & n & A & B & Hn & Hk & G)].
      * apply arun_one with (i := j) (t := t); [exact Ht| |apply ext_sym; exact (aeq_fire m' G)]. destruct G as (G1 & G2 & G3). intros q. rewrite G1, G3. apply En'.
      * assert (Z : a_out u p0 <> 0%N) by (rewrite B; nia). eapply arun_ext_r; [|exact (aeq_fire m' G)]. assert (En2 : aen (joined p0 n ((k - n) * w) u c) m') by (destruct G as (G1 & G2 & G3); intros q; rewrite G1, G3; apply En').
        apply ar_cons with (i := i) (t := u) (m1 := afire u m'); [exact A| |apply ext_refl|].
        -- intros q. destruct (En2 q) as (E1 & _). cbn [joined a_in] in E1. rewrite (Uinh A Z q). split; [|discriminate]. destruct (Nat.eqb_spec q p0) as [Eqp|Hq]; [subst q; rewrite (Uin A Z); lia|rewrite (Cpre Hq) in E1; lia].
        -- assert (Le : (N.of_nat (N.to_nat n) * w <= afire u m' p0)%N) by (rewrite N2Nat.id; unfold afire; rewrite (Uin A Z), B; nia).
           eapply arun_ext_r; [exact (@empties (N.to_nat n) _ Le)|]. intros q. cbn beta. rewrite N2Nat.id. unfold afire. cbn [joined a_in a_out]. destruct (Nat.eqb_spec q p0) as [Eqp|Hq]; [subst q|].
           ++ rewrite (Uin A Z), B, N.mul_sub_distr_r. assert (n * w <= k * w)%N by nia. revert H. generalize (n * w)%N (k * w)%N. intros; lia.
           ++ rewrite (Uout A Z Hq), (Cpre Hq). lia.
    + intros m m' E q _. apply E.
Qed.
End Many.
End Lazy.

(** The producers of a place without consumers may go: what they do can be left out, or be done by
    a transition that stays. *)
Lemma drop_producers : forall Q NA NB p0, ext (an_init NA) (an_init NB) -> Q p0 = false ->
  (forall i t, an_tr NA i = Some t -> a_in t p0 = 0%N /\ a_inh t p0 = None) ->
  (forall i t, an_tr NB i = Some t -> an_tr NA i = Some t) ->
  (forall i t, an_tr NA i = Some t -> an_tr NB i = Some t \/
     ((forall q, q <> p0 -> a_out t q = 0%N) /\ forall q, a_in t q <> 0%N -> Q q = false /\ forall j s, an_tr NA j = Some s -> a_inh s q = None) \/
     exists j x, an_tr NB j = Some x /\ (forall q, a_in x q = a_in t q) /\ (forall q, a_inh x q = a_inh t q) /\ (forall q, q <> p0 -> (a_out t q <= a_out x q)%N) /\
       forall q, q <> p0 -> a_out t q <> a_out x q -> Q q = false /\ forall j s, an_tr NA j = Some s -> a_inh s q = None) ->
  same Q NA NB.
Proof.
  intros Q NA NB p0 Ei HQ H0 Sub Hd.
  apply drop_transitions with (U := fun q => q <> p0) (E := fun q => q <> p0 /\ (Q q = true \/ exists j s v, an_tr NA j = Some s /\ a_inh s q = Some v)).
  - exact Ei.
  - exact Sub.
  - intros i t Ht. apply Sub in Ht. destruct (H0 _ _ Ht) as (Z & I). split; [intros q Hq; left; congruence|]. intros q v Hv. split; [congruence|]. right. exists i, t, v. split; assumption.
  - intros q Hq. split; [congruence|left; exact Hq].
  - intros m i t _ Ht En. destruct (Hd _ _ Ht) as [A|[(A & B)|(j & x & Hx & A1 & A2 & A3 & A4)]].
    + exists (afire t m). split; [apply arun_one with (i := i) (t := t); [exact A|exact En|apply ext_refl]|]. split; intros; [lia|reflexivity].
    + exists m. split; [apply ar_nil, ext_refl|]. split; intros q Hq; unfold afire.
      * rewrite (A q Hq). lia.
      * destruct Hq as (Hq & Hs). rewrite (A q Hq). destruct (N.eq_dec (a_in t q) 0) as [Z|Z]; [lia|]. destruct (B q Z) as (B1 & B2). destruct Hs as [Hs|(j & s & v & Hs & Hv)]; [congruence|]. specialize (B2 _ _ Hs). congruence.
    + exists (afire x m). split; [apply arun_one with (i := j) (t := x); [exact Hx| |apply ext_refl]|].
      * intros q. rewrite A1, A2. apply En.
      * split; intros q Hq; unfold afire; rewrite A1; [specialize (A3 q Hq); lia|]. destruct Hq as (Hq & Hs). destruct (N.eq_dec (a_out t q) (a_out x q)) as [E|E]; [rewrite E; reflexivity|].
        destruct (A4 q Hq E) as (B1 & B2). destruct Hs as [Hs|(j' & s & v & Hs & Hv)]; [congruence|]. specialize (B2 _ _ Hs). congruence.
Qed.
