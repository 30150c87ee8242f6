(** Agglomeration arguments on abstract nets. *)
From Verif Require Import Base RedTheory.
Set Implicit Arguments.

(** firing a transition several times *)
Lemma fire_many : forall T i t (k : nat) m, T i = Some t -> (forall p w, a_inh t p = Some w -> False) ->
  (forall p, a_in t p = 0%N \/ a_out t p = 0%N) -> (forall p, N.of_nat k * a_in t p <= m p)%N ->
  arun T m (fun p => m p - N.of_nat k * a_in t p + N.of_nat k * a_out t p)%N.
Proof.
  intros T i t k. induction k as [|k IH]; intros m Ht Hi Hd He.
  - apply ar_nil. intros p. lia.
  - rewrite Nat2N.inj_succ in *. apply ar_cons with (i := i) (t := t) (m1 := afire t m); [exact Ht| |apply ext_refl|].
    + intros p. split; [specialize (He p); nia|intros w Hw; destruct (Hi p w Hw)].
    + eapply arun_ext_r; [apply IH; auto|].
      * intros p. unfold afire. specialize (He p). destruct (Hd p) as [Z|Z]; nia.
      * intros p. cbn beta. unfold afire. specialize (He p). destruct (Hd p) as [Z|Z]; rewrite Z in *; nia.
Qed.
Lemma fire_many_N : forall T i t (k : N) m, T i = Some t -> (forall p w, a_inh t p = Some w -> False) ->
  (forall p, a_in t p = 0%N \/ a_out t p = 0%N) -> (forall p, k * a_in t p <= m p)%N ->
  arun T m (fun p => m p - k * a_in t p + k * a_out t p)%N.
Proof. intros T i t k m Ht Hi Hd He. pose proof (@fire_many T i t (N.to_nat k) m Ht Hi Hd) as H. rewrite N2Nat.id in H. apply H. exact He. Qed.

(** ** Initial firings (rule Q) *)
Lemma fire_initially : forall Q N N' i0 t0 k, an_tr N i0 = Some t0 -> (forall p w, a_inh t0 p = Some w -> False) ->
  (forall p, a_in t0 p = 0%N \/ a_out t0 p = 0%N) ->
  (forall p, a_in t0 p <> 0%N -> Q p = false /\ forall i t, an_tr N i = Some t -> (i <> i0 -> a_in t p = 0%N) /\ a_inh t p = None) ->
  (forall p, a_out t0 p <> 0%N -> Q p = false /\ forall i t, an_tr N i = Some t -> a_inh t p = None) ->
  (forall p, k * a_in t0 p <= an_init N p)%N ->
  (forall p, an_init N' p = an_init N p - k * a_in t0 p + k * a_out t0 p)%N ->
  (forall i, an_tr N' i = an_tr N i) -> same Q N N'.
Proof.
  intros Q N N' i0 t0 k Ht0 Hi Hd Hin Hout Hk Ei ET.
  assert (Far : forall p, Q p = true -> a_in t0 p = 0%N /\ a_out t0 p = 0%N).
  { intros p Hp. destruct (N.eq_dec (a_in t0 p) 0) as [Z|Z]; [|destruct (Hin p Z); congruence]. destruct (N.eq_dec (a_out t0 p) 0) as [Z'|Z']; [auto|destruct (Hout p Z'); congruence]. }
  split.
  - apply sim_rel with (R := fun m m' => exists j, forall p, (m' p + j * a_in t0 p = m p + j * a_out t0 p)%N).
    + intros m Em. exists (an_init N'). split; [apply areach_init|]. exists k. intros p. rewrite Em, Ei. specialize (Hk p). lia.
    + intros m m' i t m1 _ _ (j & A) Ht En X. destruct (Nat.eq_dec i i0) as [->|Hne].
      * rewrite Ht0 in Ht. injection Ht as <-. destruct (N.eq_dec j 0) as [->|Hj].
        -- exists m1. split; [|exists 0%N; intros; lia]. apply arun_one with (i := i0) (t := t0); [rewrite ET; exact Ht0| |].
           ++ eapply aen_ext; [|exact En]. intros p. specialize (A p). lia.
           ++ eapply ext_trans; [exact X|]. apply afire_ext. intros p. specialize (A p). lia.
        -- exists m'. split; [apply ar_nil, ext_refl|]. exists (j - 1)%N. intros p. rewrite X. unfold afire. specialize (A p). destruct (En p) as (En1 & _). nia.
      * assert (En' : aen t m').
        { intros p. destruct (En p) as (E1 & E2). specialize (A p). split.
          - destruct (N.eq_dec (a_in t0 p) 0) as [Z|Z]; [rewrite Z in A; nia|]. destruct (Hin p Z) as (_ & K). destruct (K i t Ht) as (K1 & _). rewrite (K1 Hne). lia.
          - intros w Hw. destruct (N.eq_dec (a_in t0 p) 0) as [Z|Z]; [|destruct (Hin p Z) as (_ & K); destruct (K i t Ht); congruence].
            destruct (N.eq_dec (a_out t0 p) 0) as [Z'|Z']; [|destruct (Hout p Z') as (_ & K); specialize (K i t Ht); congruence].
            rewrite Z, Z' in A. specialize (E2 w Hw). lia. }
        exists (afire t m'). split; [apply arun_one with (i := i) (t := t); [rewrite ET; exact Ht|exact En'|apply ext_refl]|].
        exists j. intros p. rewrite X. unfold afire. specialize (A p). destruct (En p) as (E1 & _). destruct (En' p) as (E1' & _). lia.
    + intros m m' (j & A) p Hp. specialize (A p). destruct (Far p Hp) as (Z & Z'). rewrite Z, Z' in A. lia.
  - apply sim_rel with (R := fun m' m => ext m' m).
    + intros m' Em. exists (an_init N'). split; [|exact Em]. unfold areach. eapply arun_ext_r; [apply fire_many_N with (i := i0) (t := t0) (k := k); auto|]. intros p. rewrite Ei. reflexivity.
    + intros m' m i t m1 _ _ A Ht En X. exists m1. split; [|apply ext_refl]. apply arun_one with (i := i) (t := t); [rewrite <- ET; exact Ht|eapply aen_ext; eauto|]. eapply ext_trans; [exact X|apply afire_ext; exact A].
    + intros m' m A p _. apply A.
Qed.

(** ** Post-agglomeration (rule A) *)
(** [t0] empties [p0] by [w]; every other transition that produces [p0] fires [t0] at once. *)
Definition merged (p0 : nat) (w : N) (t0 t : atr) : atr :=
  mkAtr (a_in t) (fun q => if Nat.eqb q p0 then 0%N else (a_out t q + (a_out t p0 / w) * a_out t0 q)%N) (a_inh t).
Lemma post_agglomerate : forall Q N N' i0 t0 p0 w, (0 < w)%N -> an_tr N i0 = Some t0 -> (forall p v, a_inh t0 p = Some v -> False) ->
  (forall p, a_in t0 p = if Nat.eqb p p0 then w else 0%N) -> a_out t0 p0 = 0%N ->
  Q p0 = false ->
  (forall i t, an_tr N i = Some t -> a_inh t p0 = None /\ (a_out t p0 mod w = 0)%N /\ (i <> i0 -> a_in t p0 = 0%N)) ->
  (forall p, a_out t0 p <> 0%N -> Q p = false /\ forall i t, an_tr N i = Some t -> a_inh t p = None) ->
  (forall q, q <> p0 -> an_init N' q = an_init N q + (an_init N p0 / w) * a_out t0 q)%N ->
  an_tr N' i0 = None ->
  (forall i t', an_tr N' i = Some t' -> exists t, an_tr N i = Some t /\ aeq (merged p0 w t0 t) t') ->
  (forall i t, an_tr N i = Some t -> i <> i0 -> exists t', an_tr N' i = Some t' /\ aeq (merged p0 w t0 t) t') ->
  same Q N N'.
Proof.
  intros Q N N' i0 t0 p0 w Hw Ht0 Hi Hin Hout0 HQ Hp0 Hout Ei N'0 H1 H2.
  assert (Mul : forall x, (x mod w = 0 -> exists j, x = w * j)%N) by (intros x Hx; exists (x / w)%N; rewrite (N.div_mod x w) at 1 by lia; rewrite Hx; lia).
  assert (Dv : forall a j, ((a + w * j) / w = a / w + j)%N) by (intros a j; rewrite N.mul_comm, N.div_add by lia; reflexivity).
  assert (Dd : forall j, (w * j / w = j)%N) by (intros j; rewrite N.mul_comm, N.div_mul by lia; reflexivity).
  split.
  - apply sim_rel with (R := fun m m' => forall q, q <> p0 -> (m' q = m q + (m p0 / w) * a_out t0 q)%N).
    + intros m Em. exists (an_init N'). split; [apply areach_init|]. intros q Hq. rewrite !Em. apply Ei. exact Hq.
    + intros m m' i t m1 _ _ A Ht En X. destruct (Nat.eq_dec i i0) as [->|Hne].
      * rewrite Ht0 in Ht. injection Ht as <-. exists m'. split; [apply ar_nil, ext_refl|]. intros q Hq. rewrite (A q Hq), !X. unfold afire. rewrite !Hin, Nat.eqb_refl, Hout0.
        destruct (Nat.eqb_spec q p0); [contradiction|]. destruct (En p0) as (E1 & _). rewrite Hin, Nat.eqb_refl in E1.
        assert (Y : (m p0 / w = (m p0 - w) / w + 1)%N) by (rewrite <- Dv; f_equal; lia). rewrite Y, N.add_0_r. lia.
      * destruct (H2 i t Ht Hne) as (t' & Ht' & E1 & E2 & E3). destruct (Hp0 i t Ht) as (P1 & P2 & P3). specialize (P3 Hne). destruct (Mul _ P2) as (j & Hj).
        exists (afire t' m'). split.
        -- apply arun_one with (i := i) (t := t'); [exact Ht'| |apply ext_refl]. intros p. rewrite <- E1, <- E3. cbn [merged a_in a_inh]. destruct (Nat.eq_dec p p0) as [->|Hp].
           ++ rewrite P1, P3. split; [lia|discriminate].
           ++ destruct (En p) as (F1 & F2). rewrite (A p Hp). split; [generalize (m p0 / w * a_out t0 p)%N; intros; lia|]. intros v Hv. destruct (N.eq_dec (a_out t0 p) 0) as [Z|Z]; [rewrite Z; specialize (F2 v Hv); lia|].
              destruct (Hout p Z) as (_ & K). specialize (K i t Ht). congruence.
        -- intros q Hq. rewrite !X. unfold afire. rewrite <- E1, <- E2. cbn [merged a_in a_out]. destruct (Nat.eqb_spec q p0); [contradiction|]. rewrite P3, Hj, Dd, N.sub_0_r, Dv, (A q Hq).
           destruct (En q) as (F1 & _). rewrite N.mul_add_distr_r. generalize (m p0 / w * a_out t0 q)%N (j * a_out t0 q)%N. intros; lia.
    + intros m m' A p Hp. assert (p <> p0) by (intros ->; congruence). rewrite (A p) by assumption. destruct (N.eq_dec (a_out t0 p) 0) as [Z|Z]; [rewrite Z; lia|]. destruct (Hout p Z); congruence.
  - apply sim_rel with (R := fun m' m => forall q, q <> p0 -> m' q = m q).
    + intros m' Em. exists (fun p => an_init N p - (an_init N p0 / w) * a_in t0 p + (an_init N p0 / w) * a_out t0 p)%N. split.
      * apply fire_many_N with (i := i0); [exact Ht0|exact Hi| |].
        -- intros p. rewrite Hin. destruct (Nat.eqb_spec p p0) as [->|_]; [right; exact Hout0|left; reflexivity].
        -- intros p. rewrite Hin. destruct (Nat.eqb_spec p p0) as [->|_]; [|lia]. pose proof (N.mul_div_le (an_init N p0) w ltac:(lia)). lia.
      * intros q Hq. rewrite Em, (Ei q Hq), Hin. destruct (Nat.eqb_spec q p0); [contradiction|lia].
    + intros m' m i t' m1' _ _ A Ht' En X. destruct (H1 i t' Ht') as (t & Ht & E1 & E2 & E3).
      assert (Hne : i <> i0) by (intros ->; congruence). destruct (Hp0 i t Ht) as (P1 & P2 & P3). specialize (P3 Hne). destruct (Mul _ P2) as (j & Hj).
      assert (En' : aen t m).
      { intros p. destruct (Nat.eq_dec p p0) as [->|Hp]; [rewrite P1, P3; split; [lia|discriminate]|]. rewrite <- (A p Hp). specialize (En p). rewrite <- E1, <- E3 in En. exact En. }
      exists (fun p => afire t m p - j * a_in t0 p + j * a_out t0 p)%N. split.
      * apply ar_cons with (i := i) (t := t) (m1 := afire t m); [exact Ht|exact En'|apply ext_refl|]. apply fire_many_N with (i := i0); [exact Ht0|exact Hi| |].
        -- intros p. rewrite Hin. destruct (Nat.eqb_spec p p0) as [->|_]; [right; exact Hout0|left; reflexivity].
        -- intros p. rewrite Hin. destruct (Nat.eqb_spec p p0) as [->|_]; [|lia]. unfold afire. rewrite Hj. lia.
      * intros q Hq. rewrite X. unfold afire. rewrite <- E1, <- E2. cbn [merged a_in a_out]. rewrite Hin. destruct (Nat.eqb_spec q p0); [contradiction|]. rewrite Hj, Dd, (A q Hq). lia.
    + intros m' m A p Hp. apply A. intros ->. congruence.
Qed.
