(** The arguments on abstract nets for rule B: one producer [u] of [p0] takes over the only
    consumer [c] of [p0], which stays in the net. *)
From Verif Require Import Base RedTheory RedAgg.
Set Implicit Arguments.

Definition taken (p0 : nat) (k : N) (c t : atr) : atr :=
  mkAtr (fun q => if Nat.eqb q p0 then a_in t q else a_in t q + k * a_in c q)%N
        (fun q => if Nat.eqb q p0 then 0 else a_out t q + k * a_out c q)%N (a_inh t).
Section Merge.
Variables (Q : nat -> bool) (NA NB : anet) (ic iu p0 : nat) (c u : atr) (w k r : N).
Hypothesis Hw : (0 < w)%N.
Hypothesis Hne : ic <> iu.
Hypothesis Hc : an_tr NA ic = Some c.
Hypothesis Hu : an_tr NA iu = Some u.
Hypothesis HQ : Q p0 = false.
Hypothesis Cin : a_in c p0 = w.
Hypothesis Cout0 : a_out c p0 = 0%N.
Hypothesis Cinh : forall q, a_inh c q = None.
Hypothesis Uk : a_out u p0 = (k * w)%N.
Hypothesis Only : forall i t, an_tr NA i = Some t -> a_inh t p0 = None /\ (i <> ic -> a_in t p0 = 0%N).
Hypothesis Couts : forall q, a_out c q <> 0%N -> Q q = false /\ forall i t, an_tr NA i = Some t -> a_inh t q = None.
Hypothesis T1 : forall i t', an_tr NB i = Some t' -> exists t, an_tr NA i = Some t /\ aeq (if Nat.eqb i iu then taken p0 k c t else t) t'.
Hypothesis T2 : forall i t, an_tr NA i = Some t -> exists t', an_tr NB i = Some t' /\ aeq (if Nat.eqb i iu then taken p0 k c t else t) t'.

(** [c] only empties [p0]: it is fired as soon as possible. *)
Lemma eager_same : (forall q, q <> p0 -> a_in c q = 0%N) -> (r < w)%N ->
  an_init NB p0 = 0%N -> (forall q, q <> p0 -> an_init NB q = an_init NA q + (an_init NA p0 / w) * a_out c q)%N -> r = (an_init NA p0 mod w)%N ->
  (r = 0%N \/ forall i t, an_tr NA i = Some t -> (a_out t p0 mod w = 0)%N) ->
  same Q NA NB.
Proof.
  intros Cpre Hr I0 Iq Er Hm.
  assert (Di : (an_init NA p0 = w * (an_init NA p0 / w) + r)%N) by (rewrite Er; apply N.div_mod; lia).
  split.
  - apply sim_rel with (R := fun m m' => exists j, m p0 = (m' p0 + j * w + r)%N /\ (forall q, q <> p0 -> m' q = m q + j * a_out c q)%N /\ (r = 0%N \/ m' p0 mod w = 0)%N).
    + intros m Em. exists (an_init NB). split; [apply areach_init|]. exists (an_init NA p0 / w)%N. rewrite I0, Em. split; [lia|]. split; [intros q Hq; rewrite Em; apply Iq; exact Hq|]. right. apply N.mod_0_l. lia.
    + intros m m' i t m1 _ _ (j & A & B & D) Ht En X. destruct (Nat.eq_dec i ic) as [->|Hi].
      * rewrite Hc in Ht. injection Ht as <-. destruct (N.eq_dec j 0) as [->|Hj].
        -- assert (Le : (w <= m' p0)%N).
           { destruct (En p0) as (E & _). rewrite Cin, A in E. destruct D as [->|D]; [lia|]. apply N.mod_divide in D; [|lia]. destruct D as (d & D). rewrite D in *. destruct (N.eq_dec d 0) as [->|Hd]; [lia|nia]. }
           destruct (T2 _ Hc) as (c' & Hc' & G). destruct (Nat.eqb_spec ic iu); [contradiction|]. destruct G as (G1 & G2 & G3).
           exists (afire c' m'). split.
           ++ apply arun_one with (i := ic) (t := c'); [exact Hc'| |apply ext_refl]. intros q. rewrite <- G1, <- G3, Cinh. split; [|discriminate]. destruct (Nat.eq_dec q p0) as [->|Hq]; [rewrite Cin; exact Le|rewrite (Cpre q Hq); lia].
           ++ exists 0%N. rewrite X. unfold afire. rewrite <- G1, <- G2, Cin, Cout0, A. split; [lia|]. split.
              ** intros q Hq. rewrite X. unfold afire. rewrite <- G1, <- G2, (B q Hq), (Cpre q Hq). lia.
              ** destruct D as [D|D]; [left; exact D|right]. rewrite N.add_0_r. apply N.mod_divide in D; [|lia]. destruct D as (d & D). apply N.mod_divide; [lia|]. exists (d - 1)%N. rewrite D. nia.
        -- exists m'. split; [apply ar_nil, ext_refl|]. exists (j - 1)%N. rewrite X. unfold afire. rewrite Cin, Cout0, A. split; [nia|]. split; [|exact D]. intros q Hq. rewrite X. unfold afire. rewrite (B q Hq), (Cpre q Hq). nia.
      * destruct (T2 _ Ht) as (t' & Ht' & G1 & G2 & G3). destruct (Only _ Ht) as (J & Z). specialize (Z Hi).
        assert (En' : aen t' m').
        { intros q. destruct (En q) as (E1 & E2). rewrite <- G1, <- G3. destruct (Nat.eq_dec q p0) as [->|Hq].
          - assert (Y : a_in (if Nat.eqb i iu then taken p0 k c t else t) p0 = 0%N) by (destruct (Nat.eqb i iu); cbn [taken a_in]; rewrite ?Nat.eqb_refl; exact Z). rewrite Y.
            assert (Y2 : a_inh (if Nat.eqb i iu then taken p0 k c t else t) p0 = None) by (destruct (Nat.eqb i iu); exact J). rewrite Y2. split; [lia|discriminate].
          - assert (Y : a_in (if Nat.eqb i iu then taken p0 k c t else t) q = a_in t q) by (destruct (Nat.eqb i iu); cbn [taken a_in]; [rewrite (Cpre q Hq); destruct (Nat.eqb_spec q p0); [contradiction|lia]|reflexivity]). rewrite Y.
            assert (Y2 : a_inh (if Nat.eqb i iu then taken p0 k c t else t) q = a_inh t q) by (destruct (Nat.eqb i iu); reflexivity). rewrite Y2, (B q Hq). split; [generalize (j * a_out c q)%N; intros; lia|].
            intros v Hv. destruct (N.eq_dec (a_out c q) 0) as [Z0|Z0]; [rewrite Z0; specialize (E2 v Hv); lia|]. destruct (Couts _ Z0) as (_ & K). specialize (K _ _ Ht). congruence. }
        exists (afire t' m'). split; [apply arun_one with (i := i) (t := t'); [exact Ht'|exact En'|apply ext_refl]|].
        destruct (Nat.eqb_spec i iu) as [->|Hiu].
        -- rewrite Hu in Ht. injection Ht as <-. exists (j + k)%N. rewrite X. unfold afire. rewrite <- G1, <- G2. cbn [taken a_in a_out]. rewrite Nat.eqb_refl, Z, Uk, A. split; [lia|]. split.
           ++ intros q Hq. rewrite X. unfold afire. rewrite <- G1, <- G2. cbn [taken a_in a_out]. destruct (Nat.eqb_spec q p0); [contradiction|]. rewrite (B q Hq), (Cpre q Hq). destruct (En q) as (E & _). rewrite N.mul_add_distr_r. generalize (j * a_out c q)%N (k * a_out c q)%N. intros; lia.
           ++ rewrite N.sub_0_r, N.add_0_r. exact D.
        -- exists j. rewrite X. unfold afire. rewrite <- G1, <- G2, Z, A. split; [lia|]. split.
           ++ intros q Hq. rewrite X. unfold afire. rewrite <- G1, <- G2, (B q Hq). destruct (En q) as (E & _). generalize (j * a_out c q)%N. intros; lia.
           ++ destruct D as [D|D]; [left; exact D|]. destruct Hm as [Hm|Hm]; [left; exact Hm|right]. rewrite N.sub_0_r, N.add_mod, D, (Hm _ _ Ht) by lia. apply N.mod_0_l. lia.
    + intros m m' (j & A & B & _) q Hq. assert (q <> p0) by (intros ->; congruence). rewrite (B q) by assumption. destruct (N.eq_dec (a_out c q) 0) as [Z|Z]; [rewrite Z; lia|destruct (Couts _ Z); congruence].
  - apply sim_rel with (R := fun m' m => m p0 = (m' p0 + r)%N /\ forall q, q <> p0 -> m' q = m q).
    + assert (Dz : forall q, a_in c q = 0%N \/ a_out c q = 0%N) by (intros q; destruct (Nat.eq_dec q p0) as [->|Hq]; [right; exact Cout0|left; apply Cpre; exact Hq]).
      assert (NI : forall q v, a_inh c q = Some v -> False) by (intros q v; rewrite Cinh; discriminate).
      intros m' Em. exists (fun q => an_init NA q - (an_init NA p0 / w) * a_in c q + (an_init NA p0 / w) * a_out c q)%N. split; [|split].
      * apply fire_many_N with (i := ic); [exact Hc|exact NI|exact Dz|]. intros q. destruct (Nat.eq_dec q p0) as [->|Hq]; [rewrite Cin; lia|rewrite (Cpre q Hq); lia].
      * rewrite Em, I0, Cin, Cout0. lia.
      * intros q Hq. rewrite Em, (Iq q Hq), (Cpre q Hq). lia.
    + intros m' m i t' m1' _ _ (A & B) Ht' En X. destruct (T1 _ Ht') as (t & Ht & G1 & G2 & G3). destruct (Only _ Ht) as (J & Z). destruct (Nat.eqb_spec i iu) as [->|Hiu].
      * rewrite Hu in Ht. injection Ht as <-. specialize (Z (not_eq_sym Hne)).
        assert (En' : aen u m).
        { intros q. destruct (Nat.eq_dec q p0) as [->|Hq]; [rewrite J, Z; split; [lia|discriminate]|]. rewrite <- (B q Hq). specialize (En q). rewrite <- G1, <- G3 in En. cbn [taken a_in a_inh] in En. destruct (Nat.eqb_spec q p0); [contradiction|]. rewrite (Cpre q Hq), N.mul_0_r, N.add_0_r in En. exact En. }
        assert (Dz : forall q, a_in c q = 0%N \/ a_out c q = 0%N) by (intros q; destruct (Nat.eq_dec q p0) as [->|Hq]; [right; exact Cout0|left; apply Cpre; exact Hq]).
        assert (NI : forall q v, a_inh c q = Some v -> False) by (intros q v; rewrite Cinh; discriminate).
        exists (fun q => afire u m q - k * a_in c q + k * a_out c q)%N. split; [|split].
        -- apply ar_cons with (i := iu) (t := u) (m1 := afire u m); [exact Hu|exact En'|apply ext_refl|]. apply fire_many_N with (i := ic); [exact Hc|exact NI|exact Dz|].
           intros q. destruct (Nat.eq_dec q p0) as [->|Hq]; [rewrite Cin; unfold afire; rewrite Uk; lia|rewrite (Cpre q Hq); lia].
        -- rewrite X. unfold afire. rewrite <- G1, <- G2. cbn [taken a_in a_out]. rewrite Nat.eqb_refl, Z, Uk, Cin, Cout0, A. lia.
        -- intros q Hq. rewrite X. unfold afire. rewrite <- G1, <- G2. cbn [taken a_in a_out]. destruct (Nat.eqb_spec q p0); [contradiction|]. rewrite (Cpre q Hq), (B q Hq). lia.
      * exists (afire t m). assert (En' : aen t m).
        { intros q. specialize (En q). rewrite <- G1, <- G3 in En. destruct (Nat.eq_dec q p0) as [->|Hq]; [rewrite J; split; [destruct En; lia|discriminate]|]. rewrite <- (B q Hq). exact En. }
        split; [apply arun_one with (i := i) (t := t); [exact Ht|exact En'|apply ext_refl]|]. split.
        -- rewrite X. unfold afire. rewrite <- G1, <- G2, A. destruct (En p0) as (E & _). rewrite <- G1 in E. lia.
        -- intros q Hq. rewrite X. unfold afire. rewrite <- G1, <- G2, (B q Hq). reflexivity.
    + intros m' m (_ & B) q Hq. apply B. intros ->. congruence.
Qed.

(** [u] only fills [p0], once for each firing of [c]: it is fired as late as possible. *)
Lemma lazy_same : k = 1%N -> (forall q, q <> p0 -> a_out u q = 0%N) -> (forall q, a_inh u q = None) ->
  ext (an_init NA) (an_init NB) ->
  (forall q, a_in u q <> 0%N -> Q q = false /\ forall i t, an_tr NA i = Some t -> a_inh t q = None) ->
  same Q NA NB.
Proof.
  intros Hk Upost Uinh Ei Upre. pose proof (Only _ Hu) as (_ & Uz). specialize (Uz (not_eq_sym Hne)). rewrite Hk in *. rewrite N.mul_1_l in Uk.
  assert (Same : forall i t t', an_tr NA i = Some t -> i <> iu -> aeq (if Nat.eqb i iu then taken p0 1 c t else t) t' -> aeq t t') by (intros i t t' _ Hi; destruct (Nat.eqb_spec i iu); [contradiction|auto]).
  split.
  - apply sim_rel with (R := fun m m' => exists j, m p0 = (m' p0 + j * w)%N /\ forall q, q <> p0 -> (m' q = m q + j * a_in u q)%N).
    + intros m Em. exists (an_init NB). split; [apply areach_init|]. exists 0%N. rewrite Em, Ei. split; [lia|]. intros q _. rewrite Em, Ei. lia.
    + intros m m' i t m1 _ _ (j & A & B) Ht En X. destruct (Nat.eq_dec i iu) as [->|Hiu].
      * rewrite Hu in Ht. injection Ht as <-. exists m'. split; [apply ar_nil, ext_refl|]. exists (j + 1)%N. rewrite X. unfold afire. rewrite Uz, Uk, A. split; [lia|].
        intros q Hq. rewrite X. unfold afire. rewrite (Upost q Hq), (B q Hq). destruct (En q) as (E & _). nia.
      * destruct (Nat.eq_dec i ic) as [->|Hi]; [destruct (N.eq_dec j 0) as [->|Hj]|].
        -- destruct (T2 _ Ht) as (t' & Ht' & G). apply (Same _ _ _ Ht Hiu) in G. exists (afire t' m'). assert (Em : ext m m') by (intros q; destruct (Nat.eq_dec q p0) as [->|Hq]; [lia|rewrite (B q Hq); lia]). split.
           ++ apply arun_one with (i := ic) (t := t'); [exact Ht'| |apply ext_refl]. apply (aeq_en G). eapply aen_ext; eauto.
           ++ exists 0%N. assert (Y : ext m1 (afire t' m')) by (eapply ext_trans; [exact X|]; eapply ext_trans; [apply afire_ext; exact Em|apply aeq_fire; exact G]). split; [rewrite Y; lia|intros q _; rewrite Y; lia].
        -- rewrite Hc in Ht. injection Ht as <-. destruct (T2 _ Hu) as (u' & Hu' & G). rewrite Nat.eqb_refl in G. destruct G as (G1 & G2 & G3).
           exists (afire u' m'). split.
           ++ apply arun_one with (i := iu) (t := u'); [exact Hu'| |apply ext_refl]. intros q. rewrite <- G1, <- G3. cbn [taken a_in a_inh]. rewrite Uinh. split; [|discriminate]. destruct (Nat.eqb_spec q p0) as [->|Hq]; [rewrite Uz; lia|].
              destruct (En q) as (E & _). rewrite (B q Hq). nia.
           ++ exists (j - 1)%N. rewrite X. unfold afire. rewrite <- G1, <- G2. cbn [taken a_in a_out]. rewrite Nat.eqb_refl, Uz, Cin, Cout0, A. split; [nia|].
              intros q Hq. rewrite X. unfold afire. rewrite <- G1, <- G2. cbn [taken a_in a_out]. destruct (Nat.eqb_spec q p0); [contradiction|]. rewrite (B q Hq), (Upost q Hq). destruct (En q) as (E & _). nia.
        -- destruct (T2 _ Ht) as (t' & Ht' & G). apply (Same _ _ _ Ht Hiu) in G. destruct G as (G1 & G2 & G3). destruct (Only _ Ht) as (J & Z). specialize (Z Hi). exists (afire t' m'). split.
           ++ apply arun_one with (i := i) (t := t'); [exact Ht'| |apply ext_refl]. intros q. rewrite <- G1, <- G3. destruct (En q) as (E1 & E2). destruct (Nat.eq_dec q p0) as [->|Hq]; [rewrite J, Z; split; [lia|discriminate]|]. rewrite (B q Hq). split; [generalize (j * a_in u q)%N; intros; lia|].
              intros v Hv. destruct (N.eq_dec (a_in u q) 0) as [Z0|Z0]; [rewrite Z0; specialize (E2 v Hv); lia|]. destruct (Upre _ Z0) as (_ & K). specialize (K _ _ Ht). congruence.
           ++ exists j. rewrite X. unfold afire. rewrite <- G1, <- G2, Z, A. split; [lia|]. intros q Hq. rewrite X. unfold afire. rewrite <- G1, <- G2, (B q Hq). destruct (En q) as (E & _). generalize (j * a_in u q)%N. intros; lia.
    + intros m m' (j & A & B) q Hq. assert (q <> p0) by (intros ->; congruence). rewrite (B q) by assumption. destruct (N.eq_dec (a_in u q) 0) as [Z|Z]; [rewrite Z; lia|destruct (Upre _ Z); congruence].
  - apply sim_rel with (R := fun m' m => ext m' m).
    + intros m' Em. exists (an_init NA). split; [apply areach_init|]. eapply ext_trans; [exact Em|apply ext_sym; exact Ei].
    + intros m' m i t' m1' _ _ A Ht' En X. destruct (T1 _ Ht') as (t & Ht & G). destruct (Nat.eqb_spec i iu) as [->|Hiu].
      * rewrite Hu in Ht. injection Ht as <-. destruct G as (G1 & G2 & G3). exists m1'. split; [|apply ext_refl].
        assert (E : forall q, q <> p0 -> (a_in u q + a_in c q <= m q)%N) by (intros q Hq; destruct (En q) as (E & _); rewrite <- G1 in E; cbn [taken a_in] in E; destruct (Nat.eqb_spec q p0); [contradiction|]; rewrite <- (A q); lia).
        apply ar_cons with (i := iu) (t := u) (m1 := afire u m); [exact Hu| |apply ext_refl|].
        -- intros q. rewrite Uinh. split; [|discriminate]. destruct (Nat.eq_dec q p0) as [->|Hq]; [lia|specialize (E q Hq); lia].
        -- apply arun_one with (i := ic) (t := c); [exact Hc| |].
           ++ intros q. rewrite Cinh. split; [|discriminate]. unfold afire. destruct (Nat.eq_dec q p0) as [->|Hq]; [rewrite Cin, Uk; lia|specialize (E q Hq); lia].
           ++ intros q. rewrite X. unfold afire. rewrite <- G1, <- G2, (A q). cbn [taken a_in a_out]. destruct (Nat.eqb_spec q p0) as [->|Hq]; [rewrite Uz, Uk, Cin, Cout0; lia|specialize (E q Hq); rewrite (Upost q Hq); lia].
      * exists m1'. split; [|apply ext_refl]. apply arun_one with (i := i) (t := t); [exact Ht| |].
        -- destruct G as (G1 & G2 & G3). intros q. specialize (En q). rewrite <- G1, <- G3, (A q) in En. exact En.
        -- eapply ext_trans; [exact X|]. eapply ext_trans; [apply afire_ext; exact A|]. apply ext_sym. apply aeq_fire. exact G.
    + intros m' m A q _. apply A.
Qed.
End Merge.
