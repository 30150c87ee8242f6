(** The rewrite rules of pushNegation on runs. *)
From Verif Require Import Base NetSpec PqlSyntax PqlSpec PqlModel PqlProofs PqlPush.
From Coq Require Import Classical_Prop Permutation.
Set Implicit Arguments.

Section Rules.
  Variable net : pnet.

  Definition splice (i : nat) (rho sg : path) : path := fun n => if n <? i then rho n else sg (n - i).
  Lemma splice_max : forall i rho sg, maximal net rho -> maximal net sg -> sg 0 = rho i -> maximal net (splice i rho sg).
  Proof.
    intros i rho sg Hr Hs E n. unfold splice.
    destruct (Nat.ltb_spec n i), (Nat.ltb_spec (S n) i); try lia.
    - apply Hr.
    - assert (S n = i) by lia. subst i. rewrite Nat.sub_diag, E. apply Hr.
    - replace (S n - i) with (S (n - i)) by lia. apply Hs.
  Qed.
  Lemma splice_start : forall i rho sg, sg 0 = rho i -> splice i rho sg 0 = rho 0.
  Proof. intros i rho sg E. unfold splice. destruct (Nat.ltb_spec 0 i); auto. assert (i = 0) by lia. subst. exact E. Qed.
  Lemma splice_end : forall i rho sg j n, shift (i + j) (splice i rho sg) n = shift j sg n.
  Proof. intros. unfold shift, splice. destruct (Nat.ltb_spec (i + j + n) i); [lia|]. f_equal. lia. Qed.
  Lemma from_splice : forall pi rho i sg, from net pi rho -> from net (shift i rho) sg -> from net pi (splice i rho sg).
  Proof.
    intros pi rho i sg (A & B) (C & D). unfold shift in D. rewrite Nat.add_0_r in D. split.
    - apply splice_max; auto.
    - rewrite splice_start; auto.
  Qed.
  Lemma from_shift : forall pi rho i, from net pi rho -> from net (shift i rho) (shift i rho).
  Proof. intros pi rho i (A & _). apply from_refl, maximal_shift, A. Qed.
  Lemma shift_shift : forall i j rho n, shift i (shift j rho) n = shift (j + i) rho n.
  Proof. intros. unfold shift. f_equal. lia. Qed.
  Lemma holds_shift_shift : forall i j rho c, holds net (shift i (shift j rho)) c <-> holds net (shift (j + i) rho) c.
  Proof. intros. apply holds_ext. intros; apply shift_shift. Qed.
  Lemma holds_splice : forall i rho sg j c, holds net (shift (i + j) (splice i rho sg)) c <-> holds net (shift j sg) c.
  Proof. intros. apply holds_ext. intros; apply splice_end. Qed.

  (** EF formulas travel backwards. *)
  Lemma EF_back : forall pi rho i x, from net pi rho -> holds net (shift i rho) (CEF x) -> holds net pi (CEF x).
  Proof.
    intros pi rho i x Hr (sg & Hs & j & Hx). exists (splice i rho sg). split; [apply from_splice; auto|].
    exists (i + j). apply holds_splice. exact Hx.
  Qed.
  Lemma EF_now : forall pi x, maximal net pi -> holds net pi x -> holds net pi (CEF x).
  Proof. intros pi x M H. exists pi. split; [apply from_refl, M|]. exists 0. now apply holds_shift0. Qed.
  Lemma AF_now : forall pi x, stf x = true -> holds net pi x -> holds net pi (CAF x).
  Proof. intros pi x S H rho Hr. exists 0. apply holds_shift0. apply (stf_state net x S pi rho); auto. symmetry; apply Hr. Qed.
  Lemma from_state : forall pi rho c, stf c = true -> from net pi rho -> holds net (shift 0 rho) c <-> holds net pi c.
  Proof. intros pi rho c S (A & B). rewrite holds_shift0. apply stf_state; auto. Qed.

  Lemma step_dead : forall m m', nstep net m m' -> ~ dead net m.
  Proof. intros m m' (t & tr & E & F) D. apply (D t tr E). apply F. Qed.
  Lemma dead_stays : forall rho i, maximal net rho -> dead net (rho i) -> forall j, rho (i + j) = rho i.
  Proof.
    intros rho i M D. induction j as [|j IH]; [f_equal; lia|].
    replace (i + S j) with (S (i + j)) by lia. destruct (M (i + j)) as [s|(_ & E)]; [|congruence].
    exfalso. rewrite IH in s. eapply step_dead; eauto.
  Qed.

  Definition eqp (c d : cond) : Prop := forall pi, maximal net pi -> holds net pi c <-> holds net pi d.
  Lemma eqp_refl : forall c, eqp c c. Proof. intros c pi _. tauto. Qed.
  Lemma eqp_sym : forall c d, eqp c d -> eqp d c. Proof. intros c d H pi M. rewrite (H pi M). tauto. Qed.
  Lemma eqp_trans : forall c d e, eqp c d -> eqp d e -> eqp c e.
  Proof. intros c d e H H' pi M. rewrite (H pi M). apply H', M. Qed.

  Ltac mx := first [assumption | apply maximal_shift; mx | match goal with H : from net _ ?r |- maximal net ?r => apply H end].
  (** congruence *)
  Lemma eq_EX : forall c d, eqp c d -> eqp (CEX c) (CEX d).
  Proof. intros c d E pi M. cbn [holds]. split; intros (r & A & B & C); exists r; split; auto; split; auto; apply (E (shift 1 r)); auto; mx. Qed.
  Lemma eq_AX : forall c d, eqp c d -> eqp (CAX c) (CAX d).
  Proof. intros c d E pi M. cbn [holds]. split; intros H r A B; apply (E (shift 1 r)); auto; mx. Qed.
  Lemma eq_EF : forall c d, eqp c d -> eqp (CEF c) (CEF d).
  Proof. intros c d E pi M. cbn [holds]. split; intros (r & A & i & C); exists r; split; auto; exists i; apply (E (shift i r)); auto; mx. Qed.
  Lemma eq_AF : forall c d, eqp c d -> eqp (CAF c) (CAF d).
  Proof. intros c d E pi M. cbn [holds]. split; intros H r A; destruct (H r A) as (i & C); exists i; apply (E (shift i r)); auto; mx. Qed.
  Lemma eq_F : forall c d, eqp c d -> eqp (CF c) (CF d).
  Proof. intros c d E pi M. cbn [holds]. split; intros (i & C); exists i; apply (E (shift i pi)); auto; mx. Qed.
  Lemma eq_X : forall c d, eqp c d -> eqp (CX c) (CX d).
  Proof. intros c d E pi M. cbn [holds]. apply E. mx. Qed.
  Lemma eq_U : forall a a' b b', eqp a a' -> eqp b b' -> eqp (CU a b) (CU a' b').
  Proof.
    intros a a' b b' Ea Eb pi M. cbn [holds]. split; intros (i & C & D); exists i; (split; [apply (Eb (shift i pi)); auto; mx|]);
      intros j Hj; apply (Ea (shift j pi)); auto; mx.
  Qed.
  Lemma eq_EU : forall a a' b b', eqp a a' -> eqp b b' -> eqp (CEU a b) (CEU a' b').
  Proof.
    intros a a' b b' Ea Eb pi M. cbn [holds]. split; intros (r & A & i & C & D); exists r; (split; [auto|]); exists i; (split; [apply (Eb (shift i r)); auto; mx|]);
      intros j Hj; apply (Ea (shift j r)); auto; mx.
  Qed.
  Lemma eq_AU : forall a a' b b', eqp a a' -> eqp b b' -> eqp (CAU a b) (CAU a' b').
  Proof.
    intros a a' b b' Ea Eb pi M. cbn [holds]. split; intros H r A; destruct (H r A) as (i & C & D); exists i; (split; [apply (Eb (shift i r)); auto; mx|]);
      intros j Hj; apply (Ea (shift j r)); auto; mx.
  Qed.
  Lemma eq_not : forall c d, eqp c d -> eqp (CNot c) (CNot d).
  Proof. intros c d E pi M. cbn [holds]. rewrite (E pi M). tauto. Qed.

  (** negations *)
  Lemma not_EG : forall c, eqp (CEG c) (CNot (CAF (CNot c))).
  Proof.
    intros c pi M. cbn [holds]. split.
    - intros (r & A & H) B. destruct (B r A) as (i & C). auto.
    - intros H. apply NNPP. intros N. apply H. intros r A. apply NNPP. intros K. apply N. exists r. split; auto.
      intros i. apply NNPP. intros C. apply K. eauto.
  Qed.
  Lemma not_AG : forall c, eqp (CAG c) (CNot (CEF (CNot c))).
  Proof.
    intros c pi M. cbn [holds]. split.
    - intros H (r & A & i & C). apply C, H, A.
    - intros H r A i. apply NNPP. intros C. apply H. eauto.
  Qed.
  Lemma not_G : forall c, eqp (CG c) (CNot (CF (CNot c))).
  Proof.
    intros c pi M. cbn [holds]. split.
    - intros H (i & C). apply C, H.
    - intros H i. apply NNPP. intros C. apply H. eauto.
  Qed.
  Lemma not_A : forall c, eqp (CA c) (CNot (CE (CNot c))).
  Proof.
    intros c pi M. cbn [holds]. split.
    - intros H (r & A & C). apply C, H, A.
    - intros H r A. apply NNPP. intros C. apply H. eauto.
  Qed.
  Lemma not_EX : forall c, eqp (CAX (CNot c)) (CNot (CEX c)).
  Proof.
    intros c pi M. cbn [holds]. split.
    - intros H (r & A & B & C). eapply H; eauto.
    - intros H r A B C. apply H. eauto.
  Qed.
  Lemma not_AX : forall c, eqp (CEX (CNot c)) (CNot (CAX c)).
  Proof.
    intros c pi M. cbn [holds]. split.
    - intros (r & A & B & C) H. apply C, H; auto.
    - intros H. apply NNPP. intros N. apply H. intros r A B. apply NNPP. intros C. apply N. eauto.
  Qed.

  (** next *)
  Lemma EX_false : eqp (CEX (CBool false)) (CBool false).
  Proof. intros pi M. cbn [holds]. split; [intros (r & _ & _ & H); exact H|discriminate]. Qed.
  Lemma EX_true : eqp (CEX (CBool true)) (CNot CDead).
  Proof.
    intros pi M. cbn [holds]. split.
    - intros (r & (A & E) & B & _). rewrite <- E. eapply step_dead, B.
    - intros D. exists pi. split; [apply from_refl, M|]. split; auto. destruct (M 0) as [S|(D' & _)]; [exact S|contradiction].
  Qed.
  Lemma AX_true : eqp (CAX (CBool true)) (CBool true).
  Proof. intros pi M. cbn [holds]. split; auto. Qed.
  Lemma AX_false : eqp (CAX (CBool false)) CDead.
  Proof.
    intros pi M. cbn [holds]. split.
    - intros H. destruct (M 0) as [S|(D' & _)]; [|exact D']. specialize (H pi (from_refl M) S). discriminate.
    - intros D r (A & E) S. exfalso. rewrite E in S. eapply step_dead; eauto.
  Qed.

  (** eventually *)
  Lemma EF_ndead : eqp (CEF (CNot CDead)) (CNot CDead).
  Proof.
    intros pi M. split.
    - cbn [holds]. intros (r & (A & E) & i & H) D. apply H. rewrite <- E in D. unfold shift. rewrite Nat.add_0_r.
      rewrite (dead_stays 0 A D i : r i = r 0). exact D.
    - apply EF_now, M.
  Qed.
  Lemma AF_ndead : eqp (CAF (CNot CDead)) (CNot CDead).
  Proof.
    intros pi M. split.
    - intros H D. destruct (H pi (from_refl M)) as (i & C). apply C. cbn [holds] in *. unfold shift. rewrite Nat.add_0_r.
      rewrite (dead_stays 0 M D i : pi i = pi 0). exact D.
    - apply AF_now. reflexivity.
  Qed.
  Lemma EF_EF : forall x, eqp (CEF (CEF x)) (CEF x).
  Proof. intros x pi M. split; [intros (r & A & i & H); eapply EF_back; eauto|apply EF_now, M]. Qed.
  Lemma EF_AF : forall x, stf x = true -> eqp (CEF (CAF x)) (CEF x).
  Proof.
    intros x Hx pi M. split.
    - intros (r & A & i & H). destruct (H (shift i r) (from_shift i A)) as (j & C). rewrite holds_shift_shift in C. exists r; eauto.
    - intros (r & A & i & H). exists r. split; auto. exists i. apply AF_now; auto.
  Qed.
  Lemma EF_EU : forall a x, eqp (CEF (CEU a x)) (CEF x).
  Proof.
    intros a x pi M. split.
    - intros (r & A & i & sg & H & j & C & _). eapply EF_back; [exact A|]. exists sg. eauto.
    - intros (r & A & i & H). exists r. split; auto. exists i. exists (shift i r). split; [eapply from_shift, A|].
      exists 0. split; [now apply holds_shift0|]. intros j Hj. lia.
  Qed.
  Lemma EF_AU : forall a x, stf x = true -> eqp (CEF (CAU a x)) (CEF x).
  Proof.
    intros a x Hx pi M. split.
    - intros (r & A & i & H). destruct (H (shift i r) (from_shift i A)) as (j & C & _). rewrite holds_shift_shift in C. exists r; eauto.
    - intros (r & A & i & H). exists r. split; auto. exists i. intros sg Hs. exists 0. split; [|intros j Hj; lia].
      apply (from_state x Hx Hs); auto.
  Qed.
  Lemma EF_or : forall l, eqp (CEF (COr l)) (COr (map CEF l)).
  Proof.
    intros l pi M. rewrite holds_or. split.
    - intros (r & A & i & H). apply holds_or in H. destruct H as (c & Hc & H). exists (CEF c). split; [apply in_map, Hc|].
      exists r. eauto.
    - intros (c & Hc & H). apply in_map_iff in Hc. destruct Hc as (d & <- & Hd). destruct H as (r & A & i & H).
      exists r. split; auto. exists i. apply holds_or. eauto.
  Qed.
  Lemma AF_AF : forall x, stf x = true -> eqp (CAF (CAF x)) (CAF x).
  Proof.
    intros x Hx pi M. split; [|apply AF_now; auto].
    intros H r A. destruct (H r A) as (i & C). destruct (C (shift i r) (from_shift i A)) as (j & D).
    rewrite holds_shift_shift in D. eauto.
  Qed.
  Lemma AF_EF : forall x, stf x = true -> eqp (CAF (CEF x)) (CEF x).
  Proof.
    intros x Hx pi M. split; [|apply AF_now; auto].
    intros H. destruct (H pi (from_refl M)) as (i & C). eapply EF_back; [apply from_refl, M|eauto].
  Qed.
  Lemma AF_AU : forall a x, stf a = true -> stf x = true -> eqp (CAF (CAU a x)) (CAF x).
  Proof.
    intros a x Ha Hx pi M. split.
    - intros H r A. destruct (H r A) as (i & C). destruct (C (shift i r) (from_shift i A)) as (j & D & _).
      rewrite holds_shift_shift in D. eauto.
    - intros H r A. destruct (H r A) as (i & C). exists i. intros sg Hs. exists 0. split; [|intros j Hj; lia].
      apply (from_state x Hx Hs); auto.
  Qed.

  (** disjunctions with an EF operand *)
  Definition efs := filter is_ef.
  Definition nefs := filter (fun x => negb (is_ef x)).
  Lemma or_split : forall pi l, holds net pi (COr l) <-> holds net pi (COr (efs l)) \/ holds net pi (COr (nefs l)).
  Proof.
    intros pi l. rewrite !holds_or. unfold efs, nefs. split.
    - intros (c & Hc & H). destruct (is_ef c) eqn:E; [left|right]; exists c; rewrite filter_In, E; auto.
    - intros [(c & Hc & H)|(c & Hc & H)]; apply filter_In in Hc; destruct Hc; eauto.
  Qed.
  Lemma efs_back : forall pi rho i l, from net pi rho -> holds net (shift i rho) (COr (efs l)) -> holds net pi (COr (efs l)).
  Proof.
    intros pi rho i l Hr H. rewrite holds_or in *. destruct H as (c & Hc & H). exists c. split; auto.
    apply filter_In in Hc. destruct Hc as (_ & E). destruct c; try discriminate E. eapply EF_back; eauto.
  Qed.
  Lemma stf_or_iff : forall l, stf (COr l) = true <-> forall c, In c l -> stf c = true.
  Proof. intros. cbn [stf]. apply forallb_forall. Qed.
  Lemma stf_efs : forall l, stf (COr l) = true -> stf (COr (efs l)) = true /\ stf (COr (nefs l)) = true.
  Proof.
    intros l H. rewrite !stf_or_iff in *. split; intros c Hc; apply filter_In in Hc; apply H, Hc.
  Qed.
  Lemma AF_or : forall l pi, stf (COr l) = true -> maximal net pi ->
    holds net pi (CAF (COr l)) <-> holds net pi (COr (efs l)) \/ holds net pi (CAF (COr (nefs l))).
  Proof.
    intros l pi S M. destruct (stf_efs _ S) as (S1 & S2). split.
    - intros H. destruct (classic (holds net pi (COr (efs l)))) as [|N]; auto. right. intros r A. destruct (H r A) as (i & C).
      exists i. apply or_split in C. destruct C as [C|C]; auto. exfalso. apply N. eapply efs_back; eauto.
    - intros [H|H].
      + apply AF_now; auto. apply or_split; auto.
      + intros r A. destruct (H r A) as (i & C). exists i. apply or_split; auto.
  Qed.
  Lemma AU_or : forall a l pi, stf (COr l) = true -> maximal net pi ->
    holds net pi (CAU a (COr l)) <-> holds net pi (COr (efs l)) \/ holds net pi (CAU a (COr (nefs l))).
  Proof.
    intros a l pi S M. destruct (stf_efs _ S) as (S1 & S2). split.
    - intros H. destruct (classic (holds net pi (COr (efs l)))) as [|N]; auto. right. intros r A. destruct (H r A) as (i & C & D).
      exists i. split; auto. apply or_split in C. destruct C as [C|C]; auto. exfalso. apply N. eapply efs_back; eauto.
    - intros [H|H].
      + intros r A. exists 0. split; [|intros j Hj; lia]. apply (from_state _ S A). apply or_split; auto.
      + intros r A. destruct (H r A) as (i & C & D). exists i. split; auto. apply or_split; auto.
  Qed.
  Lemma EU_or : forall a l pi, stf (COr l) = true -> maximal net pi ->
    holds net pi (CEU a (COr l)) <-> holds net pi (COr (efs l)) \/ holds net pi (CEU a (COr (nefs l))).
  Proof.
    intros a l pi S M. split.
    - intros (r & A & i & C & D). apply or_split in C. destruct C as [C|C].
      + left. eapply efs_back; eauto.
      + right. exists r; eauto.
    - intros [H|(r & A & i & C & D)].
      + exists pi. split; [apply from_refl, M|]. exists 0. split; [|intros j Hj; lia]. apply holds_shift0, or_split; auto.
      + exists r. split; auto. exists i. split; auto. apply or_split; auto.
  Qed.
  Lemma or_nil : forall pi, ~ holds net pi (COr []).
  Proof. intros pi H. apply holds_or in H. destruct H as (c & [] & _). Qed.
  Lemma AU_nil : forall a pi, maximal net pi -> ~ holds net pi (CAU a (COr [])).
  Proof. intros a pi M H. destruct (H pi (from_refl M)) as (i & C & _). exact (@or_nil _ C). Qed.
  Lemma EU_nil : forall a pi, ~ holds net pi (CEU a (COr [])).
  Proof. intros a pi (r & _ & i & C & _). exact (@or_nil _ C). Qed.

  (** until *)
  Lemma EU_ndead : forall a, eqp (CEU a (CNot CDead)) (CNot CDead).
  Proof.
    intros a pi M. split.
    - intros (r & A & i & C & _). apply EF_ndead; auto. exists r. split; [exact A|]. exists i. exact C.
    - intros D. exists pi. split; [apply from_refl, M|]. exists 0. split; [now apply holds_shift0|]. intros j Hj; lia.
  Qed.
  Lemma AU_ndead : forall a, eqp (CAU a (CNot CDead)) (CNot CDead).
  Proof.
    intros a pi M. split.
    - intros H. apply AF_ndead; auto. intros r A. destruct (H r A) as (i & C & _). exists i; exact C.
    - intros D r A. exists 0. split; [|intros j Hj; lia]. apply (from_state (CNot CDead) eq_refl A), D.
  Qed.
  Lemma EU_dead : forall b, stf b = true -> eqp (CEU CDead b) b.
  Proof.
    intros b S pi M. split.
    - intros (r & A & i & C & D). apply (from_state b S A). destruct i as [|i]; auto.
      assert (D0 : dead net (r 0)) by (apply (D 0); lia).
      destruct A as (Am & Ae). refine (proj1 (stf_state net b S _ _ _) C). unfold shift.
      rewrite Nat.add_0_r. exact (dead_stays 0 Am D0 _).
    - intros H. exists pi. split; [apply from_refl, M|]. exists 0. split; [now apply holds_shift0|]. intros j Hj; lia.
  Qed.
  Lemma AU_dead : forall b, stf b = true -> eqp (CAU CDead b) b.
  Proof.
    intros b S pi M. split.
    - intros H. apply (EU_dead b S); auto. destruct (H pi (from_refl M)) as (i & C). exists pi. split; [apply from_refl, M|]. eauto.
    - intros H r A. exists 0. split; [|intros j Hj; lia]. apply (from_state b S A), H.
  Qed.
  (** before the first index satisfying [b] no marking is dead *)
  Lemma first_live : forall b r i, stf b = true -> maximal net r -> holds net (shift i r) b ->
    exists j, j <= i /\ holds net (shift j r) b /\ forall n, n < j -> ~ dead net (r n).
  Proof.
    intros b r i S M. induction i as [i IH] using lt_wf_ind. intros H.
    destruct (classic (exists n, n < i /\ dead net (r n))) as [(n & Hn & D)|N].
    - destruct (IH n Hn) as (j & A & B).
      + refine (proj1 (stf_state net b S _ _ _) H). unfold shift. rewrite !Nat.add_0_r.
        replace i with (n + (i - n)) by lia. apply dead_stays; auto.
      + exists j. split; [lia|auto].
    - exists i. split; [lia|]. split; auto. intros n Hn D. apply N. eauto.
  Qed.
  Lemma EU_live : forall b, stf b = true -> eqp (CEU (CNot CDead) b) (CEF b).
  Proof.
    intros b S pi M. split.
    - intros (r & A & i & C & _). exists r; eauto.
    - intros (r & A & i & C). destruct (first_live b i S (proj1 A) C) as (j & _ & B & D). exists r. split; auto.
      exists j. split; auto. intros n Hn. cbn [holds]. unfold shift. rewrite Nat.add_0_r. auto.
  Qed.
  Lemma AU_live : forall b, stf b = true -> eqp (CAU (CNot CDead) b) (CAF b).
  Proof.
    intros b S pi M. split.
    - intros H r A. destruct (H r A) as (i & C & _). eauto.
    - intros H r A. destruct (H r A) as (i & C). destruct (first_live b i S (proj1 A) C) as (j & _ & B & D).
      exists j. split; auto. intros n Hn. cbn [holds]. unfold shift. rewrite Nat.add_0_r. auto.
  Qed.
  Lemma EU_EF : forall a x, eqp (CEU a (CEF x)) (CEF x).
  Proof.
    intros a x pi M. split.
    - intros (r & A & i & C & _). eapply EF_back; eauto.
    - intros H. exists pi. split; [apply from_refl, M|]. exists 0. split; [now apply holds_shift0|]. intros j Hj; lia.
  Qed.
  Lemma AU_EF : forall a x, stf x = true -> eqp (CAU a (CEF x)) (CEF x).
  Proof.
    intros a x S pi M. split.
    - intros H. destruct (H pi (from_refl M)) as (i & C & _). eapply EF_back; [apply from_refl, M|eauto].
    - intros H r A. exists 0. split; [|intros j Hj; lia]. apply (from_state (CEF x) S A), H.
  Qed.
  Lemma AU_AF : forall a x, stf x = true -> eqp (CAU a (CAF x)) (CAF x).
  Proof.
    intros a x S pi M. split.
    - intros H r A. destruct (H r A) as (i & C & _). destruct (C (shift i r) (from_shift i A)) as (j & D).
      rewrite holds_shift_shift in D. eauto.
    - intros H r A. exists 0. split; [|intros j Hj; lia]. apply (from_state (CAF x) S A), H.
  Qed.

  (** linear time *)
  Lemma F_F : forall x, eqp (CF (CF x)) (CF x).
  Proof.
    intros x pi M. split.
    - intros (i & j & H). rewrite holds_shift_shift in H. exists (i + j). exact H.
    - intros H. exists 0. now apply holds_shift0.
  Qed.
  Lemma F_U : forall a x, eqp (CF (CU a x)) (CF x).
  Proof.
    intros a x pi M. split.
    - intros (i & j & H & _). rewrite holds_shift_shift in H. exists (i + j). exact H.
    - intros (i & H). exists i, 0. split; [now apply holds_shift0|]. intros j Hj; lia.
  Qed.
  Lemma F_or : forall l, eqp (CF (COr l)) (COr (map CF l)).
  Proof.
    intros l pi M. rewrite holds_or. split.
    - intros (i & H). apply holds_or in H. destruct H as (c & Hc & H). exists (CF c). split; [apply in_map, Hc|]. exists i; auto.
    - intros (c & Hc & H). apply in_map_iff in Hc. destruct Hc as (d & <- & Hd). destruct H as (i & H).
      exists i. apply holds_or. eauto.
  Qed.
  Lemma U_F : forall a x, eqp (CU a (CF x)) (CF x).
  Proof.
    intros a x pi M. split.
    - intros (i & (j & H) & _). rewrite holds_shift_shift in H. exists (i + j). exact H.
    - intros H. exists 0. split; [now apply holds_shift0|]. intros j Hj; lia.
  Qed.
End Rules.
