(** Proofs about sets of colours kept as intervals (C45). *)
From Verif Require Import Base BaseLemmas RangeSpec RangeModel IntvModel IntvSpec.

(** ** One interval *)
Lemma inb_length : forall b c, inb b c -> length b = length c.
Proof. intros b c H. induction H; cbn; auto. Qed.
Lemma inb_cons : forall r b v c, inb (r :: b) (v :: c) <-> (fst r <= v <= snd r)%N /\ inb b c.
Proof. intros. split; [intros H; inversion H; subst; auto|intros [H1 H2]; constructor; auto]. Qed.
Lemma inb_app : forall p q cp cq, length p = length cp -> (inb (p ++ q) (cp ++ cq) <-> inb p cp /\ inb q cq).
Proof.
  induction p as [|r p IH]; intros q [|v cp] cq L; try discriminate L; cbn [app].
  - split; [intros H; split; auto; constructor|intros [_ H]; auto].
  - rewrite !inb_cons, IH by (injection L; auto). tauto.
Qed.
Lemma inb_nonempty : forall b c, inb b c -> i_sound b = true.
Proof. intros b c H. induction H as [|r v b c H F IH]; auto. unfold i_sound in *. cbn [forallb]. rewrite IH, andb_true_r. unfold is_sound. apply N.leb_le. lia. Qed.

Definition below (a b : box) : Prop := Forall2 (fun r s => fst s <= fst r /\ snd r <= snd s)%N a b.
Lemma below_refl : forall a, below a a.
Proof. induction a; constructor; auto. lia. Qed.
Lemma below_trans : forall a b c, below a b -> below b c -> below a c.
Proof. intros a b c H. revert c. induction H as [|r s a b H F IH]; intros c K; inversion K; subst; constructor; [lia|apply IH; auto]. Qed.
Lemma below_in : forall a b c, below a b -> inb a c -> inb b c.
Proof. intros a b c H. revert c. induction H as [|r s a b H F IH]; intros c K; inversion K; subst; constructor; [lia|apply IH; auto]. Qed.
Lemma below_length : forall a b, below a b -> length a = length b.
Proof. intros a b H. induction H; cbn; auto. Qed.
Lemma or_left : forall a b, length a = length b -> below a (i_or a b).
Proof. induction a as [|r a IH]; intros [|s b] L; try discriminate L; [constructor|]. constructor; [cbn; lia|]. apply IH. auto. Qed.
Lemma or_right : forall a b, length a = length b -> below b (i_or a b).
Proof. induction a as [|r a IH]; intros [|s b] L; try discriminate L; [constructor|]. constructor; [cbn; lia|]. apply IH. auto. Qed.
Lemma or_least : forall a b c, below a c -> below b c -> below (i_or a b) c.
Proof. intros a b c H. revert b. induction H as [|r s a c H F IH]; intros b K; inversion K; subst; constructor; [cbn; lia|apply IH; auto]. Qed.
Lemma or_length : forall a b, length a = length b -> length (i_or a b) = length a.
Proof. intros a b L. symmetry. apply below_length, or_left, L. Qed.
Lemma or_sound : forall a b, length a = length b -> i_sound a = true -> i_sound b = true -> i_sound (i_or a b) = true.
Proof.
  unfold i_sound. induction a as [|r a IH]; intros [|s b] L A B; try discriminate L; auto. cbn [forallb i_or map2] in *. apply andb_prop in A, B.
  destruct A as [A1 A2], B as [B1 B2]. apply andb_true_intro. split; [|apply IH; auto]. unfold is_sound, r_or in *. apply N.leb_le in A1, B1. apply N.leb_le. cbn [fst snd]. lia.
Qed.
(** With one component the hull of two ranges that meet is their union. *)
Lemma or_one : forall a b c, length a = 1 -> length b = 1 -> i_meets a b = true -> inb (i_or a b) c -> inb a c \/ inb b c.
Proof.
  intros [|r [|]] [|s [|]] c A B M H; try discriminate A; try discriminate B. cbn in M. rewrite andb_true_r in M. unfold r_intersects in M.
  apply andb_prop in M. destruct M as [M1 M2]. apply N.leb_le in M1, M2. inversion H as [|x v ? cc Hv Hn]; subst. inversion Hn; subst. cbn [r_or fst snd] in Hv.
  assert (D : (fst r <= v <= snd r \/ fst s <= v <= snd s)%N) by lia. destruct D; [left|right]; repeat constructor; lia.
Qed.

Lemma overlap_in : forall a b c, length a = length b -> (inb (overlap a b) c <-> inb a c /\ inb b c).
Proof.
  intros a b c L. unfold overlap. rewrite L, Nat.eqb_refl. revert b c L. induction a as [|r a IH]; intros [|s b] c L; try discriminate L; cbn [map2].
  - split; [auto|tauto].
  - destruct c as [|v c]; [split; [intros H; inversion H|intros [H _]; inversion H]|]. rewrite !inb_cons, IH by auto. cbn [r_and fst snd].
    rewrite N.max_lub_iff, N.min_glb_iff. tauto.
Qed.
Lemma overlap_length : forall a b, length a = length b -> length (overlap a b) = length a.
Proof.
  intros a b L. unfold overlap. rewrite L, Nat.eqb_refl, <- L. revert b L. induction a as [|r a IH]; intros [|s b] L; try discriminate L; cbn; auto.
Qed.

Lemma contains_in : forall a b, length a = length b -> nonempty b -> (i_contains a b (repeat false (length a)) = true <-> forall c, inb b c -> inb a c).
Proof.
  intros a b L NE. unfold i_contains. rewrite L, Nat.eqb_refl. cbn [andb].
  revert b L NE. induction a as [|r a IH]; intros [|s b] L NE; try discriminate L.
  - cbn. split; auto.
  - cbn [length repeat i_inside orb fst r_compare]. inversion NE as [|x y N1 N2]; subst. injection L as L. rewrite !andb_true_iff. rewrite IH by auto.
    rewrite !N.leb_le. split.
    + intros [[H1 H2] H] c K. inversion K as [|s0 v b0 c0 Hv Hc]; subst. constructor; [lia|apply H; exact Hc].
    + intros H. assert (E : forall c, inb b c -> forall v, (fst s <= v <= snd s)%N -> inb (r :: a) (v :: c)) by (intros; apply H; constructor; auto).
      assert (W : exists c, inb b c). { clear - N2. induction N2 as [|x b Hx N2 [c IH]]; [exists []; constructor|]. exists (fst x :: c). constructor; auto. lia. }
      split.
      * destruct W as [c W]. pose proof (E c W (fst s) ltac:(lia)) as E1. pose proof (E c W (snd s) ltac:(lia)) as E2. rewrite inb_cons in E1, E2. lia.
      * intros c Hc. specialize (E c Hc (fst s) ltac:(lia)). rewrite inb_cons in E. tauto.
Qed.

(** ** Subtraction *)
Lemma split_c : forall (pre : box) (c : list N), length pre <= length c -> exists cp cs, c = cp ++ cs /\ length pre = length cp.
Proof.
  intros pre c H. exists (firstn (length pre) c), (skipn (length pre) c). rewrite firstn_skipn. split; auto. rewrite firstn_length. lia.
Qed.
Lemma cons_iff : forall x l c, inv (x :: l) c <-> inb x c \/ inv l c.
Proof. intros x l c. split; [intros (b & [<-|I] & H); [left; auto|right; exists b; auto]|intros [H|(b & I & H)]; [exists x; cbn; auto|exists b; cbn; auto]]. Qed.
Lemma nil_iff : forall c, inv [] c <-> False.
Proof. intros c. split; [intros (b & [] & _)|tauto]. Qed.

Lemma sub_from_in : forall rem pre other diag cp cs, length rem = length other -> length diag = length other -> nonempty other -> bounded other ->
  length pre = length cp -> (inv (sub_from pre rem other diag) (cp ++ cs) <-> inb pre cp /\ inb rem cs /\ outside diag other cs).
Proof.
  induction rem as [|r rem IH]; intros pre [|o other] [|d diag] cp cs L1 L2 NE BD LP; try discriminate L1; try discriminate L2; cbn [sub_from].
  - rewrite nil_iff. cbn. tauto.
  - injection L1 as L1. injection L2 as L2. inversion NE as [|? ? N1 N2]; subst. inversion BD as [|? ? B1 B2]; subst.
    destruct cs as [|v cs].
    { split; [|intros (_ & H & _); inversion H]. intros (b & I & H). exfalso. apply inb_length in H. rewrite app_nil_r in H.
      assert (G : forall rem pre other diag b, In b (sub_from pre rem other diag) -> length b = length pre + length rem).
      { clear. induction rem as [|r rem IH]; intros pre [|o other] [|d diag] b I; cbn [sub_from] in I; try destruct I.
        assert (A1 : forall x, In b (sub_from (pre ++ [x]) rem other diag) -> length b = length pre + length (r :: rem)).
        { intros x J. apply IH in J. rewrite J, app_length. cbn [length]. lia. }
        assert (A2 : forall x, pre ++ x :: rem = b -> length b = length pre + length (r :: rem)) by (intros x <-; rewrite app_length; reflexivity).
        destruct d; [eauto|]. cbn zeta in I.
        repeat match type of I with context [if ?x then _ else _] => destruct x end; cbn [In] in I; intuition eauto. }
      change (In b (sub_from pre (r :: rem) (o :: other) (d :: diag))) in I. apply G in I. cbn [length] in I. lia. }
    assert (RW : forall x, inv (sub_from (pre ++ [x]) rem other diag) (cp ++ v :: cs) <-> inb pre cp /\ (fst x <= v <= snd x)%N /\ inb rem cs /\ outside diag other cs).
    { intros x. replace (cp ++ v :: cs) with ((cp ++ [v]) ++ cs) by (rewrite <- app_assoc; reflexivity). rewrite IH by (auto; rewrite !app_length; cbn; lia).
      rewrite inb_app by auto. rewrite inb_cons. assert (Z : inb [] [] <-> True) by (split; auto; constructor). tauto. }
    assert (PW : forall x, inb (pre ++ x :: rem) (cp ++ v :: cs) <-> inb pre cp /\ (fst x <= v <= snd x)%N /\ inb rem cs) by (intros x; rewrite inb_app, inb_cons by auto; tauto).
    rewrite inb_cons. cbn [outside].
    assert (OD : (fst o <= v <= snd o)%N \/ ~ (fst o <= v <= snd o)%N) by lia.
    destruct d; [rewrite RW; intuition congruence|]. cbn zeta.
    rewrite N.mod_small by (change (2 ^ 32)%N with 4294967296%N; change (2 ^ 32 - 1)%N with 4294967295%N in B1; lia). clear B1 B2 BD.
    set (minup := Z.min (Z.of_N (fst o) - 1) (Z.of_N (snd r))). set (maxlow := N.max (snd o + 1) (fst r)).
    destruct (Z.leb_spec (Z.of_N (fst r)) minup) as [E1|E1]; destruct (N.leb_spec maxlow (snd r)) as [E2|E2]; cbn [andb].
    + rewrite !cons_iff, RW, !PW. cbn [fst snd].
      assert (A : (maxlow <= v <= snd r \/ fst r <= v <= Z.to_N minup <-> fst r <= v <= snd r /\ ~ (fst o <= v <= snd o))%N) by (unfold minup, maxlow in *; lia).
      assert (B : (Z.to_N (minup + 1) <= v <= maxlow - 1 <-> fst r <= v <= snd r /\ (fst o <= v <= snd o))%N) by (unfold minup, maxlow in *; lia).
      clearbody minup maxlow. clear E1 E2 RW PW. tauto.
    + rewrite cons_iff, PW. cbn [fst snd]. destruct (Z.leb_spec (Z.of_N (snd r)) minup) as [E3|E3].
      * rewrite nil_iff.
        assert (A : (fst r <= v <= Z.to_N minup <-> fst r <= v <= snd r)%N) by (unfold minup, maxlow in *; lia).
        assert (B : (fst r <= v <= snd r -> ~ (fst o <= v <= snd o))%N) by (unfold minup, maxlow in *; lia).
        clearbody minup maxlow. clear E1 E2 E3 RW PW. tauto.
      * rewrite RW. cbn [fst snd].
        assert (A : (fst r <= v <= Z.to_N minup <-> fst r <= v <= snd r /\ ~ (fst o <= v <= snd o))%N) by (unfold minup, maxlow in *; lia).
        assert (B : (Z.to_N (minup + 1) <= v <= snd r <-> fst r <= v <= snd r /\ (fst o <= v <= snd o))%N) by (unfold minup, maxlow in *; lia).
        clearbody minup maxlow. clear E1 E2 E3 RW PW. tauto.
    + rewrite cons_iff, PW. cbn [fst snd]. destruct (N.leb_spec maxlow (fst r)) as [E3|E3].
      * rewrite nil_iff.
        assert (A : (maxlow <= v <= snd r <-> fst r <= v <= snd r)%N) by (unfold minup, maxlow in *; lia).
        assert (B : (fst r <= v <= snd r -> ~ (fst o <= v <= snd o))%N) by (unfold minup, maxlow in *; lia).
        clearbody minup maxlow. clear E1 E2 E3 RW PW. tauto.
      * rewrite RW. cbn [fst snd].
        assert (A : (maxlow <= v <= snd r <-> fst r <= v <= snd r /\ ~ (fst o <= v <= snd o))%N) by (unfold minup, maxlow in *; lia).
        assert (B : (fst r <= v <= maxlow - 1 <-> fst r <= v <= snd r /\ (fst o <= v <= snd o))%N) by (unfold minup, maxlow in *; lia).
        clearbody minup maxlow. clear E1 E2 E3 RW PW. tauto.
    + rewrite RW.
      assert (B : (fst r <= v <= snd r -> fst o <= v <= snd o)%N) by (unfold minup, maxlow in *; lia).
      clearbody minup maxlow. clear E1 E2 RW PW. tauto.
Qed.
Theorem subtracted_in : forall a b diag c, length a = length b -> length diag = length b -> nonempty b -> bounded b ->
  (inv (subtracted a b diag) c <-> inb a c /\ outside diag b c).
Proof.
  intros a b diag c L D NE BD. unfold subtracted. rewrite L, Nat.eqb_refl. pose proof (sub_from_in a [] b diag [] c L D NE BD eq_refl) as H. cbn [app] in H.
  rewrite H. assert (Z : inb [] [] <-> True) by (split; auto; constructor). tauto.
Qed.
Lemma outside_all : forall b c, length b = length c -> (outside (repeat false (length b)) b c <-> ~ inb b c).
Proof.
  induction b as [|r b IH]; intros [|v c] L; try discriminate L; cbn [length repeat outside].
  - split; [tauto|]. intros H. apply H. constructor.
  - rewrite inb_cons, IH by auto. assert (D : (fst r <= v <= snd r)%N \/ ~ (fst r <= v <= snd r)%N) by lia. tauto.
Qed.

(** ** Sets *)
Lemma inv_app : forall l l' c, inv (l ++ l') c <-> inv l c \/ inv l' c.
Proof.
  intros l l' c. split.
  - intros (b & I & H). apply in_app_or in I. destruct I; [left|right]; exists b; auto.
  - intros [(b & I & H)|(b & I & H)]; exists b; split; auto; apply in_or_app; auto.
Qed.

Lemma add_in : forall d l b, dims d l -> length b = d -> dims d (add_interval l b) /\
  forall c, (inb b c \/ inv l c -> inv (add_interval l b) c) /\ (d = 1 -> inv (add_interval l b) c -> inb b c \/ inv l c).
Proof.
  intros d l b D L. induction D as [|x l Lx D [IH1 IH2]]; cbn [add_interval].
  - split; [repeat constructor; auto|]. intros c. pose proof (cons_iff b [] c). pose proof (nil_iff c). tauto.
  - assert (LL : length b = length x) by congruence. destruct (i_meets b x) eqn:M.
    + split; [constructor; auto; rewrite or_length; congruence|]. intros c. rewrite !cons_iff. split.
      * intros [H|[H|H]]; auto; left; [eapply below_in; [apply or_right|]|eapply below_in; [apply or_left|]]; eauto.
      * intros -> [H|H]; auto. apply or_one in H; try congruence; [tauto|].
        clear - M L Lx. destruct b as [|r [|]], x as [|s [|]]; try discriminate. cbn in *. rewrite andb_true_r in *. unfold r_intersects in *. rewrite andb_comm. exact M.
    + destruct (is_lower b x).
      * split; [repeat constructor; auto|]. intros c. rewrite !cons_iff. tauto.
      * split; [constructor; auto|]. intros c. rewrite !cons_iff. destruct (IH2 c) as [A B]. split; [tauto|]. intros E [H|H]; auto. apply B in H; tauto.
Qed.

Lemma absorb_cons : forall b o l, absorb b (o :: l) =
  (if negb (i_sound o) then absorb b l
   else if i_meets (fst (absorb b l)) o then (i_or (fst (absorb b l)) o, snd (absorb b l))
   else (fst (absorb b l), o :: snd (absorb b l))).
Proof. reflexivity. Qed.
Lemma absorb_in : forall d l b b' l', dims d l -> length b = d -> i_sound b = true -> absorb b l = (b', l') ->
  length b' = d /\ i_sound b' = true /\ dims d l' /\ length l' <= length l /\ Forall (fun x => i_sound x = true) l' /\
  forall c, (inb b c \/ inv l c -> inb b' c \/ inv l' c) /\ (d = 1 -> inb b' c \/ inv l' c -> inb b c \/ inv l c).
Proof.
  intros d l b b' l' D L S. revert b' l'. induction D as [|o l Lo D IH]; intros b' l' H.
  - injection H as <- <-. split; [exact L|]. split; [exact S|]. split; [constructor|]. split; [apply le_n|]. split; [constructor|]. intros c. tauto.
  - rewrite absorb_cons in H. destruct (absorb b l) as [b1 l1] eqn:E. destruct (IH _ _ eq_refl) as (I1 & I2 & I3 & I4 & I5 & I6). clear IH E. cbn [fst snd] in H.
    destruct (i_sound o) eqn:So; cbn [negb] in H.
    + destruct (i_meets b1 o) eqn:M; injection H as <- <-.
      * split; [rewrite or_length; congruence|]. split; [apply or_sound; auto; congruence|]. split; auto. split; [cbn; lia|]. split; auto.
        intros c. rewrite cons_iff. destruct (I6 c) as [A B]. split.
        -- assert (X : inb b1 c -> inb (i_or b1 o) c) by (apply below_in, or_left; congruence).
           assert (Y : inb o c -> inb (i_or b1 o) c) by (apply below_in, or_right; congruence). tauto.
        -- intros E1 [H|H]; [|destruct B; auto]. apply or_one in H; try congruence. destruct H as [H|H]; [destruct B; auto|tauto].
      * split; auto. split; auto. split; [constructor; auto|]. split; [cbn; lia|]. split; [constructor; auto|].
        intros c. rewrite !cons_iff. destruct (I6 c) as [A B]. split; [tauto|]. intros E1 H. specialize (B E1). tauto.
    + injection H as <- <-. split; auto. split; auto. split; auto. split; [cbn; lia|]. split; auto.
      intros c. rewrite cons_iff. destruct (I6 c) as [A B]. split; [|tauto].
      assert (X : ~ inb o c) by (intros K; apply inb_nonempty in K; congruence). tauto.
Qed.
Lemma rounds_in : forall d fuel l, length l <= fuel -> dims d l -> (forall b l', l = b :: l' -> i_sound b = true) ->
  dims d (simp_rounds fuel l) /\ length (simp_rounds fuel l) <= length l /\ Forall (fun x => i_sound x = true) (simp_rounds fuel l) /\
  forall c, (inv l c -> inv (simp_rounds fuel l) c) /\ (d = 1 -> inv (simp_rounds fuel l) c -> inv l c).
Proof.
  intros d. induction fuel as [|fuel IH]; intros [|b l] F D S; cbn [simp_rounds]; try (cbn in F; lia);
    try (split; [constructor|]; split; [cbn; lia|]; split; [constructor|]; intros c; tauto).
  destruct (absorb b l) as [b' l'] eqn:E. inversion D as [|? ? D1 D2]; subst.
  destruct (absorb_in (length b) l b b' l' D2 eq_refl (S _ _ eq_refl) E) as (A1 & A2 & A3 & A4 & A5 & A6).
  destruct (IH l') as (B1 & B2 & B3 & B4); [cbn in F; lia|exact A3|intros x y ->; inversion A5; auto|].
  split; [constructor; auto|]. split; [cbn; lia|]. split; [constructor; auto|]. intros c. rewrite !cons_iff. destruct (A6 c) as [C1 C2], (B4 c) as [D3 D4].
  split; [tauto|]. intros E1 H. apply C2; auto. destruct H; auto.
Qed.
Lemma drop_in : forall d l, dims d l -> dims d (drop_unsound l) /\ length (drop_unsound l) <= length l /\ (forall b l', drop_unsound l = b :: l' -> i_sound b = true) /\
  forall c, inv (drop_unsound l) c <-> inv l c.
Proof.
  intros d l D. induction D as [|x l Lx D (I1 & I2 & I3 & I4)]; cbn [drop_unsound].
  - split; [constructor|]. split; auto. split; [discriminate|]. tauto.
  - destruct (i_sound x) eqn:S.
    + split; [constructor; auto|]. split; auto. split; [intros b l' H; injection H as <- <-; exact S|]. tauto.
    + split; auto. split; [cbn; lia|]. split; auto. intros c. rewrite I4, cons_iff.
      assert (X : ~ inb x c) by (intros K; apply inb_nonempty in K; congruence). tauto.
Qed.
Theorem simplify_in : forall d l, dims d l -> dims d (simplify l) /\ length (simplify l) <= length l /\ Forall (fun x => i_sound x = true) (simplify l) /\
  forall c, (inv l c -> inv (simplify l) c) /\ (d = 1 -> inv (simplify l) c -> inv l c).
Proof.
  intros d l D. destruct (drop_in d l D) as (A1 & A2 & A3 & A4). unfold simplify. destruct (rounds_in d (length (drop_unsound l)) (drop_unsound l)) as (B1 & B2 & B3 & B4); auto.
  split; auto. split; [lia|]. split; auto. intros c. specialize (A4 c). specialize (B4 c). tauto.
Qed.
