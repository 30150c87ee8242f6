(** Proofs about sets of colours kept as intervals: merging, operations on classes (C45). *)
From Verif Require Import Base BaseLemmas RangeSpec RangeModel CtlFrag IntvModel IntvSpec IntvProofs IntvMore.

Lemma firstn_In' : forall (A : Type) n (l : list A) x, In x (firstn n l) -> In x l.
Proof. intros A n l x H. rewrite <- (firstn_skipn n l). apply in_or_app. auto. Qed.
Lemma skipn_In' : forall (A : Type) n (l : list A) x, In x (skipn n l) -> In x l.
Proof. intros A n l x H. rewrite <- (firstn_skipn n l). apply in_or_app. auto. Qed.

(** ** Merging the closest intervals *)
Definition upto (m : N) (b : box) : Prop := Forall (fun r => snd r <= m)%N b.
Definition fine (d : nat) (m : N) (l : list box) : Prop := forall b, In b l -> length b = d /\ i_sound b = true /\ upto m b.

Lemma gap_le : forall m r s, (m < 2 ^ 31)%N -> (fst r <= snd r)%N -> (fst s <= snd s)%N -> (snd r <= m)%N -> (snd s <= m)%N -> (gap r s <= m)%N.
Proof.
  intros m r s M A B C D. unfold gap, i32. change (2 ^ 31)%N with 2147483648%N in M. change (2 ^ 31)%Z with 2147483648%Z. change (2 ^ 32)%Z with 4294967296%Z.
  rewrite !Z.mod_small by lia. lia.
Qed.
Lemma distance_le : forall m best a b acc, (m < 2 ^ 31)%N -> length a = length b -> i_sound a = true -> i_sound b = true -> upto m a -> upto m b ->
  (acc + N.of_nat (length a) * m < 2 ^ 32)%N -> (distance best acc a b <= acc + N.of_nat (length a) * m)%N.
Proof.
  intros m best. induction a as [|r a IH]; intros [|s b] acc M L A B UA UB H; try discriminate L; cbn [distance].
  - lia.
  - cbn [i_sound forallb] in A, B. apply andb_prop in A, B. destruct A as [A1 A2], B as [B1 B2]. unfold is_sound in A1, B1. apply N.leb_le in A1, B1.
    inversion UA; inversion UB; subst. pose proof (gap_le m r s M A1 B1 ltac:(assumption) ltac:(assumption)) as G.
    cbn [length] in *. rewrite Nat2N.inj_succ, N.mul_succ_l in *. rewrite N.mod_small by lia. destruct (best <=? acc + gap r s)%N; [lia|].
    etransitivity; [apply IH; auto; lia|lia].
Qed.
Lemma closest_from_in : forall l ps best, In (fst (closest_from l ps best)) ps \/ closest_from l ps best = best.
Proof.
  intros l. induction ps as [|[i j] ps IH]; intros best; cbn [closest_from]; auto.
  destruct (_ <? _)%N; [destruct (_ =? 1)%N; [left; left; reflexivity|]|].
  - destruct (IH (i, j, distance (snd best) 0 (nth i l []) (nth j l []))) as [H|H]; [left; right; auto|]. rewrite H. left. left. reflexivity.
  - destruct (IH best) as [H|H]; [left; right; auto|auto].
Qed.
Lemma pairs_in : forall k i j, In (i, j) (pairs k) -> i < j < k.
Proof.
  intros k i j H. unfold pairs in H. apply in_flat_map in H. destruct H as (x & I & H). apply in_map_iff in H. destruct H as (y & E & J). injection E as -> ->. apply in_seq in I, J. lia.
Qed.
Lemma pairs_first : forall k, 2 <= k -> exists ps, pairs k = (0, 1) :: ps.
Proof.
  intros [|[|k]] H; try lia. unfold pairs. cbn [Nat.sub seq flat_map map app]. eexists. reflexivity.
Qed.
Lemma closest_valid : forall d m l, (m < 2 ^ 31)%N -> (N.of_nat d * m < 2 ^ 32 - 1)%N -> fine d m l -> 2 <= length l ->
  exists i j k, closest l = (i, j, k) /\ i < j < length l.
Proof.
  intros d m l M DM F L. unfold closest. destruct (pairs_first (length l) L) as [ps E]. pose proof (pairs_in (length l)) as PI. rewrite E in *. cbn [closest_from snd].
  assert (D : (distance (2 ^ 32 - 1) 0 (nth 0 l []) (nth 1 l []) < 2 ^ 32 - 1)%N).
  { destruct (F (nth 0 l [])) as (A1 & A2 & A3); [apply nth_In; lia|]. destruct (F (nth 1 l [])) as (B1 & B2 & B3); [apply nth_In; lia|].
    assert (Z : (0 + N.of_nat (length (nth 0 l [])) * m < 2 ^ 32)%N) by (rewrite A1; change (2 ^ 32)%N with 4294967296%N in *; lia).
    pose proof (distance_le m (2 ^ 32 - 1) (nth 0 l []) (nth 1 l []) 0%N M ltac:(congruence) A2 B2 A3 B3 Z) as Q.
    rewrite A1 in Q. change (2 ^ 32)%N with 4294967296%N in *. lia. }
  apply N.ltb_lt in D. rewrite D. destruct (_ =? 1)%N.
  - eexists _, _, _. split; [reflexivity|]. lia.
  - set (best := (0, 1, _)). destruct (closest_from_in l ps best) as [H|H].
    + destruct (closest_from l ps best) as [[i j] k]. exists i, j, k. split; auto. apply PI. right. exact H.
    + rewrite H. unfold best. eexists _, _, _. split; [reflexivity|]. lia.
Qed.
Lemma in_split_nth : forall (l : list box) i b, i < length l -> In b l -> b = nth i l [] \/ In b (firstn i l) \/ In b (skipn (S i) l).
Proof.
  induction l as [|x l IH]; intros i b L I; [destruct I|]. destruct i as [|i]; cbn [nth firstn skipn].
  - destruct I as [->|I]; auto.
  - cbn in L. destruct I as [->|I]; [right; left; left; reflexivity|]. destruct (IH i b ltac:(lia) I) as [H|[H|H]]; auto. right. left. right. exact H.
Qed.
Lemma nth_set : forall (l : list box) i j x, i < j -> j < length l -> nth j (firstn i l ++ x :: skipn (S i) l) [] = nth j l [].
Proof.
  intros l i j x A B. rewrite app_nth2; rewrite firstn_length, Nat.min_l by lia; [|lia]. destruct (j - i) as [|k] eqn:E; [lia|]. cbn [nth].
  rewrite <- (firstn_skipn (S i) l) at 2. rewrite app_nth2; rewrite firstn_length, Nat.min_l by lia; [|lia]. f_equal. lia.
Qed.
Lemma set_length : forall (l : list box) i x, i < length l -> length (firstn i l ++ x :: skipn (S i) l) = length l.
Proof. intros l i x L. rewrite app_length, firstn_length. cbn [length]. rewrite skipn_length. lia. Qed.
Lemma upto_or : forall m a b, upto m a -> upto m b -> upto m (i_or a b).
Proof. intros m a b A. revert b. induction A as [|r a R A IH]; intros [|s b] B; try constructor; inversion B; subst; [cbn [r_or snd]; lia|apply IH; auto]. Qed.
Lemma merge_pair_in : forall d m l i j, fine d m l -> i < j < length l ->
  fine d m (merge_pair l i j) /\ S (length (merge_pair l i j)) = length l /\ forall c, inv l c -> inv (merge_pair l i j) c.
Proof.
  intros d m l i j F L. unfold merge_pair. set (h := i_or (nth i l []) (nth j l [])). set (l' := firstn i l ++ h :: skipn (S i) l).
  assert (L' : length l' = length l) by (apply set_length; lia).
  destruct (F (nth i l [])) as (A1 & A2 & A3); [apply nth_In; lia|]. destruct (F (nth j l [])) as (B1 & B2 & B3); [apply nth_In; lia|].
  assert (H : length h = d /\ i_sound h = true /\ upto m h).
  { unfold h. split; [rewrite or_length; congruence|]. split; [apply or_sound; auto; congruence|apply upto_or; auto]. }
  assert (F' : fine d m l').
  { intros b I. apply in_app_or in I. destruct I as [I|[<-|I]]; auto; apply F; [eapply firstn_In'; eauto|eapply skipn_In'; eauto]. }
  assert (Hin : In h (firstn j l' ++ skipn (S j) l')).
  { apply in_or_app. left. unfold l'. rewrite firstn_app, firstn_length, Nat.min_l by lia. apply in_or_app. right. destruct (j - i) eqn:E; [lia|]. left. reflexivity. }
  split; [|split].
  - intros b I. apply F'. apply in_app_or in I. destruct I as [I|I]; [eapply firstn_In'; eauto|eapply skipn_In'; eauto].
  - rewrite app_length, firstn_length, skipn_length. lia.
  - intros c (b & I & H1). destruct (in_split_nth l i b ltac:(lia) I) as [E|I'].
    + exists h. split; auto. subst b. eapply below_in; [apply or_left; congruence|exact H1].
    + assert (I2 : In b l') by (apply in_or_app; destruct I'; [left|right; right]; auto). destruct (in_split_nth l' j b ltac:(lia) I2) as [E|I3].
      * exists h. split; auto. unfold l' in E. rewrite nth_set in E by lia. subst b. eapply below_in; [apply or_right; congruence|exact H1].
      * exists b. split; auto. apply in_or_app. tauto.
Qed.
Lemma restrict_loop_in : forall d m k, (m < 2 ^ 31)%N -> (N.of_nat d * m < 2 ^ 32 - 1)%N -> 0 < k -> forall fuel l, fine d m l -> length l <= k + fuel ->
  fine d m (restrict_loop fuel k l) /\ length (restrict_loop fuel k l) <= k /\ forall c, inv l c -> inv (restrict_loop fuel k l) c.
Proof.
  intros d m k M DM K. induction fuel as [|fuel IH]; intros l F L; cbn [restrict_loop].
  - split; auto. split; [lia|auto].
  - destruct (Nat.ltb_spec k (length l)) as [H|H]; [|split; auto].
    destruct (closest_valid d m l M DM F ltac:(lia)) as (i & j & x & E & V). rewrite E. destruct (merge_pair_in d m l i j F V) as (A & B & C).
    destruct (IH (merge_pair l i j) A ltac:(lia)) as (A' & B' & C'). split; auto.
Qed.
Lemma upto_absorb : forall m l b b' l', upto m b -> Forall (upto m) l -> absorb b l = (b', l') -> upto m b' /\ Forall (upto m) l'.
Proof.
  intros m. induction l as [|o l IH]; intros b b' l' B F H; [cbn in H; injection H as <- <-; auto|].
  rewrite absorb_cons in H. inversion F; subst. destruct (IH b (fst (absorb b l)) (snd (absorb b l)) B ltac:(assumption) ltac:(destruct (absorb b l); reflexivity)) as [I1 I2].
  destruct (i_sound o); cbn [negb] in H; [|rewrite H in *; cbn [fst snd] in *; auto]. destruct (i_meets _ _); injection H as <- <-; split; auto. apply upto_or; auto.
Qed.
Lemma upto_rounds : forall m fuel l, Forall (upto m) l -> Forall (upto m) (simp_rounds fuel l).
Proof.
  intros m. induction fuel as [|fuel IH]; intros l F; cbn [simp_rounds]; [destruct l; auto|]. destruct l as [|b l]; auto. inversion F; subst. destruct (absorb b l) as [b' l'] eqn:E.
  destruct (upto_absorb m l b b' l' ltac:(assumption) ltac:(assumption) E). constructor; auto.
Qed.
Lemma upto_simplify : forall m l, Forall (upto m) l -> Forall (upto m) (simplify l).
Proof.
  intros m l F. unfold simplify. apply upto_rounds. induction F as [|b l B F IH]; cbn [drop_unsound]; auto. destruct (i_sound b); auto.
Qed.
Theorem restrict_in : forall d k l, dims d l -> small d l -> 0 < k ->
  dims d (restrict k l) /\ length (restrict k l) <= k /\ Forall (fun b => i_sound b = true) (restrict k l) /\ forall c, inv l c -> inv (restrict k l) c.
Proof.
  intros d k l D (m & M & DM & U) K. unfold restrict. destruct (Nat.eqb_spec k 0); [lia|]. destruct (simplify_in d l D) as (A1 & A2 & A3 & A4).
  assert (F : fine d m (simplify l)).
  { intros b I. pose proof (upto_simplify m l U) as U'. unfold dims in A1. rewrite Forall_forall in A1, A3, U'. auto. }
  destruct (restrict_loop_in d m k M DM K (length (simplify l)) (simplify l) F ltac:(lia)) as (B1 & B2 & B3).
  assert (D2 : dims d (restrict_loop (length (simplify l)) k (simplify l))) by (apply Forall_forall; intros b I; apply B1; auto).
  destruct (simplify_in d _ D2) as (C1 & C2 & C3 & C4). split; auto. split; [lia|]. split; auto. intros c H. apply C4, B3, A4, H.
Qed.

(** ** Merging neighbours *)
Definition okl (d : nat) (l : list (box * bool)) : Prop := Forall (fun x => length (fst x) = d /\ bounded (fst x)) l.
Lemma bounded_or : forall a b, bounded a -> bounded b -> bounded (i_or a b).
Proof. intros a b A. revert b. induction A as [|r a R A IH]; intros [|s b] B; try constructor; inversion B; subst; [cbn [r_or snd]; lia|apply IH; auto]. Qed.
Lemma near_mono : forall o a b d1 d2, length o = length a -> below b a -> bounded o -> bounded a -> bounded b -> (d1 <= d2 <= 1)%N -> near d1 b o = true -> near d2 a o = true.
Proof.
  intros o a b d1 d2 L H. revert o d1 d2 L. induction H as [|r s b a [H1 H2] H IH]; intros [|x o] d1 d2 L BO BA BB D; try discriminate L; auto.
  inversion BO; inversion BA; inversion BB; subst. cbn [near]. change (2 ^ 32 - 1)%N with 4294967295%N in *. change (2 ^ 32)%N with 4294967296%N.
  rewrite !N.mod_small by lia. intros N.
  destruct (N.ltb_spec (snd x) (fst r)); destruct (N.ltb_spec (snd r) (fst x)); destruct (N.ltb_spec (snd x) (fst s)); destruct (N.ltb_spec (snd s) (fst x)); cbn [orb] in *; try lia;
    destruct (N.ltb_spec (snd x + d1) (fst r)); destruct (N.ltb_spec (snd r + d1) (fst x)); cbn [orb] in *; try discriminate N;
    try (destruct (N.ltb_spec (snd x + d2) (fst s)); destruct (N.ltb_spec (snd s + d2) (fst x)); cbn [orb]; try lia);
    (eapply IH; [| | | | |exact N]; auto; lia) .
Qed.
Lemma below_or : forall a b o, length b = length o -> below b a -> below (i_or b o) (i_or a o).
Proof.
  intros a b o L H. apply or_least.
  - eapply below_trans; [exact H|]. apply or_left. rewrite <- (below_length _ _ H). auto.
  - apply or_right. rewrite <- (below_length _ _ H). auto.
Qed.
Lemma gather_cons : forall b o rm l, gather b ((o, rm) :: l) =
  (if negb (i_sound o) then (fst (gather b l), (o, rm) :: snd (gather b l))
   else if near 1 b o then (fst (gather (i_or b o) l), (o, true) :: snd (gather (i_or b o) l))
   else (fst (gather b l), (o, rm) :: snd (gather b l))).
Proof. intros. cbn [gather]. destruct (i_sound o); cbn [negb]; [destruct (near 1 b o)|]; destruct (gather _ l); reflexivity. Qed.
Lemma gather_boxes : forall l b, map fst (snd (gather b l)) = map fst l.
Proof. induction l as [|[o rm] l IH]; intros b; auto. rewrite gather_cons. destruct (i_sound o); cbn [negb]; [destruct (near 1 b o)|]; cbn [snd map fst]; rewrite IH; reflexivity. Qed.
Lemma okl_boxes : forall d l l', map fst l = map fst l' -> okl d l -> okl d l'.
Proof.
  intros d. induction l as [|x l IH]; intros [|y l'] E H; try discriminate E; [constructor|]. destruct x as [x rx], y as [y ry]. cbn [map fst] in E. injection E as E1 E2. inversion H as [|? ? K1 K2]; subst. constructor; [exact K1|apply IH; auto].
Qed.
Lemma gather_below : forall d l b, okl d l -> length b = d -> below b (fst (gather b l)).
Proof.
  intros d. induction l as [|[o rm] l IH]; intros b O L; [apply below_refl|]. rewrite gather_cons. inversion O as [|? ? [O1 O2] O3]; subst. cbn [fst] in *.
  destruct (i_sound o); cbn [negb]; [destruct (near 1 b o)|]; cbn [fst]; auto. eapply below_trans; [apply (or_left b o); auto|]. apply IH; auto. rewrite or_length; auto.
Qed.
Lemma gather_again : forall d l a b, okl d l -> below b a -> length a = d -> bounded a -> bounded b -> snd (gather b (snd (gather a l))) = snd (gather a l).
Proof.
  intros d. induction l as [|[o rm] l IH]; intros a b O H L BA BB; [reflexivity|]. inversion O as [|? ? [O1 O2] O3]; subst. cbn [fst] in *. pose proof (below_length _ _ H) as LB.
  rewrite gather_cons. destruct (i_sound o) eqn:S; cbn [negb]; [destruct (near 1 a o) eqn:N|]; cbn [snd]; rewrite gather_cons, S; cbn [negb].
  - destruct (near 1 b o) eqn:N2; cbn [snd]; f_equal.
    + apply IH; auto; [apply below_or; congruence|rewrite or_length; auto|apply bounded_or; auto|apply bounded_or; auto].
    + apply IH; auto; [eapply below_trans; [exact H|apply (or_left a o); auto]|rewrite or_length; auto|apply bounded_or; auto].
  - destruct (near 1 b o) eqn:N2; [exfalso|cbn [snd]; f_equal; apply IH; auto]. assert (K : near 1 a o = true) by (eapply near_mono; [| | | | | |exact N2]; auto; lia). congruence.
  - cbn [snd]. f_equal. apply IH; auto.
Qed.
Lemma gather_keep : forall l o b, snd (gather o l) = l -> snd (gather o (snd (gather b l))) = snd (gather b l).
Proof.
  induction l as [|[x rm] l IH]; intros o b H; [reflexivity|]. rewrite gather_cons in H. rewrite (gather_cons b).
  destruct (i_sound x) eqn:S; cbn [negb] in *; [destruct (near 1 b x) eqn:N; destruct (near 1 o x) eqn:N2|]; cbn [snd] in *; rewrite gather_cons, S; cbn [negb]; try rewrite N2; cbn [snd]; injection H; intros; subst; f_equal; auto.
Qed.
Fixpoint closed (l : list (box * bool)) : Prop :=
  match l with
  | [] => True
  | (b, rm) :: l' => (rm = true -> i_sound b = true -> snd (gather b l') = l') /\ closed l'
  end.
Lemma closed_gather : forall d l b, okl d l -> length b = d -> bounded b -> closed l -> closed (snd (gather b l)).
Proof.
  intros d. induction l as [|[o rm] l IH]; intros b O L B C; [exact I|]. inversion O as [|? ? [O1 O2] O3]; subst. cbn [fst] in *. destruct C as [C1 C2].
  rewrite gather_cons. destruct (i_sound o) eqn:S; cbn [negb]; [destruct (near 1 b o) eqn:N|]; cbn [snd closed]; split.
  - intros _ _. eapply gather_again; eauto; [apply or_right; auto|rewrite or_length; auto|apply bounded_or; auto].
  - apply IH; auto; [rewrite or_length; auto|apply bounded_or; auto].
  - intros R _. apply gather_keep. auto.
  - auto.
  - congruence.
  - auto.
Qed.
Lemma gather_marked : forall d l b o, okl d l -> length b = d -> In (o, false) l -> i_sound o = true ->
  In (o, false) (snd (gather b l)) \/ (below o (fst (gather b l)) /\ snd (gather b l) <> l).
Proof.
  intros d. induction l as [|[x rm] l IH]; intros b o O L I S; [destruct I|]. inversion O as [|? ? [O1 O2] O3]; subst. cbn [fst] in *.
  rewrite gather_cons. destruct I as [I|I].
  - injection I as -> ->. rewrite S. cbn [negb]. destruct (near 1 b o); cbn [fst snd]; [right|left; left; reflexivity]. split; [|congruence].
    eapply below_trans; [apply (or_right b o); auto|]. eapply gather_below; eauto. rewrite or_length; auto.
  - destruct (i_sound x); cbn [negb]; [destruct (near 1 b x)|]; cbn [fst snd].
    + destruct (IH (i_or b x) o O3 ltac:(rewrite or_length; auto) I S) as [K|[K1 K2]]; [left; right; auto|right; split; auto; congruence].
    + destruct (IH b o O3 eq_refl I S) as [K|[K1 K2]]; [left; right; auto|right; split; auto; congruence].
    + destruct (IH b o O3 eq_refl I S) as [K|[K1 K2]]; [left; right; auto|right; split; auto; congruence].
Qed.
Lemma gather_length : forall l b, length (snd (gather b l)) = length l.
Proof. intros l b. rewrite <- (map_length fst), gather_boxes, map_length. reflexivity. Qed.
Lemma comb_rounds_in : forall d fuel l o, length l <= fuel -> okl d l -> closed l -> In (o, false) l -> i_sound o = true ->
  exists b, In (b, false) (comb_rounds fuel l) /\ below o b.
Proof.
  intros d. induction fuel as [|fuel IH]; intros l o L O C I S; [destruct l; [destruct I|cbn in L; lia]|]. destruct l as [|[b rm] l]; [destruct I|].
  inversion O as [|? ? [O1 O2] O3]; subst. cbn [fst length] in *. destruct C as [C1 C2]. cbn [comb_rounds]. destruct (i_sound b) eqn:SB; cbn [negb].
  - destruct (gather b l) as [b' l'] eqn:G. assert (G1 : b' = fst (gather b l)) by (rewrite G; auto). assert (G2 : l' = snd (gather b l)) by (rewrite G; auto).
    destruct I as [I|I].
    + injection I as -> ->. exists b'. split; [left; reflexivity|]. rewrite G1. eapply gather_below; eauto.
    + destruct (gather_marked _ l b o O3 eq_refl I S) as [K|[K1 K2]].
      * destruct (IH l' o) as (x & X1 & X2); auto.
        -- rewrite G2, gather_length. lia.
        -- eapply okl_boxes; [|exact O3]. rewrite G2. symmetry. apply gather_boxes.
        -- rewrite G2. eapply closed_gather; eauto.
        -- rewrite G2. exact K.
        -- exists x. split; auto. right. exact X1.
      * destruct rm; [exfalso; apply K2; rewrite <- G2; apply C1; auto|]. exists b'. split; [left; reflexivity|]. rewrite G1. exact K1.
  - destruct I as [I|I]; [congruence|]. destruct (IH l o) as (x & X1 & X2); auto; [lia|]. exists x. split; auto. right. exact X1.
Qed.
Theorem combine_in : forall d l, dims d l -> Forall bounded l -> forall c, inv l c -> inv (combine_neighbours l) c.
Proof.
  intros d l D B c (o & I & H). unfold combine_neighbours.
  destruct (comb_rounds_in d (length l) (map (fun b => (b, false)) l) o) as (b & X1 & X2).
  - rewrite map_length. auto.
  - apply Forall_forall. intros x K. apply in_map_iff in K. destruct K as (y & <- & K). cbn [fst]. unfold dims in D. rewrite Forall_forall in D, B. auto.
  - clear. induction l as [|x l IH]; cbn [map closed]; auto. split; [discriminate|auto].
  - apply in_map_iff. eauto.
  - eapply inb_nonempty; eauto.
  - exists b. split; [|eapply below_in; eauto]. apply in_map_iff. exists (b, false). split; auto. apply filter_In. auto.
Qed.

(** ** Operations on classes *)
Section Cand.
Variable d : nat.
Variable x : box.
Variable g : box -> box.
Hypothesis Lx : length x = d.
Hypothesis Lg : forall y, length y = d -> length (g y) = d /\ forall c, inb (g y) c <-> inb x c /\ inb y c.
Lemma cand_in : forall ys r, dims d ys -> dims d r ->
  let r' := fold_left (fun r y => if i_sound (g y) then add_interval r (g y) else r) ys r in
  dims d r' /\ forall c, (inv r c \/ (inb x c /\ inv ys c) -> inv r' c) /\ (d = 1 -> inv r' c -> inv r c \/ (inb x c /\ inv ys c)).
Proof.
  intros ys r D. revert r. induction D as [|y ys Ly D IH]; intros r R; cbn [fold_left].
  - split; auto. intros c. pose proof (nil_iff c). tauto.
  - destruct (Lg y Ly) as [G1 G2]. destruct (i_sound (g y)) eqn:S.
    + destruct (add_in d r (g y) R G1) as [A1 A2]. destruct (IH _ A1) as [B1 B2]. split; auto. intros c. specialize (G2 c). specialize (A2 c). specialize (B2 c). pose proof (cons_iff y ys c). tauto.
    + destruct (IH _ R) as [B1 B2]. split; auto. intros c. specialize (G2 c). specialize (B2 c). pose proof (cons_iff y ys c).
      assert (Z : ~ inb (g y) c) by (intros Z; apply inb_nonempty in Z; congruence). tauto.
Qed.
End Cand.
Lemma class_fold : forall d (g : box -> box -> box) ys, (forall x y, length x = d -> length y = d -> length (g x y) = d /\ forall c, inb (g x y) c <-> inb x c /\ inb y c) -> dims d ys ->
  forall xs r, dims d xs -> dims d r ->
  let r' := fold_left (fun r x => fold_left (fun r y => if i_sound (g x y) then add_interval r (g x y) else r) ys r) xs r in
  dims d r' /\ forall c, (inv r c \/ (inv xs c /\ inv ys c) -> inv r' c) /\ (d = 1 -> inv r' c -> inv r c \/ (inv xs c /\ inv ys c)).
Proof.
  intros d g ys G Y xs r D. revert r. induction D as [|x xs Lx D IH]; intros r R; cbn [fold_left].
  - split; auto. intros c. pose proof (nil_iff c). tauto.
  - destruct (cand_in d x (g x) (fun y Ly => G x y Lx Ly) ys r Y R) as [A1 A2].
    destruct (IH _ A1) as [B1 B2]. split; auto. intros c. specialize (A2 c). specialize (B2 c). pose proof (cons_iff x xs c). tauto.
Qed.
Theorem class_intersect_in : forall d a b, dims d a -> dims d b -> dims d (class_intersect a b) /\
  forall c, (inv a c -> inv b c -> inv (class_intersect a b) c) /\ (d = 1 -> inv (class_intersect a b) c -> inv a c /\ inv b c).
Proof.
  intros d a b A B. unfold class_intersect.
  assert (G : forall x y, length x = d -> length y = d -> length (overlap x y) = d /\ forall c, inb (overlap x y) c <-> inb x c /\ inb y c).
  { intros x y X Y. split; [rewrite overlap_length; congruence|]. intros c. apply overlap_in. congruence. }
  destruct (class_fold d overlap b G B a [] A ltac:(constructor)) as [H1 H2]. split; [exact H1|]. intros c. specialize (H2 c). cbv zeta. pose proof (nil_iff c). tauto.
Qed.

Lemma sub_from_dims : forall rem pre other diag, length rem = length other -> length diag = length other -> dims (length pre + length rem) (sub_from pre rem other diag).
Proof.
  induction rem as [|r rem IH]; intros pre [|o other] [|dd diag] L1 L2; try discriminate L1; try discriminate L2; cbn [sub_from]; [constructor|].
  cbn [length] in *.
  assert (G : forall x, length (pre ++ x :: rem) = length pre + S (length rem)) by (intros x; rewrite app_length; reflexivity).
  assert (J : forall x, dims (length pre + S (length rem)) (sub_from (pre ++ [x]) rem other diag)).
  { intros x. specialize (IH (pre ++ [x]) other diag ltac:(lia) ltac:(lia)). rewrite app_length in IH. cbn [length] in IH. replace (length pre + S (length rem)) with (length pre + 1 + length rem) by lia. exact IH. }
  destruct dd; [apply J|]. cbv zeta. repeat match goal with |- dims _ (if ?x then _ else _) => destruct x end; repeat (first [apply J|apply Forall_nil|apply Forall_cons; [apply G|]]).
  all: try match goal with |- Forall _ (if ?x then _ else _) => destruct x end; try apply J; try apply Forall_nil.
Qed.
Lemma class_sub_one_in : forall d diag x, 0 < d -> length x = d -> length diag = d -> forall other acc, dims d other -> Forall nonempty other -> Forall bounded other -> dims d acc ->
  dims d (class_sub_one x diag other acc) /\
  forall c, inb x c -> (forall o, In o other -> outside diag o c) -> inv acc c \/ (acc = [] /\ other <> []) -> inv (class_sub_one x diag other acc) c.
Proof.
  intros d diag x D0 Lx Ld. induction other as [|o other IH]; intros acc DO NE BD DA; cbn [class_sub_one].
  - split; auto. intros c _ _ [H|[_ H]]; [auto|congruence].
  - inversion DO; inversion NE; inversion BD; subst.
    assert (DS : dims (length x) (subtracted x o diag)).
    { unfold subtracted. destruct (Nat.eqb _ _); [|constructor]. apply (sub_from_dims x [] o diag); congruence. }
    assert (SI := fun c => subtracted_in x o diag c ltac:(congruence) ltac:(congruence) ltac:(assumption) ltac:(assumption)).
    destruct (subtracted x o diag) as [|y s] eqn:E.
    + split; [constructor|]. intros c X OU _. apply SI. split; auto. apply OU. left. reflexivity.
    + inversion DS; subst. destruct (Nat.eqb_spec (length y) 0); [lia|].
      assert (G : forall x0 y0, length x0 = length x -> length y0 = length x -> length (overlap y0 x0) = length x /\ forall c, inb (overlap y0 x0) c <-> inb x0 c /\ inb y0 c).
      { intros x0 y0 X0 Y0. split; [rewrite overlap_length; congruence|]. intros c. pose proof (overlap_in y0 x0 c ltac:(congruence)). tauto. }
      set (acc' := match acc with [] => y :: s | _ => fold_left (fun r n => fold_left (fun r i => let o := overlap i n in if i_sound o then add_interval r o else r) acc r) (y :: s) [] end).
      assert (A : dims (length x) acc' /\ forall c, inv (y :: s) c -> (inv acc c \/ acc = []) -> inv acc' c).
      { destruct acc as [|a0 acc]; [split; auto|].
        destruct (class_fold (length x) (fun n i => overlap i n) (a0 :: acc) G DA (y :: s) [] DS ltac:(constructor)) as [Q1 Q2].
        split; [exact Q1|]. intros c K [K2|K2]; [|discriminate K2]. apply Q2. right. split; auto. }
      destruct A as [A1 A2]. destruct (IH acc' ltac:(assumption) ltac:(assumption) ltac:(assumption) A1) as [B1 B2]. split; auto.
      intros c X OU K. apply B2; auto; [intros o' I; apply OU; right; auto|]. left. apply A2; [apply SI; split; auto; apply OU; left; reflexivity|]. tauto.
Qed.
Lemma adds_in : forall d ys r, dims d ys -> dims d r -> dims d (fold_left add_interval ys r) /\ forall c, inv r c \/ inv ys c -> inv (fold_left add_interval ys r) c.
Proof.
  intros d ys r D. revert r. induction D as [|y ys Ly D IH]; intros r R; cbn [fold_left].
  - split; auto. intros c. pose proof (nil_iff c). tauto.
  - destruct (add_in d r y R Ly) as [A1 A2]. destruct (IH _ A1) as [B1 B2]. split; auto. intros c. specialize (A2 c). specialize (B2 c). pose proof (cons_iff y ys c). tauto.
Qed.
Theorem class_subtract_in : forall d diag a b, 0 < d -> length diag = d -> dims d a -> dims d b -> b <> [] -> Forall nonempty b -> Forall bounded b ->
  forall c, inv a c -> (forall o, In o b -> outside diag o c) -> inv (class_subtract a b diag) c.
Proof.
  intros d diag a b D0 Ld A B NB NE BD c H OU. unfold class_subtract.
  assert (Z : forall l r, dims d l -> dims d r -> dims d (fold_left (fun r x => fold_left add_interval (class_sub_one x diag b []) r) l r) /\
    (inv r c \/ inv l c -> inv (fold_left (fun r x => fold_left add_interval (class_sub_one x diag b []) r) l r) c)).
  { intros l r D. revert r. induction D as [|x l Lx D IH]; intros r R; cbn [fold_left].
    - split; auto. pose proof (nil_iff c). tauto.
    - destruct (class_sub_one_in d diag x D0 Lx Ld b [] B NE BD ltac:(constructor)) as [S1 S2]. destruct (adds_in d _ r S1 R) as [A1 A2]. destruct (IH _ A1) as [B1 B2]. split; auto.
      specialize (S2 c). specialize (A2 c). pose proof (cons_iff x l c). tauto. }
  apply (Z a []); auto. constructor.
Qed.

Definition all_out (diag : list bool) (p : list box) (c : list N) : Prop := forall o, In o p -> outside diag o c.
Lemma all_out_app : forall diag p q c, all_out diag (p ++ q) c <-> all_out diag p c /\ all_out diag q c.
Proof.
  intros diag p q c. unfold all_out. split.
  - intros H. split; intros o I; apply H; apply in_or_app; auto.
  - intros [H1 H2] o I. apply in_app_or in I. destruct I; auto.
Qed.
Lemma class_sub_one_exact : forall diag x, length x = 1 -> length diag = 1 -> forall other p acc, dims 1 other -> Forall nonempty other -> Forall bounded other -> dims 1 acc ->
  (p = [] /\ acc = []) \/ (p <> [] /\ forall c, inv acc c <-> inb x c /\ all_out diag p c) ->
  (forall q r, other = q ++ r -> r <> [] -> exists c, inb x c /\ all_out diag (p ++ q) c) -> p ++ other <> [] ->
  forall c, inv (class_sub_one x diag other acc) c <-> inb x c /\ all_out diag (p ++ other) c.
Proof.
  intros diag x Lx Ld. induction other as [|o other IH]; intros p acc DO NE BD DA HA HW HN c; cbn [class_sub_one].
  - rewrite app_nil_r in *. destruct HA as [[HA _]|[_ HA]]; [congruence|apply HA].
  - inversion DO; inversion NE; inversion BD; subst.
    assert (DS : dims 1 (subtracted x o diag)).
    { unfold subtracted. destruct (Nat.eqb _ _); [|constructor]. rewrite <- Lx. apply (sub_from_dims x [] o diag); congruence. }
    assert (SI := fun c => subtracted_in x o diag c ltac:(congruence) ltac:(congruence) ltac:(assumption) ltac:(assumption)).
    assert (O1 : forall c, all_out diag [o] c <-> outside diag o c).
    { intros c'. unfold all_out. split; [intros K; apply K; left; reflexivity|intros K o' [<-|[]]; exact K]. }
    destruct (subtracted x o diag) as [|y s] eqn:E.
    + split; [intros K; apply nil_iff in K; destruct K|]. intros [K1 K2]. apply SI. split; auto. apply K2. apply in_or_app. right. left. reflexivity.
    + inversion DS; subst. destruct (Nat.eqb_spec (length y) 0); [lia|].
      assert (G : forall x0 y0, length x0 = 1 -> length y0 = 1 -> length (overlap y0 x0) = 1 /\ forall c, inb (overlap y0 x0) c <-> inb x0 c /\ inb y0 c).
      { intros x0 y0 X0 Y0. split; [rewrite overlap_length; congruence|]. intros c'. pose proof (overlap_in y0 x0 c' ltac:(congruence)). tauto. }
      set (acc' := match acc with [] => y :: s | _ => fold_left (fun r n => fold_left (fun r i => let o := overlap i n in if i_sound o then add_interval r o else r) acc r) (y :: s) [] end).
      assert (A : dims 1 acc' /\ forall c, inv acc' c <-> inb x c /\ all_out diag (p ++ [o]) c).
      { destruct acc as [|a0 acc].
        - destruct HA as [[-> _]|[HP HA]].
          + split; [exact DS|]. intros c'. cbn [app]. rewrite (O1 c'). apply SI.
          + exfalso. destruct (HW [] (o :: other) eq_refl ltac:(discriminate)) as (c' & K). rewrite app_nil_r in K. apply HA in K. apply nil_iff in K. exact K.
        - destruct HA as [[_ HA]|[HP HA]]; [discriminate HA|].
          destruct (class_fold 1 (fun n i => overlap i n) (a0 :: acc) G DA (y :: s) [] DS ltac:(constructor)) as [Q1 Q2].
          split; [exact Q1|]. intros c'. specialize (Q2 c'). specialize (HA c'). specialize (SI c'). pose proof (all_out_app diag p [o] c') as K1. specialize (O1 c'). pose proof (nil_iff c') as K2.
          change (fold_left (fun (r : list box) (x0 : box) => fold_left (fun (r0 : list box) (y0 : box) => if i_sound (overlap y0 x0) then add_interval r0 (overlap y0 x0) else r0) (a0 :: acc) r) (y :: s) []) with acc' in Q2. tauto. }
      destruct A as [A1 A2].
      replace (p ++ o :: other) with ((p ++ [o]) ++ other) by (rewrite <- app_assoc; reflexivity).
      apply IH; auto.
      * right. split; [destruct p; discriminate|exact A2].
      * intros q r -> R. rewrite <- app_assoc. apply (HW (o :: q) r); auto.
      * destruct p; discriminate.
Qed.
Lemma adds_exact : forall ys r, dims 1 ys -> dims 1 r -> dims 1 (fold_left add_interval ys r) /\ forall c, inv (fold_left add_interval ys r) c <-> inv r c \/ inv ys c.
Proof.
  intros ys r D. revert r. induction D as [|y ys Ly D IH]; intros r R; cbn [fold_left].
  - split; auto. intros c. pose proof (nil_iff c). tauto.
  - destruct (add_in 1 r y R Ly) as [A1 A2]. destruct (IH _ A1) as [B1 B2]. split; auto. intros c. specialize (A2 c). specialize (B2 c). pose proof (cons_iff y ys c). tauto.
Qed.
Theorem class_subtract_exact : forall a b, dims 1 a -> dims 1 b -> b <> [] -> Forall nonempty b -> Forall bounded b ->
  (forall x q r, In x a -> b = q ++ r -> r <> [] -> exists c, inb x c /\ ~ inv q c) ->
  forall c, inv (class_subtract a b [false]) c <-> inv a c /\ ~ inv b c.
Proof.
  intros a b A B NB NE BD HW c. unfold class_subtract.
  assert (OUT : forall p, dims 1 p -> forall c, length c = 1 -> (all_out [false] p c <-> ~ inv p c)).
  { intros p P c' L. unfold all_out, inv. unfold dims in P. rewrite Forall_forall in P. split.
    - intros K (o & I & J). specialize (K o I). pose proof (outside_all o c' ltac:(rewrite (P o I); auto)) as Q. rewrite (P o I) in Q. cbn [repeat] in Q. tauto.
    - intros K o I. pose proof (outside_all o c' ltac:(rewrite (P o I); auto)) as Q. rewrite (P o I) in Q. cbn [repeat] in Q. apply Q. intros J. apply K. eauto. }
  assert (Z : forall l r, dims 1 l -> dims 1 r -> (forall x, In x l -> In x a) -> dims 1 (fold_left (fun r x => fold_left add_interval (class_sub_one x [false] b []) r) l r) /\
    (inv (fold_left (fun r x => fold_left add_interval (class_sub_one x [false] b []) r) l r) c <-> inv r c \/ (inv l c /\ ~ inv b c))).
  { intros l r D. revert r. induction D as [|x l Lx D IH]; intros r R SUB; cbn [fold_left].
    - split; auto. pose proof (nil_iff c). tauto.
    - destruct (class_sub_one_in 1 [false] x ltac:(lia) Lx eq_refl b [] B NE BD ltac:(constructor)) as [S1 _].
      assert (S2 : inv (class_sub_one x [false] b []) c <-> inb x c /\ all_out [false] b c).
      { apply (class_sub_one_exact [false] x Lx eq_refl b [] []); auto; [constructor|].
        intros q r0 E K. destruct (HW x q r0 (SUB x (or_introl eq_refl)) E K) as (c' & K1 & K2). exists c'. split; auto. cbn [app]. apply OUT; auto.
        - rewrite E in B. unfold dims in *. apply Forall_app in B. tauto.
        - rewrite <- (inb_length _ _ K1). auto. }
      destruct (adds_exact _ r S1 R) as [A1 A2]. destruct (IH _ A1 (fun y I => SUB y (or_intror I))) as [B1 B2]. split; auto.
      specialize (A2 c). pose proof (cons_iff x l c).
      assert (K : inb x c -> (all_out [false] b c <-> ~ inv b c)) by (intros K; apply OUT; auto; rewrite <- (inb_length _ _ K); auto). tauto. }
  destruct (Z a [] A ltac:(constructor) ltac:(auto)) as [_ Z2]. pose proof (nil_iff c). tauto.
Qed.
