(** Proofs about the antichain. *)
From Verif Require Import Base AntiModel.
From Coq Require Import Sorted.
Set Implicit Arguments.

Notation ascending := (StronglySorted lt).
Lemma includes_ok : forall a b, ascending a -> ascending b -> (includes a b = true <-> forall x, In x b -> In x a).
Proof.
  induction a as [|x a IH]; intros b Ha Hb.
  - destruct b as [|y b]; cbn; [tauto|]. split; [discriminate|]. intros H. destruct (H y). auto.
  - destruct b as [|y b]; [cbn; split; [intros _ z []|auto]|]. inversion Ha as [|u v A1 A2]; subst. inversion Hb as [|u v B1 B2]; subst. rewrite Forall_forall in A2, B2. cbn [includes].
    destruct (Nat.ltb_spec y x) as [L|L].
    + split; [discriminate|]. intros H. destruct (H y (or_introl eq_refl)) as [->|Hi]; [lia|]. specialize (A2 _ Hi). lia.
    + destruct (Nat.ltb_spec x y) as [L'|L'].
      * rewrite (IH (y :: b) A1 Hb). split; intros H z Hz; [right; apply H, Hz|]. destruct (H z Hz) as [->|Hi]; [|exact Hi].
        destruct Hz as [->|Hz]; [lia|]. specialize (B2 _ Hz). lia.
      * assert (x = y) by lia. subst y. rewrite (IH b A1 B1). split.
        -- intros H z [->|Hz]; [left; reflexivity|right; apply H, Hz].
        -- intros H z Hz. destruct (H z (or_intror Hz)) as [->|Hi]; [specialize (B2 _ Hz); lia|exact Hi].
Qed.

Definition subset (a b : list nat) : Prop := forall x, In x a -> In x b.
Definition well (c : chains) : Prop := forall k s, In s (chain_of c k) -> ascending s.
Definition incomparable (l : list (list nat)) : Prop := forall l1 s l2 t l3, l = l1 ++ s :: l2 ++ t :: l3 -> ~ subset s t /\ ~ subset t s.

Lemma subsumed_ok : forall c k set, well c -> ascending set -> (subsumed c k set = true <-> exists s, In s (chain_of c k) /\ subset s set).
Proof.
  intros c k set W A. unfold subsumed. destruct (Nat.ltb_spec k (length c)) as [L|L].
  - rewrite existsb_exists. split; intros (s & Hs & H); exists s; (split; [exact Hs|]); [exact (proj1 (@includes_ok set s A (W k s Hs)) H)|exact (proj2 (@includes_ok set s A (W k s Hs)) H)].
  - split; [discriminate|]. intros (s & Hs & _). unfold chain_of in Hs. rewrite nth_overflow in Hs by exact L. destruct Hs.
Qed.
Lemma chain_resize : forall c n k, n >= length c -> chain_of (resize c n) k = chain_of c k.
Proof.
  intros c n k H. unfold chain_of, resize. rewrite firstn_all2 by lia. destruct (Nat.lt_ge_cases k (length c)) as [L|L]; [apply app_nth1, L|].
  rewrite app_nth2 by exact L. rewrite (nth_overflow c) by exact L.
  destruct (Nat.lt_ge_cases (k - length c) (n - length c)) as [L'|L']; [|apply nth_overflow; rewrite repeat_length; exact L'].
  apply nth_repeat.
Qed.
Lemma resize_length : forall c n, n >= length c -> length (resize c n) = n.
Proof. intros c n H. unfold resize. rewrite app_length, repeat_length, firstn_length. lia. Qed.
Definition norm (c : chains) (k : nat) : chains := if length c <=? k then resize c (S k) else c.
Lemma norm_ok : forall c k, (forall j, chain_of (norm c k) j = chain_of c j) /\ k < length (norm c k).
Proof.
  intros c k. unfold norm. destruct (Nat.leb_spec (length c) k) as [L|L]; [|auto]. split; [intros j; apply chain_resize; lia|]. rewrite resize_length; lia.
Qed.
Lemma chain_put : forall c k x j, k < length c -> chain_of (firstn k c ++ x :: skipn (S k) c) j = if Nat.eqb j k then x else chain_of c j.
Proof.
  intros c k x j H. unfold chain_of. destruct (Nat.eqb_spec j k) as [->|E].
  - rewrite app_nth2; rewrite firstn_length_le by lia; [|lia]. replace (k - k) with 0 by lia. reflexivity.
  - destruct (Nat.lt_ge_cases j k) as [L|L].
    + rewrite app_nth1 by (rewrite firstn_length_le; lia). clear x. revert k j H E L. induction c as [|y c IH]; intros [|k] [|j] H E L; cbn in *; try lia; auto. apply IH; lia.
    + rewrite app_nth2; rewrite firstn_length_le by lia; [|lia]. destruct (j - k) as [|d] eqn:Ed; [lia|]. cbn [nth].
      replace j with (S k + d) by lia. clear. revert c. induction k as [|k IH]; intros [|y c]; cbn [skipn]; try (destruct d; reflexivity). exact (IH c).
Qed.

Lemma insert_spec : forall c k set, insert c k set =
  let c := norm c k in if negb (subsumed c k set) then
    (firstn k c ++ (filter (fun s => negb (includes s set)) (chain_of c k) ++ [set]) :: skipn (S k) c, true) else (c, false).
Proof. reflexivity. Qed.
Lemma subsumed_norm : forall c k set, subsumed (norm c k) k set = subsumed c k set.
Proof.
  intros c k set. destruct (norm_ok c k) as (N1 & N2). unfold subsumed at 1. rewrite N1. destruct (Nat.ltb_spec k (length (norm c k))) as [_|L]; [|lia].
  unfold subsumed. destruct (Nat.ltb_spec k (length c)) as [L|L]; [reflexivity|]. unfold chain_of. rewrite nth_overflow by exact L. reflexivity.
Qed.
Lemma insert_chain : forall c k set j, chain_of (fst (insert c k set)) j =
  if Nat.eqb j k && negb (subsumed c k set) then filter (fun s => negb (includes s set)) (chain_of c k) ++ [set] else chain_of c j.
Proof.
  intros c k set j. rewrite insert_spec. cbv zeta. rewrite subsumed_norm. destruct (norm_ok c k) as (N1 & N2). destruct (subsumed c k set); cbn [negb fst].
  - rewrite andb_false_r. apply N1.
  - rewrite andb_true_r, chain_put by exact N2. rewrite N1. destruct (Nat.eqb j k); [reflexivity|apply N1].
Qed.
Lemma insert_result : forall c k set, snd (insert c k set) = negb (subsumed c k set).
Proof. intros c k set. rewrite insert_spec. cbv zeta. rewrite subsumed_norm. destruct (subsumed c k set); reflexivity. Qed.

Lemma insert_well : forall c k set, well c -> ascending set -> well (fst (insert c k set)).
Proof.
  intros c k set W A j s. rewrite insert_chain. destruct (Nat.eqb j k && negb (subsumed c k set)); [|apply W].
  rewrite in_app_iff. intros [H|[<-|[]]]; [|exact A]. apply filter_In in H. exact (W k s (proj1 H)).
Qed.
(** which sets are subsumed after an insertion *)
Lemma insert_subsumed : forall c k set j t, well c -> ascending set -> ascending t ->
  (subsumed (fst (insert c k set)) j t = true <-> subsumed c j t = true \/ (j = k /\ subset set t)).
Proof.
  intros c k set j t W A B. rewrite subsumed_ok by (auto using insert_well). rewrite subsumed_ok by auto. rewrite insert_chain.
  destruct (Nat.eqb_spec j k) as [->|E]; cbn [andb].
  - destruct (subsumed c k set) eqn:Es; cbn [negb].
    + split; [auto|]. intros [H|(_ & H)]; [exact H|]. apply subsumed_ok in Es; auto. destruct Es as (s & Hs & Hi). exists s. split; [exact Hs|]. intros x Hx. apply H, Hi, Hx.
    + split.
      * intros (s & Hs & Hi). rewrite in_app_iff in Hs. destruct Hs as [Hs|[<-|[]]]; [|auto]. apply filter_In in Hs. left. exists s. split; [apply Hs|exact Hi].
      * intros [(s & Hs & Hi)|(_ & H)].
        -- destruct (includes s set) eqn:Ei.
           ++ exists set. split; [rewrite in_app_iff; right; left; reflexivity|]. pose proof (proj1 (@includes_ok s set (W k s Hs) A) Ei) as Ei'. intros x Hx. apply Hi, Ei', Hx.
           ++ exists s. split; [rewrite in_app_iff; left; apply filter_In; rewrite Ei; auto|exact Hi].
        -- exists set. split; [rewrite in_app_iff; right; left; reflexivity|exact H].
  - split; [auto|]. intros [H|(-> & _)]; [exact H|congruence].
Qed.
Lemma after_snoc : forall h e, after (h ++ [e]) = fst (insert (after h) (fst e) (snd e)).
Proof. intros h e. unfold after. rewrite fold_left_app. reflexivity. Qed.
Lemma after_well : forall h, (forall k s, In (k, s) h -> ascending s) -> well (after h).
Proof.
  intros h. induction h as [|[k s] h IH] using rev_ind; intros H.
  - intros k s. unfold chain_of, after. cbn. destruct k; intros [].
  - rewrite after_snoc. cbn [fst snd]. apply insert_well; [apply IH; intros; eapply H; rewrite in_app_iff; eauto|]. apply (H k). rewrite in_app_iff. right. left. reflexivity.
Qed.
Theorem after_subsumed : forall h k t, (forall k s, In (k, s) h -> ascending s) -> ascending t ->
  (subsumed (after h) k t = true <-> exists s, In (k, s) h /\ subset s t).
Proof.
  intros h k t H A. revert H. induction h as [|[j s] h IH] using rev_ind; intros H.
  - cbn. split; [discriminate|intros (s & [] & _)].
  - assert (H' : forall k s, In (k, s) h -> ascending s) by (intros; eapply H; rewrite in_app_iff; eauto).
    assert (Hs : ascending s) by (apply (H j); rewrite in_app_iff; right; left; reflexivity).
    rewrite after_snoc. cbn [fst snd]. rewrite insert_subsumed by (auto using after_well). rewrite (IH H'). split.
    + intros [(u & Hu & K)|(-> & K)]; [exists u|exists s]; rewrite in_app_iff; (split; [|exact K]); [auto|right; left; reflexivity].
    + intros (u & Hu & K). rewrite in_app_iff in Hu. destruct Hu as [Hu|[E|[]]]; [left; eauto|]. injection E as -> ->. right. auto.
Qed.

(** what is stored is minimal *)
Definition minimal (l : list (list nat)) : Prop := forall i j s t, nth_error l i = Some s -> nth_error l j = Some t -> subset s t -> i = j.
(** where the entry [i] of the filtered list comes from *)
Fixpoint pos (f : list nat -> bool) (l : list (list nat)) (i : nat) : nat :=
  match l with
  | [] => 0
  | x :: l => if f x then match i with O => 0 | S i => S (pos f l i) end else S (pos f l i)
  end.
Lemma pos_ok : forall f l i s, nth_error (filter f l) i = Some s -> nth_error l (pos f l i) = Some s.
Proof.
  intros f. induction l as [|x l IH]; intros i s H; [destruct i; discriminate|]. cbn [filter] in H. cbn [pos]. destruct (f x); [|exact (IH i s H)].
  destruct i as [|i]; [exact H|]. exact (IH i s H).
Qed.
Lemma pos_inj : forall f l i j, i < length (filter f l) -> j < length (filter f l) -> pos f l i = pos f l j -> i = j.
Proof.
  intros f. induction l as [|x l IH]; intros i j Hi Hj E; [cbn in Hi; lia|]. cbn [filter] in Hi, Hj. cbn [pos] in E. destruct (f x).
  - destruct i, j; try discriminate; [reflexivity|]. cbn in Hi, Hj. f_equal. apply IH; try lia; congruence.
  - apply IH; try lia; congruence.
Qed.
Lemma minimal_filter : forall f l, minimal l -> minimal (filter f l).
Proof.
  intros f l M i j s t Hi Hj Hs. apply (pos_inj f l); [apply nth_error_Some; congruence|apply nth_error_Some; congruence|].
  exact (M _ _ s t (pos_ok f l i Hi) (pos_ok f l j Hj) Hs).
Qed.
Lemma insert_minimal : forall c k set, well c -> ascending set -> (forall j, minimal (chain_of c j)) -> forall j, minimal (chain_of (fst (insert c k set)) j).
Proof.
  intros c k set W A M j. rewrite insert_chain. destruct (Nat.eqb j k && negb (subsumed c k set)) eqn:E; [|apply M].
  apply andb_prop in E. destruct E as (_ & E). apply negb_true_iff in E.
  assert (N : ~ exists s, In s (chain_of c k) /\ subset s set) by (rewrite <- subsumed_ok by auto; congruence).
  set (l := filter (fun s => negb (includes s set)) (chain_of c k)). assert (Ml : minimal l) by (apply minimal_filter, M).
  assert (F : forall s, In s l -> In s (chain_of c k) /\ ~ subset set s).
  { intros s Hs. apply filter_In in Hs. destruct Hs as (Hs & Hi). split; [exact Hs|]. intros K. apply negb_true_iff in Hi. assert (includes s set = true); [|congruence].
    exact (proj2 (@includes_ok s set (W k s Hs) A) K). }
  intros a b s t Ha Hb Hst.
  assert (L : forall i u, nth_error (l ++ [set]) i = Some u -> (i < length l /\ nth_error l i = Some u) \/ (i = length l /\ u = set)).
  { intros i u H. destruct (Nat.lt_ge_cases i (length l)) as [L|L]; [left; rewrite nth_error_app1 in H by exact L; auto|]. rewrite nth_error_app2 in H by exact L.
    destruct (i - length l) as [|d] eqn:D; [|destruct d; discriminate]. injection H as <-. right. split; [lia|reflexivity]. }
  destruct (L a s Ha) as [(La & Ha')|(-> & ->)]; destruct (L b t Hb) as [(Lb & Hb')|(-> & ->)].
  - exact (Ml a b s t Ha' Hb' Hst).
  - exfalso. apply N. exists s. split; [exact (proj1 (F s (nth_error_In _ _ Ha')))|exact Hst].
  - exfalso. exact (proj2 (F t (nth_error_In _ _ Hb')) Hst).
  - reflexivity.
Qed.
Theorem after_minimal : forall h k, (forall k s, In (k, s) h -> ascending s) -> minimal (chain_of (after h) k).
Proof.
  intros h k H. revert k. induction h as [|[j s] h IH] using rev_ind; intros k.
  - intros a b s t Ha. unfold chain_of, after in Ha. cbn in Ha. destruct k, a; discriminate.
  - assert (H' : forall k s, In (k, s) h -> ascending s) by (intros; eapply H; rewrite in_app_iff; eauto).
    rewrite after_snoc. cbn [fst snd]. apply insert_minimal; [apply after_well, H'|apply (H j); rewrite in_app_iff; right; left; reflexivity|exact (IH H')].
Qed.
