(** The closure computation delivers closed sets, and the visitors what they are asked for. *)
From Verif Require Import Base BaseLemmas NetModel PqlSyntax PqlModel StubModel.

Lemma unset_upd : forall l t, nth t l false = false -> t < length l ->
  length (filter negb l) = S (length (filter negb (upd l t true))).
Proof.
  induction l as [|b l IH]; intros t H Ht; cbn [length] in Ht; [lia|]. destruct t as [|t]; cbn [nth upd filter] in *.
  - subst b. cbn. reflexivity.
  - specialize (IH t H ltac:(lia)). destruct b; cbn [negb length]; rewrite IH; reflexivity.
Qed.

Section Net.
  Variable net : cnet.
  Notation n := (cn_ntrans net).
  Lemma pre_of_in : forall p t, In t (pre_of net p) <-> t < n /\ exists iv, In iv (out_slice net t) /\ iv_place iv = p /\ (0 < iv_dir iv)%Z.
  Proof.
    intros p t. unfold pre_of, all_trans. rewrite in_flat_map. split.
    - intros (u & Iu & H). apply in_map_iff in H. destruct H as (iv & <- & H). apply filter_In in H. destruct H as (A & B).
      apply andb_true_iff in B. destruct B as (B & C). apply in_seq in Iu. split; [lia|]. exists iv.
      repeat split; [exact A|apply Nat.eqb_eq; exact B|apply Z.ltb_lt; exact C].
    - intros (L & iv & A & B & C). exists t. split; [apply in_seq; lia|]. apply in_map_iff. exists iv. split; [reflexivity|].
      apply filter_In. split; [exact A|]. apply andb_true_iff. split; [apply Nat.eqb_eq; exact B|apply Z.ltb_lt; exact C].
  Qed.
  Lemma post_of_in : forall p t d, In (t, d) (post_of net p) <-> t < n /\ exists iv, In iv (in_slice net t) /\ iv_place iv = p /\ iv_inhib iv = false /\ iv_dir iv = d.
  Proof.
    intros p t d. unfold post_of, all_trans. rewrite in_flat_map. split.
    - intros (u & Iu & H). apply in_map_iff in H. destruct H as (iv & E & H). injection E as -> E. apply filter_In in H. destruct H as (A & B).
      apply andb_true_iff in B. destruct B as (B & C). apply in_seq in Iu. split; [lia|]. exists iv.
      repeat split; [exact A|apply Nat.eqb_eq; exact B|destruct (iv_inhib iv); [discriminate|reflexivity]|exact E].
    - intros (L & iv & A & B & C & D). exists t. split; [apply in_seq; lia|]. apply in_map_iff. exists iv. rewrite D. split; [reflexivity|].
      apply filter_In. split; [exact A|]. apply andb_true_iff. split; [apply Nat.eqb_eq; exact B|rewrite C; reflexivity].
  Qed.
  Lemma inhib_of_in : forall p t, In t (inhib_of net p) <-> t < n /\ exists iv, In iv (in_slice net t) /\ iv_place iv = p /\ iv_inhib iv = true.
  Proof.
    intros p t. unfold inhib_of, all_trans. rewrite in_flat_map. split.
    - intros (u & Iu & H). apply in_map_iff in H. destruct H as (iv & <- & H). apply filter_In in H. destruct H as (A & B).
      apply andb_true_iff in B. destruct B as (B & C). apply in_seq in Iu. split; [lia|]. exists iv.
      repeat split; [exact A|apply Nat.eqb_eq; exact B|exact C].
    - intros (L & iv & A & B & C). exists t. split; [apply in_seq; lia|]. apply in_map_iff. exists iv. split; [reflexivity|].
      apply filter_In. split; [exact A|]. apply andb_true_iff. split; [apply Nat.eqb_eq; exact B|exact C].
  Qed.
  Lemma no_inhib : forall p, has_inhib net = false -> inhib_of net p = [].
  Proof.
    intros p H. destruct (inhib_of net p) as [|t l] eqn:E; [reflexivity|]. exfalso.
    assert (I : In t (inhib_of net p)) by (rewrite E; left; reflexivity). apply inhib_of_in in I. destruct I as (L & iv & A & _ & B).
    assert (C : has_inhib net = true); [|congruence]. apply existsb_exists. exists t. split; [apply in_seq; lia|].
    apply existsb_exists. exists iv. auto.
  Qed.

  (** ** Sets of transitions that are in the set *)
  Definition ups (S : nat -> bool) (p : nat) : Prop := forall u, In u (pre_of net p) -> S u = true.
  Definition downs (S : nat -> bool) (p : nat) : Prop := forall u d, In (u, d) (post_of net p) -> (d < 0)%Z -> S u = true.
  Definition inhs (S : nat -> bool) (p : nat) : Prop := forall u, In u (inhib_of net p) -> S u = true.
  Definition sub (S S' : nat -> bool) : Prop := forall t, S t = true -> S' t = true.
  Lemma sub_refl : forall S, sub S S. Proof. intros S t H; exact H. Qed.
  Lemma sub_trans : forall S1 S2 S3, sub S1 S2 -> sub S2 S3 -> sub S1 S3. Proof. unfold sub; auto. Qed.
  Lemma ups_sub : forall S S' p, sub S S' -> ups S p -> ups S' p. Proof. unfold ups, sub; auto. Qed.
  Lemma downs_sub : forall S S' p, sub S S' -> downs S p -> downs S' p. Proof. unfold downs, sub; eauto. Qed.
  Lemma inhs_sub : forall S S' p, sub S S' -> inhs S p -> inhs S' p. Proof. unfold inhs, sub; auto. Qed.

  Record inv (s : stub) : Prop := {
    i_len : length (st_stub s) = n;
    i_todo : Forall (fun t => t < n) (st_todo s);
    i_pre : forall p, seen_pre s p = true -> ups (in_stub s) p;
    i_post : forall p, seen_post s p = true -> downs (in_stub s) p;
    i_inhib : forall p, seen_inhib s p = true -> inhs (in_stub s) p
  }.
  Definition grow (s s' : stub) : Prop :=
    sub (in_stub s) (in_stub s') /\ incl (st_todo s) (st_todo s') /\
    (forall t, in_stub s' t = true -> in_stub s t = true \/ In t (st_todo s')) /\ close_fuel s' = close_fuel s.
  Lemma grow_refl : forall s, grow s s.
  Proof. intros s. split; [apply sub_refl|]. split; [apply incl_refl|]. split; auto. Qed.
  Lemma grow_trans : forall s1 s2 s3, grow s1 s2 -> grow s2 s3 -> grow s1 s3.
  Proof.
    intros s1 s2 s3 (A1 & B1 & C1 & D1) (A2 & B2 & C2 & D2). split; [eapply sub_trans; eauto|]. split; [eapply incl_tran; eauto|].
    split; [|congruence]. intros t H. destruct (C2 t H) as [H'|H']; [|auto]. destruct (C1 t H') as [G|G]; [auto|right; apply B2; exact G].
  Qed.

  (** flags set, contents added later *)
  Definition flags_ok (s : stub) (s' : stub) : Prop := st_pre s' = st_pre s /\ st_post s' = st_post s /\ st_inhib s' = st_inhib s.
  Lemma add_ok : forall s t, length (st_stub s) = n -> Forall (fun t => t < n) (st_todo s) -> t < n ->
    length (st_stub (add_to_stub s t)) = n /\ Forall (fun t => t < n) (st_todo (add_to_stub s t)) /\
    grow s (add_to_stub s t) /\ flags_ok s (add_to_stub s t) /\ in_stub (add_to_stub s t) t = true.
  Proof.
    intros s t Hl Ht Lt. unfold add_to_stub. destruct (in_stub s t) eqn:E.
    - split; [exact Hl|]. split; [exact Ht|]. split; [apply grow_refl|]. split; [repeat split|exact E].
    - unfold in_stub in *; cbn [st_stub st_todo st_pre st_post st_inhib] in *. split; [rewrite upd_length; exact Hl|].
      split; [apply Forall_app; split; [exact Ht|constructor; [exact Lt|constructor]]|].
      split; [|split; [repeat split|apply nth_upd_eq; lia]]. split; [|split; [|split]].
      + intros u Hu. unfold in_stub in *; cbn [st_stub] in *. destruct (Nat.eq_dec t u) as [<-|Ne]; [apply nth_upd_eq; lia|].
        rewrite nth_upd_neq by exact Ne. exact Hu.
      + cbn [st_todo]. intros u Hu. apply in_or_app; left; exact Hu.
      + unfold in_stub; cbn [st_stub st_todo]. intros u Hu. destruct (Nat.eq_dec t u) as [<-|Ne]; [right; apply in_or_app; right; left; reflexivity|].
        rewrite nth_upd_neq in Hu by exact Ne. left; exact Hu.
      + unfold close_fuel; cbn [st_stub st_todo]. rewrite app_length; cbn [length].
        rewrite (unset_upd (st_stub s) t E) by lia. lia.
  Qed.
  Lemma adds_ok : forall l s, length (st_stub s) = n -> Forall (fun t => t < n) (st_todo s) -> Forall (fun t => t < n) l ->
    let s' := fold_left (@add_to_stub) l s in
    length (st_stub s') = n /\ Forall (fun t => t < n) (st_todo s') /\
    grow s s' /\ flags_ok s s' /\ forall t, In t l -> in_stub s' t = true.
  Proof.
    induction l as [|t l IH]; intros s Hl Ht Lt; cbn [fold_left]; cbv zeta.
    - split; [exact Hl|]. split; [exact Ht|]. split; [apply grow_refl|]. split; [repeat split|]. intros t [].
    - inversion Lt as [|? ? L1 L2]; subst. destruct (add_ok s t Hl Ht L1) as (A & B & C & D & E).
      destruct (IH (add_to_stub s t) A B L2) as (A' & B' & C' & D' & E'). split; [exact A'|]. split; [exact B'|].
      split; [eapply grow_trans; eauto|]. split; [unfold flags_ok in *; intuition congruence|].
      intros u [<-|Hu]; [apply (proj1 C'); exact E|apply E'; exact Hu].
  Qed.
  Lemma inv_grow : forall s s', inv s -> length (st_stub s') = n -> Forall (fun t => t < n) (st_todo s') -> grow s s' -> flags_ok s s' -> inv s'.
  Proof.
    intros s s' I Hl Ht (Sb & _) (F1 & F2 & F3). constructor; [exact Hl|exact Ht| | |]; intros p Hp.
    - eapply ups_sub; [exact Sb|]. apply (i_pre _ I). unfold seen_pre in *. rewrite <- F1. exact Hp.
    - eapply downs_sub; [exact Sb|]. apply (i_post _ I). unfold seen_post in *. rewrite <- F2. exact Hp.
    - eapply inhs_sub; [exact Sb|]. apply (i_inhib _ I). unfold seen_inhib in *. rewrite <- F3. exact Hp.
  Qed.
  Lemma adds_inv : forall l s, inv s -> Forall (fun t => t < n) l ->
    let s' := fold_left (@add_to_stub) l s in inv s' /\ grow s s' /\ forall t, In t l -> in_stub s' t = true.
  Proof.
    intros l s I Hl s'. destruct (adds_ok l s (i_len _ I) (i_todo _ I) Hl) as (A & B & C & D & E).
    split; [eapply inv_grow; eauto|]. split; [exact C|exact E].
  Qed.
  Lemma pre_bound : forall p, Forall (fun t => t < n) (pre_of net p).
  Proof. intros p. apply Forall_forall. intros t H. apply pre_of_in in H. tauto. Qed.
  Lemma post_bound : forall p f, Forall (fun t => t < n) (map fst (filter f (post_of net p))).
  Proof. intros p f. apply Forall_forall. intros t H. apply in_map_iff in H. destruct H as ((u & d) & <- & H). apply filter_In in H. destruct H as (H & _). apply post_of_in in H. tauto. Qed.
  Lemma post_bound' : forall p, Forall (fun t => t < n) (map fst (post_of net p)).
  Proof. intros p. apply Forall_forall. intros t H. apply in_map_iff in H. destruct H as ((u & d) & <- & H). apply post_of_in in H. tauto. Qed.
  Lemma inhib_bound : forall p, Forall (fun t => t < n) (inhib_of net p).
  Proof. intros p. apply Forall_forall. intros t H. apply inhib_of_in in H. tauto. Qed.

  Lemma upd_flag : forall l p q, nth q (upd l p true) false = true -> q = p \/ nth q l false = true.
  Proof. intros l p q H. destruct (Nat.eq_dec p q) as [->|Ne]; [left; reflexivity|]. rewrite nth_upd_neq in H by exact Ne. right; exact H. Qed.

  Lemma preset0_ok : forall s p, inv s -> inv (preset0 net s p) /\ grow s (preset0 net s p) /\ ups (in_stub (preset0 net s p)) p.
  Proof.
    intros s p I. unfold preset0. destruct (seen_pre s p) eqn:E; [split; [exact I|]; split; [apply grow_refl|apply (i_pre _ I); exact E]|].
    set (s0 := mkStub _ _ _ _ _). destruct (adds_ok (pre_of net p) s0 (i_len _ I) (i_todo _ I) (pre_bound p)) as (A & B & C & (D1 & D2 & D3) & F).
    assert (C0 : grow s s0) by (split; [apply sub_refl|]; split; [apply incl_refl|]; split; auto).
    assert (Sb : sub (in_stub s) (in_stub (fold_left (@add_to_stub) (pre_of net p) s0))) by exact (proj1 C).
    split; [|split; [eapply grow_trans; eauto|exact F]].
    constructor; [exact A|exact B| | |]; intros q Hq.
    - unfold seen_pre in Hq. rewrite D1 in Hq. cbn [s0 st_pre] in Hq. apply upd_flag in Hq. destruct Hq as [->|Hq]; [exact F|].
      eapply ups_sub; [exact Sb|]. apply (i_pre _ I). exact Hq.
    - unfold seen_post in Hq. rewrite D2 in Hq. eapply downs_sub; [exact Sb|]. apply (i_post _ I). exact Hq.
    - unfold seen_inhib in Hq. rewrite D3 in Hq. eapply inhs_sub; [exact Sb|]. apply (i_inhib _ I). exact Hq.
  Qed.
  Lemma postset0_ok : forall s p, inv s -> inv (postset0 net s p) /\ grow s (postset0 net s p) /\ downs (in_stub (postset0 net s p)) p.
  Proof.
    intros s p I. unfold postset0. destruct (seen_post s p) eqn:E; [split; [exact I|]; split; [apply grow_refl|apply (i_post _ I); exact E]|].
    set (s0 := mkStub _ _ _ _ _). set (l := map fst _).
    destruct (adds_ok l s0 (i_len _ I) (i_todo _ I) (post_bound p _)) as (A & B & C & (D1 & D2 & D3) & F).
    assert (C0 : grow s s0) by (split; [apply sub_refl|]; split; [apply incl_refl|]; split; auto).
    assert (Sb : sub (in_stub s) (in_stub (fold_left (@add_to_stub) l s0))) by exact (proj1 C).
    assert (F' : downs (in_stub (fold_left (@add_to_stub) l s0)) p).
    { intros u d Hu Hd. apply F. apply in_map_iff. exists (u, d). split; [reflexivity|]. apply filter_In. split; [exact Hu|]. apply Z.ltb_lt. exact Hd. }
    split; [|split; [eapply grow_trans; eauto|exact F']].
    constructor; [exact A|exact B| | |]; intros q Hq.
    - unfold seen_pre in Hq. rewrite D1 in Hq. eapply ups_sub; [exact Sb|]. apply (i_pre _ I). exact Hq.
    - unfold seen_post in Hq. rewrite D2 in Hq. cbn [s0 st_post] in Hq. apply upd_flag in Hq. destruct Hq as [->|Hq]; [exact F'|].
      eapply downs_sub; [exact Sb|]. apply (i_post _ I). exact Hq.
    - unfold seen_inhib in Hq. rewrite D3 in Hq. eapply inhs_sub; [exact Sb|]. apply (i_inhib _ I). exact Hq.
  Qed.
  Lemma inhib0_ok : forall s p, inv s -> inv (inhib0 net s p) /\ grow s (inhib0 net s p) /\ inhs (in_stub (inhib0 net s p)) p.
  Proof.
    intros s p I. unfold inhib0. destruct (seen_inhib s p) eqn:E; [split; [exact I|]; split; [apply grow_refl|apply (i_inhib _ I); exact E]|].
    set (s0 := mkStub _ _ _ _ _). destruct (adds_ok (inhib_of net p) s0 (i_len _ I) (i_todo _ I) (inhib_bound p)) as (A & B & C & (D1 & D2 & D3) & F).
    assert (C0 : grow s s0) by (split; [apply sub_refl|]; split; [apply incl_refl|]; split; auto).
    assert (Sb : sub (in_stub s) (in_stub (fold_left (@add_to_stub) (inhib_of net p) s0))) by exact (proj1 C).
    split; [|split; [eapply grow_trans; eauto|exact F]].
    constructor; [exact A|exact B| | |]; intros q Hq.
    - unfold seen_pre in Hq. rewrite D1 in Hq. eapply ups_sub; [exact Sb|]. apply (i_pre _ I). exact Hq.
    - unfold seen_post in Hq. rewrite D2 in Hq. eapply downs_sub; [exact Sb|]. apply (i_post _ I). exact Hq.
    - unfold seen_inhib in Hq. rewrite D3 in Hq. cbn [s0 st_inhib] in Hq. apply upd_flag in Hq. destruct Hq as [->|Hq]; [exact F|].
      eapply inhs_sub; [exact Sb|]. apply (i_inhib _ I). exact Hq.
  Qed.

  Variable m : list N.
  Variable en : nat -> bool.
  Definition fails (iv : invariant) : bool := if iv_inhib iv then (iv_tokens iv <=? tok m (iv_place iv))%N else (tok m (iv_place iv) <? iv_tokens iv)%N.
  Hypothesis Hen : forall t, t < n -> en t = false -> exists iv, In iv (in_slice net t) /\ fails iv = true.

  Definition closed_c (S : nat -> bool) (t : nat) : Prop :=
    (en t = true -> (forall iv u d, In iv (in_slice net t) -> (iv_dir iv < 0)%Z -> In (u, d) (post_of net (iv_place iv)) -> S u = true) /\
                    (forall iv, In iv (out_slice net t) -> (0 < iv_dir iv)%Z -> inhs S (iv_place iv))) /\
    (en t = false -> exists iv, In iv (in_slice net t) /\ fails iv = true /\ if iv_inhib iv then downs S (iv_place iv) else ups S (iv_place iv)).
  Lemma closed_sub : forall S S' t, sub S S' -> closed_c S t -> closed_c S' t.
  Proof.
    intros S S' t Sb (A & B). split.
    - intros E. destruct (A E) as (A1 & A2). split; [intros; apply Sb; eapply A1; eauto|intros; eapply inhs_sub; [exact Sb|auto]].
    - intros E. destruct (B E) as (iv & B1 & B2 & B3). exists iv. split; [exact B1|]. split; [exact B2|].
      destruct (iv_inhib iv); [eapply downs_sub|eapply ups_sub]; eauto.
  Qed.

  Definition cand_ok (l : list invariant) (c : option (nat * bool)) : Prop :=
    match c with None => True | Some (p, i) => exists iv, In iv l /\ iv_place iv = p /\ iv_inhib iv = i /\ fails iv = true end.
  Lemma scan_ok : forall s l cand deps,
    match scan net m s l cand deps with
    | inl _ => exists iv, In iv l /\ fails iv = true /\ (if iv_inhib iv then seen_post s (iv_place iv) else seen_pre s (iv_place iv)) = true
    | inr None => cand = None /\ forall iv, In iv l -> deps = None -> fails iv = false
    | inr (Some c) => cand = Some c \/ cand_ok l (Some c)
    end.
  Proof.
    intros s. induction l as [|iv l IH]; intros cand deps; cbn [scan].
    - destruct cand as [(p, i)|]; [left; reflexivity|]. split; [reflexivity|]. intros iv [].
    - cbv zeta.
      assert (Bt : forall (i : bool), i = iv_inhib iv -> fails iv = true ->
        match scan net m s l (Some (iv_place iv, i)) (Some (dependency net (iv_place iv) i)) with
        | inl _ => exists iv0, In iv0 (iv :: l) /\ fails iv0 = true /\ (if iv_inhib iv0 then seen_post s (iv_place iv0) else seen_pre s (iv_place iv0)) = true
        | inr None => cand = None /\ forall iv0, In iv0 (iv :: l) -> deps = None -> fails iv0 = false
        | inr (Some c) => cand = Some c \/ cand_ok (iv :: l) (Some c)
        end).
      { intros i Hi Hf. specialize (IH (Some (iv_place iv, i)) (Some (dependency net (iv_place iv) i))).
        destruct (scan _ _ _ l _ _) as [u|[(p, j)|]].
        - destruct IH as (iv0 & A & B). exists iv0. split; [right; exact A|exact B].
        - right. destruct IH as [E|(iv0 & A & B)]; [injection E as <- <-; exists iv; split; [left; reflexivity|auto]|exists iv0; split; [right; exact A|exact B]].
        - destruct IH as (E & _). discriminate. }
      assert (Sk : (fails iv = true -> deps <> None) ->
        match scan net m s l cand deps with
        | inl _ => exists iv0, In iv0 (iv :: l) /\ fails iv0 = true /\ (if iv_inhib iv0 then seen_post s (iv_place iv0) else seen_pre s (iv_place iv0)) = true
        | inr None => cand = None /\ forall iv0, In iv0 (iv :: l) -> deps = None -> fails iv0 = false
        | inr (Some c) => cand = Some c \/ cand_ok (iv :: l) (Some c)
        end).
      { intros Hf. specialize (IH cand deps). destruct (scan _ _ _ l _ _) as [u|[(p, j)|]].
        - destruct IH as (iv0 & A & B). exists iv0. split; [right; exact A|exact B].
        - destruct IH as [E|(iv0 & A & B)]; [left; exact E|right; exists iv0; split; [right; exact A|exact B]].
        - destruct IH as (E & A). split; [exact E|]. intros iv0 [<-|I0] D; [|auto]. destruct (fails iv) eqn:Ef; [|reflexivity]. exfalso; apply (Hf eq_refl D). }
      unfold fails in Bt at 1, Sk at 1. destruct (iv_inhib iv) eqn:Ei; cbn [negb]; rewrite ?andb_false_r, ?andb_true_r.
      + destruct (iv_tokens iv <=? tok m (iv_place iv))%N eqn:Ef; [|apply Sk; discriminate].
        destruct (seen_post s (iv_place iv)) eqn:Es.
        * exists iv. split; [left; reflexivity|]. unfold fails. rewrite Ei. auto.
        * destruct deps as [d|]; [|apply (Bt true); auto]. destruct (_ <=? d); [apply (Bt true); auto|apply Sk; discriminate].
      + destruct (tok m (iv_place iv) <? iv_tokens iv)%N eqn:Ef; [|apply Sk; discriminate].
        destruct (seen_pre s (iv_place iv)) eqn:Es.
        * exists iv. split; [left; reflexivity|]. unfold fails. rewrite Ei. auto.
        * destruct deps as [d|]; [|apply (Bt false); auto]. destruct (_ <=? d); [apply (Bt false); auto|apply Sk; discriminate].
  Qed.

  (** folds of operations that keep the invariant *)
  Lemma fold_ops : forall A (f : stub -> A -> stub) (Q : (nat -> bool) -> A -> Prop),
    (forall S S' x, sub S S' -> Q S x -> Q S' x) ->
    (forall s x, inv s -> inv (f s x) /\ grow s (f s x) /\ Q (in_stub (f s x)) x) ->
    forall l s, inv s -> inv (fold_left f l s) /\ grow s (fold_left f l s) /\ forall x, In x l -> Q (in_stub (fold_left f l s)) x.
  Proof.
    intros A f Q Hm Hf. induction l as [|x l IH]; intros s I; cbn [fold_left].
    - split; [exact I|]. split; [apply grow_refl|]. intros x [].
    - destruct (Hf s x I) as (I1 & G1 & Q1). destruct (IH _ I1) as (I2 & G2 & Q2). split; [exact I2|]. split; [eapply grow_trans; eauto|].
      intros y [<-|Hy]; [eapply Hm; [exact (proj1 G2)|exact Q1]|apply Q2; exact Hy].
  Qed.
  Lemma close_one_ok : forall s t, inv s -> t < n -> inv (close_one net m en s t) /\ grow s (close_one net m en s t) /\ closed_c (in_stub (close_one net m en s t)) t.
  Proof.
    intros s t I Lt. unfold close_one. destruct (en t) eqn:E.
    - set (f1 := fun (s : stub) (iv : invariant) => if (iv_dir iv <? 0)%Z then _ else s).
      pose (Q1 := fun (S : nat -> bool) (iv : invariant) => (iv_dir iv < 0)%Z -> forall u d, In (u, d) (post_of net (iv_place iv)) -> S u = true).
      destruct (@fold_ops _ f1 Q1) with (l := in_slice net t) (s := s) as (I1 & G1 & H1); [unfold Q1, sub; eauto| |exact I|].
      { intros s0 iv I0. unfold f1, Q1. destruct (iv_dir iv <? 0)%Z eqn:Ed.
        - destruct (adds_inv _ _ I0 (post_bound' (iv_place iv))) as (A & B & C). split; [exact A|]. split; [exact B|].
          intros _ u d Hu. apply C. apply in_map_iff. exists (u, d). auto.
        - split; [exact I0|]. split; [apply grow_refl|]. apply Z.ltb_ge in Ed. lia. }
      set (s1 := fold_left f1 (in_slice net t) s) in *. cbv zeta.
      destruct (has_inhib net) eqn:Eh.
      + set (f2 := fun (s : stub) (iv : invariant) => if (0 <? iv_dir iv)%Z then inhib0 net s (iv_place iv) else s).
        pose (Q2 := fun (S : nat -> bool) (iv : invariant) => (0 < iv_dir iv)%Z -> inhs S (iv_place iv)).
        destruct (@fold_ops _ f2 Q2) with (l := out_slice net t) (s := s1) as (I2 & G2 & H2); [unfold Q2; intros; eapply inhs_sub; eauto| |exact I1|].
        { intros s0 iv I0. unfold f2, Q2. destruct (0 <? iv_dir iv)%Z eqn:Ed.
          - destruct (inhib0_ok s0 (iv_place iv) I0) as (A & B & C). auto.
          - split; [exact I0|]. split; [apply grow_refl|]. apply Z.ltb_ge in Ed. lia. }
        split; [exact I2|]. split; [eapply grow_trans; eauto|]. split; [|intros; congruence]. intros _. split.
        * intros iv u d Hi Hd Hu. apply (proj1 G2). exact (H1 iv Hi Hd u d Hu).
        * intros iv Hi Hd. exact (H2 iv Hi Hd).
      + split; [exact I1|]. split; [exact G1|]. split; [|intros; congruence]. intros _. split.
        * intros iv u d Hi Hd Hu. exact (H1 iv Hi Hd u d Hu).
        * intros iv Hi Hd u Hu. rewrite no_inhib in Hu by exact Eh. destruct Hu.
    - pose proof (scan_ok s (in_slice net t) None None) as Sc.
      destruct (scan net m s (in_slice net t) None None) as [x|[(p, i)|]].
      + split; [exact I|]. split; [apply grow_refl|]. split; [intros; congruence|]. intros _. destruct Sc as (iv & A & B & C).
        exists iv. split; [exact A|]. split; [exact B|]. destruct (iv_inhib iv); [apply (i_post _ I)|apply (i_pre _ I)]; exact C.
      + destruct Sc as [Sc|(iv & A & <- & <- & B)]; [discriminate|]. destruct (iv_inhib iv) eqn:Ei.
        * destruct (postset0_ok s (iv_place iv) I) as (I1 & G1 & H1). split; [exact I1|]. split; [exact G1|].
          split; [intros; congruence|]. intros _. exists iv. rewrite Ei. auto.
        * destruct (preset0_ok s (iv_place iv) I) as (I1 & G1 & H1). split; [exact I1|]. split; [exact G1|].
          split; [intros; congruence|]. intros _. exists iv. rewrite Ei. auto.
      + exfalso. destruct Sc as (_ & Sc). destruct (Hen t Lt E) as (iv & A & B). rewrite (Sc iv A eq_refl) in B. discriminate.
  Qed.

  (** every transition of the set waits or is closed *)
  Definition pending (s : stub) : Prop := forall t, in_stub s t = true -> In t (st_todo s) \/ closed_c (in_stub s) t.
  Definition opok (s : stub) (r : res stub) (Q : (nat -> bool) -> Prop) : Prop :=
    exists s', r = Ok s' /\ inv s' /\ pending s' /\ sub (in_stub s) (in_stub s') /\ Q (in_stub s').

  Lemma close_loop_ok : forall fuel s, inv s -> pending s -> close_fuel s <= fuel ->
    opok s (close_loop net m en fuel s) (fun S => forall t, S t = true -> closed_c S t).
  Proof.
    induction fuel as [|fuel IH]; intros s I P F.
    - destruct (st_todo s) as [|t todo] eqn:E; [|unfold close_fuel in F; rewrite E in F; cbn in F; lia].
      exists s. cbn [close_loop]. rewrite E. split; [reflexivity|]. split; [exact I|]. split; [exact P|]. split; [apply sub_refl|].
      intros t Ht. destruct (P t Ht) as [H|H]; [rewrite E in H; destruct H|exact H].
    - cbn [close_loop]. destruct (st_todo s) as [|t todo] eqn:E.
      + exists s. split; [reflexivity|]. split; [exact I|]. split; [exact P|]. split; [apply sub_refl|].
        intros t Ht. destruct (P t Ht) as [H|H]; [rewrite E in H; destruct H|exact H].
      + set (s0 := mkStub _ _ _ _ _).
        assert (Lt : t < n /\ Forall (fun t => t < n) todo) by (pose proof (i_todo _ I) as H; rewrite E in H; inversion H; auto).
        assert (I0 : inv s0) by (destruct I; constructor; auto; exact (proj2 Lt)).
        destruct (close_one_ok s0 t I0 (proj1 Lt)) as (I1 & (Sb & Tb & Nb & Fb) & C1).
        destruct (IH (close_one net m en s0 t)) as (s' & R & I' & P' & Sb' & Q').
        * exact I1.
        * intros u Hu. destruct (Nat.eq_dec u t) as [->|Ne]; [right; exact C1|]. destruct (Nb u Hu) as [H|H]; [|left; exact H].
          destruct (P u H) as [G|G]; [|right; eapply closed_sub; [exact Sb|exact G]]. rewrite E in G. destruct G as [G|G]; [congruence|]. left; apply Tb; exact G.
        * rewrite Fb. unfold close_fuel in *. rewrite E in F. cbn [length st_todo st_stub s0] in *. lia.
        * exists s'. split; [exact R|]. split; [exact I'|]. split; [exact P'|]. split; [eapply sub_trans; [exact Sb|exact Sb']|exact Q'].
  Qed.
  Lemma closure_ok : forall s, inv s -> pending s -> opok s (closure net m en s) (fun S => forall t, S t = true -> closed_c S t).
  Proof. intros s I P. apply close_loop_ok; auto. Qed.

  Lemma pending_grow : forall s s', pending s -> grow s s' -> pending s'.
  Proof.
    intros s s' P (Sb & Tb & Nb & _) t Ht. destruct (Nb t Ht) as [H|H]; [|left; exact H].
    destruct (P t H) as [G|G]; [left; apply Tb; exact G|right; eapply closed_sub; eauto].
  Qed.
  Variable mk : bool.
  Lemma opok_bind : forall s r f Q1 Q2, opok s r Q1 -> (forall s1, inv s1 -> pending s1 -> Q1 (in_stub s1) -> opok s1 (f s1) Q2) -> opok s (s1 <- r ;; f s1) Q2.
  Proof.
    intros s r f Q1 Q2 (s1 & -> & I & P & Sb & H) Hf. cbn [bind]. destruct (Hf s1 I P H) as (s2 & E & I2 & P2 & Sb2 & H2).
    exists s2. split; [exact E|]. split; [exact I2|]. split; [exact P2|]. split; [eapply sub_trans; eauto|exact H2].
  Qed.
  Lemma opok_imp : forall s r (Q1 Q2 : (nat -> bool) -> Prop), opok s r Q1 -> (forall S, Q1 S -> Q2 S) -> opok s r Q2.
  Proof. intros s r Q1 Q2 (s1 & E & I & P & Sb & H) Hq. exists s1. auto 6. Qed.
  Lemma opok_ret : forall s (Q : (nat -> bool) -> Prop), inv s -> pending s -> Q (in_stub s) -> opok s (Ok s) Q.
  Proof. intros s Q I P H. exists s. split; [reflexivity|]. split; [exact I|]. split; [exact P|]. split; [apply sub_refl|exact H]. Qed.
  (** two operations, with what both deliver *)
  Definition mono (Q : (nat -> bool) -> Prop) : Prop := forall S S', sub S S' -> Q S -> Q S'.
  Lemma opok_seq : forall s r f (Q1 Q2 : (nat -> bool) -> Prop), mono Q1 -> opok s r Q1 -> (forall s1, inv s1 -> pending s1 -> opok s1 (f s1) Q2) ->
    opok s (s1 <- r ;; f s1) (fun S => Q1 S /\ Q2 S).
  Proof.
    intros s r f Q1 Q2 M H Hf. eapply opok_bind; [exact H|]. intros s1 I P H1. destruct (Hf s1 I P) as (s2 & E & I2 & P2 & Sb2 & H2).
    exists s2. split; [exact E|]. split; [exact I2|]. split; [exact P2|]. split; [exact Sb2|]. split; [eapply M; eauto|exact H2].
  Qed.
  Lemma opok_fold : forall A (f : stub -> A -> res stub) (Q : A -> (nat -> bool) -> Prop), (forall x, mono (Q x)) ->
    forall l, (forall x s, In x l -> inv s -> pending s -> opok s (f s x) (Q x)) ->
    forall s, inv s -> pending s -> opok s (foldM f l s) (fun S => forall x, In x l -> Q x S).
  Proof.
    intros A f Q M. induction l as [|x l IH]; intros Hf s I P; cbn [foldM].
    - apply opok_ret; auto. intros x [].
    - eapply opok_imp; [eapply opok_seq; [apply (M x)|apply Hf; [left; reflexivity|exact I|exact P]|]|].
      + intros s1 I1 P1. apply IH; [|exact I1|exact P1]. intros y s2 Hy. apply Hf. right; exact Hy.
      + cbv beta. intros S (H1 & H2) y [<-|Hy]; auto.
  Qed.
  Lemma preset_of_ok : forall s p, inv s -> pending s -> opok s (preset_of net m en mk s p) (fun S => ups S p).
  Proof.
    intros s p I P. unfold preset_of. destruct (seen_pre s p) eqn:E; [apply opok_ret; auto; apply (i_pre _ I); exact E|].
    destruct (preset0_ok s p I) as (I1 & G1 & U1). destruct mk.
    - destruct (closure_ok _ I1 (pending_grow _ _ P G1)) as (s' & R & I' & P' & Sb & _). exists s'. split; [exact R|]. split; [exact I'|].
      split; [exact P'|]. split; [eapply sub_trans; [exact (proj1 G1)|exact Sb]|]. eapply ups_sub; eauto.
    - exists (preset0 net s p). split; [reflexivity|]. split; [exact I1|]. split; [eapply pending_grow; eauto|]. split; [exact (proj1 G1)|exact U1].
  Qed.
  Lemma postset_of_ok : forall s p, inv s -> pending s -> opok s (postset_of net m en mk s p) (fun S => downs S p).
  Proof.
    intros s p I P. unfold postset_of. destruct (seen_post s p) eqn:E; [apply opok_ret; auto; apply (i_post _ I); exact E|].
    destruct (postset0_ok s p I) as (I1 & G1 & U1). destruct mk.
    - destruct (closure_ok _ I1 (pending_grow _ _ P G1)) as (s' & R & I' & P' & Sb & _). exists s'. split; [exact R|]. split; [exact I'|].
      split; [exact P'|]. split; [eapply sub_trans; [exact (proj1 G1)|exact Sb]|]. eapply downs_sub; eauto.
    - exists (postset0 net s p). split; [reflexivity|]. split; [exact I1|]. split; [eapply pending_grow; eauto|]. split; [exact (proj1 G1)|exact U1].
  Qed.

  Definition moved (up : bool) (p : nat) (S : nat -> bool) : Prop := if up then ups S p else downs S p.
  Lemma moved_mono : forall up p, mono (moved up p).
  Proof. intros up p S S' Sb H. destruct up; [eapply ups_sub|eapply downs_sub]; eauto. Qed.
  Lemma move_ok : forall up s p, inv s -> pending s -> opok s (move net m en mk up s p) (moved up p).
  Proof. intros up s p I P. destruct up; [apply preset_of_ok|apply postset_of_ok]; assumption. Qed.
  Lemma mono_and : forall Q1 Q2, mono Q1 -> mono Q2 -> mono (fun S => Q1 S /\ Q2 S).
  Proof. intros Q1 Q2 A B S S' Sb (H1 & H2). split; eauto. Qed.
  Lemma mono_all : forall A (l : list A) (Q : A -> (nat -> bool) -> Prop), (forall x, mono (Q x)) -> mono (fun S => forall x, In x l -> Q x S).
  Proof. intros A l Q M S S' Sb H x Hx. eapply M; eauto. Qed.

  (** what the expression visitors deliver *)
  Fixpoint eok (S : nat -> bool) (up : bool) (e : expr) : Prop :=
    match e with
    | Lit _ => True
    | Pl p => moved up p S
    | Ident e => eok S up e
    | Minus _ => True
    | Sub e es => eok S up e /\ fold_right and True (map (eok S (negb up)) es)
    | Plus _ ids es => (forall p, In p ids -> moved up p S) /\ fold_right and True (map (eok S up) es)
    | Mul _ ids es =>
      if Nat.eqb (length ids + length es) 1 then (forall p, In p ids -> moved up p S) /\ fold_right and True (map (eok S up) es)
      else (forall p, In p ids -> moved true p S /\ moved false p S) /\
           fold_right and True (map (eok S true) es) /\ fold_right and True (map (eok S false) es)
    end.
  Lemma fr_and : forall A (f : A -> Prop) l, fold_right and True (map f l) <-> forall x, In x l -> f x.
  Proof.
    intros A f. induction l as [|x l IH]; cbn [map fold_right]; [split; [intros _ x []|auto]|]. rewrite IH. split.
    - intros (H1 & H2) y [<-|Hy]; auto.
    - intros H. split; [apply H; left; reflexivity|intros y Hy; apply H; right; exact Hy].
  Qed.
  Lemma eok_mono : forall e up, mono (fun S => eok S up e).
  Proof.
    induction e using expr_ind'; intros up S S' Sb He; cbn [eok] in *; auto.
    - eapply moved_mono; eauto.
    - eapply IHe; eauto.
    - destruct He as (A & B). split; [eapply IHe; eauto|]. rewrite !fr_and in *. rewrite Forall_forall in H. intros x Hx. eapply H; eauto.
    - destruct He as (A & B). rewrite !fr_and in *. rewrite Forall_forall in H. split; [intros p Hp; eapply moved_mono; eauto|intros x Hx; eapply H; eauto].
    - destruct (Nat.eqb _ 1).
      + destruct He as (A & B). rewrite !fr_and in *. rewrite Forall_forall in H. split; [intros p Hp; eapply moved_mono; eauto|intros x Hx; eapply H; eauto].
      + destruct He as (A & B & C). rewrite !fr_and in *. rewrite Forall_forall in H. split; [|split].
        * intros p Hp. destruct (A p Hp). split; eapply moved_mono; eauto.
        * intros x Hx. eapply H; eauto.
        * intros x Hx. eapply H; eauto.
  Qed.
  Lemma visit_expr_ok : forall e up s, inv s -> pending s -> opok s (visit_expr net m en mk up e s) (fun S => eok S up e).
  Proof.
    induction e using expr_ind'; intros up s I P; cbn [visit_expr eok].
    - apply opok_ret; auto.
    - apply move_ok; auto.
    - apply IHe; auto.
    - apply opok_ret; auto.
    - rewrite Forall_forall in H. eapply opok_seq; [apply eok_mono|apply IHe; auto|]. intros s1 I1 P1.
      eapply opok_imp; [apply (@opok_fold _ _ (fun x S => eok S (negb up) x)); auto; intros x; apply eok_mono|]. cbv beta. intros S HS. apply fr_and. exact HS.
    - rewrite Forall_forall in H. eapply opok_seq; [apply mono_all; intros p; apply moved_mono| |].
      + apply (@opok_fold _ _ (moved up)); auto; [intros x; apply moved_mono|]. intros x s1 _ I1 P1. apply move_ok; auto.
      + intros s1 I1 P1. eapply opok_imp; [apply (@opok_fold _ _ (fun x S => eok S up x)); auto; intros x; apply eok_mono|]. cbv beta. intros S HS. apply fr_and. exact HS.
    - rewrite Forall_forall in H. destruct (Nat.eqb _ 1).
      + eapply opok_seq; [apply mono_all; intros p; apply moved_mono| |].
        * apply (@opok_fold _ _ (moved up)); auto; [intros x; apply moved_mono|]. intros x s1 _ I1 P1. apply move_ok; auto.
        * intros s1 I1 P1. eapply opok_imp; [apply (@opok_fold _ _ (fun x S => eok S up x)); auto; intros x; apply eok_mono|]. cbv beta. intros S HS. apply fr_and. exact HS.
      + eapply opok_seq; [apply mono_all; intros p; apply mono_and; apply moved_mono| |].
        * apply (@opok_fold _ _ (fun p S => moved true p S /\ moved false p S)); auto; [intros x; apply mono_and; apply moved_mono|].
          intros p s1 _ I1 P1. eapply opok_seq; [apply (moved_mono true)|apply preset_of_ok; auto|]. intros s2 I2 P2. apply postset_of_ok; auto.
        * intros s1 I1 P1. eapply opok_imp; [apply (@opok_fold _ _ (fun x S => eok S true x /\ eok S false x)); auto; [intros x; apply mono_and; apply eok_mono|]|].
          -- intros x s2 Hx I2 P2. eapply opok_seq; [apply eok_mono|apply H; auto|]. intros s3 I3 P3. apply H; auto.
          -- cbv beta. intros S HS. split; apply fr_and; intros x Hx; apply (HS x Hx).
  Qed.

  (** ** Conjunctions of intervals *)
  Definition viol (c : cons) : bool := negb (c_lower c <=? tok m (c_place c))%N || (negb (c_upper c =? u32max)%N && negb (tok m (c_place c) <=? c_upper c)%N).
  (** what keeps a violated constraint violated, and a constraint that holds true *)
  Definition keep_viol (S : nat -> bool) (c : cons) : Prop :=
    ((tok m (c_place c) < c_lower c)%N /\ ups S (c_place c)) \/
    ((c_upper c < tok m (c_place c))%N /\ (c_upper c <> u32max) /\ downs S (c_place c)).
  Definition keep_ok (S : nat -> bool) (c : cons) : Prop :=
    (c_lower c <> 0%N -> downs S (c_place c)) /\ (c_upper c <> u32max -> ups S (c_place c)).
  Definition holds_here (c : cons) : Prop := (c_lower c <= tok m (c_place c))%N /\ (c_upper c = u32max \/ (tok m (c_place c) <= c_upper c)%N).
  Hypothesis Hfit : forall p, (tok m p <= u32max)%N.
  Definition cand_q (cand : option (nat * bool)) (S : nat -> bool) : Prop :=
    match cand with None => True | Some (p, true) => ups S p | Some (p, false) => downs S p end.
  Lemma seen_cand : forall s p (pre : bool), inv s -> (if pre then seen_pre s p else seen_post s p) = true -> cand_q (Some (p, pre)) (in_stub s).
  Proof. intros s p pre I H. destruct pre; [apply (i_pre _ I)|apply (i_post _ I)]; exact H. Qed.
  Lemma visit_conj_pos : forall cs cand s, inv s -> pending s ->
    opok s (visit_conj net m en mk false cs cand s)
      (fun S => (exists c, In c cs /\ keep_viol S c) \/ (cand_q cand S /\ (cand = None -> forall c, In c cs -> holds_here c))).
  Proof.
    induction cs as [|c cs IH]; intros cand s I P; cbn [visit_conj].
    - destruct cand as [(p, [|])|].
      + eapply opok_imp; [apply preset_of_ok; auto|]. cbv beta. intros S HS. right. split; [exact HS|discriminate].
      + eapply opok_imp; [apply postset_of_ok; auto|]. cbv beta. intros S HS. right. split; [exact HS|discriminate].
      + apply opok_ret; auto. right. split; [exact Logic.I|]. intros _ c [].
    - cbv zeta. pose (nx := fun (cand0 : option (nat * bool)) (s0 : stub) => match cand0 with Some (q, pre) => if (if pre then seen_pre s0 q else seen_post s0 q) then Ok s0 else visit_conj net m en mk false cs cand0 s0 | None => visit_conj net m en mk false cs cand0 s0 end).
      assert (Skip : forall s0, holds_here c -> inv s0 -> pending s0 -> opok s0 (visit_conj net m en mk false cs cand s0)
        (fun S => (exists c0, In c0 (c :: cs) /\ keep_viol S c0) \/ (cand_q cand S /\ (cand = None -> forall c0, In c0 (c :: cs) -> holds_here c0)))).
      { intros s0 Hc I0 P0. eapply opok_imp; [apply IH; auto|]. cbv beta. intros S [(c0 & A & B)|(A & B)]; [left; exists c0; split; [right; exact A|exact B]|].
        right. split; [exact A|]. intros E c0 [<-|H0]; [exact Hc|apply B; auto]. }
      assert (New : forall (pre : bool) s0, (forall S, cand_q (Some (c_place c, pre)) S -> keep_viol S c) -> inv s0 -> pending s0 -> opok s0 (nx (Some (c_place c, pre)) s0)
        (fun S => (exists c0, In c0 (c :: cs) /\ keep_viol S c0) \/ (cand_q cand S /\ (cand = None -> forall c0, In c0 (c :: cs) -> holds_here c0)))).
      { intros pre s0 Hc I0 P0. unfold nx. destruct (if pre then seen_pre s0 (c_place c) else seen_post s0 (c_place c)) eqn:E.
        - apply opok_ret; auto. left. exists c. split; [left; reflexivity|]. apply Hc. apply seen_cand; auto.
        - eapply opok_imp; [apply IH; auto|]. cbv beta. intros S [(c0 & A & B)|(A & B)]; [left; exists c0; split; [right; exact A|exact B]|].
          left. exists c. split; [left; reflexivity|]. apply Hc. exact A. }
      assert (Old : forall s0, holds_here c -> inv s0 -> pending s0 -> opok s0 (nx cand s0)
        (fun S => (exists c0, In c0 (c :: cs) /\ keep_viol S c0) \/ (cand_q cand S /\ (cand = None -> forall c0, In c0 (c :: cs) -> holds_here c0)))).
      { intros s0 Hc I0 P0. unfold nx. destruct cand as [(q, pre)|]; [|apply Skip; auto].
        destruct (if pre then seen_pre s0 q else seen_post s0 q) eqn:E; [|apply Skip; auto].
        apply opok_ret; auto. right. split; [apply seen_cand; auto|discriminate]. }
      pose proof (Hfit (c_place c)) as Hf.
      destruct (c_lower c =? c_upper c)%N eqn:Eq.
      + apply N.eqb_eq in Eq. destruct (tok m (c_place c) =? c_lower c)%N eqn:Ev.
        * apply N.eqb_eq in Ev. apply Skip; auto. unfold holds_here. lia.
        * apply N.eqb_neq in Ev. destruct (c_lower c <? tok m (c_place c))%N eqn:El.
          -- apply N.ltb_lt in El. refine (New false s _ I P). intros S HS. right. unfold u32max in *. split; [lia|]. split; [lia|exact HS].
          -- apply N.ltb_ge in El. refine (New true s _ I P). intros S HS. left. split; [lia|exact HS].
      + cbn [negb].
        destruct ((c_upper c <? tok m (c_place c))%N && negb (c_upper c =? u32max)%N) eqn:E2.
        * apply andb_true_iff in E2. destruct E2 as (A & B). apply N.ltb_lt in A. apply negb_true_iff, N.eqb_neq in B.
          refine (New false s _ I P). intros S HS. right. split; [exact A|]. split; [exact B|exact HS].
        * destruct ((tok m (c_place c) <? c_lower c)%N && negb (c_lower c =? 0)%N) eqn:E1.
          -- apply andb_true_iff in E1. destruct E1 as (A & B). apply N.ltb_lt in A. refine (New true s _ I P). intros S HS. left. split; [exact A|exact HS].
          -- refine (Old s _ I P). unfold holds_here. apply andb_false_iff in E1. apply andb_false_iff in E2.
             assert (L : (c_lower c <= tok m (c_place c))%N).
             { destruct E1 as [E1|E1]; [apply N.ltb_ge; exact E1|apply negb_false_iff, N.eqb_eq in E1; lia]. }
             split; [exact L|]. destruct E2 as [E2|E2]; [right; apply N.ltb_ge; exact E2|left; apply negb_false_iff, N.eqb_eq in E2; exact E2].
  Qed.
  Lemma keep_ok_mono : forall c, mono (fun S => keep_ok S c).
  Proof. intros c S S' Sb (A & B). split; intros H; [eapply downs_sub|eapply ups_sub]; eauto. Qed.
  Lemma visit_conj_neg : forall cs s, inv s -> pending s ->
    opok s (visit_conj net m en mk true cs None s) (fun S => forall c, In c cs -> holds_here c -> keep_ok S c).
  Proof.
    induction cs as [|c cs IH]; intros s I P; cbn [visit_conj].
    - apply opok_ret; auto. intros c [].
    - cbv zeta. cbn [negb]. pose proof (Hfit (c_place c)) as Hf.
      assert (Cons : forall s0, inv s0 -> pending s0 -> opok s0 (visit_conj net m en mk true cs None s0) (fun S => forall c, In c cs -> holds_here c -> keep_ok S c)) by (intros; apply IH; auto).
      assert (M0 : mono (fun S => holds_here c -> keep_ok S c)) by (intros S S' Sb H H'; eapply keep_ok_mono; eauto).
      assert (Fin : forall (Q : (nat -> bool) -> Prop) r, mono Q -> (forall S, Q S -> holds_here c -> keep_ok S c) -> opok s r Q ->
        opok s (s1 <- r ;; visit_conj net m en mk true cs None s1) (fun S => forall c0, In c0 (c :: cs) -> holds_here c0 -> keep_ok S c0)).
      { intros Q r Mq HQ Hr. eapply opok_imp; [eapply opok_seq; [exact Mq|exact Hr|exact Cons]|]. cbv beta. intros S (A & B) c0 [<-|H0]; [auto|apply B; exact H0]. }
      destruct (c_lower c =? c_upper c)%N eqn:Eq.
      + apply N.eqb_eq in Eq. destruct (tok m (c_place c) =? c_lower c)%N eqn:Ev; cbn [negb].
        * assert (A : opok s (s1 <- postset_of net m en mk s (c_place c) ;; preset_of net m en mk s1 (c_place c)) (fun S => downs S (c_place c) /\ ups S (c_place c))).
          { eapply opok_seq; [apply (moved_mono false)|apply postset_of_ok; auto|]. intros s1 I1 P1. apply preset_of_ok; auto. }
          assert (G := Fin _ _ (mono_and _ _ (moved_mono false (c_place c)) (moved_mono true (c_place c))) (fun S H _ => conj (fun _ => proj1 H) (fun _ => proj2 H)) A).
          destruct G as (s' & G & H). exists s'. split; [|exact H]. rewrite <- G. destruct (postset_of net m en mk s (c_place c)); reflexivity.
        * apply N.eqb_neq in Ev. eapply opok_imp; [apply Cons; auto|]. cbv beta. intros S H c0 [<-|H0]; [|auto].
          intros (A & B). unfold u32max in *. lia.
      + set (a := (c_lower c <=? _)%N && _). set (b := (_ <=? c_upper c)%N && _).
        pose (Qa := fun S => a = true -> downs S (c_place c)). pose (Qb := fun S => b = true -> ups S (c_place c)).
        assert (Ma : mono Qa) by (intros S S' Sb H E; eapply downs_sub; [exact Sb|apply H; exact E]).
        assert (Mb : mono Qb) by (intros S S' Sb H E; eapply ups_sub; [exact Sb|apply H; exact E]).
        assert (A : opok s (s1 <- (if a then postset_of net m en mk s (c_place c) else Ok s) ;; (if b then preset_of net m en mk s1 (c_place c) else Ok s1)) (fun S => Qa S /\ Qb S)).
        { eapply opok_seq; [exact Ma| |].
          - unfold Qa. destruct a; [eapply opok_imp; [apply postset_of_ok; auto|]; auto|apply opok_ret; auto; discriminate].
          - intros s1 I1 P1. unfold Qb. destruct b; [eapply opok_imp; [apply preset_of_ok; auto|]; auto|apply opok_ret; auto; discriminate]. }
        assert (HQ : forall S, Qa S /\ Qb S -> holds_here c -> keep_ok S c).
        { intros S (H1 & H2) (L & U). unfold Qa, Qb, a, b in H1, H2. split.
          - intros Z. apply H1. apply andb_true_iff. split; [apply N.leb_le; exact L|apply negb_true_iff, N.eqb_neq; exact Z].
          - intros Z. apply H2. apply andb_true_iff. split; [apply N.leb_le; destruct U; [contradiction|assumption]|apply negb_true_iff, N.eqb_neq; exact Z]. }
        destruct (Fin _ _ (mono_and _ _ Ma Mb) HQ A) as (s' & G & H).
        exists s'. split; [|exact H]. rewrite <- G. destruct (if a then postset_of net m en mk s (c_place c) else Ok s); reflexivity.
  Qed.
End Net.
