(** Proofs: the builder state after a list of calls (C03). *)
From Verif Require Import Base BaseLemmas NetSpec NetModel NetProofs BuilderModel BuilderSpec BuilderProofs.
From Coq Require Import Permutation.
Set Implicit Arguments.

Definition fnd (j : nat) (l : list arc) : option arc := find (fun a => Nat.eqb (arc_place a) j) l.

Definition pre_rel (l : list arc) (j : nat) (din : N) (dinh : N -> Prop) : Prop :=
  match fnd j l with
  | None => din = 0%N /\ (forall w, ~ dinh w)
  | Some a =>
    if arc_inhib a
    then din = 0%N /\ (exists w, dinh w) /\ (forall k, (k < arc_weight a)%N <-> forall w, dinh w -> (k < w)%N)
    else din = arc_weight a /\ (0 < din)%N /\ (forall w, ~ dinh w)
  end.
Definition post_rel (l : list arc) (j : nat) (dout : N) : Prop :=
  match fnd j l with
  | None => dout = 0%N
  | Some a => dout = arc_weight a
  end.

Lemma fnd_app : forall j l1 l2, fnd j (l1 ++ l2) = match fnd j l1 with Some a => Some a | None => fnd j l2 end.
Proof.
  intros j; induction l1 as [|x l1 IH]; intros l2; simpl; [reflexivity|].
  unfold fnd in *. simpl. destruct (Nat.eqb (arc_place x) j); [reflexivity|apply IH].
Qed.

Lemma fnd_none : forall j l, fnd j l = None <-> ~ In j (map arc_place l).
Proof.
  intros j; induction l as [|x l IH]; simpl; [tauto|].
  unfold fnd in *. simpl. destruct (Nat.eqb_spec (arc_place x) j) as [He|Hne].
  - split; [discriminate|]. intros H. exfalso; apply H; auto.
  - rewrite IH. tauto.
Qed.

Lemma fnd_some : forall j l a, fnd j l = Some a -> In a l /\ arc_place a = j.
Proof.
  intros j l a H. apply find_some in H. destruct H as (H1 & H2). apply Nat.eqb_eq in H2. auto.
Qed.

Lemma merge_in_spec : forall l p inh w,
  match merge_in l p inh w with
  | None => ~ In p (map arc_place l)
  | Some None => exists a, fnd p l = Some a /\ arc_inhib a = negb inh
  | Some (Some l') => exists l1 a l2, l = l1 ++ a :: l2 /\ arc_place a = p /\ arc_inhib a = inh /\
       ~ In p (map arc_place l1) /\
       l' = l1 ++ mkArc p (if inh then N.min (arc_weight a) w else (arc_weight a + w)%N) inh :: l2
  end.
Proof.
  intros l p inh w; induction l as [|x l IH]; simpl; [tauto|].
  unfold fnd. simpl. fold (fnd p l). destruct (Nat.eqb_spec (arc_place x) p) as [He|Hne].
  - destruct (Bool.eqb inh (arc_inhib x)) eqn:Eb.
    + apply Bool.eqb_prop in Eb. exists [], x, l. simpl. repeat (split; [auto|]). reflexivity.
    + apply Bool.eqb_false_iff in Eb. exists x. split; [reflexivity|]. destruct inh, (arc_inhib x); simpl; congruence.
  - destruct (merge_in l p inh w) as [[l'|]|].
    + destruct IH as (l1 & a & l2 & -> & Hp & Hi & Hn & ->). exists (x :: l1), a, l2.
      simpl. split; [reflexivity|]. split; [exact Hp|]. split; [exact Hi|]. split; [tauto|reflexivity].
    + exact IH.
    + tauto.
Qed.

Lemma merge_out_spec : forall l p w,
  match merge_out l p w with
  | None => ~ In p (map arc_place l)
  | Some l' => exists l1 a l2, l = l1 ++ a :: l2 /\ arc_place a = p /\
       ~ In p (map arc_place l1) /\ l' = l1 ++ mkArc p (arc_weight a + w)%N (arc_inhib a) :: l2
  end.
Proof.
  intros l p w; induction l as [|x l IH]; simpl; [tauto|].
  destruct (Nat.eqb_spec (arc_place x) p) as [He|Hne].
  - exists [], x, l. simpl. auto.
  - destruct (merge_out l p w) as [l'|].
    + destruct IH as (l1 & a & l2 & -> & Hp & Hn & ->). exists (x :: l1), a, l2.
      simpl. split; [reflexivity|]. split; [exact Hp|]. split; [tauto|reflexivity].
    + tauto.
Qed.

Lemma fnd_mid : forall j p l1 a l2, arc_place a = p -> ~ In p (map arc_place l1) ->
  fnd j (l1 ++ a :: l2) = if Nat.eqb j p then Some a else fnd j (l1 ++ l2).
Proof.
  intros j p l1 a l2 Hp Hn. rewrite !fnd_app. unfold fnd at 2. simpl. fold (fnd j l2). rewrite Hp.
  rewrite (Nat.eqb_sym p j). destruct (Nat.eqb_spec j p) as [->|Hne].
  - apply fnd_none in Hn. rewrite Hn. reflexivity.
  - reflexivity.
Qed.

(** Abstract declared data. *)
Record dspec := mkD {
  d_place : nat -> Prop; d_trans : nat -> Prop; d_init : nat -> N;
  d_in : nat -> nat -> N;               (* place, transition *)
  d_inh : nat -> nat -> N -> Prop;
  d_out : nat -> nat -> N;              (* place, transition *)
  d_player : nat -> Z }.

Record rel (d : dspec) (b : builder) : Prop := {
  rl_wf : bwf b;
  rl_ts : forall t, t < length (b_trans b) -> bt_skip (tr_of b t) = false;
  rl_ps : forall p, p < length (b_places b) -> bp_skip (pl_of b p) = false;
  rl_p : forall p, In p (b_pnames b) <-> d_place d p;
  rl_t : forall t, In t (b_tnames b) <-> d_trans d t;
  rl_init : forall i p, nth_error (b_pnames b) i = Some p -> nth i (b_init b) 0%N = d_init d p;
  rl_pre : forall i p j t, nth_error (b_pnames b) i = Some p -> nth_error (b_tnames b) j = Some t ->
    pre_rel (bt_pre (tr_of b j)) i (d_in d p t) (d_inh d p t);
  rl_post : forall i p j t, nth_error (b_pnames b) i = Some p -> nth_error (b_tnames b) j = Some t ->
    post_rel (bt_post (tr_of b j)) i (d_out d p t);
  rl_pl : forall j t, nth_error (b_tnames b) j = Some t -> bt_player (tr_of b j) = d_player d t;
  rl_nop : forall p t, ~ d_place d p -> d_in d p t = 0%N /\ d_out d p t = 0%N /\ (forall w, ~ d_inh d p t w);
  rl_not : forall p t, ~ d_trans d t -> d_in d p t = 0%N /\ d_out d p t = 0%N /\ (forall w, ~ d_inh d p t w)
}.

Record deq (d d' : dspec) : Prop := {
  de_p : forall p, d_place d p <-> d_place d' p;
  de_t : forall t, d_trans d t <-> d_trans d' t;
  de_i : forall p, d_init d p = d_init d' p;
  de_in : forall p t, d_in d p t = d_in d' p t;
  de_inh : forall p t w, d_inh d p t w <-> d_inh d' p t w;
  de_out : forall p t, d_out d p t = d_out d' p t;
  de_pl : forall t, d_trans d t -> d_player d t = d_player d' t }.

Lemma pre_rel_ext : forall l j din P Q, (forall w, P w <-> Q w) -> pre_rel l j din P -> pre_rel l j din Q.
Proof.
  intros l j din P Q H. unfold pre_rel. destruct (fnd j l) as [a|].
  - destruct (arc_inhib a).
    + intros (H1 & (w & Hw) & H2). split; [exact H1|]. split; [exists w; apply H; exact Hw|].
      intros k. rewrite H2. split; intros Hk x Hx; apply Hk; apply H; exact Hx.
    + intros (H1 & H2 & H3). repeat split; auto. intros w Hw. apply (H3 w). apply H; exact Hw.
  - intros (H1 & H2). split; auto. intros w Hw. apply (H2 w). apply H; exact Hw.
Qed.

Lemma rel_ext : forall d d' b, deq d d' -> rel d b -> rel d' b.
Proof.
  intros d d' b [Ep Et Ei Ein Einh Eout Epl] R. constructor; try apply R.
  - intros p. rewrite (rl_p R). apply Ep.
  - intros p. rewrite (rl_t R). apply Et.
  - intros i p H. rewrite (rl_init R _ H). apply Ei.
  - intros i p j t H1 H2. rewrite <- Ein. eapply pre_rel_ext; [apply Einh|]. apply (rl_pre R); assumption.
  - intros i p j t H1 H2. rewrite <- Eout. apply (rl_post R); assumption.
  - intros j t H. rewrite (rl_pl R _ H). apply Epl. apply (rl_t R). eapply nth_error_In; exact H.
  - intros p t H. rewrite <- Ein, <- Eout. destruct (rl_nop R p t) as (H1 & H2 & H3).
    { rewrite Ep; exact H. }
    repeat split; auto. intros w Hw. apply (H3 w). apply Einh; exact Hw.
  - intros p t H. rewrite <- Ein, <- Eout. destruct (rl_not R p t) as (H1 & H2 & H3).
    { rewrite Et; exact H. }
    repeat split; auto. intros w Hw. apply (H3 w). apply Einh; exact Hw.
Qed.

Definition fset {A} (f : nat -> A) (p : nat) (v : A) : nat -> A := fun q => if Nat.eqb q p then v else f q.

Lemma rel_empty : forall f g, rel (mkD (fun _ => False) (fun _ => False) f (fun _ _ => 0%N) (fun _ _ _ => False) (fun _ _ => 0%N) g) b_empty.
Proof.
  intros f g. constructor; simpl; try tauto; try lia; try (intros; lia);
    try (intros i p H; destruct i; discriminate); try (intros i p j t H; destruct i; discriminate).
  - constructor; simpl; try lia; try constructor; intros; lia.
Qed.

Lemma tr_of_app : forall b ts t, t < length (b_trans b) ->
  nth t (b_trans b ++ ts) btrans0 = tr_of b t.
Proof. intros b ts t H. unfold tr_of. apply app_nth1; exact H. Qed.

(** ** addPlace *)
Lemma add_place_rel : forall d b p k, rel d b ->
  rel (mkD (fun q => d_place d q \/ q = p) (d_trans d) (fset (d_init d) p k) (d_in d) (d_inh d) (d_out d) (d_player d))
      (add_place b p k).
Proof.
  intros d b p k R. assert (W := rl_wf R). unfold add_place.
  destruct (index_of p (b_pnames b)) as [i|] eqn:Ei.
  - assert (Hi := index_of_some _ _ Ei). assert (Hlt := nth_error_lt _ _ Hi).
    destruct (Nat.leb_spec (length (b_init b)) i) as [Hbad|_]; [rewrite (bw_ni W) in Hbad; lia|].
    assert (Hin : In p (b_pnames b)) by (eapply nth_error_In; exact Hi).
    constructor; cbn [b_pnames b_tnames b_trans b_places b_init d_place d_trans d_init d_in d_inh d_out d_player]; try apply R.
    + destruct W. constructor; auto. cbn. rewrite upd_length; auto.
    + intros q. rewrite (rl_p R). split; [auto|]. intros [H| ->]; [exact H|]. apply (rl_p R). exact Hin.
    + intros j q Hj. unfold fset. destruct (Nat.eq_dec j i) as [->|Hne].
      * rewrite nth_upd_eq by (rewrite (bw_ni W); exact Hlt).
        rewrite Hi in Hj. injection Hj as <-. rewrite Nat.eqb_refl. reflexivity.
      * rewrite nth_upd_neq by congruence. destruct (Nat.eqb_spec q p) as [->|_]; [|apply (rl_init R); exact Hj].
        exfalso. apply Hne. assert (Hx := index_of_nth _ (bw_pn W) Hj). congruence.
    + intros q t Hq. apply (rl_nop R). tauto.
  - assert (Hnin : ~ In p (b_pnames b)) by (apply index_of_none; exact Ei).
    cbn [b_pnames b_tnames b_trans b_places b_init].
    destruct (Nat.leb_spec (length (b_init b)) (length (b_pnames b))) as [_|Hbad]; [|rewrite (bw_ni W) in Hbad; lia].
    set (b' := mkB _ _ _ _ _).
    assert (Hni : length (b_init b) = length (b_pnames b)) by apply (bw_ni W).
    assert (Hpl : forall q, q < length (b_places b) -> pl_of b' q = pl_of b q).
    { intros q Hq. unfold pl_of, b'. simpl. apply app_nth1; exact Hq. }
    assert (Hpl' : pl_of b' (length (b_places b)) = mkBP [] [] false false).
    { unfold pl_of, b'. simpl. rewrite app_nth2, Nat.sub_diag by lia. reflexivity. }
    assert (Hlive : forall q, live_p b q -> live_p b' q).
    { intros q (Hq & Hs). split; [unfold b'; simpl; rewrite app_length; simpl; lia|]. rewrite Hpl by exact Hq. exact Hs. }
    assert (Hfresh : forall j, j < length (b_trans b) -> ~ In (length (b_places b)) (map arc_place (bt_pre (tr_of b j)))).
    { intros j Hj Hin. apply in_map_iff in Hin. destruct Hin as (a & Ha & Hal).
      apply (bw_pre W _ Hj) in Hal. destruct Hal as ((Hlt & _) & _). lia. }
    assert (Hfresh' : forall j, j < length (b_trans b) -> ~ In (length (b_places b)) (map arc_place (bt_post (tr_of b j)))).
    { intros j Hj Hin. apply in_map_iff in Hin. destruct Hin as (a & Ha & Hal).
      apply (bw_post W _ Hj) in Hal. destruct Hal as ((Hlt & _) & _). lia. }
    assert (Hnth : forall i q, nth_error (b_pnames b') i = Some q ->
              (i < length (b_pnames b) /\ nth_error (b_pnames b) i = Some q) \/ (i = length (b_pnames b) /\ q = p)).
    { intros i q Hi. simpl in Hi. destruct (Nat.lt_ge_cases i (length (b_pnames b))) as [Hlt|Hge].
      - left. rewrite nth_error_app1 in Hi by exact Hlt. auto.
      - right. rewrite nth_error_app2 in Hi by exact Hge.
        destruct (i - length (b_pnames b)) as [|x] eqn:Ex; [|destruct x; discriminate].
        simpl in Hi. injection Hi as <-. split; [lia|reflexivity]. }
    assert (Hndp : ~ d_place d p) by (rewrite <- (rl_p R); exact Hnin).
    constructor; cbn [d_place d_trans d_init d_in d_inh d_out d_player].
    + constructor.
      * simpl. rewrite !app_length, (bw_np W). reflexivity.
      * simpl. apply W.
      * simpl. rewrite upd_length, !app_length, Hni. reflexivity.
      * simpl. apply NoDup_app_iff_local. split; [apply W|]. split; [repeat constructor; simpl; tauto|].
        intros x Hx [<-|[]]. contradiction.
      * apply W.
      * exact (bw_skip W).
      * intros t a Ht Ha. destruct (bw_pre W _ Ht Ha) as (H1 & H2). split; [apply Hlive; exact H1|exact H2].
      * intros t a Ht Ha. destruct (bw_post W _ Ht Ha) as (H1 & H2). split; [apply Hlive; exact H1|exact H2].
      * exact (bw_ndpre W).
      * exact (bw_ndpost W).
      * intros q Hq. simpl in Hq. rewrite app_length in Hq. simpl in Hq.
        destruct (Nat.eq_dec q (length (b_places b))) as [->|]; [rewrite Hpl'; constructor|].
        rewrite Hpl by lia. apply (bw_ndc W); lia.
      * intros q Hq. simpl in Hq. rewrite app_length in Hq. simpl in Hq.
        destruct (Nat.eq_dec q (length (b_places b))) as [->|]; [rewrite Hpl'; constructor|].
        rewrite Hpl by lia. apply (bw_ndp W); lia.
      * intros q t Hq. simpl in Hq. rewrite app_length in Hq. simpl in Hq.
        destruct (Nat.eq_dec q (length (b_places b))) as [->|].
        { rewrite Hpl'. simpl. split; [tauto|]. intros (Ht & Hin). exact (Hfresh t Ht Hin). }
        rewrite Hpl by lia. apply (bw_cons W); lia.
      * intros q t Hq. simpl in Hq. rewrite app_length in Hq. simpl in Hq.
        destruct (Nat.eq_dec q (length (b_places b))) as [->|].
        { rewrite Hpl'. simpl. split; [tauto|]. intros (Ht & Hin). exact (Hfresh' t Ht Hin). }
        rewrite Hpl by lia. apply (bw_prod W); lia.
    + exact (rl_ts R).
    + intros q Hq. simpl in Hq. rewrite app_length in Hq. simpl in Hq.
      destruct (Nat.eq_dec q (length (b_places b))) as [->|]; [rewrite Hpl'; reflexivity|].
      rewrite Hpl by lia. apply (rl_ps R). lia.
    + intros q. simpl. rewrite in_app_iff, (rl_p R). simpl. intuition.
    + exact (rl_t R).
    + intros i q Hi. unfold fset. simpl. destruct (Hnth i q Hi) as [(Hlt & Hi')|(-> & ->)].
      * rewrite nth_upd_neq by lia. rewrite app_nth1 by lia.
        destruct (Nat.eqb_spec q p) as [->|_]; [|apply (rl_init R); exact Hi'].
        exfalso. apply Hnin. eapply nth_error_In; exact Hi'.
      * rewrite nth_upd_eq by (rewrite app_length; simpl; lia). rewrite Nat.eqb_refl. reflexivity.
    + intros i q j t Hi Hj. simpl in Hj. destruct (Hnth i q Hi) as [(Hlt & Hi')|(-> & ->)].
      * apply (rl_pre R); assumption.
      * unfold pre_rel. assert (Hjl : j < length (b_trans b)) by (rewrite (bw_nt W); eapply nth_error_lt; exact Hj).
        assert (Hf : fnd (length (b_pnames b)) (bt_pre (tr_of b' j)) = None).
        { apply fnd_none. rewrite <- (bw_np W). apply Hfresh; exact Hjl. }
        rewrite Hf. destruct (rl_nop R p t Hndp) as (H1 & _ & H2). auto.
    + intros i q j t Hi Hj. simpl in Hj. destruct (Hnth i q Hi) as [(Hlt & Hi')|(-> & ->)].
      * apply (rl_post R); assumption.
      * unfold post_rel. assert (Hjl : j < length (b_trans b)) by (rewrite (bw_nt W); eapply nth_error_lt; exact Hj).
        assert (Hf : fnd (length (b_pnames b)) (bt_post (tr_of b' j)) = None).
        { apply fnd_none. rewrite <- (bw_np W). apply Hfresh'; exact Hjl. }
        rewrite Hf. destruct (rl_nop R p t Hndp) as (_ & H1 & _). auto.
    + exact (rl_pl R).
    + intros q t Hq. apply (rl_nop R). tauto.
    + intros q t Hq. apply (rl_not R). tauto.
Qed.

(** ** addTransition *)
Lemma add_trans_rel : forall d b t pl, rel d b ->
  (~ d_trans d t -> d_player d t = pl) ->
  rel (mkD (d_place d) (fun u => d_trans d u \/ u = t) (d_init d) (d_in d) (d_inh d) (d_out d) (d_player d))
      (add_transition b t pl).
Proof.
  intros d b t pl R Hpl. assert (W := rl_wf R). unfold add_transition.
  destruct (index_of t (b_tnames b)) as [i|] eqn:Ei.
  - assert (Hi := index_of_some _ _ Ei).
    assert (Hin : In t (b_tnames b)) by (eapply nth_error_In; exact Hi).
    constructor; cbn [d_place d_trans d_init d_in d_inh d_out d_player]; try apply R.
    + intros q. rewrite (rl_t R). split; [auto|]. intros [H| ->]; [exact H|]. apply (rl_t R). exact Hin.
    + intros q u Hq. apply (rl_not R). tauto.
  - assert (Hnin : ~ In t (b_tnames b)) by (apply index_of_none; exact Ei).
    set (b' := mkB _ _ _ _ _).
    assert (Hndt : ~ d_trans d t) by (rewrite <- (rl_t R); exact Hnin).
    assert (Htr : forall u, u < length (b_trans b) -> tr_of b' u = tr_of b u).
    { intros u Hu. unfold tr_of, b'. simpl. apply app_nth1; exact Hu. }
    assert (Htr' : tr_of b' (length (b_trans b)) = mkBT [] [] pl false false).
    { unfold tr_of, b'. simpl. rewrite app_nth2, Nat.sub_diag by lia. reflexivity. }
    assert (Hcase : forall u, u < length (b_trans b') -> u < length (b_trans b) \/ u = length (b_trans b)).
    { intros u Hu. unfold b' in Hu. simpl in Hu. rewrite app_length in Hu. simpl in Hu. lia. }
    assert (Hlen' : length (b_trans b') = S (length (b_trans b))).
    { unfold b'. simpl. rewrite app_length. simpl. lia. }
    assert (Hnth : forall i q, nth_error (b_tnames b') i = Some q ->
              (i < length (b_trans b) /\ nth_error (b_tnames b) i = Some q) \/ (i = length (b_trans b) /\ q = t)).
    { intros i q Hi. simpl in Hi. rewrite (bw_nt W). destruct (Nat.lt_ge_cases i (length (b_tnames b))) as [Hlt|Hge].
      - left. rewrite nth_error_app1 in Hi by exact Hlt. auto.
      - right. rewrite nth_error_app2 in Hi by exact Hge.
        destruct (i - length (b_tnames b)) as [|x] eqn:Ex; [|destruct x; discriminate].
        simpl in Hi. injection Hi as <-. split; [lia|reflexivity]. }
    constructor; cbn [d_place d_trans d_init d_in d_inh d_out d_player]; try apply R.
    + constructor; try apply W.
      * simpl. rewrite !app_length, (bw_nt W). reflexivity.
      * simpl. apply NoDup_app_iff_local. split; [apply W|]. split; [repeat constructor; simpl; tauto|].
        intros x Hx [<-|[]]. contradiction.
      * intros u Hu. destruct (Hcase u Hu) as [Hlt| ->]; [rewrite Htr by exact Hlt; apply (bw_skip W); exact Hlt|].
        rewrite Htr'. simpl. discriminate.
      * intros u a Hu. destruct (Hcase u Hu) as [Hlt| ->]; [rewrite Htr by exact Hlt; apply (bw_pre W); exact Hlt|].
        rewrite Htr'. simpl. tauto.
      * intros u a Hu. destruct (Hcase u Hu) as [Hlt| ->]; [rewrite Htr by exact Hlt; apply (bw_post W); exact Hlt|].
        rewrite Htr'. simpl. tauto.
      * intros u Hu. destruct (Hcase u Hu) as [Hlt| ->]; [rewrite Htr by exact Hlt; apply (bw_ndpre W); exact Hlt|].
        rewrite Htr'. simpl. constructor.
      * intros u Hu. destruct (Hcase u Hu) as [Hlt| ->]; [rewrite Htr by exact Hlt; apply (bw_ndpost W); exact Hlt|].
        rewrite Htr'. simpl. constructor.
      * intros p u Hp. change (pl_of b' p) with (pl_of b p). rewrite (bw_cons W _ Hp). split; intros (Hu & Hin).
        -- rewrite Hlen', Htr by exact Hu. split; [lia|exact Hin].
        -- destruct (Hcase u Hu) as [Hlt| ->]; [rewrite Htr in Hin by exact Hlt; auto|].
           rewrite Htr' in Hin. destruct Hin.
      * intros p u Hp. change (pl_of b' p) with (pl_of b p). rewrite (bw_prod W _ Hp). split; intros (Hu & Hin).
        -- rewrite Hlen', Htr by exact Hu. split; [lia|exact Hin].
        -- destruct (Hcase u Hu) as [Hlt| ->]; [rewrite Htr in Hin by exact Hlt; auto|].
           rewrite Htr' in Hin. destruct Hin.
    + intros u Hu. destruct (Hcase u Hu) as [Hlt| ->]; [rewrite Htr by exact Hlt; apply (rl_ts R); exact Hlt|].
      rewrite Htr'. reflexivity.
    + intros q. simpl. rewrite in_app_iff, (rl_t R). simpl. intuition.
    + intros i q j u Hi Hj. destruct (Hnth j u Hj) as [(Hlt & Hj')|(-> & ->)].
      * rewrite Htr by exact Hlt. apply (rl_pre R); assumption.
      * rewrite Htr'. unfold pre_rel. simpl. destruct (rl_not R q t Hndt) as (H1 & _ & H2). auto.
    + intros i q j u Hi Hj. destruct (Hnth j u Hj) as [(Hlt & Hj')|(-> & ->)].
      * rewrite Htr by exact Hlt. apply (rl_post R); assumption.
      * rewrite Htr'. unfold post_rel. simpl. destruct (rl_not R q t Hndt) as (_ & H1 & _). auto.
    + intros j u Hj. destruct (Hnth j u Hj) as [(Hlt & Hj')|(-> & ->)].
      * rewrite Htr by exact Hlt. apply (rl_pl R); assumption.
      * rewrite Htr'. simpl. symmetry. apply Hpl; exact Hndt.
    + intros q u Hq. apply (rl_not R). tauto.
Qed.

(** ** Arcs *)
Definition with_tr (b : builder) (j : nat) (x : btrans) : builder :=
  mkB (b_pnames b) (b_tnames b) (upd (b_trans b) j x) (b_places b) (b_init b).
Definition with_tr_pl (b : builder) (j : nat) (x : btrans) (i : nat) (y : bplace) : builder :=
  mkB (b_pnames b) (b_tnames b) (upd (b_trans b) j x) (upd (b_places b) i y) (b_init b).

Lemma tr_of_with : forall b j x i y u, j < length (b_trans b) ->
  tr_of (with_tr_pl b j x i y) u = if Nat.eqb u j then x else tr_of b u.
Proof.
  intros b j x i y u Hj. unfold tr_of. simpl. destruct (Nat.eqb_spec u j) as [->|Hne].
  - apply nth_upd_eq; exact Hj.
  - apply nth_upd_neq; congruence.
Qed.
Lemma pl_of_with : forall b j x i y q, i < length (b_places b) ->
  pl_of (with_tr_pl b j x i y) q = if Nat.eqb q i then y else pl_of b q.
Proof.
  intros b j x i y u Hj. unfold pl_of. simpl. destruct (Nat.eqb_spec u i) as [->|Hne].
  - apply nth_upd_eq; exact Hj.
  - apply nth_upd_neq; congruence.
Qed.
Lemma upd_same : forall {A} (l : list A) i d, upd l i (nth i l d) = l.
Proof. induction l as [|x l IH]; intros [|i] d; simpl; auto. rewrite IH; reflexivity. Qed.
Lemma with_tr_eq : forall b j x i, with_tr b j x = with_tr_pl b j x i (pl_of b i).
Proof. intros b j x i. unfold with_tr, with_tr_pl, pl_of. rewrite upd_same. reflexivity. Qed.

(** Replacing the arcs of one transition, and the consumer/producer lists of one place. *)
Lemma bwf_with : forall b j x i y, bwf b -> j < length (b_trans b) -> i < length (b_places b) ->
  bt_skip x = false -> bp_skip y = bp_skip (pl_of b i) ->
  (forall a, In a (bt_pre x) -> live_p b (arc_place a) /\ (arc_inhib a = false -> (0 < arc_weight a)%N)) ->
  (forall a, In a (bt_post x) -> live_p b (arc_place a) /\ arc_inhib a = false /\ (0 < arc_weight a)%N) ->
  NoDup (map arc_place (bt_pre x)) -> NoDup (map arc_place (bt_post x)) ->
  NoDup (bp_cons y) -> NoDup (bp_prod y) ->
  (forall q, q <> i -> (In q (map arc_place (bt_pre x)) <-> In q (map arc_place (bt_pre (tr_of b j))))) ->
  (forall q, q <> i -> (In q (map arc_place (bt_post x)) <-> In q (map arc_place (bt_post (tr_of b j))))) ->
  (forall u, In u (bp_cons y) <-> (u <> j /\ In u (bp_cons (pl_of b i))) \/ (u = j /\ In i (map arc_place (bt_pre x)))) ->
  (forall u, In u (bp_prod y) <-> (u <> j /\ In u (bp_prod (pl_of b i))) \/ (u = j /\ In i (map arc_place (bt_post x)))) ->
  bwf (with_tr_pl b j x i y).
Proof.
  intros b j x i y W Hj Hi Hsx Hsy Hpre Hpost Hn1 Hn2 Hn3 Hn4 Hq1 Hq2 Hc Hp.
  assert (Hlt : length (b_trans (with_tr_pl b j x i y)) = length (b_trans b)) by (simpl; apply upd_length).
  assert (Hlp : length (b_places (with_tr_pl b j x i y)) = length (b_places b)) by (simpl; apply upd_length).
  assert (Hlive : forall q, live_p b q -> live_p (with_tr_pl b j x i y) q).
  { intros q (H1 & H2). split; [rewrite Hlp; exact H1|]. rewrite pl_of_with by exact Hi.
    destruct (Nat.eqb_spec q i) as [->|_]; [rewrite Hsy|]; exact H2. }
  constructor; rewrite ?Hlt, ?Hlp; try apply W.
  - intros t Ht. rewrite tr_of_with by exact Hj. destruct (Nat.eqb_spec t j) as [->|_]; [congruence|]. apply (bw_skip W); exact Ht.
  - intros t a Ht. rewrite tr_of_with by exact Hj. destruct (Nat.eqb_spec t j) as [->|_]; intros Ha.
    + destruct (Hpre a Ha); auto.
    + destruct (bw_pre W _ Ht Ha); auto.
  - intros t a Ht. rewrite tr_of_with by exact Hj. destruct (Nat.eqb_spec t j) as [->|_]; intros Ha.
    + destruct (Hpost a Ha); auto.
    + destruct (bw_post W _ Ht Ha); auto.
  - intros t Ht. rewrite tr_of_with by exact Hj. destruct (Nat.eqb_spec t j) as [->|_]; [exact Hn1|apply (bw_ndpre W Ht)].
  - intros t Ht. rewrite tr_of_with by exact Hj. destruct (Nat.eqb_spec t j) as [->|_]; [exact Hn2|apply (bw_ndpost W Ht)].
  - intros q Hq. rewrite pl_of_with by exact Hi. destruct (Nat.eqb_spec q i) as [->|_]; [exact Hn3|apply (bw_ndc W Hq)].
  - intros q Hq. rewrite pl_of_with by exact Hi. destruct (Nat.eqb_spec q i) as [->|_]; [exact Hn4|apply (bw_ndp W Hq)].
  - intros q t Hq. rewrite pl_of_with, tr_of_with by assumption.
    destruct (Nat.eqb_spec q i) as [->|Hne], (Nat.eqb_spec t j) as [->|Hne'].
    + rewrite Hc. intuition congruence.
    + rewrite Hc, (bw_cons W _ Hq). intuition congruence.
    + rewrite (bw_cons W _ Hq), Hq1 by exact Hne. reflexivity.
    + apply (bw_cons W _ Hq).
  - intros q t Hq. rewrite pl_of_with, tr_of_with by assumption.
    destruct (Nat.eqb_spec q i) as [->|Hne], (Nat.eqb_spec t j) as [->|Hne'].
    + rewrite Hp. intuition congruence.
    + rewrite Hp, (bw_prod W _ Hq). intuition congruence.
    + rewrite (bw_prod W _ Hq), Hq2 by exact Hne. reflexivity.
    + apply (bw_prod W _ Hq).
Qed.

Lemma rel_with : forall d d' b j t x i p y, rel d b -> bwf (with_tr_pl b j x i y) ->
  nth_error (b_pnames b) i = Some p -> nth_error (b_tnames b) j = Some t ->
  i < length (b_places b) -> j < length (b_trans b) ->
  bt_skip x = false -> bp_skip y = false -> bt_player x = bt_player (tr_of b j) ->
  (forall q, d_place d q <-> d_place d' q) -> (forall q, d_trans d q <-> d_trans d' q) ->
  (forall q, d_init d q = d_init d' q) -> (forall u, d_player d u = d_player d' u) ->
  (forall q u, q <> p \/ u <> t -> d_in d q u = d_in d' q u /\ d_out d q u = d_out d' q u /\
      forall w, d_inh d q u w <-> d_inh d' q u w) ->
  (forall q, q <> i -> fnd q (bt_pre x) = fnd q (bt_pre (tr_of b j))) ->
  (forall q, q <> i -> fnd q (bt_post x) = fnd q (bt_post (tr_of b j))) ->
  pre_rel (bt_pre x) i (d_in d' p t) (d_inh d' p t) ->
  post_rel (bt_post x) i (d_out d' p t) ->
  rel d' (with_tr_pl b j x i y).
Proof.
  intros d d' b j t x i p y R W' Hi Hj Hil Hjl Hsx Hsy Hplx Ep Et Ei Epl Eo Hf1 Hf2 H1 H2.
  assert (W := rl_wf R).
  assert (Hp : d_place d p) by (apply (rl_p R); eapply nth_error_In; exact Hi).
  assert (Ht : d_trans d t) by (apply (rl_t R); eapply nth_error_In; exact Hj).
  constructor.
  - exact W'.
  - intros u Hu. rewrite tr_of_with by exact Hjl. destruct (Nat.eqb u j); [exact Hsx|]. apply (rl_ts R).
    simpl in Hu. rewrite upd_length in Hu. exact Hu.
  - intros q Hq. rewrite pl_of_with by exact Hil. destruct (Nat.eqb q i); [exact Hsy|]. apply (rl_ps R).
    simpl in Hq. rewrite upd_length in Hq. exact Hq.
  - intros q. simpl. rewrite (rl_p R). apply Ep.
  - intros q. simpl. rewrite (rl_t R). apply Et.
  - intros i' q Hq. simpl in *. rewrite (rl_init R _ Hq). apply Ei.
  - intros i' q j' u Hq Hu. simpl in Hq, Hu. rewrite tr_of_with by exact Hjl.
    destruct (Nat.eq_dec q p) as [Hqp|Hqp]; [destruct (Nat.eq_dec u t) as [Hut|Hut]|].
    + subst q u. assert (i' = i).
      { assert (Hx := index_of_nth _ (bw_pn W) Hi). assert (Hx' := index_of_nth _ (bw_pn W) Hq). congruence. }
      assert (j' = j).
      { assert (Hx := index_of_nth _ (bw_tn W) Hj). assert (Hx' := index_of_nth _ (bw_tn W) Hu). congruence. }
      subst i' j'. rewrite Nat.eqb_refl. exact H1.
    + destruct (Eo q u (or_intror Hut)) as (E1 & _ & E3). rewrite <- E1. eapply pre_rel_ext; [exact E3|].
      destruct (Nat.eqb_spec j' j) as [->|_]; [congruence|]. apply (rl_pre R); assumption.
    + destruct (Eo q u (or_introl Hqp)) as (E1 & _ & E3). rewrite <- E1. eapply pre_rel_ext; [exact E3|].
      destruct (Nat.eqb_spec j' j) as [->|_]; [|apply (rl_pre R); assumption].
      unfold pre_rel. rewrite Hf1 by congruence. apply (rl_pre R); assumption.
  - intros i' q j' u Hq Hu. simpl in Hq, Hu. rewrite tr_of_with by exact Hjl.
    destruct (Nat.eq_dec q p) as [Hqp|Hqp]; [destruct (Nat.eq_dec u t) as [Hut|Hut]|].
    + subst q u. assert (i' = i).
      { assert (Hx := index_of_nth _ (bw_pn W) Hi). assert (Hx' := index_of_nth _ (bw_pn W) Hq). congruence. }
      assert (j' = j).
      { assert (Hx := index_of_nth _ (bw_tn W) Hj). assert (Hx' := index_of_nth _ (bw_tn W) Hu). congruence. }
      subst i' j'. rewrite Nat.eqb_refl. exact H2.
    + destruct (Eo q u (or_intror Hut)) as (_ & E1 & _). rewrite <- E1.
      destruct (Nat.eqb_spec j' j) as [->|_]; [congruence|]. apply (rl_post R); assumption.
    + destruct (Eo q u (or_introl Hqp)) as (_ & E1 & _). rewrite <- E1.
      destruct (Nat.eqb_spec j' j) as [->|_]; [|apply (rl_post R); assumption].
      unfold post_rel. rewrite Hf2 by congruence. apply (rl_post R); assumption.
  - intros j' u Hu. simpl in Hu. rewrite tr_of_with by exact Hjl. rewrite <- Epl.
    destruct (Nat.eqb_spec j' j) as [->|_]; [rewrite Hplx|]; apply (rl_pl R); exact Hu.
  - intros q u Hq. rewrite <- Ep in Hq. assert (Hne : q <> p) by congruence.
    destruct (Eo q u (or_introl Hne)) as (E1 & E2 & E3). destruct (rl_nop R q u Hq) as (F1 & F2 & F3).
    rewrite <- E1, <- E2. repeat split; auto. intros w Hw. apply (F3 w). apply E3; exact Hw.
  - intros q u Hq. rewrite <- Et in Hq. assert (Hne : u <> t) by congruence.
    destruct (Eo q u (or_intror Hne)) as (E1 & E2 & E3). destruct (rl_not R q u Hq) as (F1 & F2 & F3).
    rewrite <- E1, <- E2. repeat split; auto. intros w Hw. apply (F3 w). apply E3; exact Hw.
Qed.

Definition d_add_in (d : dspec) (p t : nat) (inh : bool) (w : N) : dspec :=
  mkD (d_place d) (d_trans d) (d_init d)
      (fun q u => if Nat.eqb q p && Nat.eqb u t && negb inh then (d_in d q u + w)%N else d_in d q u)
      (fun q u x => d_inh d q u x \/ (inh = true /\ q = p /\ u = t /\ x = w))
      (d_out d) (d_player d).
Definition d_add_out (d : dspec) (p t : nat) (w : N) : dspec :=
  mkD (d_place d) (d_trans d) (d_init d) (d_in d) (d_inh d)
      (fun q u => if Nat.eqb q p && Nat.eqb u t then (d_out d q u + w)%N else d_out d q u) (d_player d).

Lemma add_in_rel : forall d b p t inh w, rel d b -> d_place d p -> d_trans d t ->
  (inh = false -> (0 < w)%N) ->
  (if inh then d_in d p t = 0%N else forall x, ~ d_inh d p t x) ->
  exists b', add_input_arc b p t inh w = Ok b' /\ rel (d_add_in d p t inh w) b'.
Proof.
  intros d b p t inh w R Hp Ht Hw Hok. assert (W := rl_wf R).
  apply (rl_p R) in Hp. apply (rl_t R) in Ht.
  apply In_nth_error in Hp. destruct Hp as (i & Hi). apply In_nth_error in Ht. destruct Ht as (j & Hj).
  assert (Hii := index_of_nth _ (bw_pn W) Hi). assert (Hjj := index_of_nth _ (bw_tn W) Hj).
  assert (Hil : i < length (b_places b)) by (rewrite (bw_np W); eapply nth_error_lt; exact Hi).
  assert (Hjl : j < length (b_trans b)) by (rewrite (bw_nt W); eapply nth_error_lt; exact Hj).
  assert (Hpr := rl_pre R _ _ Hi Hj). assert (Hpo := rl_post R _ _ Hi Hj).
  unfold add_input_arc. rewrite Hjj, Hii. rewrite Hii. rewrite (rd_nth (b_trans b) btrans0 Hjl). cbn [bind].
  change (nth j (b_trans b) btrans0) with (tr_of b j).
  assert (Hrest : forall x y, bwf (with_tr_pl b j x i y) -> bt_skip x = false -> bp_skip y = false ->
      bt_player x = bt_player (tr_of b j) -> bt_post x = bt_post (tr_of b j) ->
      (forall q, q <> i -> fnd q (bt_pre x) = fnd q (bt_pre (tr_of b j))) ->
      pre_rel (bt_pre x) i (d_in (d_add_in d p t inh w) p t) (d_inh (d_add_in d p t inh w) p t) ->
      rel (d_add_in d p t inh w) (with_tr_pl b j x i y)).
  { intros x y W' Hsx Hsy Hpl Hpost Hf Hpre.
    eapply rel_with with (d := d) (p := p) (t := t); eauto; try reflexivity; try (intros; rewrite Hpost; auto; fail).
    - intros q u Hne. simpl. split; [|split; [reflexivity|]].
      + destruct (Nat.eqb_spec q p), (Nat.eqb_spec u t); simpl; auto. subst. destruct Hne; congruence.
      + intros w0. split; [auto|]. intros [H|(_ & -> & -> & _)]; [exact H|]. destruct Hne; congruence. }
  assert (Hdin : d_in (d_add_in d p t inh w) p t = if inh then d_in d p t else (d_in d p t + w)%N).
  { simpl. rewrite !Nat.eqb_refl. destruct inh; reflexivity. }
  assert (Hms := merge_in_spec (bt_pre (tr_of b j)) i inh w).
  destruct (merge_in (bt_pre (tr_of b j)) i inh w) as [[l'|]|].
  - destruct Hms as (l1 & a & l2 & Hl & Hap & Hai & Hnl & Hl').
    eexists. split; [reflexivity|].
    match goal with |- rel _ ?B => change B with (with_tr b j (mkBT l' (bt_post (tr_of b j)) (bt_player (tr_of b j)) (bt_skip (tr_of b j)) (bt_inhib (tr_of b j)))) end.
    rewrite (with_tr_eq b j _ i).
    set (na := mkArc i (if inh then N.min (arc_weight a) w else (arc_weight a + w)%N) inh) in *.
    assert (Hmap : map arc_place l' = map arc_place (bt_pre (tr_of b j))).
    { rewrite Hl, Hl', !map_app. simpl. rewrite Hap. reflexivity. }
    assert (Hfi : fnd i (bt_pre (tr_of b j)) = Some a) by (rewrite Hl, (fnd_mid i l1 a l2 Hap Hnl), Nat.eqb_refl; reflexivity).
    assert (Hfi' : fnd i l' = Some na) by (rewrite Hl', (@fnd_mid i i l1 na l2 eq_refl Hnl), Nat.eqb_refl; reflexivity).
    unfold pre_rel in Hpr. rewrite Hfi, Hai in Hpr.
    apply Hrest; cbn [bt_pre bt_post bt_skip bt_player]; auto.
    + apply bwf_with; cbn [bt_pre bt_post bt_skip bt_player]; auto.
      * apply (rl_ts R Hjl).
      * intros c Hc. rewrite Hl' in Hc. apply in_app_or in Hc.
        assert (Hold : In c (bt_pre (tr_of b j)) -> live_p b (arc_place c) /\ (arc_inhib c = false -> (0 < arc_weight c)%N))
          by (apply (bw_pre W); exact Hjl).
        destruct Hc as [Hc|[<-|Hc]].
        -- apply Hold. rewrite Hl. apply in_or_app; auto.
        -- split.
           ++ simpl. rewrite <- Hap. apply (bw_pre W (t := j)); [exact Hjl|]. rewrite Hl. apply in_or_app; right; left; reflexivity.
           ++ simpl. intros ->. specialize (Hw eq_refl). lia.
        -- apply Hold. rewrite Hl. apply in_or_app; right; right; auto.
      * intros c Hc. exact (bw_post W c Hjl Hc).
      * rewrite Hmap. apply (bw_ndpre W Hjl).
      * apply (bw_ndpost W Hjl).
      * apply (bw_ndc W Hil).
      * apply (bw_ndp W Hil).
      * intros q _. rewrite Hmap. reflexivity.
      * intros q _. reflexivity.
      * intros u. rewrite Hmap. rewrite (bw_cons W _ Hil). split.
        -- intros (Hu & Hin). destruct (Nat.eq_dec u j) as [->|]; [right; auto|left; auto].
        -- intros [(_ & H)|(-> & H)]; auto.
      * intros u. rewrite (bw_prod W _ Hil). split.
        -- intros (Hu & Hin). destruct (Nat.eq_dec u j) as [->|]; [right; auto|left; auto].
        -- intros [(_ & H)|(-> & H)]; auto.
    + apply (rl_ts R Hjl).
    + apply (rl_ps R Hil).
    + intros q Hq. rewrite Hl, Hl'. rewrite (fnd_mid q l1 a l2 Hap Hnl), (@fnd_mid q i l1 na l2 eq_refl Hnl).
      destruct (Nat.eqb_spec q i); [congruence|reflexivity].
    + unfold pre_rel. rewrite Hfi'. rewrite Hdin. simpl. destruct inh.
      * destruct Hpr as (H1 & (w0 & Hw0) & H2). split; [exact H1|]. split; [exists w0; auto|].
        intros k. rewrite N.min_glb_lt_iff. rewrite H2. split.
        -- intros (Hk & Hkw) x [Hx|(_ & _ & _ & ->)]; auto.
        -- intros Hk. split; [intros x Hx; apply Hk; auto|]. apply Hk. right; auto.
      * destruct Hpr as (H1 & H2 & H3). rewrite H1. split; [reflexivity|]. split; [lia|].
        intros x [Hx|(Hx & _)]; [apply (H3 x Hx)|discriminate].
  - exfalso. destruct Hms as (a & Hfi & Hai). unfold pre_rel in Hpr. rewrite Hfi in Hpr. rewrite Hai in Hpr.
    destruct inh; simpl in Hpr.
    + destruct Hpr as (H1 & H2 & _). lia.
    + destruct Hpr as (_ & (x & Hx) & _). apply (Hok x Hx).
  - rewrite (rd_nth (b_places b) bplace0 Hil). cbn [bind]. change (nth i (b_places b) bplace0) with (pl_of b i).
    eexists. split; [reflexivity|].
    match goal with |- rel _ (mkB _ _ (upd _ _ ?X) (upd _ _ ?Y) _) => set (x := X); set (y := Y) end.
    change (rel (d_add_in d p t inh w) (with_tr_pl b j x i y)).
    assert (Hfi : fnd i (bt_pre (tr_of b j)) = None) by (apply fnd_none; exact Hms).
    unfold pre_rel in Hpr. rewrite Hfi in Hpr.
    apply Hrest; unfold x, y; cbn [bt_pre bt_post bt_skip bt_player bp_skip]; auto.
    + assert (Hnc : ~ In j (bp_cons (pl_of b i))).
      { intros Hin. apply (bw_cons W _ Hil) in Hin. tauto. }
      apply bwf_with; cbn [bt_pre bt_post bt_skip bt_player bp_skip bp_cons bp_prod]; auto.
      * apply (rl_ts R Hjl).
      * intros c Hc. apply in_app_or in Hc. destruct Hc as [Hc|[<-|[]]].
        -- apply (bw_pre W (t := j)); assumption.
        -- simpl. split; [split; [exact Hil|apply (rl_ps R Hil)]|exact Hw].
      * intros c Hc. exact (bw_post W c Hjl Hc).
      * rewrite map_app. simpl. apply NoDup_app_iff_local. split; [apply (bw_ndpre W Hjl)|].
        split; [repeat constructor; simpl; tauto|]. intros q Hq [<-|[]]. contradiction.
      * apply (bw_ndpost W Hjl).
      * apply NoDup_app_iff_local. split; [apply (bw_ndc W Hil)|].
        split; [repeat constructor; simpl; tauto|]. intros q Hq [<-|[]]. contradiction.
      * apply (bw_ndp W Hil).
      * intros q Hq. rewrite map_app, in_app_iff. simpl. intuition congruence.
      * intros q _. reflexivity.
      * intros u. rewrite in_app_iff. simpl. rewrite map_app, in_app_iff. simpl.
        split.
        -- intros [H|[<-|[]]]; [|right; auto]. left. split; [intros ->; contradiction|exact H].
        -- intros [(_ & H)|(-> & _)]; auto.
      * intros u. rewrite (bw_prod W _ Hil). split.
        -- intros (Hu & Hin). destruct (Nat.eq_dec u j) as [->|]; [right; auto|left; auto].
        -- intros [(_ & H)|(-> & H)]; auto.
    + apply (rl_ts R Hjl).
    + apply (rl_ps R Hil).
    + intros q Hq. rewrite fnd_app. destruct (fnd q (bt_pre (tr_of b j))); [reflexivity|].
      unfold fnd. simpl. destruct (Nat.eqb_spec i q); [congruence|reflexivity].
    + unfold pre_rel. rewrite fnd_app, Hfi. unfold fnd. simpl. rewrite !Nat.eqb_refl. simpl. destruct Hpr as (H1 & H2).
      destruct inh; simpl.
      * split; [exact H1|]. split; [exists w; auto|]. intros k. split.
        -- intros Hk z [Hz|(_ & _ & _ & ->)]; [exfalso; apply (H2 z Hz)|exact Hk].
        -- intros Hk. apply Hk. auto.
      * rewrite H1. split; [lia|]. split; [specialize (Hw eq_refl); lia|]. intros z [Hz|(Hz & _)]; [apply (H2 z Hz)|discriminate].
Qed.

Lemma add_in_throw : forall d b p t (inh : bool) w, rel d b -> d_place d p -> d_trans d t ->
  (if inh then (0 < d_in d p t)%N else exists x, d_inh d p t x) ->
  add_input_arc b p t inh w = Throw.
Proof.
  intros d b p t inh w R Hp Ht Hbad. assert (W := rl_wf R).
  apply (rl_p R) in Hp. apply (rl_t R) in Ht.
  apply In_nth_error in Hp. destruct Hp as (i & Hi). apply In_nth_error in Ht. destruct Ht as (j & Hj).
  assert (Hii := index_of_nth _ (bw_pn W) Hi). assert (Hjj := index_of_nth _ (bw_tn W) Hj).
  assert (Hil : i < length (b_places b)) by (rewrite (bw_np W); eapply nth_error_lt; exact Hi).
  assert (Hjl : j < length (b_trans b)) by (rewrite (bw_nt W); eapply nth_error_lt; exact Hj).
  assert (Hpr := rl_pre R _ _ Hi Hj).
  unfold add_input_arc. rewrite Hjj, Hii. rewrite Hii. rewrite (rd_nth (b_trans b) btrans0 Hjl). cbn [bind].
  change (nth j (b_trans b) btrans0) with (tr_of b j).
  assert (Hms := merge_in_spec (bt_pre (tr_of b j)) i inh w).
  destruct (merge_in (bt_pre (tr_of b j)) i inh w) as [[l'|]|].
  - exfalso. destruct Hms as (l1 & a & l2 & Hl & Hap & Hai & Hnl & Hl').
    assert (Hfi : fnd i (bt_pre (tr_of b j)) = Some a) by (rewrite Hl, (fnd_mid i l1 a l2 Hap Hnl), Nat.eqb_refl; reflexivity).
    unfold pre_rel in Hpr. rewrite Hfi, Hai in Hpr. destruct inh.
    + destruct Hpr as (H1 & _). lia.
    + destruct Hpr as (_ & _ & H1), Hbad as (x & Hx). apply (H1 x Hx).
  - reflexivity.
  - exfalso. apply fnd_none in Hms. unfold pre_rel in Hpr. rewrite Hms in Hpr. destruct Hpr as (H1 & H2). destruct inh.
    + lia.
    + destruct Hbad as (x & Hx). apply (H2 x Hx).
Qed.

Lemma add_out_rel : forall d b p t w, rel d b -> d_place d p -> d_trans d t -> (0 < w)%N ->
  exists b', add_output_arc b t p w = Ok b' /\ rel (d_add_out d p t w) b'.
Proof.
  intros d b p t w R Hp Ht Hw. assert (W := rl_wf R).
  apply (rl_p R) in Hp. apply (rl_t R) in Ht.
  apply In_nth_error in Hp. destruct Hp as (i & Hi). apply In_nth_error in Ht. destruct Ht as (j & Hj).
  assert (Hii := index_of_nth _ (bw_pn W) Hi). assert (Hjj := index_of_nth _ (bw_tn W) Hj).
  assert (Hil : i < length (b_places b)) by (rewrite (bw_np W); eapply nth_error_lt; exact Hi).
  assert (Hjl : j < length (b_trans b)) by (rewrite (bw_nt W); eapply nth_error_lt; exact Hj).
  assert (Hpr := rl_pre R _ _ Hi Hj). assert (Hpo := rl_post R _ _ Hi Hj).
  unfold add_output_arc. rewrite Hjj, Hii. rewrite Hii. rewrite (rd_nth (b_trans b) btrans0 Hjl). cbn [bind].
  change (nth j (b_trans b) btrans0) with (tr_of b j).
  assert (Hrest : forall x y, bwf (with_tr_pl b j x i y) -> bt_skip x = false -> bp_skip y = false ->
      bt_player x = bt_player (tr_of b j) -> bt_pre x = bt_pre (tr_of b j) ->
      (forall q, q <> i -> fnd q (bt_post x) = fnd q (bt_post (tr_of b j))) ->
      post_rel (bt_post x) i (d_out (d_add_out d p t w) p t) ->
      rel (d_add_out d p t w) (with_tr_pl b j x i y)).
  { intros x y W' Hsx Hsy Hpl Hpre Hf Hpost.
    eapply rel_with with (d := d) (p := p) (t := t); eauto; try reflexivity; try (intros; rewrite Hpre; auto; fail).
    - intros q u Hne. simpl. split; [reflexivity|]. split; [|reflexivity].
      destruct (Nat.eqb_spec q p), (Nat.eqb_spec u t); simpl; auto. subst. destruct Hne; congruence. }
  assert (Hdout : d_out (d_add_out d p t w) p t = (d_out d p t + w)%N).
  { simpl. rewrite !Nat.eqb_refl. reflexivity. }
  assert (Hms := merge_out_spec (bt_post (tr_of b j)) i w).
  destruct (merge_out (bt_post (tr_of b j)) i w) as [l'|].
  - destruct Hms as (l1 & a & l2 & Hl & Hap & Hnl & Hl').
    eexists. split; [reflexivity|].
    match goal with |- rel _ ?B => change B with (with_tr b j (mkBT (bt_pre (tr_of b j)) l' (bt_player (tr_of b j)) (bt_skip (tr_of b j)) (bt_inhib (tr_of b j)))) end.
    rewrite (with_tr_eq b j _ i).
    set (na := mkArc i (arc_weight a + w)%N (arc_inhib a)) in *.
    assert (Hmap : map arc_place l' = map arc_place (bt_post (tr_of b j))).
    { rewrite Hl, Hl', !map_app. simpl. rewrite Hap. reflexivity. }
    assert (Hfi : fnd i (bt_post (tr_of b j)) = Some a) by (rewrite Hl, (fnd_mid i l1 a l2 Hap Hnl), Nat.eqb_refl; reflexivity).
    assert (Hfi' : fnd i l' = Some na) by (rewrite Hl', (@fnd_mid i i l1 na l2 eq_refl Hnl), Nat.eqb_refl; reflexivity).
    assert (Hal : In a (bt_post (tr_of b j))) by (rewrite Hl; apply in_or_app; right; left; reflexivity).
    unfold post_rel in Hpo. rewrite Hfi in Hpo.
    apply Hrest; cbn [bt_pre bt_post bt_skip bt_player]; auto.
    + apply bwf_with; cbn [bt_pre bt_post bt_skip bt_player]; auto.
      * apply (rl_ts R Hjl).
      * intros c Hc. exact (bw_pre W c Hjl Hc).
      * intros c Hc. rewrite Hl' in Hc. apply in_app_or in Hc.
        assert (Hold : In c (bt_post (tr_of b j)) -> live_p b (arc_place c) /\ arc_inhib c = false /\ (0 < arc_weight c)%N)
          by (apply (bw_post W); exact Hjl).
        destruct Hc as [Hc|[<-|Hc]].
        -- apply Hold. rewrite Hl. apply in_or_app; auto.
        -- destruct (bw_post W a Hjl Hal) as (H1 & H2 & H3). simpl. rewrite <- Hap at 1. split; [exact H1|]. split; [exact H2|lia].
        -- apply Hold. rewrite Hl. apply in_or_app; right; right; auto.
      * apply (bw_ndpre W Hjl).
      * rewrite Hmap. apply (bw_ndpost W Hjl).
      * apply (bw_ndc W Hil).
      * apply (bw_ndp W Hil).
      * intros q _. reflexivity.
      * intros q _. rewrite Hmap. reflexivity.
      * intros u. rewrite (bw_cons W _ Hil). split.
        -- intros (Hu & Hin). destruct (Nat.eq_dec u j) as [->|]; [right; auto|left; auto].
        -- intros [(_ & H)|(-> & H)]; auto.
      * intros u. rewrite Hmap. rewrite (bw_prod W _ Hil). split.
        -- intros (Hu & Hin). destruct (Nat.eq_dec u j) as [->|]; [right; auto|left; auto].
        -- intros [(_ & H)|(-> & H)]; auto.
    + apply (rl_ts R Hjl).
    + apply (rl_ps R Hil).
    + intros q Hq. rewrite Hl, Hl'. rewrite (fnd_mid q l1 a l2 Hap Hnl), (@fnd_mid q i l1 na l2 eq_refl Hnl).
      destruct (Nat.eqb_spec q i); [congruence|reflexivity].
    + unfold post_rel. rewrite Hfi'. rewrite Hdout. simpl. lia.
  - rewrite (rd_nth (b_places b) bplace0 Hil). cbn [bind]. change (nth i (b_places b) bplace0) with (pl_of b i).
    eexists. split; [reflexivity|].
    match goal with |- rel _ (mkB _ _ (upd _ _ ?X) (upd _ _ ?Y) _) => set (x := X); set (y := Y) end.
    change (rel (d_add_out d p t w) (with_tr_pl b j x i y)).
    assert (Hfi : fnd i (bt_post (tr_of b j)) = None) by (apply fnd_none; exact Hms).
    unfold post_rel in Hpo. rewrite Hfi in Hpo.
    apply Hrest; unfold x, y; cbn [bt_pre bt_post bt_skip bt_player bp_skip]; auto.
    + assert (Hnc : ~ In j (bp_prod (pl_of b i))).
      { intros Hin. apply (bw_prod W _ Hil) in Hin. tauto. }
      apply bwf_with; cbn [bt_pre bt_post bt_skip bt_player bp_skip bp_cons bp_prod]; auto.
      * apply (rl_ts R Hjl).
      * intros c Hc. exact (bw_pre W c Hjl Hc).
      * intros c Hc. apply in_app_or in Hc. destruct Hc as [Hc|[<-|[]]].
        -- apply (bw_post W (t := j)); assumption.
        -- simpl. split; [split; [exact Hil|apply (rl_ps R Hil)]|auto].
      * apply (bw_ndpre W Hjl).
      * rewrite map_app. simpl. apply NoDup_app_iff_local. split; [apply (bw_ndpost W Hjl)|].
        split; [repeat constructor; simpl; tauto|]. intros q Hq [<-|[]]. contradiction.
      * apply (bw_ndc W Hil).
      * apply NoDup_app_iff_local. split; [apply (bw_ndp W Hil)|].
        split; [repeat constructor; simpl; tauto|]. intros q Hq [<-|[]]. contradiction.
      * intros q _. reflexivity.
      * intros q Hq. rewrite map_app, in_app_iff. simpl. intuition congruence.
      * intros u. rewrite (bw_cons W _ Hil). split.
        -- intros (Hu & Hin). destruct (Nat.eq_dec u j) as [->|]; [right; auto|left; auto].
        -- intros [(_ & H)|(-> & H)]; auto.
      * intros u. rewrite in_app_iff. simpl. rewrite map_app, in_app_iff. simpl.
        split.
        -- intros [H|[<-|[]]]; [|right; auto]. left. split; [intros ->; contradiction|exact H].
        -- intros [(_ & H)|(-> & _)]; auto.
    + apply (rl_ts R Hjl).
    + apply (rl_ps R Hil).
    + intros q Hq. rewrite fnd_app. destruct (fnd q (bt_post (tr_of b j))); [reflexivity|].
      unfold fnd. simpl. destruct (Nat.eqb_spec i q); [congruence|reflexivity].
    + unfold post_rel. rewrite fnd_app, Hfi. unfold fnd. simpl. rewrite !Nat.eqb_refl. simpl. lia.
Qed.
