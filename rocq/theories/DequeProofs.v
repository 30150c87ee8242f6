(** Refinement of light_deque to lists. *)
From Verif Require Import Base BaseLemmas DequeModel DequeSpec.
Set Implicit Arguments.

Section Deque.
  Variable T : Type.
  (** the deque holds the list [l] *)
  Definition holds_list (q : deque T) (l : list T) : Prop :=
    length (d_data q) = d_size q /\ d_front q + length l = d_back q /\ d_back q < d_size q /\
    forall i x, nth_error l i = Some x -> nth_error (d_data q) (d_front q + i) = Some (Some x).

  Lemma raw_length : forall n, length (raw T n) = n.
  Proof. intros. apply repeat_length. Qed.
  Lemma nth_upd_eq : forall A (l : list A) i x, i < length l -> nth_error (upd l i x) i = Some x.
  Proof. induction l as [|y l IH]; intros [|i] x H; cbn in *; try lia; auto. apply IH. lia. Qed.
  Lemma nth_upd_ne : forall A (l : list A) i j x, i <> j -> nth_error (upd l i x) j = nth_error l j.
  Proof. induction l as [|y l IH]; intros [|i] [|j] x H; cbn; auto; try lia. Qed.
  Lemma len_upd : forall A (l : list A) i x, length (upd l i x) = length l.
  Proof. induction l as [|y l IH]; intros [|i] x; cbn; auto. Qed.
  Lemma wr_ok : forall A (l : list A) i x, i < length l -> wr l i x = Ok (upd l i x).
  Proof. intros A l i x H. unfold wr. destruct (Nat.ltb_spec i (length l)); [reflexivity|lia]. Qed.
  Lemma get_ok : forall (d : list (option T)) i x, nth_error d i = Some (Some x) -> get d i = Ok x.
  Proof. intros d i x H. unfold get, rd. rewrite H. reflexivity. Qed.
  Lemma destroy_ok : forall (d : list (option T)) i x, nth_error d i = Some (Some x) -> destroy d i = Ok (upd d i None).
  Proof.
    intros d i x H. unfold destroy. rewrite (get_ok _ _ H). cbn [bind]. apply wr_ok. apply nth_error_Some. congruence.
  Qed.
  Lemma get_range_ok : forall l d i, (forall j x, nth_error l j = Some x -> nth_error d (i + j) = Some (Some x)) ->
    get_range d i (length l) = Ok (l : list T).
  Proof.
    induction l as [|x l IH]; intros d i H; [reflexivity|]. cbn [length get_range].
    assert (H0 := H 0 x eq_refl). rewrite Nat.add_0_r in H0. rewrite (get_ok _ _ H0). cbn [bind]. rewrite IH; [reflexivity|]. intros j y Hj. replace (S i + j) with (i + S j) by lia. apply H. exact Hj.
  Qed.
  Lemma destroy_range_ok : forall k d i, (forall j, j < k -> exists x : T, nth_error d (i + j) = Some (Some x)) ->
    exists d', destroy_range d i k = Ok d' /\ length d' = length d.
  Proof.
    induction k as [|k IH]; intros d i H; [exists d; auto|]. cbn [destroy_range].
    destruct (H 0 ltac:(lia)) as (x & Hx). rewrite Nat.add_0_r in Hx. rewrite (destroy_ok _ _ Hx). cbn [bind].
    destruct (IH (upd d i None) (S i)) as (d' & E & Hl).
    - intros j Hj. destruct (H (S j) ltac:(lia)) as (y & Hy). exists y. rewrite nth_upd_ne by lia. replace (S i + j) with (i + S j) by lia. exact Hy.
    - exists d'. split; [exact E|]. rewrite Hl, len_upd. reflexivity.
  Qed.

  Lemma new_holds : forall n, holds_list (dq_new T n) [].
  Proof.
    intros n. unfold dq_new, holds_list. cbn [d_front d_back d_size d_data]. rewrite raw_length. split; [reflexivity|]. split; [reflexivity|].
    split; [destruct (Nat.eqb_spec n 0); lia|]. intros [|i] x H; discriminate H.
  Qed.
  Lemma expand_ok : forall q l, length (d_data q) = d_size q -> d_front q + length l = d_back q -> d_back q <= d_size q -> 0 < d_size q ->
    (forall i x, nth_error l i = Some x -> nth_error (d_data q) (d_front q + i) = Some (Some x)) ->
    exists q', dq_expand q = Ok q' /\ holds_list q' l.
  Proof.
    intros q l H1 H2 H3 H4 H5. unfold dq_expand. replace (d_back q - d_front q) with (length l) by lia.
    rewrite (get_range_ok l) by exact H5. cbn [bind]. destruct (Nat.ltb_spec (2 * d_size q) (length l)); [lia|].
    eexists. split; [reflexivity|]. unfold holds_list. cbn [d_front d_back d_size d_data]. split; [|split; [|split]].
    - rewrite app_length, map_length, raw_length. lia.
    - reflexivity.
    - lia.
    - intros i x Hi. cbn [Nat.add]. rewrite nth_error_app1 by (rewrite map_length; apply nth_error_Some; congruence).
      apply map_nth_error. exact Hi.
  Qed.
  Lemma push_ok : forall q l x, length (d_data q) = d_size q -> d_front q + length l = d_back q -> d_back q < d_size q ->
    (forall i y, nth_error l i = Some y -> nth_error (d_data q) (d_front q + i) = Some (Some y)) ->
    exists q', dq_push q x = Ok q' /\ holds_list q' (l ++ [x]).
  Proof.
    intros q l x H1 H2 H3 H4. unfold dq_push. rewrite wr_ok by lia. cbn [bind].
    assert (H5 : forall i y, nth_error (l ++ [x]) i = Some y -> nth_error (upd (d_data q) (d_back q) (Some x)) (d_front q + i) = Some (Some y)).
    { intros i y Hi. destruct (Nat.lt_ge_cases i (length l)) as [Hl|Hl].
      - rewrite nth_error_app1 in Hi by exact Hl. rewrite nth_upd_ne by lia. apply H4. exact Hi.
      - rewrite nth_error_app2 in Hi by exact Hl. destruct (i - length l) as [|k] eqn:Ek; [|destruct k; discriminate Hi]. injection Hi as <-.
        replace (d_front q + i) with (d_back q) by lia. apply nth_upd_eq. lia. }
    destruct (Nat.eqb_spec (S (d_back q)) (d_size q)) as [E|E].
    - apply expand_ok; cbn [d_front d_back d_size d_data]; [rewrite len_upd; exact H1|rewrite app_length; cbn [length]; lia|lia|lia|exact H5].
    - eexists. split; [reflexivity|]. unfold holds_list. cbn [d_front d_back d_size d_data].
      split; [rewrite len_upd; exact H1|]. split; [rewrite app_length; cbn [length]; lia|]. split; [lia|exact H5].
  Qed.
  Lemma push_holds : forall q l x, holds_list q l -> exists q', dq_push q x = Ok q' /\ holds_list q' (l ++ [x]).
  Proof. intros q l x (H1 & H2 & H3 & H4). apply push_ok; assumption. Qed.
  Lemma empty_holds : forall q l, holds_list q l -> dq_empty q = match l with [] => true | _ => false end /\ dq_length q = length l.
  Proof.
    intros q l (H1 & H2 & H3 & H4). unfold dq_empty, dq_length. split; [|lia].
    destruct l; cbn [length] in H2; destruct (Nat.eqb_spec (d_front q) (d_back q)); auto; lia.
  Qed.
  Lemma nth_holds : forall q l i x, holds_list q l -> nth_error l i = Some x -> dq_nth q i = Ok x.
  Proof. intros q l i x (H1 & H2 & H3 & H4) H. apply get_ok, H4, H. Qed.
  Lemma front_holds : forall q x l, holds_list q (x :: l) -> dq_front q = Ok x.
  Proof. intros q x l (H1 & H2 & H3 & H4). apply get_ok. rewrite <- (Nat.add_0_r (d_front q)). apply H4. reflexivity. Qed.
  Lemma back_holds : forall q x l, holds_list q (l ++ [x]) -> dq_back q = Ok x.
  Proof.
    intros q x l (H1 & H2 & H3 & H4). rewrite app_length in H2. cbn [length] in H2. unfold dq_back. destruct (d_back q) as [|b]; [lia|].
    apply get_ok. replace b with (d_front q + length l) by lia. apply H4. rewrite nth_error_app2 by lia. rewrite Nat.sub_diag. reflexivity.
  Qed.
  Lemma pop_front_holds : forall q x l, holds_list q (x :: l) -> exists q', dq_pop_front q = Ok q' /\ holds_list q' l.
  Proof.
    intros q x l (H1 & H2 & H3 & H4). cbn [length] in H2. unfold dq_pop_front.
    assert (Hx : nth_error (d_data q) (d_front q) = Some (Some x)) by (rewrite <- (Nat.add_0_r (d_front q)); apply H4; reflexivity).
    rewrite (destroy_ok _ _ Hx). cbn [bind]. destruct (Nat.leb_spec (d_back q) (S (d_front q))) as [E|E].
    - assert (l = []) by (apply length_zero_iff_nil; lia). subst l.
      eexists. split; [reflexivity|]. unfold holds_list. cbn [d_front d_back d_size d_data]. rewrite len_upd. split; [exact H1|]. split; [reflexivity|].
      split; [lia|]. intros [|i] y H; discriminate H.
    - eexists. split; [reflexivity|]. unfold holds_list. cbn [d_front d_back d_size d_data]. rewrite len_upd. split; [exact H1|]. split; [lia|].
      split; [lia|]. intros i y H. rewrite nth_upd_ne by lia. replace (S (d_front q) + i) with (d_front q + S i) by lia. apply H4. exact H.
  Qed.
  Lemma clear_ok : forall q l, length (d_data q) = d_size q -> d_front q + length l = d_back q -> 0 < d_size q ->
    (forall i x, nth_error l i = Some x -> nth_error (d_data q) (d_front q + i) = Some (Some x)) ->
    exists q', dq_clear q = Ok q' /\ holds_list q' [].
  Proof.
    intros q l H1 H2 H3 H4. unfold dq_clear.
    destruct (@destroy_range_ok (d_back q - d_front q) (d_data q) (d_front q)) as (d' & E & Hl).
    { intros j Hj. destruct (nth_error l j) as [x|] eqn:En; [exists x; apply H4; exact En|apply nth_error_None in En; lia]. }
    rewrite E. cbn [bind]. eexists. split; [reflexivity|]. unfold holds_list. cbn [d_front d_back d_size d_data]. split; [lia|]. split; [reflexivity|].
    split; [lia|]. intros [|i] y H; discriminate H.
  Qed.
  Lemma clear_holds : forall q l, holds_list q l -> exists q', dq_clear q = Ok q' /\ holds_list q' [].
  Proof. intros q l (H1 & H2 & H3 & H4). eapply clear_ok; eauto. lia. Qed.
  Lemma pop_back_holds : forall q l, holds_list q l -> exists q', dq_pop_back q = Ok q' /\ holds_list q' (removelast l).
  Proof.
    intros q l (H1 & H2 & H3 & H4). unfold dq_pop_back. destruct l as [|y l0] using rev_ind.
    - cbn [length] in H2. destruct (Nat.ltb_spec (d_front q) (d_back q)); [lia|]. cbn [bind].
      destruct (Nat.eqb_spec (d_back q) (d_front q)); [|lia]. apply (@clear_ok q []); [exact H1|cbn [length]; lia|lia|exact H4].
    - clear IHl0. rewrite removelast_last. rewrite app_length in H2. cbn [length] in H2.
      destruct (Nat.ltb_spec (d_front q) (d_back q)); [|lia].
      assert (Hx : nth_error (d_data q) (d_back q - 1) = Some (Some y)).
      { replace (d_back q - 1) with (d_front q + length l0) by lia. apply H4. rewrite nth_error_app2 by lia. rewrite Nat.sub_diag. reflexivity. }
      rewrite (destroy_ok _ _ Hx). cbn [bind d_front d_back].
      set (q1 := mkDeque (d_front q) (d_back q - 1) (d_size q) (upd (d_data q) (d_back q - 1) None)).
      assert (G : forall i x, nth_error l0 i = Some x -> nth_error (d_data q1) (d_front q1 + i) = Some (Some x)).
      { intros i x Hi. unfold q1. cbn [d_data d_front]. assert (i < length l0) by (apply nth_error_Some; congruence).
        rewrite nth_upd_ne by lia. apply H4. rewrite nth_error_app1 by assumption. exact Hi. }
      destruct (Nat.eqb_spec (d_back q - 1) (d_front q)) as [E|E].
      + assert (l0 = []) by (apply length_zero_iff_nil; lia). subst l0.
        apply (@clear_ok q1 []); unfold q1; cbn [d_front d_back d_size d_data length]; [rewrite len_upd; exact H1|lia|lia|].
        intros [|i] x Hi; discriminate Hi.
      + exists q1. split; [reflexivity|]. split; [unfold q1; cbn [d_size d_data]; rewrite len_upd; exact H1|]. split; [unfold q1; cbn; lia|].
        split; [unfold q1; cbn; lia|exact G].
  Qed.
  Lemma push_all_holds : forall r q l, holds_list q l -> exists q', dq_push_all q r = Ok q' /\ holds_list q' (l ++ r).
  Proof.
    induction r as [|x r IH]; intros q l H; cbn [dq_push_all]; [exists q; rewrite app_nil_r; auto|].
    destruct (push_holds x H) as (q1 & E & H1). rewrite E. cbn [bind]. destruct (IH _ _ H1) as (q2 & E2 & H2). exists q2. split; [exact E2|].
    rewrite <- app_assoc in H2. exact H2.
  Qed.
  Lemma assign_holds : forall q l other r, holds_list q l -> holds_list other r -> r <> [] ->
    exists q', dq_assign q other = Ok q' /\ holds_list q' r.
  Proof.
    intros q l other r (H1 & H2 & H3 & H4) (G1 & G2 & G3 & G4) Hne. unfold dq_assign.
    destruct (@destroy_range_ok (d_back q - d_front q) (d_data q) (d_front q)) as (d' & E & Hl).
    { intros j Hj. destruct (nth_error l j) as [x|] eqn:En; [exists x; apply H4; exact En|apply nth_error_None in En; lia]. }
    rewrite E. cbn [bind]. unfold dq_length. replace (d_back other - d_front other) with (length r) by lia.
    rewrite (get_range_ok r) by exact G4. cbn [bind].
    apply (push_all_holds r (q := mkDeque 0 0 (length r) (raw T (length r))) (l := [])).
    unfold holds_list. cbn [d_front d_back d_size d_data]. rewrite raw_length. split; [reflexivity|]. split; [reflexivity|].
    split; [destruct r; [congruence|cbn [length]; lia]|]. intros [|i] x H; discriminate H.
  Qed.

  (** * Sequences of operations *)
  Lemma step_holds : forall q l o l' r, holds_list q l -> list_step l o = Some (l', r) ->
    exists q', dq_step q o = Ok (q', r) /\ holds_list q' l'.
  Proof.
    intros q l o l' r H. destruct o as [x| | | | | |i| | |rs]; cbn [list_step dq_step].
    - intros E. injection E as <- <-. destruct (push_holds x H) as (q' & -> & H'). exists q'. auto.
    - destruct l as [|x l]; [discriminate|]. intros E. injection E as <- <-. destruct (pop_front_holds H) as (q' & -> & H'). exists q'. auto.
    - intros E. injection E as <- <-. destruct (pop_back_holds H) as (q' & -> & H'). exists q'. auto.
    - intros E. injection E as <- <-. destruct (clear_holds H) as (q' & -> & H'). exists q'. auto.
    - destruct l as [|x l]; [discriminate|]. intros E. injection E as <- <-. rewrite (front_holds H). exists q. auto.
    - destruct (rev l) as [|x k] eqn:Er; [discriminate|]. intros E. injection E as <- <-.
      assert (El : l = rev k ++ [x]) by (rewrite <- (rev_involutive l), Er; reflexivity). rewrite El in H. rewrite (back_holds _ _ H).
      exists q. split; [reflexivity|]. rewrite El. exact H.
    - destruct (nth_error l i) as [x|] eqn:En; [|discriminate]. intros E. injection E as <- <-. rewrite (nth_holds _ H En). exists q. auto.
    - intros E. injection E as <- <-. destruct (empty_holds H) as (-> & _). exists q. auto.
    - intros E. injection E as <- <-. destruct (empty_holds H) as (_ & ->). exists q. auto.
    - destruct rs as [|x rs]; [discriminate|]. intros E. injection E as <- <-.
      destruct (push_all_holds (x :: rs) (@new_holds 64)) as (o & -> & Ho). cbn [bind app] in *.
      destruct (assign_holds H Ho) as (q' & -> & H'); [discriminate|]. exists q'. auto.
  Qed.
  Lemma run_holds : forall ops q l rs, holds_list q l -> list_run l ops = Some rs -> dq_run q ops = Ok rs.
  Proof.
    induction ops as [|o ops IH]; intros q l rs H; cbn [list_run dq_run].
    - intros E. injection E as <-. reflexivity.
    - destruct (list_step l o) as [(l', r)|] eqn:Es; [|discriminate]. destruct (list_run l' ops) as [rs'|] eqn:Er; [|discriminate].
      intros E. injection E as <-. destruct (step_holds _ H Es) as (q' & -> & H'). cbn [bind fst snd]. rewrite (IH _ _ _ H' Er). reflexivity.
  Qed.
End Deque.
