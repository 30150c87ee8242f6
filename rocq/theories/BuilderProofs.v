(** Proofs about the builder (C03). *)
From Verif Require Import Base BaseLemmas NetSpec NetModel NetProofs BuilderModel.
From Coq Require Import Permutation Sorted.
Set Implicit Arguments.

(** ** The builder invariant *)

Definition live_t (b : builder) (t : nat) : Prop := t < length (b_trans b) /\ bt_skip (tr_of b t) = false.
Definition live_p (b : builder) (p : nat) : Prop := p < length (b_places b) /\ bp_skip (pl_of b p) = false.

Record bwf (b : builder) : Prop := {
  bw_np : length (b_places b) = length (b_pnames b);
  bw_nt : length (b_trans b) = length (b_tnames b);
  bw_ni : length (b_init b) = length (b_pnames b);
  bw_pn : NoDup (b_pnames b);
  bw_tn : NoDup (b_tnames b);
  bw_skip : forall t, t < length (b_trans b) -> bt_skip (tr_of b t) = true ->
            bt_pre (tr_of b t) = [] /\ bt_post (tr_of b t) = [];
  bw_pre : forall t a, t < length (b_trans b) -> In a (bt_pre (tr_of b t)) ->
           live_p b (arc_place a) /\ (arc_inhib a = false -> (0 < arc_weight a)%N);
  bw_post : forall t a, t < length (b_trans b) -> In a (bt_post (tr_of b t)) ->
           live_p b (arc_place a) /\ arc_inhib a = false /\ (0 < arc_weight a)%N;
  bw_ndpre : forall t, t < length (b_trans b) -> NoDup (map arc_place (bt_pre (tr_of b t)));
  bw_ndpost : forall t, t < length (b_trans b) -> NoDup (map arc_place (bt_post (tr_of b t)));
  bw_ndc : forall p, p < length (b_places b) -> NoDup (bp_cons (pl_of b p));
  bw_ndp : forall p, p < length (b_places b) -> NoDup (bp_prod (pl_of b p));
  bw_cons : forall p t, p < length (b_places b) ->
            (In t (bp_cons (pl_of b p)) <->
             t < length (b_trans b) /\ In p (map arc_place (bt_pre (tr_of b t))));
  bw_prod : forall p t, p < length (b_places b) ->
            (In t (bp_prod (pl_of b p)) <->
             t < length (b_trans b) /\ In p (map arc_place (bt_post (tr_of b t))))
}.

(** ** General lemmas *)
Lemma index_of_some : forall x l i, index_of x l = Some i -> nth_error l i = Some x.
Proof.
  intros x; induction l as [|y l IH]; intros i H; simpl in H; [discriminate|].
  destruct (Nat.eqb_spec x y) as [->|Hne].
  - injection H as <-. reflexivity.
  - destruct (index_of x l) as [j|] eqn:E; [|discriminate]. injection H as <-. simpl. apply IH; reflexivity.
Qed.

Lemma index_of_none : forall x l, index_of x l = None <-> ~ In x l.
Proof.
  intros x; induction l as [|y l IH]; simpl; [tauto|].
  destruct (Nat.eqb_spec x y) as [->|Hne].
  - split; [discriminate|tauto].
  - destruct (index_of x l) as [j|]; split; intros H; try discriminate.
    + exfalso. assert (Some j = None) by (apply IH; intros Hi; apply H; right; exact Hi). discriminate.
    + intros [E|E]; [congruence|]. apply IH in E; [exact E|reflexivity].
    + reflexivity.
Qed.

Lemma index_of_nth : forall l i x, NoDup l -> nth_error l i = Some x -> index_of x l = Some i.
Proof.
  induction l as [|y l IH]; intros i x Hnd H; [destruct i; discriminate|].
  inversion Hnd as [|? ? Hni Hnd']; subst. simpl. destruct i; simpl in H.
  - injection H as ->. rewrite Nat.eqb_refl. reflexivity.
  - destruct (Nat.eqb_spec x y) as [->|Hne].
    + exfalso. apply Hni. eapply nth_error_In; exact H.
    + rewrite (IH i x Hnd' H). reflexivity.
Qed.

Lemma index_of_app : forall x l1 l2,
  index_of x (l1 ++ l2) = match index_of x l1 with
                          | Some i => Some i
                          | None => match index_of x l2 with
                                    | Some i => Some (length l1 + i)
                                    | None => None
                                    end
                          end.
Proof.
  intros x; induction l1 as [|y l1 IH]; intros l2; simpl.
  - destruct (index_of x l2); reflexivity.
  - destruct (Nat.eqb x y); [reflexivity|]. rewrite IH.
    destruct (index_of x l1); [reflexivity|]. destruct (index_of x l2); reflexivity.
Qed.

Lemma index_of_lt : forall x l i, index_of x l = Some i -> i < length l.
Proof. intros x l i H. apply index_of_some in H. eapply nth_error_lt; exact H. Qed.

Lemma list_sum_incl : forall (f : nat -> nat) l l', NoDup l -> incl l l' ->
  list_sum (map f l) <= list_sum (map f l').
Proof.
  intros f; induction l as [|x l IH]; intros l' Hnd Hin; simpl; [lia|].
  inversion Hnd as [|? ? Hni Hnd']; subst.
  assert (Hx : In x l') by (apply Hin; left; reflexivity).
  apply in_split in Hx. destruct Hx as (l1 & l2 & ->).
  rewrite map_app, list_sum_app. cbn [map]. change (list_sum (f x :: map f l2)) with (f x + list_sum (map f l2)).
  assert (list_sum (map f l) <= list_sum (map f (l1 ++ l2))).
  { apply IH; [exact Hnd'|]. intros y Hy. assert (Hy' := Hin y (or_intror Hy)).
    apply in_app_or in Hy'. apply in_or_app. destruct Hy' as [H|[H|H]]; auto. subst; contradiction. }
  rewrite map_app, list_sum_app in H. simpl. lia.
Qed.

Lemma NoDup_flat_pairs : forall (f : nat -> list nat) l,
  NoDup l -> (forall x, In x l -> NoDup (f x)) ->
  NoDup (flat_map (fun x => map (pair x) (f x)) l).
Proof.
  intros f; induction l as [|x l IH]; intros Hnd Hf; simpl; [constructor|].
  inversion Hnd as [|? ? Hni Hnd']; subst.
  assert (Hx : NoDup (map (pair x) (f x))).
  { apply FinFun.Injective_map_NoDup; [intros a b E; congruence|apply Hf; left; reflexivity]. }
  assert (Hr : NoDup (flat_map (fun x0 => map (pair x0) (f x0)) l))
    by (apply IH; [exact Hnd'|intros y Hy; apply Hf; right; exact Hy]).
  clear IH. revert Hx. generalize (f x) as fx. intros fx Hx.
  induction fx as [|z fx IHf]; simpl; [exact Hr|].
  simpl in Hx. inversion Hx as [|? ? Hni' Hnd'']; subst. constructor.
  - intros Hin. apply in_app_or in Hin. destruct Hin as [Hin|Hin]; [contradiction|].
    apply in_flat_map in Hin. destruct Hin as (y & Hy & Hin). apply in_map_iff in Hin.
    destruct Hin as (w & E & _). injection E as -> _. contradiction.
  - apply IHf; exact Hnd''.
Qed.

Lemma length_flat_pairs : forall {A} (g : nat -> nat -> A) (f : nat -> list nat) l,
  length (flat_map (fun x => map (g x) (f x)) l) = list_sum (map (fun x => length (f x)) l).
Proof.
  intros A g f; induction l as [|x l IH]; simpl; [reflexivity|].
  rewrite app_length, map_length, IH. reflexivity.
Qed.

Lemma NoDup_app_iff_local : forall {A} (l1 l2 : list A),
  NoDup (l1 ++ l2) <-> NoDup l1 /\ NoDup l2 /\ (forall x, In x l1 -> ~ In x l2).
Proof.
  intros A; induction l1 as [|x l1 IH]; intros l2; simpl.
  - split; [intros H; repeat split; auto; constructor|tauto].
  - split.
    + intros H. inversion H as [|? ? Hni Hnd]; subst. apply IH in Hnd. destruct Hnd as (H1 & H2 & H3).
      repeat split; auto.
      * constructor; [intros Hi; apply Hni; apply in_or_app; left; exact Hi|exact H1].
      * intros y [<-|Hy] Hin; [apply Hni; apply in_or_app; right; exact Hin|apply (H3 y Hy Hin)].
    + intros (H1 & H2 & H3). inversion H1 as [|? ? Hni Hnd]; subst. constructor.
      * intros Hi. apply in_app_or in Hi. destruct Hi as [Hi|Hi]; [contradiction|].
        apply (H3 x (or_introl eq_refl) Hi).
      * apply IH. split; [exact Hnd|]. split; [exact H2|]. intros y Hy. apply H3; right; exact Hy.
Qed.

(** Double counting of a relation given from both sides. *)
Lemma double_count : forall (f g : nat -> list nat) n k,
  (forall x, x < n -> NoDup (f x)) -> (forall y, y < k -> NoDup (g y)) ->
  (forall x y, x < n -> In y (f x) -> y < k /\ In x (g y)) ->
  (forall x y, y < k -> In x (g y) -> x < n /\ In y (f x)) ->
  list_sum (map (fun x => length (f x)) (seq 0 n)) = list_sum (map (fun y => length (g y)) (seq 0 k)).
Proof.
  intros f g n k Hf Hg H1 H2.
  rewrite <- (length_flat_pairs pair f), <- (length_flat_pairs (fun y x => (x, y)) g).
  assert (Hsw : forall l, flat_map (fun x => map (fun x0 => (x0, x)) (g x)) l =
                map (fun z => (snd z, fst z)) (flat_map (fun x => map (pair x) (g x)) l)).
  { induction l as [|y l IH]; simpl; [reflexivity|]. rewrite map_app, IH, map_map. reflexivity. }
  apply Permutation_length. apply NoDup_Permutation.
  - apply NoDup_flat_pairs; [apply seq_NoDup|]. intros x Hx. apply Hf. apply in_seq in Hx; lia.
  - rewrite Hsw. apply FinFun.Injective_map_NoDup.
    + intros [a b] [c d] E; simpl in E; congruence.
    + apply NoDup_flat_pairs; [apply seq_NoDup|]. intros x Hx. apply Hg. apply in_seq in Hx; lia.
  - intros [x y]. rewrite !in_flat_map. split.
    + intros (x0 & Hx0 & Hin). apply in_map_iff in Hin. destruct Hin as (w & E & Hw).
      injection E as -> ->. apply in_seq in Hx0. destruct (H1 x y) as (Hy & Hg'); [lia|exact Hw|].
      exists y. split; [apply in_seq; lia|]. apply in_map_iff. exists x. auto.
    + intros (y0 & Hy0 & Hin). apply in_map_iff in Hin. destruct Hin as (w & E & Hw).
      injection E as -> ->. apply in_seq in Hy0. destruct (H2 x y) as (Hx & Hf'); [lia|exact Hw|].
      exists x. split; [apply in_seq; lia|]. apply in_map_iff. exists y. auto.
Qed.

Lemma filter_len : forall {A} (f : A -> bool) l, length (filter f l) <= length l.
Proof. intros A f; induction l as [|x l IH]; simpl; [lia|]. destruct (f x); simpl; lia. Qed.

Lemma map_nth_seq : forall {A B} (f : A -> B) (l : list A) d,
  map f l = map (fun i => f (nth i l d)) (seq 0 (length l)).
Proof.
  intros A B f; induction l as [|x l IH]; intros d; simpl; [reflexivity|].
  f_equal. rewrite <- seq_shift, map_map. apply IH.
Qed.

(** ** Emission *)
Section Make.
  Variable b : builder.
  Hypothesis W : bwf b.

  Let np := count (fun p => negb (bp_skip p)) (b_places b).
  Let nt := count (fun t => negb (bt_skip t)) (b_trans b).
  Let cons := map (fun p => if bp_skip p then 0 else length (bp_cons p)) (b_places b).
  Let prod := map (fun p => if bp_skip p then 0 else length (bp_prod p)) (b_places b).
  Let ninv := list_sum cons + list_sum prod.

  Definition live_ts : list nat := filter (fun t => negb (bt_skip (tr_of b t))) (seq 0 (length (b_trans b))).
  Definition live_ps : list nat := filter (fun p => negb (bp_skip (pl_of b p))) (seq 0 (length (b_places b))).

  Lemma in_live_ts : forall t, In t live_ts <-> live_t b t.
  Proof. intros t. unfold live_ts, live_t. rewrite filter_In, in_seq, negb_true_iff. intuition lia. Qed.
  Lemma in_live_ps : forall p, In p live_ps <-> live_p b p.
  Proof. intros p. unfold live_ps, live_p. rewrite filter_In, in_seq, negb_true_iff. intuition lia. Qed.

  Lemma count_nth : forall {A} (f : A -> bool) (l : list A) d,
    count f l = length (filter (fun i => f (nth i l d)) (seq 0 (length l))).
  Proof.
    intros A f l d. unfold count.
    assert (H : filter f l = map (fun i => nth i l d) (filter (fun i => f (nth i l d)) (seq 0 (length l)))).
    { assert (Hl : l = map (fun i => nth i l d) (seq 0 (length l))).
      { rewrite <- (map_id l) at 1. rewrite (map_nth_seq (fun x => x) l d). reflexivity. }
      rewrite Hl at 1. clear Hl. generalize (seq 0 (length l)) as s.
      induction s as [|i s IH]; simpl; [reflexivity|].
      destruct (f (nth i l d)); simpl; rewrite IH; reflexivity. }
    rewrite H, map_length. reflexivity.
  Qed.

  Lemma nt_live : nt = length live_ts.
  Proof. unfold nt. rewrite (count_nth _ _ btrans0). reflexivity. Qed.
  Lemma np_live : np = length live_ps.
  Proof. unfold np. rewrite (count_nth _ _ bplace0). reflexivity. Qed.

  (** Arcs of a transition as emitted. *)
  Definition pre_e (t : nat) := map arc_entry (bt_pre (tr_of b t)).
  Definition post_e (t : nat) := map (fun a => (arc_place a, arc_weight a, false)) (bt_post (tr_of b t)).
  Definition arcs_of (t : nat) := pre_e t ++ post_e t.
  Definition size (t : nat) : nat := length (arcs_of t).

  Lemma size_eq : forall t, size t = length (bt_pre (tr_of b t)) + length (bt_post (tr_of b t)).
  Proof. intros t. unfold size, arcs_of, pre_e, post_e. rewrite app_length, !map_length. reflexivity. Qed.

  Lemma list_sum_ext : forall {A} (f g : A -> nat) l, (forall x, In x l -> f x = g x) ->
    list_sum (map f l) = list_sum (map g l).
  Proof. intros A f g l H. f_equal. apply map_ext_in. exact H. Qed.

  Lemma list_sum_plus : forall {A} (f g : A -> nat) l,
    list_sum (map (fun x => f x + g x) l) = list_sum (map f l) + list_sum (map g l).
  Proof. intros A f g; induction l as [|x l IH]; simpl; [reflexivity|]. lia. Qed.

  Lemma list_sum_filter : forall {A} (f : A -> nat) (h : A -> bool) l,
    (forall x, In x l -> h x = false -> f x = 0) ->
    list_sum (map f l) = list_sum (map f (filter h l)).
  Proof.
    intros A f h; induction l as [|x l IH]; intros H; simpl; [reflexivity|].
    rewrite IH by (intros y Hy; apply H; right; exact Hy).
    destruct (h x) eqn:E; simpl; [reflexivity|]. rewrite (H x (or_introl eq_refl) E). reflexivity.
  Qed.

  (** A skipped place has no consumers and no producers. *)
  Lemma skip_cons : forall p, p < length (b_places b) -> bp_skip (pl_of b p) = true ->
    bp_cons (pl_of b p) = [] /\ bp_prod (pl_of b p) = [].
  Proof.
    intros p Hp Hs. split.
    - destruct (bp_cons (pl_of b p)) as [|t l] eqn:E; [reflexivity|].
      assert (In t (bp_cons (pl_of b p))) by (rewrite E; left; reflexivity).
      apply (bw_cons W) in H; [|exact Hp]. destruct H as (Ht & Hin). apply in_map_iff in Hin.
      destruct Hin as (a & <- & Ha). apply (bw_pre W) in Ha; [|exact Ht]. destruct Ha as ((_ & E') & _). congruence.
    - destruct (bp_prod (pl_of b p)) as [|t l] eqn:E; [reflexivity|].
      assert (In t (bp_prod (pl_of b p))) by (rewrite E; left; reflexivity).
      apply (bw_prod W) in H; [|exact Hp]. destruct H as (Ht & Hin). apply in_map_iff in Hin.
      destruct Hin as (a & <- & Ha). apply (bw_post W) in Ha; [|exact Ht]. destruct Ha as ((_ & E') & _). congruence.
  Qed.

  Lemma ninv_total : ninv = list_sum (map size live_ts).
  Proof.
    unfold ninv, cons, prod.
    rewrite (map_nth_seq _ (b_places b) bplace0).
    rewrite (map_nth_seq (fun p => if bp_skip p then 0 else length (bp_prod p)) (b_places b) bplace0).
    rewrite (@list_sum_ext _ _ (fun p => length (bp_cons (pl_of b p)))).
    2:{ intros p Hp. apply in_seq in Hp. change (nth p (b_places b) bplace0) with (pl_of b p).
        destruct (bp_skip (pl_of b p)) eqn:E; [|reflexivity].
        destruct (@skip_cons p) as (-> & _); [lia|exact E|reflexivity]. }
    rewrite (@list_sum_ext _ (fun i => if bp_skip (nth i (b_places b) bplace0) then 0 else _)
               (fun p => length (bp_prod (pl_of b p)))).
    2:{ intros p Hp. apply in_seq in Hp. change (nth p (b_places b) bplace0) with (pl_of b p).
        destruct (bp_skip (pl_of b p)) eqn:E; [|reflexivity].
        destruct (@skip_cons p) as (_ & ->); [lia|exact E|reflexivity]. }
    rewrite (@double_count (fun p => bp_cons (pl_of b p)) (fun t => map arc_place (bt_pre (tr_of b t)))
               (length (b_places b)) (length (b_trans b))).
    2:{ exact (bw_ndc W). }
    2:{ exact (bw_ndpre W). }
    2:{ intros p t Hp Hin. apply (bw_cons W) in Hin; assumption. }
    2:{ intros p t Ht Hin. assert (Hp : live_p b p).
        { apply in_map_iff in Hin. destruct Hin as (a & <- & Ha). apply (bw_pre W) in Ha; tauto. }
        split; [exact (proj1 Hp)|]. apply (bw_cons W); [exact (proj1 Hp)|]. auto. }
    rewrite (@double_count (fun p => bp_prod (pl_of b p)) (fun t => map arc_place (bt_post (tr_of b t)))
               (length (b_places b)) (length (b_trans b))).
    2:{ exact (bw_ndp W). }
    2:{ exact (bw_ndpost W). }
    2:{ intros p t Hp Hin. apply (bw_prod W) in Hin; assumption. }
    2:{ intros p t Ht Hin. assert (Hp : live_p b p).
        { apply in_map_iff in Hin. destruct Hin as (a & <- & Ha). apply (bw_post W) in Ha; tauto. }
        split; [exact (proj1 Hp)|]. apply (bw_prod W); [exact (proj1 Hp)|]. auto. }
    rewrite <- list_sum_plus. unfold live_ts.
    rewrite (@list_sum_ext _ _ size).
    2:{ intros t _. rewrite size_eq, !map_length. reflexivity. }
    apply list_sum_filter. intros t Ht Hs. apply in_seq in Ht. apply negb_false_iff in Hs.
    destruct (bw_skip W (t := t)) as (E1 & E2); [lia|exact Hs|]. rewrite size_eq, E1, E2. reflexivity.
  Qed.

  Fixpoint offs (a : nat) (es : list nat) : list (nat * nat) :=
    match es with
    | [] => []
    | t :: es' => (a, a + length (pre_e t)) :: offs (a + size t) es'
    end.

  Definition ctrl_of (t : nat) : bool :=
    if forallb arc_inhib (bt_pre (tr_of b t)) then true else Z.eqb (bt_player (tr_of b t)) 0.

  Record emitted (s : mk) (es : list nat) : Prop := {
    em_invs : k_invs s = flat_map arcs_of es;
    em_trs : k_trs s = offs 0 es;
    em_ctrl : k_ctrl s = map ctrl_of es;
    em_tidl : length (k_tids s) = length (b_trans b);
    em_tids : forall t, t < length (b_trans b) -> nth t (k_tids s) None = index_of t es;
    em_nd : NoDup es;
    em_live : forall t, In t es -> live_t b t
  }.

  Lemma offs_length : forall es a, length (offs a es) = length es.
  Proof. induction es as [|t es IH]; intros a; simpl; [reflexivity|]. rewrite IH; reflexivity. Qed.

  Lemma offs_app : forall es a t,
    offs a (es ++ [t]) = offs a es ++
      [(a + length (flat_map arcs_of es), a + length (flat_map arcs_of es) + length (pre_e t))].
  Proof.
    induction es as [|u es IH]; intros a t; simpl.
    - rewrite Nat.add_0_r. reflexivity.
    - rewrite IH. rewrite app_length. fold (size u). do 2 f_equal. f_equal. f_equal; lia.
  Qed.

  Lemma flat_size : forall es, length (flat_map arcs_of es) = list_sum (map size es).
  Proof. induction es as [|u es IH]; simpl; [reflexivity|]. rewrite app_length, IH. reflexivity. Qed.

  Lemma emit_ok : forall s es t c d, emitted s es -> live_t b t -> ~ In t es -> c = ctrl_of t ->
    exists s', emit ninv nt t (tr_of b t) c d s = Ok s' /\ emitted s' (es ++ [t]) /\
      k_ids s' = k_ids s /\ k_ptrs s' = k_ptrs s.
  Proof.
    intros s es t c d E Ht Hni Hc.
    assert (Hnd : NoDup (t :: es)) by (constructor; [exact Hni|exact (em_nd E)]).
    assert (Hincl : incl (t :: es) live_ts).
    { intros x [<-|Hx]; apply in_live_ts; [exact Ht|apply (em_live E); exact Hx]. }
    assert (Hcap := list_sum_incl size Hnd Hincl). rewrite <- ninv_total in Hcap. simpl in Hcap.
    assert (Hlen := NoDup_incl_length Hnd Hincl). rewrite <- nt_live in Hlen. simpl in Hlen.
    unfold emit. cbv zeta.
    fold (pre_e t). fold (post_e t).
    rewrite (em_invs E), (em_trs E).
    replace ((flat_map arcs_of es ++ pre_e t) ++ post_e t) with (flat_map arcs_of (es ++ [t])).
    2:{ rewrite flat_map_app. simpl. rewrite app_nil_r. unfold arcs_of at 2. rewrite app_assoc. reflexivity. }
    destruct (Nat.ltb_spec ninv (length (flat_map arcs_of (es ++ [t])))) as [Hbad|_].
    { rewrite flat_map_app, app_length, flat_size in Hbad. simpl in Hbad. rewrite app_nil_r in Hbad.
      fold (size t) in Hbad. lia. }
    rewrite offs_length. destruct (Nat.leb_spec nt (length es)) as [Hbad|_]; [lia|].
    eexists. split; [reflexivity|]. split; [|split; reflexivity].
    constructor; cbn [k_invs k_trs k_ctrl k_tids].
    - reflexivity.
    - rewrite offs_app. rewrite app_length. reflexivity.
    - rewrite (em_ctrl E), map_app. simpl. rewrite Hc. reflexivity.
    - rewrite upd_length. exact (em_tidl E).
    - intros t' Ht'. rewrite index_of_app. simpl.
      destruct (Nat.eqb_spec t' t) as [->|Hne].
      + rewrite nth_upd_eq by (rewrite (em_tidl E); exact Ht').
        destruct (index_of t es) eqn:Ei; [|rewrite Nat.add_0_r; reflexivity].
        exfalso. apply Hni. apply index_of_some in Ei. eapply nth_error_In; exact Ei.
      + rewrite nth_upd_neq by congruence. rewrite (em_tids E) by exact Ht'.
        destruct (index_of t' es); reflexivity.
    - apply NoDup_app_iff_local. split; [exact (em_nd E)|]. split; [repeat constructor; simpl; tauto|].
      intros x Hx [<-|[]]. contradiction.
    - intros x Hx. apply in_app_or in Hx. destruct Hx as [Hx|[<-|[]]]; [apply (em_live E); exact Hx|exact Ht].
  Qed.

  (** ** Orphans *)
  Definition orph (t : nat) : bool := forallb arc_inhib (bt_pre (tr_of b t)).

  Lemma emitted_ptr : forall s es, emitted s es -> emitted (add_ptr s) es.
  Proof. intros s es [? ? ? ? ? ? ?]. constructor; assumption. Qed.
  Lemma emitted_ids : forall s es p j, emitted s es -> emitted (set_ids s p j) es.
  Proof. intros s es p j [? ? ? ? ? ? ?]. constructor; assumption. Qed.

  Lemma orphans_ok : forall l t s es,
    skipn t (b_trans b) = l -> t <= length (b_trans b) -> emitted s es ->
    (forall x, In x es <-> x < t /\ live_t b x /\ orph x = true) ->
    exists s' es', orphans ninv nt l t s = Ok s' /\ emitted s' es' /\
      (forall x, In x es' <-> live_t b x /\ orph x = true) /\
      k_ids s' = k_ids s /\ k_ptrs s' = k_ptrs s.
  Proof.
    induction l as [|tr l IH]; intros t s es Hsk Ht E Hes; simpl.
    - exists s, es. split; [reflexivity|]. split; [exact E|]. split; [|split; reflexivity].
      intros x. rewrite Hes. split; [tauto|]. intros (Hl & Ho). split; [|auto].
      assert (length (skipn t (b_trans b)) = 0) by (rewrite Hsk; reflexivity).
      rewrite skipn_length in H. destruct Hl. lia.
    - assert (Hlt : t < length (b_trans b)).
      { assert (length (skipn t (b_trans b)) = S (length l)) by (rewrite Hsk; reflexivity).
        rewrite skipn_length in H. lia. }
      assert (Htr : tr = tr_of b t).
      { unfold tr_of. assert (nth 0 (skipn t (b_trans b)) btrans0 = tr) by (rewrite Hsk; reflexivity).
        rewrite nth_skipn_add, Nat.add_0_r in H. congruence. }
      assert (Hsk' : skipn (S t) (b_trans b) = l).
      { destruct (nth_error_ex _ Hlt) as (y & Hy). rewrite (skipn_cons_nth _ _ Hy) in Hsk. congruence. }
      rewrite Htr. fold (orph t). destruct (orph t && negb (bt_skip (tr_of b t))) eqn:Ec.
      + apply andb_true_iff in Ec. destruct Ec as (Eo & Es). apply negb_true_iff in Es.
        assert (Hl : live_t b t) by (split; assumption).
        destruct (@emit_ok s es t true false E Hl) as (s1 & H1 & E1 & Hi & Hp).
        { intros Hin. apply Hes in Hin. lia. }
        { unfold ctrl_of. fold (orph t). rewrite Eo. reflexivity. }
        rewrite H1. simpl.
        destruct (IH (S t) s1 (es ++ [t]) Hsk' Hlt E1) as (s' & es' & H' & E' & Hes' & Hi' & Hp').
        { intros x. rewrite in_app_iff. simpl. rewrite Hes. split.
          - intros [H|[<-|[]]]; [intuition lia|]. auto.
          - intros (Hx & Hlx & Hox). destruct (Nat.eq_dec x t) as [->|]; [auto|]. left. intuition lia. }
        exists s', es'. rewrite Hi', Hp'. auto.
      + apply (IH (S t) s es Hsk' Hlt E).
        intros x. rewrite Hes. split; [intuition lia|]. intros (Hx & Hlx & Hox).
        repeat split; auto; try apply Hlx. destruct (Nat.eq_dec x t) as [->|]; [|lia].
        destruct Hlx as (_ & Hs). rewrite Hox, Hs in Ec. discriminate.
  Qed.

  (** ** The check loop *)
  Definition before (free : nat) (ids : list (option nat)) (a : arc) : bool :=
    match nth (arc_place a) ids None with Some j => j <? free | None => false end.
  Definition bad (free next : nat) (ids : list (option nat)) (a : arc) : bool :=
    (negb (arc_inhib a) && before free ids a) || (Nat.eqb (arc_place a) next && arc_inhib a).

  Lemma check_pre_some : forall n fi free next ids l cnt ai r,
    check_pre n fi free next ids l cnt ai = Some r ->
    existsb (bad free next ids) l = false /\ r = ai && forallb arc_inhib l.
  Proof.
    intros n fi free next ids; induction l as [|a l IH]; intros cnt ai r H; simpl in *.
    - injection H as <-. rewrite andb_true_r. auto.
    - fold (before free ids a) in H. unfold bad at 1.
      destruct (negb (arc_inhib a) && before free ids a); simpl in *; [discriminate|].
      destruct (n <=? fi + cnt); [discriminate|].
      destruct (Nat.eqb (arc_place a) next && arc_inhib a); [discriminate|].
      apply IH in H. destruct H as (-> & ->). rewrite andb_assoc. auto.
  Qed.

  Lemma check_pre_none : forall n fi free next ids l cnt ai,
    fi + cnt + length l <= n ->
    existsb (bad free next ids) l = false ->
    check_pre n fi free next ids l cnt ai = Some (ai && forallb arc_inhib l).
  Proof.
    intros n fi free next ids; induction l as [|a l IH]; intros cnt ai Hn H; simpl in *.
    - rewrite andb_true_r. auto.
    - fold (before free ids a). apply orb_false_iff in H. destruct H as (Hb & H).
      unfold bad in Hb. apply orb_false_iff in Hb. destruct Hb as (-> & ->). simpl.
      destruct (Nat.leb_spec n (fi + cnt)); [lia|]. rewrite IH; [rewrite andb_assoc; reflexivity|lia|exact H].
  Qed.

  (** ** The main loop *)
  Record ids_ok (ids : list (option nat)) (free : nat) : Prop := {
    io_len : length ids = length (b_places b);
    io_rng : forall p j, nth p ids None = Some j -> j < free /\ live_p b p;
    io_inj : forall p q j, nth p ids None = Some j -> nth q ids None = Some j -> p = q;
    io_sur : forall j, j < free -> exists p, nth p ids None = Some j
  }.

  Definition norm_on (t p : nat) : Prop :=
    exists a, In a (bt_pre (tr_of b t)) /\ arc_inhib a = false /\ arc_place a = p.
  Definition cov (free : nat) (ids : list (option nat)) (t : nat) : Prop :=
    exists p j, norm_on t p /\ nth p ids None = Some j /\ j < free.

  Record ptr_ok (ptrs : list nat) (ids : list (option nat)) (es : list nat) : Prop := {
    po_first : nth_error ptrs 0 = Some 0;
    po_mono : forall p a c, nth_error ptrs p = Some a -> nth_error ptrs (S p) = Some c -> a <= c;
    po_le : forall p a, nth_error ptrs p = Some a -> a <= length es;
    po_grp : forall i t p a, nth_error es i = Some t -> 0 < p -> nth_error ptrs p = Some a -> a <= i ->
      (forall c, nth_error ptrs (S p) = Some c -> i < c) ->
      exists q, norm_on t q /\ nth q ids None = Some p
  }.

  Record mid (s : mk) (es : list nat) (free nx : nat) : Prop := {
    md_em : emitted s es;
    md_ids : ids_ok (k_ids s) (S free);
    md_nx : nth nx (k_ids s) None = Some free;
    md_np : length (k_ptrs s) = S free;
    md_ptr : ptr_ok (k_ptrs s) (k_ids s) es
  }.

  Lemma ptr_ok_app : forall ptrs ids es t free nx,
    ptr_ok ptrs ids es -> length ptrs = S free -> norm_on t nx -> nth nx ids None = Some free ->
    ptr_ok ptrs ids (es ++ [t]).
  Proof.
    intros ptrs ids es t free nx [Pf Pm Pl Pg] Hlen Hn Hnx. constructor; auto.
    - intros p a H. rewrite app_length. apply Pl in H. lia.
    - intros i u p a Hi Hp Ha Hai Hc.
      destruct (Nat.lt_ge_cases i (length es)) as [Hlt|Hge].
      + rewrite nth_error_app1 in Hi by exact Hlt. eapply Pg; eauto.
      + rewrite nth_error_app2 in Hi by exact Hge.
        destruct (i - length es) as [|k] eqn:Ek; [|destruct k; discriminate]. simpl in Hi. injection Hi as <-.
        assert (p = free).
        { assert (p < length ptrs) by (eapply nth_error_lt; exact Ha).
          destruct (nth_error ptrs (S p)) as [c|] eqn:Ec.
          - assert (c <= length es) by (eapply Pl; exact Ec). specialize (Hc c eq_refl). lia.
          - apply nth_error_None in Ec. lia. }
        subst p. exists nx. auto.
  Qed.

  Lemma norm_nodup : forall t a p, t < length (b_trans b) -> In a (bt_pre (tr_of b t)) -> arc_place a = p ->
    norm_on t p -> arc_inhib a = false.
  Proof.
    intros t a p Ht Ha Hp (a' & Ha' & Hi & Hp').
    assert (a = a'); [|subst; exact Hi].
    assert (Hnd := bw_ndpre W Ht). revert Hnd Ha Ha' Hp Hp'. generalize (bt_pre (tr_of b t)) as l.
    induction l as [|x l IH]; simpl; intros Hnd Ha Ha' Hp Hp'; [contradiction|].
    inversion Hnd as [|? ? Hni Hnd']; subst. destruct Ha as [->|Ha], Ha' as [->|Ha']; auto.
    - exfalso. apply Hni. rewrite <- Hp'. apply in_map; exact Ha'.
    - exfalso. apply Hni. rewrite Hp'. apply in_map; exact Ha.
  Qed.

  Lemma consumers_ok : forall l s es free nx done,
    bp_cons (pl_of b nx) = done ++ l -> nx < length (b_places b) ->
    mid s es free nx ->
    (forall t, In t es <-> live_t b t /\
       (orph t = true \/ cov free (k_ids s) t \/ (In t done /\ norm_on t nx))) ->
    exists s' es', consumers b ninv nt free nx l s = Ok s' /\ mid s' es' free nx /\
      k_ids s' = k_ids s /\
      (forall t, In t es' <-> live_t b t /\ (orph t = true \/ cov (S free) (k_ids s) t)).
  Proof.
    induction l as [|t l IH]; intros s es free nx done Hl Hnx M Hes.
    - exists s, es. split; [reflexivity|]. split; [exact M|]. split; [reflexivity|].
      intros x. rewrite Hes. rewrite app_nil_r in Hl. rewrite <- Hl.
      split; intros (Hlx & Hc); (split; [exact Hlx|]).
      + destruct Hc as [Hc|[(p & j & Hn & Hj & Hlt)|(_ & Hn)]].
        * auto.
        * right. exists p, j. repeat split; auto; apply Hn.
        * right. exists nx, free. split; [exact Hn|]. split; [exact (md_nx M)|lia].
      + destruct Hc as [Hc|(p & j & Hn & Hj & Hlt)]; [auto|].
        destruct (Nat.eq_dec j free) as [->|].
        * right; right. assert (p = nx) by (eapply (io_inj (md_ids M)); [exact Hj|exact (md_nx M)]). subst p.
          split; [|exact Hn]. apply (bw_cons W); [exact Hnx|]. split; [apply Hlx|].
          destruct Hn as (a & Ha & _ & <-). apply in_map; exact Ha.
        * right; left. exists p, j. split; [exact Hn|]. split; [exact Hj|lia].
    - assert (Htin : In t (bp_cons (pl_of b nx))) by (rewrite Hl; apply in_or_app; right; left; reflexivity).
      assert (Htnd : ~ In t done).
      { intros Hin. assert (Hnd := bw_ndc W Hnx). rewrite Hl in Hnd.
        apply NoDup_app_iff_local in Hnd. destruct Hnd as (_ & _ & Hd). apply (Hd t Hin). left; reflexivity. }
      apply (bw_cons W) in Htin; [|exact Hnx]. destruct Htin as (Ht & Hpin).
      assert (Hl' : bp_cons (pl_of b nx) = (done ++ [t]) ++ l) by (rewrite <- app_assoc; exact Hl).
      cbn [consumers]. rewrite (rd_nth (b_trans b) btrans0 Ht). cbn [bind]. fold (tr_of b t).
      destruct (bt_skip (tr_of b t)) eqn:Esk.
      { apply (IH s es free nx (done ++ [t]) Hl' Hnx M).
        intros x. rewrite Hes. split; intros (Hlx & Hc); (split; [exact Hlx|]).
        - destruct Hc as [?|[?|(Hd & ?)]]; auto. right; right. split; auto. apply in_or_app; auto.
        - destruct Hc as [?|[?|(Hd & ?)]]; auto. apply in_app_or in Hd. destruct Hd as [Hd|[<-|[]]]; auto.
          exfalso. destruct Hlx; congruence. }
      assert (Hlt : live_t b t) by (split; assumption).
      assert (Hskip : In t es \/ (exists x, existsb (bad free nx (k_ids s)) (bt_pre (tr_of b t)) = x /\ x = true)
                      \/ orph t = true ->
                      (orph t = true \/ cov free (k_ids s) t \/ ~ norm_on t nx) ->
              forall x, In x es <-> live_t b x /\
                 (orph x = true \/ cov free (k_ids s) x \/ (In x (done ++ [t]) /\ norm_on x nx))).
      { intros _ Hno x. rewrite Hes. split; intros (Hlx & Hc); (split; [exact Hlx|]).
        - destruct Hc as [?|[?|(Hd & ?)]]; auto. right; right. split; auto. apply in_or_app; auto.
        - destruct Hc as [?|[?|(Hd & ?)]]; auto. apply in_app_or in Hd. destruct Hd as [Hd|[<-|[]]]; auto.
          destruct Hno as [?|[?|?]]; auto; contradiction. }
      destruct (check_pre ninv (length (k_invs s)) free nx (k_ids s) (bt_pre (tr_of b t)) 0 true) as [r|] eqn:Ec.
      + destruct (check_pre_some _ _ _ _ _ _ _ _ Ec) as (Hbad & Hr). simpl in Hr. fold (orph t) in Hr.
        destruct r.
        * apply (IH s es free nx (done ++ [t]) Hl' Hnx M). apply Hskip; auto.
        * assert (Hnorm : norm_on t nx).
          { apply in_map_iff in Hpin. destruct Hpin as (a & Hap & Ha). exists a. split; [exact Ha|]. split; [|exact Hap].
            destruct (arc_inhib a) eqn:Ei; [|reflexivity].
            assert (existsb (bad free nx (k_ids s)) (bt_pre (tr_of b t)) = true); [|congruence].
            apply existsb_exists. exists a. split; [exact Ha|]. unfold bad. rewrite Hap, Nat.eqb_refl, Ei.
            apply orb_true_r. }
          assert (Hncov : ~ cov free (k_ids s) t).
          { intros (p & j & (a & Ha & Hi & Hap) & Hj & Hjf).
            assert (existsb (bad free nx (k_ids s)) (bt_pre (tr_of b t)) = true); [|congruence].
            apply existsb_exists. exists a. split; [exact Ha|]. unfold bad, before. rewrite Hi, Hap, Hj. simpl.
            destruct (Nat.ltb_spec j free); [reflexivity|lia]. }
          assert (Hni : ~ In t es).
          { intros Hin. apply Hes in Hin. destruct Hin as (_ & [Ho|[Hc|(Hd & _)]]); [congruence|contradiction|contradiction]. }
          destruct (@emit_ok s es t (Z.eqb (bt_player (tr_of b t)) 0) true (md_em M) Hlt Hni) as (s1 & H1 & E1 & Hi1 & Hp1).
          { unfold ctrl_of. fold (orph t). rewrite <- Hr. reflexivity. }
          rewrite H1. cbn [bind].
          destruct (IH s1 (es ++ [t]) free nx (done ++ [t]) Hl' Hnx) as (s' & es' & H' & M' & Hid & Hes').
          { constructor; rewrite ?Hi1, ?Hp1.
            - exact E1.
            - exact (md_ids M).
            - exact (md_nx M).
            - exact (md_np M).
            - eapply ptr_ok_app; [exact (md_ptr M)|exact (md_np M)|exact Hnorm|exact (md_nx M)]. }
          { rewrite Hi1. intros x. rewrite in_app_iff. rewrite Hes. split.
            - intros [(Hlx & Hc)|[<-|[]]].
              + split; [exact Hlx|]. destruct Hc as [?|[?|(Hd & ?)]]; auto. right; right. split; auto. apply in_or_app; auto.
              + split; [exact Hlt|]. right; right. split; [apply in_or_app; right; left; reflexivity|exact Hnorm].
            - intros (Hlx & Hc). destruct Hc as [?|[?|(Hd & Hn)]]; [left; auto|left; auto|].
              apply in_app_or in Hd. destruct Hd as [Hd|[<-|[]]]; [left; auto|right; left; reflexivity]. }
          exists s', es'. rewrite Hi1 in *. auto.
      + apply (IH s es free nx (done ++ [t]) Hl' Hnx M).
        assert (Hcase : orph t = true \/ cov free (k_ids s) t \/ ~ norm_on t nx).
        { destruct (orph t) eqn:Eo; [auto|].
          destruct (existsb (bad free nx (k_ids s)) (bt_pre (tr_of b t))) eqn:Eb.
          - apply existsb_exists in Eb. destruct Eb as (a & Ha & Hb). unfold bad in Hb.
            apply orb_true_iff in Hb. destruct Hb as [Hb|Hb]; apply andb_true_iff in Hb; destruct Hb as (Hb1 & Hb2).
            + right; left. unfold before in Hb2. destruct (nth (arc_place a) (k_ids s) None) as [j|] eqn:Ej; [|discriminate].
              exists (arc_place a), j. apply negb_true_iff in Hb1. apply Nat.ltb_lt in Hb2.
              split; [exists a; auto|]. auto.
            + right; right. intros Hn. apply Nat.eqb_eq in Hb1.
              assert (arc_inhib a = false) by (eapply norm_nodup; eauto). congruence.
          - destruct (in_dec Nat.eq_dec t es) as [Hin|Hni].
            + apply Hes in Hin. destruct Hin as (_ & [Ho|[Hc|(Hd & _)]]); [congruence|auto|contradiction].
            + exfalso. rewrite check_pre_none in Ec; [discriminate| |exact Eb].
              assert (Hnd : NoDup (t :: es)) by (constructor; [exact Hni|exact (em_nd (md_em M))]).
              assert (Hincl : incl (t :: es) live_ts).
              { intros x [<-|Hx]; apply in_live_ts; [exact Hlt|apply (em_live (md_em M)); exact Hx]. }
              assert (Hcap := list_sum_incl size Hnd Hincl). rewrite <- ninv_total in Hcap. simpl in Hcap.
              rewrite (em_invs (md_em M)), flat_size. rewrite (size_eq t) in Hcap. lia. }
        apply Hskip; [|exact Hcase].
        destruct (orph t) eqn:Eo; [auto|].
        destruct (existsb (bad free nx (k_ids s)) (bt_pre (tr_of b t))) eqn:Eb; [right; left; eauto|].
        left. destruct (in_dec Nat.eq_dec t es) as [Hin|Hni]; [exact Hin|].
        exfalso. rewrite check_pre_none in Ec; [discriminate| |exact Eb].
        assert (Hnd : NoDup (t :: es)) by (constructor; [exact Hni|exact (em_nd (md_em M))]).
        assert (Hincl : incl (t :: es) live_ts).
        { intros x [<-|Hx]; apply in_live_ts; [exact Hlt|apply (em_live (md_em M)); exact Hx]. }
        assert (Hcap := list_sum_incl size Hnd Hincl). rewrite <- ninv_total in Hcap. simpl in Hcap.
        rewrite (em_invs (md_em M)), flat_size. rewrite (size_eq t) in Hcap. lia.
  Qed.

  Lemma next_loop_ok : forall counts pcounts ids reorder k i cand cnt,
    (cand = None -> cnt = None) ->
    match next_place_id_loop b counts pcounts ids reorder i k cand cnt with
    | Some x => cand = Some x \/ (i <= x < i + k /\ nth x ids None = None /\ live_p b x)
    | None => cand = None /\ forall x, i <= x < i + k -> live_p b x -> nth x ids None <> None
    end.
  Proof.
    intros counts pcounts ids reorder; induction k as [|k IH]; intros i cand cnt Hc; simpl.
    - destruct cand; [left; reflexivity|]. split; [reflexivity|]. intros x Hx; lia.
    - set (nnum := if Nat.eqb (nth i pcounts 0) 0 then 0 else _).
      destruct (match nth i ids None with Some _ => false | None => true end &&
                match cnt with Some c => nnum <? c | None => true end &&
                negb match nth_error (b_places b) i with Some pl => bp_skip pl | None => true end) eqn:E.
      + apply andb_true_iff in E. destruct E as (E & E3). apply andb_true_iff in E. destruct E as (E1 & E2).
        assert (Hfree : nth i ids None = None) by (destruct (nth i ids None); [discriminate|reflexivity]).
        assert (Hlive : live_p b i).
        { destruct (nth_error (b_places b) i) as [pl|] eqn:Ep; [|discriminate].
          split; [eapply nth_error_lt; exact Ep|]. unfold pl_of. rewrite (nth_error_nth _ _ _ Ep).
          apply negb_true_iff; exact E3. }
        destruct (negb reorder); [right; repeat split; auto; try lia; apply Hlive|].
        specialize (IH (S i) (Some i) (Some nnum)).
        destruct (next_place_id_loop b counts pcounts ids reorder (S i) k (Some i) (Some nnum)) as [x|].
        * destruct IH as [H|(H1 & H2 & H3)]; [discriminate| |].
          -- injection H as <-. right. repeat split; auto; try lia; apply Hlive.
          -- right. repeat split; auto; try lia; apply H3.
        * destruct IH as (H & _); [discriminate|]. discriminate.
      + specialize (IH (S i) cand cnt Hc).
        destruct (next_place_id_loop b counts pcounts ids reorder (S i) k cand cnt) as [x|].
        * destruct IH as [H|(H1 & H2 & H3)]; [auto|]. right. repeat split; auto; try lia; apply H3.
        * destruct IH as (H & Hx). split; [exact H|]. intros x Hix Hlx.
          destruct (Nat.eq_dec x i) as [->|]; [|apply Hx; [lia|exact Hlx]].
          intros Hn. rewrite (Hc H) in E. rewrite Hn in E. destruct Hlx as (Hlt & Hs). unfold pl_of in Hs.
          rewrite (nth_error_nth' _ bplace0 Hlt), Hs in E. discriminate.
  Qed.

  Lemma next_ok : forall counts pcounts ids reorder,
    match next_place_id b counts pcounts ids reorder with
    | Some x => nth x ids None = None /\ live_p b x
    | None => forall x, live_p b x -> nth x ids None <> None
    end.
  Proof.
    intros counts pcounts ids reorder. unfold next_place_id.
    assert (H := @next_loop_ok counts pcounts ids reorder (length (b_places b)) 0 None None (fun _ => eq_refl)).
    destruct (next_place_id_loop _ _ _ _ _ _ _ _ _) as [x|].
    - destruct H as [H|(_ & H1 & H2)]; [discriminate|auto].
    - destruct H as (_ & H). intros x Hx. apply H; [|exact Hx]. destruct Hx; lia.
  Qed.

  Definition get (ids : list (option nat)) (p : nat) : nat :=
    match nth p ids None with Some j => j | None => 0 end.

  Lemma ids_le : forall ids free, ids_ok ids free -> free <= length live_ps.
  Proof.
    intros ids free I. rewrite <- (seq_length free 0), <- (map_length (get ids) live_ps).
    apply NoDup_incl_length; [apply seq_NoDup|]. intros j Hj. apply in_seq in Hj.
    destruct (io_sur I (j := j)) as (p & Hp); [lia|]. apply in_map_iff. exists p.
    split; [unfold get; rewrite Hp; reflexivity|]. apply in_live_ps. apply (io_rng I _ Hp).
  Qed.

  Lemma NoDup_map_inj_in : forall {A B} (f : A -> B) l,
    NoDup l -> (forall x y, In x l -> In y l -> f x = f y -> x = y) -> NoDup (map f l).
  Proof.
    intros A B f; induction l as [|x l IH]; intros Hnd Hinj; simpl; [constructor|].
    inversion Hnd as [|? ? Hni Hnd']; subst. constructor.
    - intros Hin. apply in_map_iff in Hin. destruct Hin as (y & Hy & Hyl).
      apply Hni. rewrite (Hinj x y); auto; [left; reflexivity|right; exact Hyl].
    - apply IH; [exact Hnd'|]. intros a c Ha Hc. apply Hinj; right; assumption.
  Qed.

  Lemma ids_full : forall ids free, ids_ok ids free -> (forall x, live_p b x -> nth x ids None <> None) ->
    free = length live_ps.
  Proof.
    intros ids free I Hall. assert (H1 := ids_le I).
    assert (length live_ps <= free); [|lia].
    rewrite <- (seq_length free 0), <- (map_length (get ids) live_ps).
    apply NoDup_incl_length.
    - apply NoDup_map_inj_in; [apply NoDup_filter, seq_NoDup|].
      intros x y Hx Hy E. apply in_live_ps in Hx. apply in_live_ps in Hy.
      specialize (Hall x Hx) as Hx'. specialize (Hall y Hy) as Hy'. unfold get in E.
      destruct (nth x ids None) as [j|] eqn:Ex; [|congruence].
      destruct (nth y ids None) as [j'|] eqn:Ey; [|congruence]. subst j'.
      eapply (io_inj I); eauto.
    - intros j Hj. apply in_map_iff in Hj. destruct Hj as (p & <- & Hp). apply in_live_ps in Hp.
      specialize (Hall p Hp). unfold get. destruct (nth p ids None) as [j|] eqn:E; [|congruence].
      apply (io_rng I) in E. apply in_seq. lia.
  Qed.

  Lemma ids_ok_set : forall ids free nx, ids_ok ids free -> nth nx ids None = None -> live_p b nx ->
    ids_ok (upd ids nx (Some free)) (S free).
  Proof.
    intros ids free nx [Il Ir Ii Is] Hn Hl.
    assert (Hlt : nx < length ids) by (rewrite Il; apply Hl).
    constructor.
    - rewrite upd_length; exact Il.
    - intros p j H. destruct (Nat.eq_dec nx p) as [<-|Hne].
      + rewrite nth_upd_eq in H by exact Hlt. injection H as <-. split; [lia|exact Hl].
      + rewrite nth_upd_neq in H by exact Hne. apply Ir in H. destruct H; split; [lia|assumption].
    - intros p q j H1 H2. destruct (Nat.eq_dec nx p) as [<-|Hne], (Nat.eq_dec nx q) as [<-|Hne']; auto.
      + rewrite nth_upd_eq in H1 by exact Hlt. injection H1 as <-.
        rewrite nth_upd_neq in H2 by exact Hne'. apply Ir in H2. lia.
      + rewrite nth_upd_eq in H2 by exact Hlt. injection H2 as <-.
        rewrite nth_upd_neq in H1 by exact Hne. apply Ir in H1. lia.
      + rewrite nth_upd_neq in H1 by exact Hne. rewrite nth_upd_neq in H2 by exact Hne'. eapply Ii; eauto.
    - intros j Hj. destruct (Nat.eq_dec j free) as [->|Hne].
      + exists nx. apply nth_upd_eq; exact Hlt.
      + destruct (Is j) as (p & Hp); [lia|]. exists p. rewrite nth_upd_neq; [exact Hp|]. intros ->. congruence.
  Qed.

  Record full (s : mk) (es : list nat) : Prop := {
    fu_em : emitted s es;
    fu_ids : ids_ok (k_ids s) (length live_ps);
    fu_all : forall x, live_p b x -> nth x (k_ids s) None <> None;
    fu_np : length (k_ptrs s) = length live_ps;
    fu_ptr : ptr_ok (k_ptrs s) (k_ids s) es;
    fu_es : forall t, In t es <-> live_t b t
  }.

  Lemma place_loop_ok : forall (reorder : bool) (fuel : nat) (first : bool) (free nx : nat) (s : mk) (es : list nat),
    length (b_places b) < fuel + free ->
    live_p b nx ->
    (let s1 := if first then s else add_ptr (set_ids s nx free) in
     mid s1 es free nx /\
     (forall t, In t es <-> live_t b t /\ (orph t = true \/ cov free (k_ids s1) t))) ->
    exists s' es', place_loop fuel b reorder ninv nt first free (Some nx) s = Ok s' /\ full s' es'.
  Proof.
    intros reorder; induction fuel as [|f IH]; intros first free nx s es Hf Hnx (M & Hes).
    - exfalso. assert (Hle := ids_le (md_ids M)).
      assert (length live_ps <= length (b_places b)).
      { unfold live_ps. rewrite <- (seq_length (length (b_places b)) 0) at 2. apply filter_len. }
      lia.
    - cbn [place_loop]. cbv zeta. set (s1 := if first then s else add_ptr (set_ids s nx free)) in *.
      rewrite (rd_nth (b_places b) bplace0 (proj1 Hnx)). cbn [bind]. fold (pl_of b nx).
      destruct (@consumers_ok (bp_cons (pl_of b nx)) s1 es free nx [] eq_refl (proj1 Hnx) M)
        as (s2 & es2 & H2 & M2 & Hid & Hes2).
      { intros t. rewrite Hes. simpl. tauto. }
      rewrite H2. cbn [bind].
      assert (Hn := next_ok (k_cons s2) (k_prod s2) (k_ids s2) reorder).
      destruct (next_place_id b (k_cons s2) (k_prod s2) (k_ids s2) reorder) as [nx'|].
      + destruct Hn as (Hnone & Hlive).
        apply (IH false (S free) nx' s2 es2); [lia|exact Hlive|]. cbn zeta.
        assert (I' := ids_ok_set (md_ids M2) Hnone Hlive).
        assert (Hlt : nx' < length (k_ids s2)) by (rewrite (io_len (md_ids M2)); apply Hlive).
        split.
        * constructor; cbn [k_ids k_ptrs add_ptr set_ids].
          -- apply emitted_ptr, emitted_ids. exact (md_em M2).
          -- exact I'.
          -- apply nth_upd_eq; exact Hlt.
          -- rewrite app_length, (md_np M2). simpl. lia.
          -- assert (E2 := md_em M2). assert (Hlen : length (k_trs s2) = length es2)
               by (rewrite (em_trs E2); apply offs_length).
             unfold set_ids. cbn [k_trs k_ptrs k_ids]. rewrite ?Hlen. destruct (md_ptr M2) as [Pf Pm Pl Pg].
             assert (Hp0 : 0 < length (k_ptrs s2)) by (rewrite (md_np M2); lia).
             constructor.
             ++ rewrite nth_error_app1 by exact Hp0. exact Pf.
             ++ intros p a c Ha Hc. destruct (Nat.lt_ge_cases (S p) (length (k_ptrs s2))) as [Hlt'|Hge].
                ** rewrite nth_error_app1 in Ha by lia. rewrite nth_error_app1 in Hc by lia. eapply Pm; eauto.
                ** rewrite nth_error_app2 in Hc by lia.
                   destruct (S p - length (k_ptrs s2)) as [|k] eqn:Ek; [|destruct k; discriminate].
                   simpl in Hc. injection Hc as <-. rewrite nth_error_app1 in Ha by lia. eapply Pl; exact Ha.
             ++ intros p a Ha. destruct (Nat.lt_ge_cases p (length (k_ptrs s2))) as [Hlt'|Hge].
                ** rewrite nth_error_app1 in Ha by lia. eapply Pl; exact Ha.
                ** rewrite nth_error_app2 in Ha by lia.
                   destruct (p - length (k_ptrs s2)) as [|k] eqn:Ek; [|destruct k; discriminate].
                   simpl in Ha. injection Ha as <-. lia.
             ++ intros i t p a Hi Hp Ha Hai Hc.
                destruct (Nat.lt_ge_cases p (length (k_ptrs s2))) as [Hlt'|Hge].
                ** rewrite nth_error_app1 in Ha by lia.
                   destruct (Pg i t p a Hi Hp Ha Hai) as (q & Hq & Hqp).
                   { intros c Hc'. apply Hc. rewrite nth_error_app1; [exact Hc'|]. eapply nth_error_lt; exact Hc'. }
                   exists q. split; [exact Hq|]. rewrite nth_upd_neq; [exact Hqp|]. intros ->. congruence.
                ** rewrite nth_error_app2 in Ha by lia.
                   destruct (p - length (k_ptrs s2)) as [|k] eqn:Ek; [|destruct k; discriminate].
                   simpl in Ha. injection Ha as <-. apply nth_error_lt in Hi. lia.
        * cbn [k_ids add_ptr set_ids]. intros t. rewrite Hes2, <- Hid.
          split; intros (Hlt' & Hc); (split; [exact Hlt'|]); (destruct Hc as [Hc|(p & j & Hn & Hj & Hjf)]; [auto|right]).
          -- exists p, j. split; [exact Hn|]. split; [|exact Hjf]. rewrite nth_upd_neq; [exact Hj|]. intros ->. congruence.
          -- exists p, j. split; [exact Hn|]. split; [|exact Hjf].
             destruct (Nat.eq_dec nx' p) as [<-|Hne].
             ++ rewrite nth_upd_eq in Hj by exact Hlt. injection Hj as <-. lia.
             ++ rewrite nth_upd_neq in Hj by exact Hne. exact Hj.
      + exists s2, es2. split; [destruct f; reflexivity|].
        assert (Hfull := ids_full (md_ids M2) Hn).
        constructor.
        * exact (md_em M2).
        * rewrite <- Hfull. exact (md_ids M2).
        * exact Hn.
        * rewrite (md_np M2). exact Hfull.
        * exact (md_ptr M2).
        * intros t. rewrite Hes2. split; [tauto|]. intros Hlt. split; [exact Hlt|].
          destruct (orph t) eqn:Eo; [auto|right].
          unfold orph in Eo. assert (Hex : existsb (fun a => negb (arc_inhib a)) (bt_pre (tr_of b t)) = true).
          { revert Eo. generalize (bt_pre (tr_of b t)) as l. induction l as [|a l IHl]; simpl; [discriminate|].
            destruct (arc_inhib a); simpl; auto. }
          apply existsb_exists in Hex. destruct Hex as (a & Ha & Hi). apply negb_true_iff in Hi.
          assert (Hlp : live_p b (arc_place a)) by (apply (bw_pre W _ (proj1 Hlt) Ha)).
          specialize (Hn _ Hlp). rewrite <- Hid.
          destruct (nth (arc_place a) (k_ids s2) None) as [j|] eqn:Ej; [|congruence].
          exists (arc_place a), j. split; [exists a; auto|]. split; [exact Ej|].
          apply (io_rng (md_ids M2)) in Ej. lia.
  Qed.

  (** ** Finishing *)
  Lemma insert_perm : forall x l, Permutation (insert_iv x l) (x :: l).
  Proof.
    intros x; induction l as [|y l IH]; simpl; [apply Permutation_refl|].
    destruct (fst (fst x) <=? fst (fst y)); [apply Permutation_refl|].
    eapply perm_trans; [apply perm_skip, IH|apply perm_swap].
  Qed.
  Lemma sort_perm : forall l, Permutation (sort_iv l) l.
  Proof.
    induction l as [|x l IH]; simpl; [constructor|].
    eapply perm_trans; [apply insert_perm|]. apply perm_skip, IH.
  Qed.

  Definition ren_e (ids : list (option nat)) (x : nat * N * bool) : nat * N * bool :=
    (get ids (fst (fst x)), snd (fst x), snd x).
  Definition ren (ids : list (option nat)) (a : arc) : arc :=
    mkArc (get ids (arc_place a)) (arc_weight a) (arc_inhib a).

  Lemma map_res_ren : forall ids l,
    (forall x, In x l -> nth (fst (fst x)) ids None <> None) ->
    map_res (reindex ids) l = Ok (map (ren_e ids) l).
  Proof.
    intros ids; induction l as [|x l IH]; intros H; simpl; [reflexivity|].
    unfold reindex at 1, ren_e at 1, get.
    destruct (nth (fst (fst x)) ids None) as [j|] eqn:E; [|exfalso; apply (H x (or_introl eq_refl) E)].
    simpl. rewrite IH by (intros y Hy; apply H; right; exact Hy). reflexivity.
  Qed.

  Definition fpre ids t := sort_iv (map (ren_e ids) (pre_e t)).
  Definition fpost ids t := sort_iv (map (ren_e ids) (post_e t)).
  Definition fin ids (t : nat) : list invariant :=
    map (fun x => to_inv x (dir_in (fpost ids t) x)) (fpre ids t) ++
    map (fun x => to_inv x (dir_out (fpre ids t) x)) (fpost ids t).

  Lemma fin_length : forall ids t, length (fin ids t) = size t.
  Proof.
    intros ids t. unfold fin, size, arcs_of. rewrite !app_length, !map_length. unfold fpre, fpost.
    rewrite (Permutation_length (sort_perm _)), (Permutation_length (sort_perm (map _ (post_e t)))), !map_length.
    reflexivity.
  Qed.

  Lemma slice_mid : forall {A} (l1 l2 l3 : list A) i j, i = length l1 -> j = length l1 + length l2 ->
    slice (l1 ++ l2 ++ l3) i j = l2.
  Proof.
    intros A l1 l2 l3 i j -> ->. unfold slice. rewrite skipn_app, skipn_all, Nat.sub_diag. simpl.
    replace (length l1 + length l2 - length l1) with (length l2) by lia.
    rewrite firstn_app, firstn_all, Nat.sub_diag. simpl. apply app_nil_r.
  Qed.

  Lemma finish_ok : forall ids es L0,
    finish (L0 ++ map (ren_e ids) (flat_map arcs_of es)) (offs (length L0) es)
           (length L0 + length (flat_map arcs_of es)) = flat_map (fin ids) es.
  Proof.
    intros ids; induction es as [|t es IH]; intros L0; [reflexivity|].
    cbn [offs finish flat_map].
    set (e := match offs (length L0 + size t) es with (i', _) :: _ => i' | [] => _ end).
    assert (He : e = length L0 + size t).
    { unfold e. destruct es; simpl; [|reflexivity]. rewrite app_nil_r. reflexivity. }
    rewrite He. clear e He.
    assert (Hsz : size t = length (pre_e t) + length (post_e t)) by (unfold size, arcs_of; rewrite app_length; reflexivity).
    assert (HX : map (ren_e ids) (arcs_of t ++ flat_map arcs_of es) =
              map (ren_e ids) (pre_e t) ++ map (ren_e ids) (post_e t) ++ map (ren_e ids) (flat_map arcs_of es)).
    { rewrite map_app. unfold arcs_of at 1. rewrite map_app, <- app_assoc. reflexivity. }
    rewrite HX. clear HX. rewrite app_length. fold (size t).
    assert (Hs1 : slice (L0 ++ map (ren_e ids) (pre_e t) ++ map (ren_e ids) (post_e t) ++
                   map (ren_e ids) (flat_map arcs_of es)) (length L0) (length L0 + length (pre_e t))
                  = map (ren_e ids) (pre_e t)).
    { apply slice_mid; rewrite ?map_length; lia. }
    rewrite Hs1. clear Hs1.
    assert (Hs2 : slice (L0 ++ map (ren_e ids) (pre_e t) ++ map (ren_e ids) (post_e t) ++
                   map (ren_e ids) (flat_map arcs_of es)) (length L0 + length (pre_e t)) (length L0 + size t)
                  = map (ren_e ids) (post_e t)).
    { rewrite app_assoc. apply slice_mid; rewrite app_length, !map_length; lia. }
    rewrite Hs2. clear Hs2. fold (fpre ids t) (fpost ids t).
    unfold fin at 1. rewrite <- app_assoc. f_equal. f_equal.
    specialize (IH (L0 ++ map (ren_e ids) (pre_e t) ++ map (ren_e ids) (post_e t))).
    rewrite !app_length, !map_length, <- !app_assoc in IH. rewrite <- IH.
    f_equal; [f_equal; lia|lia].
  Qed.

  Lemma offs_mid : forall l1 t l2 n, n = length (flat_map arcs_of (l1 ++ t :: l2)) ->
    nth (length l1) (offs 0 (l1 ++ t :: l2) ++ [(n, n)]) (0, 0) =
      (length (flat_map arcs_of l1), length (flat_map arcs_of l1) + length (pre_e t)) /\
    fst (nth (S (length l1)) (offs 0 (l1 ++ t :: l2) ++ [(n, n)]) (0, 0)) =
      length (flat_map arcs_of l1) + size t.
  Proof.
    intros l1 t l2 n Hn.
    assert (Hgen : forall l a, offs a (l ++ t :: l2) =
              offs a l ++ offs (a + length (flat_map arcs_of l)) (t :: l2)).
    { induction l as [|u l IH]; intros a; [cbn [app flat_map offs length]; rewrite Nat.add_0_r; reflexivity|].
      cbn [app offs]. rewrite IH. cbn [flat_map app]. rewrite app_length. fold (size u). rewrite Nat.add_assoc. reflexivity. }
    rewrite Hgen. simpl (0 + _). rewrite <- app_assoc. split.
    - rewrite app_nth2; rewrite offs_length; [|lia]. rewrite Nat.sub_diag. reflexivity.
    - rewrite app_nth2; rewrite offs_length; [|lia].
      replace (S (length l1) - length l1) with 1 by lia. cbn [offs app nth].
      destruct l2 as [|u l2]; cbn [offs app nth fst].
      + rewrite Hn, flat_map_app, app_length. simpl. rewrite app_nil_r. reflexivity.
      + reflexivity.
  Qed.

  Lemma place_init_ok : forall ids init acc,
    length ids = length init ->
    (forall p q j, nth p ids None = Some j -> nth q ids None = Some j -> p = q) ->
    (forall p j, nth p ids None = Some j -> j < length acc) ->
    length (place_init ids init acc) = length acc /\
    (forall p j, nth p ids None = Some j -> nth j (place_init ids init acc) 0%N = nth p init 0%N) /\
    (forall j, (forall p, nth p ids None <> Some j) -> nth j (place_init ids init acc) 0%N = nth j acc 0%N).
  Proof.
    induction ids as [|o ids IH]; intros init acc Hl Hinj Hlt.
    - simpl. split; [reflexivity|]. split; [|reflexivity]. intros p j H. destruct p; discriminate.
    - destruct init as [|v init]; [discriminate|]. simpl in Hl.
      assert (Hinj' : forall p q j, nth p ids None = Some j -> nth q ids None = Some j -> p = q).
      { intros p q j H1 H2. specialize (Hinj (S p) (S q) j H1 H2). lia. }
      destruct o as [j0|]; cbn [place_init].
      + destruct (IH init (upd acc j0 v)) as (H1 & H2 & H3); [lia|exact Hinj'| |].
        { intros p j H. rewrite upd_length. apply (Hlt (S p)); exact H. }
        rewrite upd_length in H1. split; [exact H1|].
        assert (Hj0 : j0 < length acc) by (apply (Hlt 0); reflexivity).
        assert (Hn0 : forall p, nth p ids None <> Some j0).
        { intros p H. specialize (Hinj 0 (S p) j0 eq_refl H). lia. }
        split.
        * intros p j H. destruct p as [|p]; simpl in H.
          -- injection H as <-. rewrite H3 by exact Hn0. rewrite nth_upd_eq by exact Hj0. reflexivity.
          -- simpl. apply H2; exact H.
        * intros j H. rewrite H3.
          -- apply nth_upd_neq. intros ->. apply (H 0). reflexivity.
          -- intros p. apply (H (S p)).
      + destruct (IH init acc) as (H1 & H2 & H3); [lia|exact Hinj'| |].
        { intros p j H. apply (Hlt (S p)); exact H. }
        split; [exact H1|]. split.
        * intros p j H. destruct p as [|p]; simpl in H; [discriminate|]. simpl. apply H2; exact H.
        * intros j H. apply H3. intros p. apply (H (S p)).
  Qed.

  Lemma nth_none : forall {A} (l : list (option A)) i, length l <= i -> nth i l None = None.
  Proof. intros A l i H. apply nth_overflow; exact H. Qed.

  Definition eplace (x : nat * N * bool) := fst (fst x).
  Record made (net : cnet) (ids tids : list (option nat)) (es : list nat) : Prop := {
    ma_np : cn_places net = length live_ps;
    ma_nt : cn_ntrans net = length live_ts;
    ma_ids : ids_ok ids (length live_ps);
    ma_all : forall x, live_p b x -> nth x ids None <> None;
    ma_nd : NoDup es;
    ma_es : forall t, In t es <-> live_t b t;
    ma_tids : forall t, t < length (b_trans b) -> nth t tids None = index_of t es;
    ma_tidl : length tids = length (b_trans b);
    ma_pre : forall i t, nth_error es i = Some t ->
      Permutation (tr_pre (net_trans net i)) (map (ren ids) (bt_pre (tr_of b t)));
    ma_post : forall i t, nth_error es i = Some t ->
      Permutation (tr_post (net_trans net i)) (map (ren ids) (bt_post (tr_of b t)));
    ma_init : length (cn_init net) = length live_ps /\
      forall p j, nth p ids None = Some j -> nth j (cn_init net) 0%N = nth p (b_init b) 0%N;
    ma_ctrl : forall i t, nth_error es i = Some t -> nth_error (cn_ctrl net) i = Some (ctrl_of t);
    ma_dirs : dirs_ok net;
    ma_sorted : sorted_arcs net
  }.
  Lemma insert_sorted : forall x l, StronglySorted le (map eplace l) -> StronglySorted le (map eplace (insert_iv x l)).
  Proof.
    intros x; induction l as [|y l IH]; intros H; cbn [insert_iv].
    - repeat constructor.
    - fold (eplace x) (eplace y). cbn [map] in H. inversion H as [|? ? H1 H2]; subst.
      destruct (Nat.leb_spec (eplace x) (eplace y)) as [Hle|Hlt]; cbn [map].
      + constructor; [exact H|]. constructor; [exact Hle|]. eapply Forall_impl; [|exact H2]. cbn. lia.
      + constructor; [apply IH; exact H1|]. apply Forall_forall. intros z Hz. apply in_map_iff in Hz. destruct Hz as (v & <- & Hv).
        eapply Permutation_in in Hv; [|apply insert_perm]. destruct Hv as [<-|Hv]; [lia|]. rewrite Forall_forall in H2. apply H2, in_map, Hv.
  Qed.
  Lemma sort_sorted : forall l, StronglySorted le (map eplace (sort_iv l)).
  Proof. induction l as [|x l IH]; cbn [sort_iv]; [constructor|]. apply insert_sorted, IH. Qed.

  Lemma find_place_in : forall l p y, find_place p l = Some y -> In y l /\ eplace y = p.
  Proof.
    intros l p y H. unfold find_place in H. apply find_some in H. destruct H as (H1 & H2).
    apply Nat.eqb_eq in H2. auto.
  Qed.
  Lemma find_place_self : forall l x, NoDup (map eplace l) -> In x l -> find_place (eplace x) l = Some x.
  Proof.
    induction l as [|y l IH]; intros x Hnd Hx; [contradiction|]. simpl in Hnd. inversion Hnd as [|? ? Hni Hnd']; subst.
    unfold find_place. cbn [find]. fold (find_place (eplace x) l). fold (eplace y). destruct Hx as [->|Hx].
    - rewrite Nat.eqb_refl. reflexivity.
    - destruct (Nat.eqb_spec (eplace y) (eplace x)) as [E|_]; [|apply IH; assumption].
      exfalso. apply Hni. rewrite E. apply in_map; exact Hx.
  Qed.
  Lemma weight_find : forall (g : nat * N * bool -> arc) l p, NoDup (map eplace l) ->
    (forall x, arc_place (g x) = eplace x) ->
    weight_at (map g l) p =
    match find_place p l with Some y => if arc_inhib (g y) then 0%N else arc_weight (g y) | None => 0%N end.
  Proof.
    intros g; induction l as [|y l IH]; intros p Hnd Hg; [reflexivity|].
    simpl in Hnd. inversion Hnd as [|? ? Hni Hnd']; subst. cbn [map]. rewrite weight_at_cons, Hg.
    unfold find_place. cbn [find]. fold (find_place p l). fold (eplace y).
    destruct (Nat.eqb_spec (eplace y) p) as [He|Hne].
    - rewrite weight_at_notin.
      + simpl. destruct (arc_inhib (g y)); simpl; lia.
      + rewrite map_map. rewrite (map_ext _ eplace) by exact Hg. congruence.
    - simpl. apply IH; assumption.
  Qed.

  Lemma full_made : forall s es, full s es -> live_ps <> [] ->
    let net := mkCnet np nt (k_trs s ++ [(ninv, ninv)])
        (finish (map (ren_e (k_ids s)) (k_invs s)) (k_trs s) ninv)
        (final_ptrs np nt (k_ptrs s))
        (place_init (k_ids s) (b_init b) (repeat 0%N np))
        (k_ctrl s ++ [true]) in
    map_res (reindex (k_ids s)) (k_invs s) = Ok (map (ren_e (k_ids s)) (k_invs s)) /\
    layout net /\ made net (k_ids s) (k_tids s) es.
  Proof.
    intros s es F Hne net.
    assert (E := fu_em F). assert (I := fu_ids F).
    assert (Hperm : Permutation es live_ts).
    { apply NoDup_Permutation; [exact (em_nd E)|apply NoDup_filter, seq_NoDup|].
      intros x. rewrite (fu_es F), in_live_ts. reflexivity. }
    assert (Hlen : length es = nt) by (rewrite nt_live; apply Permutation_length; exact Hperm).
    assert (Hninv : ninv = length (flat_map arcs_of es)).
    { rewrite ninv_total, flat_size. symmetry.
      assert (Hp := Permutation_map size Hperm). clear - Hp. induction Hp; simpl; lia. }
    assert (Hfin : finish (map (ren_e (k_ids s)) (k_invs s)) (k_trs s) ninv = flat_map (fin (k_ids s)) es).
    { rewrite (em_invs E), (em_trs E), Hninv. apply (finish_ok (k_ids s) es []). }
    assert (Hsz : forall l, length (flat_map (fin (k_ids s)) l) = length (flat_map arcs_of l)).
    { induction l as [|t l IH]; simpl; [reflexivity|]. rewrite !app_length, fin_length, IH. reflexivity. }
    assert (Hnt : forall i t, nth_error es i = Some t ->
       slice (cn_invs net) (fst (nth i (cn_transitions net) (0, 0))) (snd (nth i (cn_transitions net) (0, 0))) =
         map (fun x => to_inv x (dir_in (fpost (k_ids s) t) x)) (fpre (k_ids s) t) /\
       slice (cn_invs net) (snd (nth i (cn_transitions net) (0, 0))) (fst (nth (S i) (cn_transitions net) (0, 0))) =
         map (fun x => to_inv x (dir_out (fpre (k_ids s) t) x)) (fpost (k_ids s) t)).
    { intros i t Hi. apply nth_error_split in Hi. destruct Hi as (l1 & l2 & Hes & <-).
      cbn [cn_invs cn_transitions net]. rewrite Hfin, (em_trs E). rewrite Hes in *.
      destruct (@offs_mid l1 t l2 ninv Hninv) as (-> & ->). cbn [fst snd].
      rewrite flat_map_app. cbn [flat_map]. unfold fin at 2 5. rewrite <- !app_assoc.
      assert (Hl1 : length (pre_e t) = length (fpre (k_ids s) t)).
      { unfold fpre. rewrite (Permutation_length (sort_perm _)), map_length. reflexivity. }
      assert (Hl2 : length (post_e t) = length (fpost (k_ids s) t)).
      { unfold fpost. rewrite (Permutation_length (sort_perm _)), map_length. reflexivity. }
      assert (Hs : size t = length (pre_e t) + length (post_e t)) by (unfold size, arcs_of; rewrite app_length; reflexivity).
      split.
      - apply slice_mid; rewrite Hsz, ?map_length; lia.
      - rewrite app_assoc. apply slice_mid; rewrite app_length, Hsz, !map_length; lia. }
    assert (Hpre : forall i t, nth_error es i = Some t ->
      Permutation (tr_pre (net_trans net i)) (map (ren (k_ids s)) (bt_pre (tr_of b t)))).
    { intros i t Hi. destruct (Hnt i t Hi) as (H1 & _). unfold net_trans. cbn [tr_pre]. rewrite H1.
      rewrite map_map. unfold fpre.
      eapply perm_trans; [apply Permutation_map, sort_perm|]. unfold pre_e. rewrite !map_map.
      apply Permutation_refl'. apply map_ext. intros a. reflexivity. }
    assert (Hpost : forall i t, nth_error es i = Some t ->
      Permutation (tr_post (net_trans net i)) (map (ren (k_ids s)) (bt_post (tr_of b t)))).
    { intros i t Hi. destruct (Hnt i t Hi) as (_ & H1). unfold net_trans. cbn [tr_post]. rewrite H1.
      rewrite map_map. unfold fpost.
      eapply perm_trans; [apply Permutation_map, sort_perm|]. unfold post_e. rewrite !map_map.
      apply Permutation_refl'. apply map_ext_in. intros a Ha. unfold out_arc_of, to_inv, ren_e, ren. simpl.
      assert (Hin : In t es) by (eapply nth_error_In; exact Hi). apply (em_live E) in Hin. destruct Hin as (Ht & _).
      destruct (bw_post W _ Ht Ha) as (_ & Hf & _). rewrite Hf. reflexivity. }
    assert (Hget : forall p, live_p b p -> get (k_ids s) p < length live_ps /\ nth p (k_ids s) None = Some (get (k_ids s) p)).
    { intros p Hp. assert (Hn := fu_all F Hp). unfold get. destruct (nth p (k_ids s) None) as [j|] eqn:Ej; [|congruence].
      split; [|reflexivity]. apply (io_rng I _ Ej). }
    assert (Hinj : forall p q, live_p b p -> live_p b q -> get (k_ids s) p = get (k_ids s) q -> p = q).
    { intros p q Hp Hq He. destruct (Hget p Hp) as (_ & H1). destruct (Hget q Hq) as (_ & H2).
      rewrite He in H1. eapply (io_inj I); eauto. }
    assert (Hwf : forall i t, nth_error es i = Some t -> wf_trans (cn_places net) (net_trans net i)).
    { intros i t Hi. assert (Hin : In t es) by (eapply nth_error_In; exact Hi).
      apply (em_live E) in Hin. destruct Hin as (Ht & _).
      assert (Hnp : cn_places net = length live_ps) by (apply np_live).
      rewrite Hnp. assert (P1 := Hpre i t Hi). assert (P2 := Hpost i t Hi).
      split; [|split; [|split]].
      - intros a Ha. eapply Permutation_in in Ha; [|exact P1]. apply in_map_iff in Ha.
        destruct Ha as (a0 & <- & Ha0). simpl. apply Hget. apply (bw_pre W _ Ht Ha0).
      - intros a Ha. eapply Permutation_in in Ha; [|exact P2]. apply in_map_iff in Ha.
        destruct Ha as (a0 & <- & Ha0). simpl. destruct (bw_post W _ Ht Ha0) as (Hl & Hf & _).
        split; [apply Hget; exact Hl|exact Hf].
      - eapply Permutation_NoDup; [apply Permutation_sym, Permutation_map, P1|]. rewrite map_map. simpl.
        rewrite <- (map_map arc_place (get (k_ids s))).
        apply NoDup_map_inj_in; [apply (bw_ndpre W Ht)|].
        intros x y Hx Hy. apply in_map_iff in Hx. apply in_map_iff in Hy.
        destruct Hx as (ax & <- & Hax). destruct Hy as (ay & <- & Hay).
        apply Hinj; [apply (bw_pre W _ Ht Hax)|apply (bw_pre W _ Ht Hay)].
      - eapply Permutation_NoDup; [apply Permutation_sym, Permutation_map, P2|]. rewrite map_map. simpl.
        rewrite <- (map_map arc_place (get (k_ids s))).
        apply NoDup_map_inj_in; [apply (bw_ndpost W Ht)|].
        intros x y Hx Hy. apply in_map_iff in Hx. apply in_map_iff in Hy.
        destruct Hx as (ax & <- & Hax). destruct Hy as (ay & <- & Hay).
        apply Hinj; [apply (bw_post W _ Ht Hax)|apply (bw_post W _ Ht Hay)]. }
    assert (Hptrs : cn_ptrs net = k_ptrs s ++ [nt]).
    { cbn [cn_ptrs net]. unfold final_ptrs. rewrite (fu_np F), np_live, Nat.sub_diag. simpl (repeat 0 0).
      cbn [app]. apply firstn_all2. rewrite app_length, (fu_np F). simpl. lia. }
    assert (Hoffs : forall i a, nth_error (cn_transitions net) i = Some a ->
       (exists l1 t l2, es = l1 ++ t :: l2 /\ length l1 = i /\
          a = (length (flat_map arcs_of l1), length (flat_map arcs_of l1) + length (pre_e t)) /\
          fst (nth (S i) (cn_transitions net) (0, 0)) = length (flat_map arcs_of l1) + size t)
       \/ (i = length es /\ a = (ninv, ninv))).
    { intros i a Hi. cbn [cn_transitions net] in *. rewrite (em_trs E) in *.
      destruct (Nat.lt_ge_cases i (length es)) as [Hlt|Hge].
      - left. destruct (nth_error_ex _ Hlt) as (t & Ht). apply nth_error_split in Ht.
        destruct Ht as (l1 & l2 & Hes & Hl). exists l1, t, l2. rewrite Hes in *. subst i.
        destruct (@offs_mid l1 t l2 ninv Hninv) as (H1 & H2). repeat split; auto.
        apply (nth_error_nth _ _ (0,0)) in Hi. congruence.
      - right. rewrite nth_error_app2 in Hi by (rewrite offs_length; exact Hge). rewrite offs_length in Hi.
        destruct (i - length es) as [|k] eqn:Ek; [|destruct k; discriminate]. simpl in Hi. injection Hi as <-.
        split; [lia|reflexivity]. }
    assert (Htl : length (cn_transitions net) = S (length es)).
    { cbn [cn_transitions net]. rewrite app_length, (em_trs E), offs_length. simpl. lia. }
    split; [|split].
    - apply map_res_ren. intros x Hx. rewrite (em_invs E) in Hx. apply in_flat_map in Hx.
      destruct Hx as (t & Ht & Hx). apply (em_live E) in Ht. destruct Ht as (Ht & _).
      apply (fu_all F). unfold arcs_of in Hx. apply in_app_or in Hx. destruct Hx as [Hx|Hx].
      + unfold pre_e in Hx. apply in_map_iff in Hx. destruct Hx as (a & <- & Ha). apply (bw_pre W _ Ht Ha).
      + unfold post_e in Hx. apply in_map_iff in Hx. destruct Hx as (a & <- & Ha). apply (bw_post W _ Ht Ha).
    - constructor.
      + rewrite Htl, Hlen. reflexivity.
      + rewrite Hptrs, app_length, (fu_np F). cbn [cn_places net length]. rewrite np_live. lia.
      + intros t a Ha. cbn [cn_invs net]. rewrite Hfin, Hsz.
        destruct (Hoffs t a Ha) as [(l1 & u & l2 & -> & _ & -> & _)|(_ & ->)]; cbn [fst snd].
        * split; [lia|]. rewrite flat_map_app, app_length. simpl. rewrite app_length. unfold arcs_of at 3.
          rewrite app_length. lia.
        * split; lia.
      + intros t a c Ha Hc. assert (Hc' := Hc). apply (nth_error_nth _ _ (0, 0)) in Hc.
        destruct (Hoffs t a Ha) as [(l1 & u & l2 & _ & _ & -> & H)|(-> & ->)]; cbn [fst snd].
        * rewrite Hc in H. rewrite H. unfold size, arcs_of. rewrite app_length. lia.
        * rewrite nth_overflow in Hc by (rewrite Htl; lia).
          exfalso. apply nth_error_lt in Hc'. lia.
      + intros p a c Ha Hc. rewrite Hptrs in Ha, Hc.
        destruct (Nat.lt_ge_cases (S p) (length (k_ptrs s))) as [Hlt|Hge].
        * rewrite nth_error_app1 in Ha by lia. rewrite nth_error_app1 in Hc by lia.
          eapply (po_mono (fu_ptr F)); eauto.
        * rewrite nth_error_app2 in Hc by lia.
          destruct (S p - length (k_ptrs s)) as [|k] eqn:Ek; [|destruct k; discriminate].
          simpl in Hc. injection Hc as <-. rewrite nth_error_app1 in Ha by lia.
          rewrite <- Hlen. eapply (po_le (fu_ptr F)); exact Ha.
      + rewrite Hptrs, nth_error_app1; [exact (po_first (fu_ptr F))|].
        rewrite (fu_np F). destruct live_ps; [congruence|simpl; lia].
      + rewrite Hptrs. cbn [cn_places cn_ntrans net]. rewrite np_live, nth_error_app2 by (rewrite (fu_np F); lia).
        rewrite (fu_np F), Nat.sub_diag. reflexivity.
      + intros t Ht. unfold to_pnet in Ht. cbn [pn_trans] in Ht. apply in_map_iff in Ht.
        destruct Ht as (i & <- & Hi). apply in_seq in Hi. cbn [cn_ntrans net] in Hi.
        destruct (nth_error_ex es (i := i)) as (t & Ht); [lia|]. exact (Hwf i t Ht).
      + intros p a c i Hp Ha Hc Hi.
        assert (Hin : i < length es).
        { rewrite Hptrs in Hc. destruct (Nat.lt_ge_cases (S p) (length (k_ptrs s))) as [Hlt|Hge].
          - rewrite nth_error_app1 in Hc by lia. apply (po_le (fu_ptr F)) in Hc. lia.
          - rewrite nth_error_app2 in Hc by lia.
            destruct (S p - length (k_ptrs s)) as [|k] eqn:Ek; [|destruct k; discriminate].
            simpl in Hc. injection Hc as <-. lia. }
        destruct (nth_error_ex _ Hin) as (t & Ht).
        assert (Hpl : p < length (k_ptrs s)).
        { apply nth_error_lt in Hc. rewrite Hptrs, app_length in Hc. simpl in Hc. lia. }
        rewrite Hptrs in Ha. rewrite nth_error_app1 in Ha by exact Hpl.
        destruct (@po_grp _ _ _ (fu_ptr F) i t p a Ht Hp Ha) as (q & (x & Hx & Hinh & Hq) & Hqp); [lia| |].
        { intros c' Hc'. rewrite Hptrs in Hc. rewrite nth_error_app1 in Hc by (eapply nth_error_lt; exact Hc').
          rewrite Hc in Hc'. injection Hc' as <-. lia. }
        exists (arc_weight x). split.
        * eapply Permutation_in; [apply Permutation_sym, (Hpre i t Ht)|]. apply in_map_iff. exists x.
          split; [|exact Hx]. unfold ren, get. rewrite Hq, Hqp, Hinh. reflexivity.
        * assert (Hl : In t es) by (eapply nth_error_In; exact Ht). apply (em_live E) in Hl.
          destruct (bw_pre W _ (proj1 Hl) Hx) as (_ & Hw). exact (Hw Hinh).
    - constructor.
      + apply np_live.
      + apply nt_live.
      + exact I.
      + exact (fu_all F).
      + exact (em_nd E).
      + exact (fu_es F).
      + exact (em_tids E).
      + exact (em_tidl E).
      + exact Hpre.
      + exact Hpost.
      + cbn [cn_init net].
        destruct (@place_init_ok (k_ids s) (b_init b) (repeat 0%N np)) as (H1 & H2 & _).
        * rewrite (io_len I), (bw_np W), (bw_ni W). reflexivity.
        * exact (io_inj I).
        * intros p j Hj. rewrite repeat_length, np_live. apply (io_rng I _ Hj).
        * split; [rewrite H1, repeat_length; exact np_live|exact H2].
      + intros i t Hi. cbn [cn_ctrl net]. rewrite (em_ctrl E), nth_error_app1.
        * apply map_nth_error; exact Hi.
        * rewrite map_length. eapply nth_error_lt; exact Hi.
      + intros i iv Hi Hiv. cbn [cn_ntrans net] in Hi.
        destruct (nth_error_ex es (i := i)) as (t & Ht); [lia|].
        destruct (Hnt i t Ht) as (S1 & S2). assert (Hw := Hwf i t Ht). destruct Hw as (_ & _ & N1 & N2).
        cbn zeta in Hiv. rewrite S1, S2 in Hiv.
        assert (E1 : tr_pre (net_trans net i) = map (fun x => inv_arc (to_inv x (dir_in (fpost (k_ids s) t) x))) (fpre (k_ids s) t)).
        { unfold net_trans. cbn [tr_pre]. rewrite S1, map_map. reflexivity. }
        assert (E2 : tr_post (net_trans net i) = map (fun x => out_arc_of (to_inv x (dir_out (fpre (k_ids s) t) x))) (fpost (k_ids s) t)).
        { unfold net_trans. cbn [tr_post]. rewrite S2, map_map. reflexivity. }
        assert (M1 : NoDup (map eplace (fpre (k_ids s) t))).
        { rewrite E1, map_map in N1. erewrite map_ext; [exact N1|]. reflexivity. }
        assert (M2 : NoDup (map eplace (fpost (k_ids s) t))).
        { rewrite E2, map_map in N2. erewrite map_ext; [exact N2|]. reflexivity. }
        assert (Hlt : t < length (b_trans b)).
        { assert (Hl : In t es) by (eapply nth_error_In; exact Ht). apply (em_live E) in Hl. apply Hl. }
        assert (Q1 : forall x, In x (fpre (k_ids s) t) -> snd x = false -> (0 < snd (fst x))%N).
        { intros x Hx Hf. unfold fpre in Hx. eapply Permutation_in in Hx; [|apply sort_perm].
          apply in_map_iff in Hx. destruct Hx as (y & <- & Hy). unfold pre_e in Hy. apply in_map_iff in Hy.
          destruct Hy as (a & <- & Ha). simpl. simpl in Hf. apply (bw_pre W _ Hlt Ha). exact Hf. }
        assert (Q2 : forall x, In x (fpost (k_ids s) t) -> (0 < snd (fst x))%N).
        { intros x Hx. unfold fpost in Hx. eapply Permutation_in in Hx; [|apply sort_perm].
          apply in_map_iff in Hx. destruct Hx as (y & <- & Hy). unfold post_e in Hy. apply in_map_iff in Hy.
          destruct Hy as (a & <- & Ha). simpl. apply (bw_post W _ Hlt Ha). }
        rewrite E1, E2. rewrite !weight_find by (exact M1 || exact M2 || reflexivity).
        destruct Hiv as [Hiv|Hiv]; apply in_map_iff in Hiv; destruct Hiv as (x & <- & Hx); cbn [iv_dir iv_place to_inv].
        * fold (eplace x). rewrite (@find_place_self _ x M1 Hx). unfold dir_in. fold (eplace x).
          cbn [inv_arc out_arc_of to_inv iv_inhib iv_tokens arc_inhib arc_weight].
          specialize (Q1 x Hx).
          destruct (find_place (eplace x) (fpost (k_ids s) t)) as [y|] eqn:Ey.
          -- apply find_place_in in Ey. specialize (Q2 y (proj1 Ey)). destruct (snd x); [lia|].
             specialize (Q1 eq_refl). destruct (N.ltb_spec (snd (fst x)) (snd (fst y))); [lia|].
             destruct (N.eqb_spec (snd (fst x)) (snd (fst y))); lia.
          -- destruct (snd x); [reflexivity|]. specialize (Q1 eq_refl). lia.
        * fold (eplace x). rewrite (@find_place_self _ x M2 Hx). unfold dir_out. fold (eplace x).
          cbn [inv_arc out_arc_of to_inv iv_inhib iv_tokens arc_inhib arc_weight].
          specialize (Q2 x Hx).
          destruct (find_place (eplace x) (fpre (k_ids s) t)) as [y|] eqn:Ey; [|lia].
          apply find_place_in in Ey. destruct (snd y); [lia|].
          destruct (N.ltb_spec (snd (fst y)) (snd (fst x))); [lia|].
          destruct (N.eqb_spec (snd (fst x)) (snd (fst y))); lia.
      + intros i Hi. cbn [cn_ntrans net] in Hi. destruct (nth_error_ex es (i := i)) as (t & Ht); [lia|].
        destruct (Hnt i t Ht) as (S1 & S2). unfold net_trans. cbn [tr_pre tr_post]. rewrite S1, S2, !map_map. split; apply sort_sorted.
  Qed.

  Theorem make_net_ok : forall reorder, live_ps <> [] ->
    exists net ids tids es, make_net b reorder = Ok (net, ids, tids) /\ layout net /\ made net ids tids es.
  Proof.
    intros reorder Hne. unfold make_net. fold np nt cons prod. fold ninv. cbn [k_ids].
    set (s0 := mkMk _ _ _ _ _ _ _ _).
    assert (Hnone : forall {A B} (l : list A) i, nth i (map (fun _ => @None B) l) None = None).
    { intros A B; induction l as [|x l IH]; intros [|i]; simpl; auto. }
    assert (E0 : emitted s0 []).
    { constructor; simpl; try reflexivity.
      - apply map_length.
      - intros t Ht. apply Hnone.
      - constructor.
      - intros t []. }
    assert (I0 : ids_ok (k_ids s0) 0).
    { constructor.
      - apply map_length.
      - intros p j H. simpl in H. rewrite Hnone in H. discriminate.
      - intros p q j H. simpl in H. rewrite Hnone in H. discriminate.
      - intros j Hj. lia. }
    assert (Hn := next_ok cons prod (map (fun _ => None) (b_places b)) reorder).
    destruct (next_place_id b cons prod (map (fun _ => None) (b_places b)) reorder) as [nx|].
    2:{ exfalso. destruct live_ps as [|p l] eqn:El; [congruence|].
        assert (Hp : live_p b p) by (apply in_live_ps; rewrite El; left; reflexivity).
        apply (Hn p Hp). apply Hnone. }
    destruct Hn as (Hnx & Hlive). cbn [bind].
    set (s1 := add_ptr (set_ids s0 nx 0)).
    destruct (@orphans_ok (b_trans b) 0 s1 [] eq_refl (Nat.le_0_l _)) as (s2 & es2 & H2 & E2 & Hes2 & Hi2 & Hp2).
    { apply emitted_ptr, emitted_ids, E0. }
    { intros x. simpl. split; [tauto|lia]. }
    rewrite H2. cbn [bind].
    assert (Hi : k_ids s2 = upd (k_ids s0) nx (Some 0)) by (rewrite Hi2; reflexivity).
    assert (Hp : k_ptrs s2 = [0]) by (rewrite Hp2; reflexivity).
    assert (Hlt : nx < length (k_ids s0)) by (rewrite (io_len I0); apply Hlive).
    destruct (@place_loop_ok reorder (S (length (b_places b))) true 0 nx s2 es2) as (s3 & es3 & H3 & F).
    { lia. }
    { exact Hlive. }
    { cbn zeta. split.
      - constructor.
        + exact E2.
        + rewrite Hi. apply ids_ok_set; assumption.
        + rewrite Hi. apply nth_upd_eq. exact Hlt.
        + rewrite Hp. reflexivity.
        + rewrite Hp. constructor.
          * reflexivity.
          * intros p a c _ Hc. destruct p; discriminate.
          * intros p a Ha. destruct p as [|p]; simpl in Ha; [injection Ha as <-; lia|destruct p; discriminate].
          * intros i t p a _ Hp0 Ha. destruct p as [|p]; [lia|]. destruct p; discriminate.
      - intros t. rewrite Hes2. split; [tauto|]. intros (Hl & [Ho|(p & j & _ & _ & Hj)]); [auto|lia]. }
    rewrite H3. cbn [bind].
    destruct (full_made F Hne) as (Hm & L & M). rewrite Hm. cbn [bind].
    eexists. exists (k_ids s3), (k_tids s3), es3. split; [reflexivity|]. split; [exact L|exact M].
  Qed.
End Make.
