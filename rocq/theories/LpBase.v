(** The base linear program over-approximates the firing sequences. *)
From Verif Require Import Base BaseLemmas NetSpec NetModel NetProofs PqlSyntax PqlSpec LpSpec SimpSpec MemberModel LpModel MemberProofs LpProofs LpSat.
From Coq Require Import Sorted.
Set Implicit Arguments.

Lemma column_cons : forall p pre q post, column (p :: pre) (q :: post) =
  if iv_place q <? iv_place p then (iv_place q, Z.of_N (iv_tokens q)) :: column (p :: pre) post
  else if iv_place p <? iv_place q then (iv_place p, pre_coef p) :: column pre (q :: post)
  else (iv_place p, (Z.of_N (iv_tokens q) + pre_coef p)%Z) :: column pre post.
Proof. reflexivity. Qed.
Lemma column_nil_cons : forall q post, column [] (q :: post) = (iv_place q, Z.of_N (iv_tokens q)) :: column [] post.
Proof. reflexivity. Qed.
Lemma column_cons_nil : forall p pre, column (p :: pre) [] = (iv_place p, pre_coef p) :: column pre [].
Proof. reflexivity. Qed.

Definition psum (f : invariant -> Z) (l : list invariant) (p : nat) : Z :=
  fold_right Z.add 0%Z (map f (filter (fun iv => Nat.eqb (iv_place iv) p) l)).
Lemma entry_cons : forall k z c p, entry ((k, z) :: c) p = ((if Nat.eqb k p then z else 0) + entry c p)%Z.
Proof. intros. unfold entry. cbn [filter map fst]. destruct (Nat.eqb k p); cbn [map fold_right snd]; lia. Qed.
Lemma psum_cons : forall f iv l p, psum f (iv :: l) p = ((if Nat.eqb (iv_place iv) p then f iv else 0) + psum f l p)%Z.
Proof. intros. unfold psum. cbn [filter]. destruct (Nat.eqb (iv_place iv) p); cbn [map fold_right]; lia. Qed.
Lemma column_entry : forall pre post p, entry (column pre post) p = (psum pre_coef pre p + psum (fun q => Z.of_N (iv_tokens q)) post p)%Z.
Proof.
  induction pre as [|a pre IH]; intros post p.
  - induction post as [|q post IH]; [reflexivity|]. rewrite column_nil_cons, entry_cons, psum_cons, IH. lia.
  - induction post as [|q post IHq].
    + rewrite column_cons_nil, entry_cons, psum_cons, IH. lia.
    + rewrite column_cons. destruct (Nat.ltb_spec (iv_place q) (iv_place a)) as [H|H]; [rewrite entry_cons, IHq, !psum_cons; lia|].
      destruct (Nat.ltb_spec (iv_place a) (iv_place q)) as [G|G]; rewrite entry_cons, IH, !psum_cons; [lia|].
      assert (E : iv_place q = iv_place a) by lia. rewrite E. destruct (Nat.eqb (iv_place a) p); lia.
Qed.
Lemma psum_pre : forall l p, psum pre_coef l p = (- Z.of_N (weight_at (map inv_arc l) p))%Z.
Proof.
  induction l as [|iv l IH]; intros p; [reflexivity|]. rewrite psum_cons, IH. cbn [map]. rewrite weight_at_cons.
  change (arc_place (inv_arc iv)) with (iv_place iv). change (arc_inhib (inv_arc iv)) with (iv_inhib iv). change (arc_weight (inv_arc iv)) with (iv_tokens iv).
  unfold pre_coef. destruct (Nat.eqb (iv_place iv) p); cbn [andb]; [|lia]. destruct (iv_inhib iv); cbn [negb]; lia.
Qed.
Lemma psum_post : forall l p, psum (fun q => Z.of_N (iv_tokens q)) l p = Z.of_N (weight_at (map out_arc_of l) p).
Proof.
  induction l as [|iv l IH]; intros p; [reflexivity|]. rewrite psum_cons, IH. cbn [map]. rewrite weight_at_cons.
  change (arc_place (out_arc_of iv)) with (iv_place iv). change (arc_inhib (out_arc_of iv)) with false. change (arc_weight (out_arc_of iv)) with (iv_tokens iv).
  destruct (Nat.eqb (iv_place iv) p); cbn [andb negb]; lia.
Qed.

Lemma column_places : forall pre post e, In e (column pre post) -> In (fst e) (map iv_place pre) \/ In (fst e) (map iv_place post).
Proof.
  induction pre as [|a pre IH]; intros post e.
  - induction post as [|q post IH]; [intros []|]. rewrite column_nil_cons. intros [<-|H]; [right; left; reflexivity|]. destruct (IH H) as [[]|G]. right. right. exact G.
  - induction post as [|q post IHq].
    + rewrite column_cons_nil. intros [<-|H]; [left; left; reflexivity|]. destruct (IH _ _ H) as [G|[]]. left. right. exact G.
    + rewrite column_cons. destruct (iv_place q <? iv_place a); [|destruct (iv_place a <? iv_place q)]; (intros [<-|H]; [cbn; auto|]).
      * destruct (IHq H); [left|right; right]; assumption.
      * destruct (IH _ _ H); [left; right|right]; assumption.
      * destruct (IH _ _ H); [left; right|right; right]; assumption.
Qed.
Lemma column_sorted : forall pre post, StronglySorted lt (map iv_place pre) -> StronglySorted lt (map iv_place post) -> StronglySorted lt (map fst (column pre post)).
Proof.
  assert (T : forall k pre post, Forall (lt k) (map iv_place pre) -> Forall (lt k) (map iv_place post) -> Forall (lt k) (map fst (column pre post))).
  { intros k pre post A B. rewrite Forall_forall in *. intros x Hx. apply in_map_iff in Hx. destruct Hx as (e & <- & He). destruct (column_places _ _ _ He); auto. }
  assert (W : forall j k (l : list nat), j < k -> Forall (lt k) l -> Forall (lt j) l) by (intros j k l H F; eapply Forall_impl; [|exact F]; cbn; lia).
  induction pre as [|a pre IH]; intros post.
  - induction post as [|q post IH]; intros A B; [constructor|]. rewrite column_nil_cons. cbn [map fst]. cbn [map] in B. inversion B; subst.
    constructor; [apply IH; assumption|]. apply T; [constructor|assumption].
  - intros A. cbn [map] in A. inversion A as [|? ? A1 A2]; subst. induction post as [|q post IHq]; intros B.
    + rewrite column_cons_nil. cbn [map fst]. constructor; [apply IH; assumption|]. apply T; [assumption|constructor].
    + cbn [map] in B. inversion B as [|? ? B1 B2]; subst. rewrite column_cons.
      destruct (Nat.ltb_spec (iv_place q) (iv_place a)) as [H|H]; [|destruct (Nat.ltb_spec (iv_place a) (iv_place q)) as [G|G]]; cbn [map fst].
      * constructor; [apply IHq; exact B1|]. apply T; [cbn [map]; constructor; [exact H|eapply W; eauto]|exact B2].
      * constructor; [apply IH; [exact A1|exact B]|]. apply T; [exact A2|cbn [map]; constructor; [exact G|eapply W; eauto]].
      * assert (E : iv_place q = iv_place a) by lia. constructor; [apply IH; assumption|]. apply T; [exact A2|rewrite <- E; exact B2].
Qed.
Lemma sorted_distinct : forall l, StronglySorted lt l -> distinct l = true.
Proof.
  intros l H. induction H as [|x l H IH F]; [reflexivity|]. cbn [distinct]. rewrite IH, andb_true_r. apply negb_true_iff.
  destruct (existsb (Nat.eqb x) l) eqn:E; [|reflexivity]. apply existsb_exists in E. destruct E as (y & Hy & Hxy). apply Nat.eqb_eq in Hxy. rewrite Forall_forall in F. specialize (F y Hy). lia.
Qed.
Lemma strict : forall l, NoDup l -> StronglySorted le l -> StronglySorted lt l.
Proof.
  intros l D H. induction H as [|x l H IH F]; [constructor|]. inversion D as [|? ? D1 D2]; subst. constructor; [auto|].
  apply Forall_forall. intros y Hy. rewrite Forall_forall in F. specialize (F y Hy). assert (x <> y) by congruence. lia.
Qed.

Section Base.
  Variable net : cnet.
  Variable m0 : list N.
  Hypothesis L : layout net.
  Hypothesis So : sorted_arcs net.
  Hypothesis Hm0 : length m0 = cn_places net.

  Lemma check_ok : forall t (a b : nat * nat), t < cn_ntrans net ->
    net_trans net t = mkTrans (map inv_arc (slice (cn_invs net) (fst a) (snd a))) (map out_arc_of (slice (cn_invs net) (snd a) (fst b))) ->
    let c := column (slice (cn_invs net) (fst a) (snd a)) (slice (cn_invs net) (snd a) (fst b)) in
    check_column net c = Ok c /\ forall p, entry c p = effect net t p.
  Proof.
    intros t a b Ht E c. destruct (trans_wf L Ht) as (P1 & P2 & D1 & D2). destruct (So Ht) as (S1 & S2). unfold effect. rewrite E in *. cbn [tr_pre tr_post] in *.
    rewrite !map_map in D1, D2, S1, S2. cbn [inv_arc out_arc_of arc_place] in D1, D2, S1, S2. split.
    - unfold check_column.
      assert (Q : distinct (map fst c) = true) by (apply sorted_distinct, column_sorted; apply strict; assumption). rewrite Q. cbn [andb].
      assert (F : forallb (fun e : nat * Z => fst e <? cn_places net) c = true); [|rewrite F; reflexivity].
      apply forallb_forall. intros e He. apply Nat.ltb_lt. destruct (column_places _ _ _ He) as [H|H]; apply in_map_iff in H; destruct H as (iv & <- & H).
      + apply (P1 (inv_arc iv)). apply in_map. exact H.
      + apply (P2 (out_arc_of iv)). apply in_map. exact H.
    - intros p. unfold c. rewrite column_entry, psum_pre, psum_post. lia.
  Qed.
  Lemma columns_ok : forall k t, t + k <= cn_ntrans net -> exists cs, columns net t k = Ok cs /\ length cs = k /\ forall i p, i < k -> entry (nth i cs []) p = effect net (t + i) p.
  Proof.
    induction k as [|k IH]; intros t H.
    - exists []. split; [reflexivity|]. split; [reflexivity|]. lia.
    - cbn [columns]. destruct (@slices net L t) as (a & b & Ea & Eb & E); [lia|]. rewrite Ea. cbn [bind]. rewrite Eb. cbn [bind].
      destruct (@check_ok t a b) as (C1 & C2); [lia|exact E|]. rewrite C1. cbn [bind]. destruct (IH (S t)) as (cs & E2 & Hl & G); [lia|]. rewrite E2. cbn [bind].
      eexists. split; [reflexivity|]. split; [cbn; lia|]. intros [|i] p Hi; cbn [nth].
      + rewrite Nat.add_0_r. apply C2.
      + rewrite G by lia. f_equal. lia.
  Qed.
  Theorem base_ok : exists B, base_lp net m0 = Ok B /\ forall w m, run (to_pnet net) m0 w m -> solution B (occ w).
  Proof.
    destruct (@columns_ok (cn_ntrans net) 0) as (cs & E & Hl & G); [lia|]. unfold base_lp. rewrite E. cbn [bind]. eexists. split; [reflexivity|].
    intros w m R. split; [apply occ_nonneg|]. split; [|intros r lo hi []]. intros p lo Hp. cbn [lp_lower] in Hp.
    rewrite nth_error_map in Hp. destruct (nth_error m0 p) as [v|] eqn:Ev; [|discriminate]. injection Hp as <-.
    assert (Hp : p < length m0) by (apply nth_error_Some; congruence). pose proof (run_effect R Hp) as F. unfold tokens in F at 2. rewrite (nth_error_nth _ _ 0%N Ev) in F.
    unfold column_sum. cbn [lp_n lp_columns]. rewrite (@sumto_ext _ _ (fun t => effect net t p * occ w t)%Z); [lia|].
    intros i Hi. rewrite G by exact Hi. reflexivity.
  Qed.
End Base.

(** Linear constraints between expressions *)
Lemma sparse_value : forall v i x, row_value (sparse i v) x = lin i v x.
Proof.
  induction v as [|z v IH]; intros i x; [reflexivity|]. cbn [sparse lin]. destruct (Z.eqb_spec z 0) as [->|E]; [rewrite IH; lia|].
  unfold row_value. cbn [map fold_right fst snd]. fold (row_value (sparse (S i) v) x). rewrite IH. reflexivity.
Qed.
Definition lop_holds (o : lop) (x c : Z) : Prop :=
  match o with LEq => x = c | LLe => x <= c | LGe => c <= x | LLt => x < c | LGt => c < x end%Z.
Lemma new_prog_sem : forall v c o x, psem (new_prog (sparse 0 v) c o) x <-> lop_holds o (lin 0 v x) c.
Proof.
  intros v c o x. unfold psem, new_prog. cbn [pr_eqs]. rewrite Forall_cons_iff. unfold eqsem. rewrite <- (sparse_value v 0 x).
  destruct o; cbn [eq_row eq_lo eq_hi above below lop_holds]; (split; [intros ((A & B) & _); lia|intros; split; [split; try exact I; lia|constructor]]).
Qed.
