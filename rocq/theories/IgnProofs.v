(** The number of tokens an arc moves is between the counts of its compiled expression, and
    the variants of a transition cover all combinations (C44). *)
From Verif Require Import Base BaseLemmas NetSpec NetModel BuilderModel BuilderSpec BuilderMain
  ColSyntax ColSpec ColModel ColEval ColUnfold ColFinal ExpModel ExpSpec IgnModel IgnSpec.

Ltac binv H x E := match type of H with
  | bind ?e _ = Ok _ => destruct e as [x| | |] eqn:E; cbn [bind] in H; try discriminate H end.

Lemma sumN_cons : forall x l, sumN (x :: l) = (x + sumN l)%N.
Proof. reflexivity. Qed.

Section Count.
Variable n : cpn.
Notation tab := (cn_types n).
Notation vars := (cn_vars n).
Hypothesis T : tab_ok n.
Variable b : assignment.
Hypothesis B : binds n b.

Definition tot (ty : nat) (f : value -> N) : N := sumN (map f (values tab ty)).

Lemma one_value : forall (l : list value) w k, NoDup l -> In w l ->
  sumN (map (fun v => if value_eqb w v then k else 0%N) l) = k.
Proof.
  induction l as [|x l IH]; intros w k ND I; [destruct I|]. inversion ND; subst. cbn [map]. rewrite sumN_cons. destruct I as [->|I].
  - assert (E : value_eqb w w = true) by (apply value_eqb_eq; reflexivity). rewrite E, sum_zero; [apply N.add_0_r|].
    intros v Iv. destruct (value_eqb w v) eqn:E2; auto. apply value_eqb_eq in E2. subst. contradiction.
  - rewrite (IH w k) by auto. destruct (value_eqb w x) eqn:E; [|apply N.add_0_l].
    apply value_eqb_eq in E. subst. contradiction.
Qed.

Lemma tot_color : forall e ty k, ctyped n e ty -> tot ty (fun v => if value_eqb (cval tab vars b e) v then k else 0%N) = k.
Proof.
  intros e ty k H. destruct (values_spec n T ty) as [ND V]. apply one_value; auto. apply V. eapply cval_typed; eauto.
  intros v I. pose proof (ctyped_range _ _ _ _ H I) as L. destruct (nth_error vars v) as [t|] eqn:E.
  - erewrite nth_error_nth by eauto. apply B; auto.
  - apply nth_error_None in E. lia.
Qed.

Lemma tot_scale : forall ty k f, tot ty (fun v => k * f v)%N = (k * tot ty f)%N.
Proof. intros. unfold tot. induction (values tab ty) as [|v l IH]; cbn [map]; [cbn; lia|]. rewrite !sumN_cons, IH. lia. Qed.

Lemma coll_count : forall e s c, compile_color tab vars e s = Ok c -> exists z x, c = KColl z x s.
Proof. intros e s c H. unfold compile_color in H. destruct e; binv H x E; inversion H; eauto. Qed.

Lemma count_arc : forall a ty s e, atyped n a ty -> compile_arc tab vars a s = Ok e ->
  (min_count e <= s * tot ty (mval tab vars b a) <= upper_count e)%N /\
  (has_negative e = false -> min_count e = upper_count e) /\
  (apos a -> s <> 0%N -> has_negative e = false -> min_count e <> 0%N).
Proof.
  intros a. induction a as [es k|es IHs|l r IHl IHr|a k IH] using aexp_ind'; intros ty s e A C; cbn [compile_arc] in C.
  - destruct A as [NE F]. destruct es as [|x [|y es]]; try discriminate C. inversion F; subst.
    destruct (coll_count _ _ _ C) as (z & y & ->). cbn [min_count upper_count has_negative mval].
    assert (E : tot ty (fun v => sumN (map (fun e => if value_eqb (cval tab vars b e) v then k else 0%N) [x])) = k).
    { unfold tot. rewrite (sum_ext _ (fun v => if value_eqb (cval tab vars b x) v then k else 0%N)). { apply tot_color. auto. }
      intros v _. cbn. lia. }
    rewrite E. split; [lia|]. split; [reflexivity|]. cbn. intros; lia.
  - destruct A as [NE A]. destruct es as [|x es]; [discriminate C|]. inversion IHs; subst. destruct A as [Ax A].
    binv C top E. destruct (H1 _ _ _ Ax E) as (P1 & P2 & P3). clear H1 IHs NE.
    assert (X : forall es top e acc, Forall (fun a => forall ty s e, atyped n a ty -> compile_arc tab vars a s = Ok e ->
        (min_count e <= s * tot ty (mval tab vars b a) <= upper_count e)%N /\
        (has_negative e = false -> min_count e = upper_count e) /\
        (apos a -> s <> 0%N -> has_negative e = false -> min_count e <> 0%N)) es ->
      (fix go (es : list aexp) : Prop := match es with [] => True | e :: es' => atyped n e ty /\ go es' end) es ->
      (fix go (es : list aexp) (top : carc) : res carc :=
         match es with [] => Ok top | e' :: es'' => x <- compile_arc tab vars e' s ;; go es'' (KAdd top x) end) es top = Ok e ->
      (min_count top <= s * acc <= upper_count top)%N ->
      (min_count e <= s * (acc + sumN (map (fun a => tot ty (mval tab vars b a)) es)) <= upper_count e)%N /\
      ((has_negative top = false -> min_count top = upper_count top) -> has_negative e = false -> min_count e = upper_count e) /\
      (has_negative e = false -> has_negative top = false /\ (min_count top <= min_count e)%N)).
    { clear. induction es as [|x es IH]; intros top e acc F A C P.
      - inversion C; subst. cbn [map sumN fold_right]. rewrite N.add_0_r. repeat split; auto; try apply P; lia.
      - inversion F; subst. destruct A as [Ax A]. binv C c E. destruct (H1 _ _ _ Ax E) as (Q1 & Q2 & Q3).
        destruct (IH (KAdd top c) e (acc + tot ty (mval tab vars b x))%N H2 A C) as (R1 & R2 & R3).
        { cbn [min_count upper_count]. lia. }
        cbn [min_count upper_count has_negative] in *. cbn [map]. rewrite sumN_cons. split; [|split].
        + rewrite N.add_assoc. exact R1.
        + intros K. apply R2. intros G. apply orb_false_iff in G. destruct G as [G1 G2]. rewrite K, Q2; auto.
        + intros G. destruct (R3 G) as [G1 G2]. apply orb_false_iff in G1. split; [tauto|lia]. }
    destruct (X es top e (tot ty (mval tab vars b x)) H2 A C P1) as (R1 & R2 & R3).
    assert (E2 : tot ty (mval tab vars b (AAdd (x :: es))) = (tot ty (mval tab vars b x) + sumN (map (fun a => tot ty (mval tab vars b a)) es))%N).
    { unfold tot. cbn [mval]. rewrite (sum_ext _ (fun v => mval tab vars b x v + sumN (map (fun a => mval tab vars b a v) es))%N).
      - rewrite sum_add. f_equal. rewrite sum_swap. reflexivity.
      - intros v _. cbn [map]. apply sumN_cons. }
    rewrite E2. split; [exact R1|]. split; [auto|]. intros [Pa _] S0 G. destruct (R3 G) as [G1 G2]. specialize (P3 Pa S0 G1). lia.
  - destruct A as [A1 A2]. binv C x E1. binv C y E2. inversion C; subst. destruct (IHl _ _ _ A1 E1) as (P1 & _). destruct (IHr _ _ _ A2 E2) as (Q1 & _).
    cbn [min_count upper_count has_negative mval]. split; [|split; discriminate].
    assert (L1 : (tot ty (mval tab vars b l) <= tot ty (fun v => mval tab vars b l v - mval tab vars b r v) + tot ty (mval tab vars b r))%N).
    { unfold tot. rewrite <- sum_add. apply sum_le. intros; lia. }
    assert (L2 : (tot ty (fun v => mval tab vars b l v - mval tab vars b r v) <= tot ty (mval tab vars b l))%N).
    { unfold tot. apply sum_le. intros; lia. }
    set (X := tot ty (fun v => (mval tab vars b l v - mval tab vars b r v)%N)) in *.
    assert (L3 : (s * tot ty (mval tab vars b l) <= s * X + s * tot ty (mval tab vars b r))%N) by nia.
    assert (L4 : (s * X <= s * tot ty (mval tab vars b l))%N) by nia.
    destruct (N.ltb_spec (min_count x) (upper_count y)); lia.
  - cbn [atyped] in A. destruct (IH _ _ _ A C) as (P1 & P2 & P3). cbn [mval]. rewrite tot_scale. split; [|split; auto].
    + rewrite N.mul_assoc. exact P1.
    + intros [K P] S0 G. apply P3; auto. lia.
Qed.

Lemma add_count_card : forall c z m, add_count ms0 c z = Ok m -> ms_card m = z.
Proof.
  intros c z m H. unfold add_count, set_count in H. revert H. unfold i32.
  repeat match goal with |- context [if ?x then _ else _] => destruct x eqn:?; cbn [bind] end; intros H; try discriminate H; inversion H; cbn; try lia.
  all: unfold ms_get, ms0 in *; cbn in *; lia.
Qed.

Lemma count_compile : forall a ty e, atyped n a ty -> compile tab vars a = Ok e ->
  (min_count e <= tot ty (mval tab vars b a) <= upper_count e)%N /\
  (has_negative e = false -> min_count e = upper_count e) /\
  (apos a -> has_negative e = false -> min_count e <> 0%N).
Proof.
  intros a ty e A C. unfold compile in C. binv C x E. destruct (count_arc _ _ _ _ A E) as (P1 & P2 & P3). rewrite N.mul_1_l in P1.
  assert (R : min_count e = min_count x /\ upper_count e = upper_count x /\ has_negative e = has_negative x).
  { destruct x; cbn [replace_constants] in C; try (inversion C; subst; auto; fail).
    destruct (existsb is_var s); [inversion C; auto|]. binv C z E1. binv C m E2. destruct (0 <? ms_card m)%Z; [|discriminate]. inversion C; subst.
    cbn [min_count upper_count has_negative]. rewrite (add_count_card _ _ _ E2). unfold signed_count in E1.
    destruct (Z.of_N count <=? i32max)%Z; [|discriminate]. inversion E1. rewrite N2Z.id. auto. }
  destruct R as (-> & -> & ->). repeat split; auto; try apply P1. intros. apply P3; auto. discriminate.
Qed.
End Count.

(** ** The loop over the variants *)
Definition with_cur (l : list arange) (v : list N) : list arange :=
  map (fun x => mkAR (ar_input (fst x)) (ar_place (fst x)) (ar_lower (fst x)) (ar_upper (fst x)) (snd x)) (combine l v).
Definition curs (l : list arange) : list N := map ar_cur l.
Definition within (l : list arange) (v : list N) : Prop := Forall2 (fun r k => (ar_lower r <= k <= ar_upper r)%N) l v.

Inductive rlt : list N -> list N -> Prop :=
| rlt_tail : forall c v cs vs, rlt cs vs -> rlt (c :: cs) (v :: vs)
| rlt_head : forall c v vs, (c < v)%N -> rlt (c :: vs) (v :: vs).
Definition rle (c v : list N) : Prop := c = v \/ rlt c v.

Lemma rlt_irrefl : forall v, ~ rlt v v.
Proof. induction v as [|x v IH]; intros H; inversion H; subst; [auto|lia]. Qed.

Lemma next_shape : forall l v, with_cur (fst (next_variant l)) v = with_cur l v.
Proof.
  induction l as [|r l I2]; [intros [|]; reflexivity|]. cbn [next_variant].
  destruct (ar_upper r <=? ar_cur r)%N.
  - destruct (next_variant l) as [l' c]. cbn [fst] in *. intros [|k v]; [reflexivity|]. cbn. f_equal. apply I2.
  - intros [|k v]; reflexivity.
Qed.

Lemma next_within : forall l v, within (fst (next_variant l)) v <-> within l v.
Proof.
  induction l as [|r l IH]; intros v; [reflexivity|]. cbn [next_variant]. destruct (ar_upper r <=? ar_cur r)%N.
  - destruct (next_variant l) as [l' c]. cbn [fst] in *. split; intros H; inversion H; subst; constructor; auto; apply IH; auto.
  - cbn [fst]. split; intros H; inversion H; subst; constructor; auto.
Qed.

Lemma next_ok : forall l v, within l v -> rle (curs l) v ->
  v = curs l \/ (snd (next_variant l) = false /\ rle (curs (fst (next_variant l))) v).
Proof.
  induction l as [|r l IH]; intros v W L.
  - inversion W; subst. auto.
  - destruct L as [L|L]; [left; auto|]. inversion W as [|? k ? vs Wk Ws]; subst. clear W. cbn [next_variant].
    destruct (N.leb_spec (ar_upper r) (ar_cur r)) as [U|U].
    + inversion L; subst; [|lia]. destruct (IH vs Ws) as [E|[E1 E2]]; [right; auto| |].
      * subst. exfalso. eapply rlt_irrefl; eauto.
      * right. destruct (next_variant l) as [l' c]. cbn [fst snd curs map ar_cur] in *. split; auto.
        destruct E2 as [->|E2]; [|right; constructor; auto].
        destruct (N.eq_dec (ar_lower r) k) as [->|N1]; [left; reflexivity|right; constructor; lia].
    + cbn [fst snd curs map ar_cur]. inversion L; subst.
      * right. split; auto. right. constructor. auto.
      * right. split; auto. destruct (N.eq_dec (ar_cur r + 1) k) as [->|N1]; [left; reflexivity|right; constructor; lia].
Qed.

Section Names.
Variable n : cpn.
Variable tname : nat -> option nat -> nat.
Hypothesis Inj : forall t k t' k', tname t k = tname t' k' -> t = t' /\ k = k'.

Definition vname (t count : nat) : nat := tname t (if Nat.eqb count 0 then None else Some (S count)).

Lemma vname_inj : forall t c t' c', vname t c = vname t' c' -> t = t' /\ c = c'.
Proof.
  unfold vname. intros t c t' c' H. apply Inj in H. destruct H as [-> H]. split; auto.
  destruct (Nat.eqb_spec c 0), (Nat.eqb_spec c' 0); try discriminate; try congruence.
Qed.

Definition named (c : call) : option nat :=
  match c with CIn _ u _ _ | COut u _ _ | CTrans u _ => Some u | CPlace _ _ => None end.

(** The calls of the variants: one block for every combination. *)
Lemma variants_ok : forall fuel t count l cs k, variants tname fuel t count l = Ok (cs, k) ->
  count < k /\
  (forall c, In c cs -> exists j l', count <= j < k /\ In c (CTrans (vname t j) 0 :: variant_arcs (vname t j) l') /\ map ar_place l' = map ar_place l) /\
  (forall v, within l v -> rle (curs l) v -> exists pre post j, count <= j < k /\
     cs = pre ++ (CTrans (vname t j) 0 :: variant_arcs (vname t j) (with_cur l v)) ++ post /\
     forall c, In c (pre ++ post) -> named c <> Some (vname t j)).
Proof.
  induction fuel as [|fuel IH]; intros t count l cs k H; [discriminate H|]. cbn [variants] in H. fold (vname t count) in H.
  assert (PL : forall l, map ar_place (fst (next_variant l)) = map ar_place l).
  { clear. induction l as [|r l IH]; [reflexivity|]. cbn [next_variant]. destruct (ar_upper r <=? ar_cur r)%N; [|reflexivity].
    destruct (next_variant l). cbn in *. f_equal. exact IH. }
  specialize (PL l).
  assert (NA : forall u l c, In c (CTrans u 0 :: variant_arcs u l) -> named c = Some u).
  { clear. intros u l c [<-|I]; [reflexivity|]. unfold variant_arcs in I. apply in_flat_map in I. destruct I as (r & _ & I).
    destruct (0 <? ar_cur r)%N; [|destruct I]. destruct (ar_input r); destruct I as [<-|[]]; reflexivity. }
  assert (WC : forall l, with_cur l (curs l) = l).
  { clear. induction l as [|[] l IH]; [reflexivity|]. cbn in *. f_equal. exact IH. }
  pose proof (next_shape l) as SH. pose proof (next_within l) as NW. pose proof (next_ok l) as NO.
  destruct (next_variant l) as [l' carry]. cbn [fst snd] in *. destruct carry.
  - inversion H; subst. split; [lia|]. split.
    + intros c I. exists count, l. split; [lia|]. auto.
    + intros v W L. destruct (NO v W L) as [->|[D _]]; [|discriminate]. exists [], [], count. split; [lia|]. split.
      * rewrite WC. cbn [app]. rewrite app_nil_r. reflexivity.
      * intros c [].
  - binv H r E. destruct r as [cs' k']. inversion H; subst; clear H. cbn [fst snd] in *.
    destruct (IH _ _ _ _ _ E) as (K1 & K2 & K3). split; [lia|]. split.
    + intros c I. apply (in_app_or (CTrans (vname t count) 0 :: variant_arcs (vname t count) l)) in I. destruct I as [I|I].
      * exists count, l. split; [lia|]. auto.
      * destruct (K2 c I) as (j & l2 & J & X & Y). exists j, l2. split; [lia|]. split; auto. congruence.
    + intros v W L. destruct (NO v W L) as [->|[_ L2]].
      * exists [], cs', count. split; [lia|]. split; [rewrite WC; reflexivity|].
        intros c I Q. destruct (K2 c I) as (j & l2 & J & X & _). rewrite (NA _ _ _ X) in Q. inversion Q as [Q2]. apply vname_inj in Q2. lia.
      * destruct (K3 v) as (pre & post & j & J & X & Y); [apply NW; auto|auto|].
        exists ((CTrans (vname t count) 0 :: variant_arcs (vname t count) l) ++ pre), post, j. split; [lia|]. split.
        { rewrite X, SH, <- app_assoc. reflexivity. }
        intros c I Q. rewrite <- app_assoc in I. apply in_app_or in I. destruct I as [I|I]; [|exact (Y c I Q)].
        rewrite (NA _ _ _ I) in Q. inversion Q as [Q2]. apply vname_inj in Q2. lia.
Qed.
Lemma variants_first : forall fuel t l cs k, variants tname fuel t 0 l = Ok (cs, k) ->
  exists post, cs = (CTrans (tname t None) 0 :: variant_arcs (tname t None) l) ++ post /\ forall c, In c post -> named c <> Some (tname t None).
Proof.
  intros [|fuel] t l cs k H; [discriminate H|]. cbn [variants Nat.eqb] in H. destruct (next_variant l) as [l' carry]. destruct carry.
  - inversion H; subst. exists []. split; [cbn [app]; rewrite app_nil_r; reflexivity|]. intros c [].
  - binv H r E. destruct r as [cs' k']. inversion H; subst; clear H. cbn [fst snd] in *. exists cs'. split; [reflexivity|].
    destruct (variants_ok _ _ _ _ _ _ E) as (_ & K2 & _). intros c I Q. destruct (K2 c I) as (j & l2 & J & X & _).
    assert (Y : named c = Some (vname t j)).
    { destruct X as [<-|X]; [reflexivity|]. unfold variant_arcs in X. apply in_flat_map in X. destruct X as (r & _ & X).
      destruct (0 <? ar_cur r)%N; [|destruct X]. destruct (ar_input r); destruct X as [<-|[]]; reflexivity. }
    rewrite Y in Q. inversion Q as [Q2]. change (tname t None) with (vname t 0) in Q2. apply vname_inj in Q2. lia.
Qed.
End Names.
