(** Proofs about multisets of variables and the removal of redundant places (C47). *)
From Verif Require Import Base BaseLemmas BuilderModel BuilderSpec CtlFrag ColSyntax ColSpec ColModel ColRadix ColEval ColGen ColUnfold ColRedModel ColRedSpec ColRedProofs ColRedMain ColRedTotal ColRdpModel ColRdpSpec.

Lemma leqb_spec : forall a b, reflect (a = b) (leqb a b).
Proof. intros a b. unfold leqb. destruct (list_eq_dec Nat.eq_dec a b); constructor; auto. Qed.

(** ** What a multiset of variables means *)
Section Mean.
Variable val : list nat -> value.
Definition vmval (l : list (list nat * N)) (v : value) : N := sumN (map (fun x => if value_eqb (val (fst x)) v then snd x else 0%N) l).
Lemma vmval_cons : forall k x l v, vmval ((k, x) :: l) v = ((if value_eqb (val k) v then x else 0) + vmval l v)%N.
Proof. reflexivity. Qed.
Definition vsum (l : list (list nat * N)) : N := sumN (map snd l).
Lemma vsum_cons : forall k x l, vsum ((k, x) :: l) = (x + vsum l)%N.
Proof. reflexivity. Qed.
Lemma put_val : forall l k x, (vsum l + x < 4294967296)%N -> (forall v, vmval (vset_at l k (fun y => cw32 (y + x))) v = (vmval l v + if value_eqb (val k) v then x else 0)%N) /\ vsum (vset_at l k (fun y => cw32 (y + x))) = (vsum l + x)%N.
Proof.
  induction l as [|[j y] l IH]; intros k x L; cbn [vset_at].
  - unfold vsum in L. cbn [map sumN] in L. unfold cw32. rewrite N.mod_small by lia. split; [intros v; unfold vmval; cbn [map sumN fst snd]; destruct (value_eqb _ v); lia|unfold vsum; cbn [map sumN snd]; lia].
  - rewrite vsum_cons in L. destruct (leqb_spec j k) as [->|E].
    + unfold cw32. rewrite N.mod_small by lia. split; [intros v; rewrite !vmval_cons; destruct (value_eqb _ v); lia|rewrite !vsum_cons; lia].
    + destruct (IH k x ltac:(lia)) as [I1 I2]. split; [intros v; rewrite !vmval_cons, I1; lia|rewrite !vsum_cons, I2; lia].
Qed.
Lemma plus_val : forall o l, (vsum l + vsum o < 4294967296)%N ->
  (forall v, vmval (fold_left (fun l x => vset_at l (fst x) (fun y => cw32 (y + snd x))) o l) v = (vmval l v + vmval o v)%N) /\
  vsum (fold_left (fun l x => vset_at l (fst x) (fun y => cw32 (y + snd x))) o l) = (vsum l + vsum o)%N.
Proof.
  induction o as [|[k x] o IH]; intros l L; cbn [fold_left fst snd].
  - split; [intros v; unfold vmval at 3; cbn [map sumN]; lia|unfold vsum at 3; cbn [map sumN]; lia].
  - rewrite vsum_cons in L. destruct (put_val l k x ltac:(lia)) as [P1 P2]. destruct (IH (vset_at l k (fun y => cw32 (y + x))) ltac:(lia)) as [I1 I2].
    split; [intros v; rewrite I1, P1, vmval_cons; lia|rewrite I2, P2, vsum_cons; lia].
Qed.
Lemma times_val : forall l k, (vsum l * k < 4294967296)%N -> (forall v, vmval (map (fun x => (fst x, cw32 (snd x * k))) l) v = (k * vmval l v)%N) /\ vsum (map (fun x => (fst x, cw32 (snd x * k))) l) = (vsum l * k)%N.
Proof.
  induction l as [|[j y] l IH]; intros k L; cbn [map fst snd]; [split; [intros v; unfold vmval; cbn [map sumN]; lia|reflexivity]|].
  rewrite vsum_cons in L. destruct (IH k ltac:(nia)) as [I1 I2]. unfold cw32. rewrite N.mod_small by nia. unfold cw32 in I1, I2.
  split; [intros v; rewrite !vmval_cons, I1; destruct (value_eqb _ v); nia|rewrite !vsum_cons, I2; nia].
Qed.
Lemma look_split : forall o k v, ((if value_eqb (val k) v then vlook o k else 0) + vmval (filter (fun x => negb (leqb (fst x) k)) o) v <= vmval o v)%N.
Proof.
  induction o as [|[j y] o IH]; intros k v; cbn [vlook filter fst].
  - unfold vmval. cbn [map sumN]. destruct (value_eqb _ v); lia.
  - specialize (IH k v). destruct (leqb_spec j k) as [->|E]; cbn [negb]; rewrite !vmval_cons; destruct (value_eqb (val k) v); lia.
Qed.
Lemma look_other : forall o k j, j <> k -> vlook (filter (fun x => negb (leqb (fst x) k)) o) j = vlook o j.
Proof.
  induction o as [|[i y] o IH]; intros k j E; cbn [vlook filter fst]; auto. destruct (leqb_spec i k) as [->|F]; cbn [negb vlook].
  - rewrite IH by exact E. destruct (leqb_spec k j); [congruence|reflexivity].
  - rewrite IH by exact E. reflexivity.
Qed.
Lemma below_val : forall m o v, NoDup (map fst m) -> (forall k x, In (k, x) m -> (x <= vlook o k)%N) -> (vmval m v <= vmval o v)%N.
Proof.
  induction m as [|[k x] m IH]; intros o v ND H; [unfold vmval at 1; cbn [map sumN]; lia|]. cbn [map fst] in ND. inversion ND as [|? ? N1 N2]; subst. rewrite vmval_cons.
  pose proof (look_split o k v) as L. pose proof (H k x (or_introl eq_refl)) as X.
  assert (I : (vmval m v <= vmval (filter (fun x => negb (leqb (fst x) k)) o) v)%N).
  { apply IH; auto. intros j y J. rewrite look_other; [apply H; right; exact J|]. intros ->. apply N1. apply in_map_iff. exists (k, y). auto. }
  destruct (value_eqb (val k) v); lia.
Qed.
End Mean.

Lemma put_keys : forall l k f, (forall j, In j (map fst (vset_at l k f)) <-> In j (map fst l) \/ j = k) /\ (NoDup (map fst l) -> NoDup (map fst (vset_at l k f))).
Proof.
  induction l as [|[i y] l IH]; intros k f; cbn [vset_at].
  - cbn [map fst In]. split; [intros j; intuition congruence|intros _; constructor; auto; constructor].
  - destruct (leqb_spec i k) as [->|E]; cbn [map fst In].
    + split; [intros j; intuition congruence|auto].
    + destruct (IH k f) as [A B]. split; [intros j; rewrite A; tauto|]. intros H. inversion H as [|? ? N1 N2]; subst. constructor; auto. rewrite A. intros [K|K]; auto.
Qed.
Lemma plus_keys : forall o l, NoDup (map fst l) -> NoDup (map fst (fold_left (fun l x => vset_at l (fst x) (fun y => cw32 (y + snd x))) o l)).
Proof. induction o as [|x o IH]; intros l H; cbn [fold_left]; auto. apply IH. apply put_keys. exact H. Qed.
Lemma sub_eq_below : forall val m o, NoDup (map fst (snd m)) -> vsub_eq m o = Ok true -> forall v, (vmval val (snd m) v <= vmval val (snd o) v)%N.
Proof.
  intros val m o ND H v. apply below_val; auto. intros k x I. unfold vsub_eq in H. apply bindR in H. destruct H as (d & D & H). unfold vminus in D. destruct (match fst o with [] => true | _ => _ end); [|discriminate D].
  injection D as <-. cbn [snd] in H. injection H as H. rewrite forallb_forall in H. specialize (H (k, if (x <? vget o k)%N then 0%N else (x - vget o k)%N) ltac:(apply in_map_iff; exists (k, x); auto)). cbn [snd] in H.
  apply N.eqb_eq in H. assert (G : (vget o k <= vlook (snd o) k)%N) by (unfold vget; destruct (fst o); lia). destruct (N.ltb_spec x (vget o k)); lia.
Qed.

(** ** The multiset of an expression *)
Section Net.
Variable n : cpn.
Notation tab := (cn_types n).
Notation vars := (cn_vars n).
Hypothesis T : tab_ok n.
Variable ty : nat.
Variable b : assignment.

(** The colour a tuple of variables stands for on a place of the type. *)
Definition vtval (vt : list nat) : value :=
  match vt with
  | [x] => if Nat.eqb (nth x vars 0) ty then b x else VT [match b x with VE i => i | VT _ => 0 end]
  | _ => VT (map (fun x => match b x with VE i => i | VT _ => 0 end) vt)
  end.
Lemma tup_vars_val : forall es l, tup_vars es = Ok (Some l) -> es = map EVar l.
Proof.
  induction es as [|e es IH]; intros l H; cbn [tup_vars] in H; [injection H as <-; reflexivity|]. destruct e; try discriminate H. apply bindR in H. destruct H as (r & R & H). destruct r as [l'|]; [|discriminate H].
  injection H as <-. cbn [map]. f_equal. apply IH. exact R.
Qed.
Lemma col_vars_val : forall e vt, ctyped n e ty -> col_vars e = Ok (Some vt) -> vtval vt = cval tab vars b e.
Proof.
  intros e vt TY H. destruct e as [|v| | | |es]; try discriminate H.
  - injection H as <-. cbn [vtval cval ctyped] in *. rewrite (nth_error_nth _ _ _ TY), Nat.eqb_refl. reflexivity.
  - cbn [col_vars] in H. apply tup_vars_val in H. subst es. cbn [ctyped] in TY. destruct TY as (cs & E1 & E2 & E3). cbn [cval]. rewrite map_map.
    destruct vt as [|x [|y vt]]; try reflexivity. destruct cs as [|c cs]; [discriminate E2|]. destruct E3 as [E3 _]. cbn [ctyped] in E3. cbn [vtval map cval]. rewrite (nth_error_nth _ _ _ E3).
    destruct (Nat.eqb_spec c ty) as [->|NE]; [|reflexivity]. exfalso. destruct T as (_ & _ & T3 & _). pose proof (T3 ty (ty :: cs) ty E1 (or_introl eq_refl)) as K. unfold esize in K. rewrite E1 in K. lia.
Qed.
Definition vrep (m : vmset) (f : value -> N) (w : N) : Prop := NoDup (map fst (snd m)) /\ (forall v, vmval vtval (snd m) v = f v) /\ (vsum (snd m) <= w)%N.
Lemma vplus_rep : forall m o f g w u r, vrep m f w -> vrep o g u -> (w + u < 4294967296)%N -> vplus m o = Ok r -> vrep r (fun v => f v + g v)%N (w + u).
Proof.
  intros m o f g w u r (A1 & A2 & A3) (B1 & B2 & B3) L H. unfold vplus in H. destruct (leqb _ (fst o)); [|discriminate H]. injection H as <-. unfold vrep. cbn [snd].
  destruct (plus_val vtval (snd o) (snd m) ltac:(lia)) as [P1 P2]. split; [apply plus_keys; exact A1|]. split; [intros v; rewrite P1, A2, B2; reflexivity|lia].
Qed.
Lemma vone_rep : forall e vt k, ctyped n e ty -> col_vars e = Ok (Some vt) -> vrep (vone vars vt k) (fun v => if value_eqb (cval tab vars b e) v then k else 0%N) k.
Proof.
  intros e vt k TY H. split; [cbn; constructor; auto; constructor|]. split; [|unfold vsum; cbn [vone snd map sumN]; lia]. intros v. unfold vmval. cbn [vone snd map sumN fst]. rewrite (col_vars_val e vt TY H). destruct (value_eqb _ v); lia.
Qed.
Lemma num_loop_rep : forall es k m f w r, Forall (fun e => ctyped n e ty) es -> vrep m f w -> (w + k * N.of_nat (length es) < 4294967296)%N -> num_loop vars es k m = Ok (Some r) ->
  vrep r (fun v => f v + sumN (map (fun e => if value_eqb (cval tab vars b e) v then k else 0%N) es))%N (w + k * N.of_nat (length es)).
Proof.
  induction es as [|e es IH]; intros k m f w r TY R L H; cbn [num_loop] in H.
  - injection H as <-. destruct R as (R1 & R2 & R3). split; [exact R1|]. split; [intros v; rewrite R2; cbn [map sumN]; lia|lia].
  - apply bindR in H. destruct H as (t & E & H). destruct t as [vt|]; [|discriminate H]. apply bindR in H. destruct H as (m' & E' & H). inversion TY as [|? ? Y1 Y2]; subst. cbn [length] in L.
    assert (R' := vplus_rep _ _ _ _ _ _ _ R (vone_rep e vt k Y1 E) ltac:(nia) E'). destruct (IH k m' _ _ r Y2 R' ltac:(nia) H) as (I1 & I2 & I3). split; [exact I1|]. split.
    + intros v. rewrite I2. cbn [map sumN]. lia.
    + cbn [length]. nia.
Qed.
Lemma extract_rep : forall a m, atyped n a ty -> (aweight a < 2147483648)%N -> extract vars a = Ok (Some m) -> vrep m (mval tab vars b a) (aweight a).
Proof.
  assert (R0 : vrep vempty (fun _ => 0%N) 0) by (split; [constructor|split; reflexivity]).
  intros a. induction a as [es k|es IHs|l r _ _|e k IHe] using aexp_ind'; intros m TY W H.
  - cbn [extract] in H. cbn [aweight] in *. destruct TY as [_ TY]. destruct (num_loop_rep es k vempty _ _ m TY R0 ltac:(lia) H) as (A & B & C). split; [exact A|]. split; [intros v; rewrite B; reflexivity|lia].
  - cbn [extract] in H. cbn [atyped] in TY. destruct TY as [_ TY]. cbn [aweight mval] in *.
    assert (X : forall es acc f w, Forall (fun a => forall m, atyped n a ty -> (aweight a < 2147483648)%N -> extract vars a = Ok (Some m) -> vrep m (mval tab vars b a) (aweight a)) es ->
      (fix go (es : list aexp) : Prop := match es with [] => True | e :: es' => atyped n e ty /\ go es' end) es -> vrep acc f w -> (w + sumN (map aweight es) < 2147483648)%N ->
      (fix go (es : list aexp) (m : vmset) : res (option vmset) :=
       match es with
       | [] => Ok (Some m)
       | e :: es' => x <- extract vars e ;; match x with None => Ok None | Some o => m' <- vplus m o ;; go es' m' end
       end) es acc = Ok (Some m) -> vrep m (fun v => f v + sumN (map (fun e => mval tab vars b e v) es))%N (w + sumN (map aweight es))).
    { clear. induction es as [|e es IH]; intros acc f w F TY R L H.
      - injection H as <-. destruct R as (R1 & R2 & R3). split; [exact R1|]. split; [intros v; rewrite R2; cbn [map sumN]; lia|cbn [map sumN]; lia].
      - inversion F as [|? ? F1 F2]; subst. destruct TY as [Y1 Y2]. cbn [map sumN] in L. apply bindR in H. destruct H as (x & E & H). destruct x as [o|]; [|discriminate H]. apply bindR in H. destruct H as (m' & E' & H).
        pose proof (vplus_rep _ _ _ _ _ _ _ R (F1 o Y1 ltac:(lia) E) ltac:(lia) E') as R'. destruct (IH m' _ _ F2 Y2 R' ltac:(lia) H) as (I1 & I2 & I3). split; [exact I1|]. split; [intros v; rewrite I2; cbn [map sumN]; lia|cbn [map sumN]; lia]. }
    destruct (X es vempty _ _ IHs TY R0 ltac:(lia) H) as (A & B & C). split; [exact A|]. split; [intros v; rewrite B; reflexivity|lia].
  - discriminate H.
  - cbn [extract] in H. apply bindR in H. destruct H as (x & E & H). destruct x as [o|]; [|discriminate H]. injection H as <-. cbn [atyped aweight mval] in *.
    destruct (IHe o TY ltac:(nia) E) as (A & B & C). destruct (times_val vtval (snd o) k ltac:(nia)) as [P1 P2]. split; [cbn [vtimes snd]; rewrite map_map; exact A|]. cbn [vtimes snd]. split; [intros v; rewrite P1, B; reflexivity|rewrite P2; nia].
Qed.
End Net.
Lemma extract_below : forall n ty i o x y, tab_ok n -> atyped n i ty -> atyped n o ty -> (aweight i < 2147483648)%N -> (aweight o < 2147483648)%N ->
  extract (cn_vars n) i = Ok (Some x) -> extract (cn_vars n) o = Ok (Some y) -> vsub_eq x y = Ok true -> forall b v, (mval (cn_types n) (cn_vars n) b i v <= mval (cn_types n) (cn_vars n) b o v)%N.
Proof.
  intros n ty i o x y T I O WI WO EI EO H b v. destruct (extract_rep n T ty b i x I WI EI) as (A1 & A2 & _). destruct (extract_rep n T ty b o y O WO EO) as (_ & B2 & _).
  rewrite <- A2, <- B2. apply sub_eq_below; auto.
Qed.
