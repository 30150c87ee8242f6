(** Evaluation of colour, guard and arc expressions agrees with their meaning (C34). *)
From Verif Require Import Base BaseLemmas BuilderModel BuilderSpec ColSyntax ColSpec ColModel ColRadix.

Section Eval.
Variable n : cpn.
Notation tab := (cn_types n).
Notation vars := (cn_vars n).
Notation cmap := (cn_map n).
Hypothesis T : tab_ok n.

Lemma ksize_esize : forall ty, ksize tab ty = esize tab ty.
Proof. reflexivity. Qed.

Definition sizes (cs : list nat) : list nat := map (esize tab) cs.

Lemma sizes_pos : forall ty cs, nth_error tab ty = Some (TProd cs) -> Forall (fun s => 0 < s) (sizes cs).
Proof.
  destruct T as (_ & _ & P & _). intros ty cs H. apply Forall_forall. intros s I.
  unfold sizes in I. apply in_map_iff in I. destruct I as (c & <- & I). eauto.
Qed.

Definition val_of (ty i : nat) : value :=
  match nth_error tab ty with
  | Some (TProd cs) => VT (digits (sizes cs) i)
  | _ => VE i
  end.

Lemma csize_prod : forall ty cs, nth_error tab ty = Some (TProd cs) -> csize tab ty = prod (sizes cs).
Proof. intros ty cs H. unfold csize. rewrite H. rewrite fold_mul. cbn. unfold sizes. rewrite Nat.add_0_r. reflexivity. Qed.

Lemma Forall2_map_r : forall {A B C} (P : A -> C -> Prop) (f : B -> C) l m,
  Forall2 (fun x y => P x (f y)) l m <-> Forall2 P l (map f m).
Proof.
  intros. split.
  - induction 1; cbn; constructor; auto.
  - revert l. induction m; intros l H; inversion H; subst; constructor; auto.
Qed.

Lemma csize_pos : forall ty d, nth_error tab ty = Some d -> 0 < csize tab ty.
Proof.
  intros ty [k|cs] H.
  - unfold csize. rewrite H. destruct T as (_ & P & _). eauto.
  - rewrite (csize_prod _ _ H). apply prod_pos. eapply sizes_pos; eauto.
Qed.

Lemma vnum_lt : forall ty v, vtyped tab ty v -> vnum tab ty v < csize tab ty.
Proof.
  intros ty v H. unfold vtyped, vnum in *. destruct (nth_error tab ty) as [[k|cs]|] eqn:E; destruct v; try contradiction.
  - unfold csize. rewrite E. auto.
  - rewrite (csize_prod _ _ E). apply num_lt. apply (proj1 (Forall2_map_r (fun i s => i < s) _ _ _)). auto.
Qed.

Lemma val_num : forall ty v, vtyped tab ty v -> val_of ty (vnum tab ty v) = v.
Proof.
  intros ty v H. unfold vtyped, vnum, val_of in *. destruct (nth_error tab ty) as [[k|cs]|] eqn:E; destruct v; try contradiction; auto.
  f_equal. apply digits_num. apply (proj1 (Forall2_map_r (fun i s => i < s) _ _ _)). auto.
Qed.

Lemma val_typed : forall ty i, i < csize tab ty -> vtyped tab ty (val_of ty i).
Proof.
  intros ty i H. unfold vtyped, val_of. destruct (nth_error tab ty) as [[k|cs]|] eqn:E.
  - unfold csize in H. rewrite E in H. auto.
  - apply (proj2 (Forall2_map_r (fun i s => i < s) _ _ _)). apply digits_lt. eapply sizes_pos; eauto.
  - unfold csize in H. rewrite E in H. lia.
Qed.

Lemma num_val : forall ty i, i < csize tab ty -> vnum tab ty (val_of ty i) = i.
Proof.
  intros ty i H. unfold vnum, val_of. destruct (nth_error tab ty) as [[k|cs]|] eqn:E; auto.
  - apply num_digits; [eapply sizes_pos; eauto|]. rewrite <- (csize_prod _ _ E). auto.
  - unfold csize in H. rewrite E in H. lia.
Qed.

Lemma vnum_inj : forall ty u v, vtyped tab ty u -> vtyped tab ty v -> vnum tab ty u = vnum tab ty v -> u = v.
Proof. intros. rewrite <- (val_num ty u), <- (val_num ty v); auto; f_equal; auto. Qed.

Lemma values_seq : forall ty d, nth_error tab ty = Some d -> values tab ty = map (val_of ty) (seq 0 (csize tab ty)).
Proof.
  intros ty [k|cs] E.
  - unfold values, csize, val_of. rewrite E. reflexivity.
  - rewrite (csize_prod _ _ E). unfold values, val_of. rewrite E.
    fold (sizes cs). rewrite tuples_seq by (eapply sizes_pos; eauto). rewrite map_map. reflexivity.
Qed.

(** [values] lists the colours of a type, each once. *)
Lemma values_spec : forall ty, NoDup (values tab ty) /\ forall v, In v (values tab ty) <-> vtyped tab ty v.
Proof.
  intros ty. destruct (nth_error tab ty) as [d|] eqn:E.
  - rewrite (values_seq _ _ E). split.
    + assert (H : forall l, NoDup l -> (forall i, In i l -> i < csize tab ty) -> NoDup (map (val_of ty) l)).
      { induction l as [|x l IH]; intros ND F; cbn; constructor; inversion ND; subst.
        - intros I. apply in_map_iff in I. destruct I as (y & Ey & I).
          assert (x = y).
          { rewrite <- (num_val ty x), <- (num_val ty y) by (apply F; cbn; auto). f_equal. auto. }
          subst. auto.
        - apply IH; auto. intros. apply F. right. auto. }
      apply H; [apply seq_NoDup|]. intros i I. apply in_seq in I. lia.
    + intros v. rewrite in_map_iff. split.
      * intros (i & <- & I). apply in_seq in I. apply val_typed. lia.
      * intros H. exists (vnum tab ty v). split; [apply val_num; auto|]. apply in_seq. pose proof (vnum_lt _ _ H). lia.
  - unfold values, vtyped. rewrite E. split; [constructor|]. intros v. cbn. tauto.
Qed.

Lemma color_at_ok : forall ty i, i < csize tab ty -> color_at tab ty i = Ok (ty, i).
Proof. intros. unfold color_at. apply Nat.ltb_lt in H. rewrite H. reflexivity. Qed.

Lemma esize_csize : forall ty, 0 < esize tab ty -> csize tab ty = esize tab ty.
Proof. intros ty. unfold esize, csize. destruct (nth_error tab ty) as [[]|]; intros; auto; lia. Qed.

Lemma esize_enum : forall ty, 0 < esize tab ty -> nth_error tab ty = Some (TEnum (esize tab ty)).
Proof. intros ty. unfold esize. destruct (nth_error tab ty) as [[]|] eqn:E; intros; auto; lia. Qed.

(** Induction over colour expressions. *)
Lemma cexp_ind' : forall P : cexp -> Prop,
  P EDot -> (forall v, P (EVar v)) -> (forall uty ui, P (EUser uty ui)) ->
  (forall e, P e -> P (ESucc e)) -> (forall e, P e -> P (EPred e)) ->
  (forall es, Forall P es -> P (ETup es)) -> forall e, P e.
Proof.
  intros P H1 H2 H3 H4 H5 H6. fix IH 1. intros [| | | | |es]; [exact H1|apply H2|apply H3|apply H4, IH|apply H5, IH|].
  apply H6. induction es; constructor; [apply IH|assumption].
Qed.

(** The binding in the code represents the assignment on the given variables. *)
Definition brel (b : bmap) (a : assignment) (vs : list nat) : Prop :=
  forall v, In v vs -> vtyped tab (nth v vars 0) (a v) /\
    blook b v = Some (vnum tab (nth v vars 0) (a v)).

Lemma brel_incl : forall b a vs ws, brel b a vs -> incl ws vs -> brel b a ws.
Proof. unfold brel. intros. auto. Qed.

Lemma ctyped_ctype : forall e ty, ctyped n e ty -> 0 < esize tab ty -> ctype vars e = ty.
Proof.
  induction e as [|v|uty ui|e IHe|e IHe|es IHs] using cexp_ind'; intros ty H E; cbn in *.
  - auto.
  - apply nth_error_nth with (d := 0) in H. auto.
  - destruct H; auto.
  - apply IHe; tauto.
  - apply IHe; tauto.
  - destruct H as (cs & H & _). unfold esize in E. rewrite H in E. lia.
Qed.

Lemma get_color_loop_ok : forall cs l product sum, 
  get_color_loop tab cs (combine cs l) product sum =
    if Nat.eqb (length cs) (length (combine cs l)) then Some (sum + product * tuple_num (sizes cs) l) else None.
Proof.
  induction cs as [|c cs IH]; intros l product sum; cbn.
  - f_equal. lia.
  - destruct l as [|i l]; cbn; [reflexivity|].
    rewrite Nat.eqb_refl, IH.
    destruct (Nat.eqb (length cs) (length (combine cs l))); auto. f_equal. unfold sizes. cbn [map]. change (ksize tab c) with (esize tab c). ring.
Qed.

Lemma find_product_ok : forall ty cs, nth_error tab ty = Some (TProd cs) -> find_product tab cmap cs = Some ty.
Proof.
  intros ty cs H. destruct T as (_ & _ & _ & U & I). specialize (I _ _ H). unfold find_product.
  destruct (find (fun t => contains_types tab t cs) cmap) as [t|] eqn:E.
  - apply find_some in E. destruct E as [_ E]. unfold contains_types in E.
    destruct (nth_error tab t) as [[]|] eqn:E'; try discriminate.
    destruct (list_eq_dec Nat.eq_dec cs0 cs); try discriminate. subst. f_equal. eauto.
  - pose proof (find_none _ _ E _ I) as C. cbn in C. unfold contains_types in C. rewrite H in C.
    destruct (list_eq_dec Nat.eq_dec cs cs); [discriminate|congruence].
Qed.

Lemma cval_typed : forall e ty b, ctyped n e ty ->
  (forall v, In v (cvars e) -> vtyped tab (nth v vars 0) (b v)) ->
  vtyped tab ty (cval tab vars b e).
Proof.
  intros e. induction e as [|v|uty ui|e IHe|e IHe|es IHs] using cexp_ind'; intros ty b H B; cbn in *.
  - subst. unfold vtyped. destruct T as (D & _). rewrite D. lia.
  - specialize (B v (or_introl eq_refl)). apply nth_error_nth with (d := 0) in H. rewrite H in B. auto.
  - destruct H as [-> L]. unfold vtyped. rewrite esize_enum by lia. auto.
  - destruct H as [H E]. specialize (IHe _ _ H B). pose proof (ctyped_ctype _ _ H E) as C.
    unfold vtyped in *. rewrite esize_enum in * by auto. destruct (cval tab vars b e); try contradiction.
    rewrite C. apply Nat.mod_upper_bound. lia.
  - destruct H as [H E]. specialize (IHe _ _ H B). pose proof (ctyped_ctype _ _ H E) as C.
    unfold vtyped in *. rewrite esize_enum in * by auto. destruct (cval tab vars b e); try contradiction.
    rewrite C. apply Nat.mod_upper_bound. lia.
  - destruct H as (cs & E & L & G). unfold vtyped. rewrite E.
    destruct T as (_ & _ & P & _). assert (P' : forall c, In c cs -> 0 < esize tab c) by eauto. clear P. rename P' into P.
    clear E. revert cs L G P. induction IHs as [|e es He Hes IH]; intros [|c cs] L G P; cbn in *; try discriminate; constructor.
    + destruct G as [G _]. assert (V : vtyped tab c (cval tab vars b e)).
      { apply He; auto. intros. apply B. apply in_or_app; auto. }
      unfold vtyped in V. rewrite (esize_enum c) in V by (apply P; cbn; auto).
      destruct (cval tab vars b e); [auto|contradiction].
    + apply IH; [intros; apply B; apply in_or_app; auto|lia|tauto|intros; apply P; cbn; auto].
Qed.

(** Spec.: evaluating a well-typed colour expression yields the number of its value. *)
Lemma ceval_ok : forall e ty b a, ctyped n e ty -> brel b a (cvars e) ->
  ceval tab cmap vars b e = Ok (ty, vnum tab ty (cval tab vars a e)).
Proof.
  intros e. induction e as [|v|uty ui|e IHe|e IHe|es IHs] using cexp_ind'; intros ty b a H B.
  - cbn in *. subst. destruct T as (D & _). rewrite color_at_ok; [|unfold csize; rewrite D; lia].
    unfold vnum. rewrite D. reflexivity.
  - cbn in *. destruct (B v (or_introl eq_refl)) as [V L]. rewrite L.
    apply nth_error_nth with (d := 0) in H. rewrite H in *. apply color_at_ok. apply vnum_lt. auto.
  - cbn in *. destruct H as [-> L]. rewrite color_at_ok by (rewrite esize_csize; lia).
    unfold vnum. rewrite esize_enum by lia. reflexivity.
  - cbn in *. destruct H as [H E]. rewrite (IHe _ _ _ H B). cbn [bind].
    pose proof (cval_typed _ _ a H (fun v I => proj1 (B v I))) as V. rewrite (ctyped_ctype _ _ H E).
    unfold color_succ, vnum, vtyped in *. cbn [fst snd]. rewrite esize_csize by auto. rewrite (esize_enum ty) in * by auto.
    destruct (cval tab vars a e) as [i|]; try contradiction.
    destruct (Nat.leb_spec (esize tab ty - 1) i).
    + rewrite color_at_ok by (rewrite esize_csize; lia). replace (i + 1) with (esize tab ty) by lia.
      rewrite Nat.mod_same by lia. reflexivity.
    + rewrite color_at_ok by (rewrite esize_csize; lia). rewrite Nat.mod_small by lia. reflexivity.
  - cbn in *. destruct H as [H E]. rewrite (IHe _ _ _ H B). cbn [bind].
    pose proof (cval_typed _ _ a H (fun v I => proj1 (B v I))) as V. rewrite (ctyped_ctype _ _ H E).
    unfold color_pred, vnum, vtyped in *. cbn [fst snd]. rewrite esize_csize by auto. rewrite (esize_enum ty) in * by auto.
    destruct (cval tab vars a e) as [i|]; try contradiction.
    destruct (Nat.leb_spec i 0).
    + rewrite color_at_ok by (rewrite esize_csize; lia). replace i with 0 by lia.
      rewrite Nat.mod_small by lia. reflexivity.
    + rewrite color_at_ok by (rewrite esize_csize; lia).
      replace (i + (esize tab ty - 1)) with ((i - 1) + 1 * esize tab ty) by lia.
      rewrite Nat.mod_add by lia. rewrite Nat.mod_small by lia. reflexivity.
  - cbn in H. destruct H as (cs & E & L & G).
    pose proof T as (_ & _ & P & _). assert (P' : forall c, In c cs -> 0 < esize tab c) by eauto. clear P. rename P' into P.
    assert (X : (fix go (es : list cexp) : res (list color) :=
                 match es with
                 | [] => Ok []
                 | e' :: es' => c <- ceval tab cmap vars b e' ;; cs <- go es' ;; Ok (c :: cs)
                 end) es = Ok (combine cs (map (fun e' => match cval tab vars a e' with VE i => i | VT _ => 0 end) es))).
    { clear E. revert cs L G P. cbn in B. induction IHs as [|e es He Hes IH]; intros [|c cs] L G P; cbn in *; try discriminate; auto.
      destruct G as [G1 G2].
      assert (B1 : brel b a (cvars e)) by (eapply brel_incl; [exact B|]; apply incl_appl, incl_refl).
      rewrite (He _ _ _ G1 B1). cbn [bind].
      rewrite (IH (brel_incl _ _ _ _ B (incl_appr _ (incl_refl _))) cs); auto. cbn [bind].
      pose proof (cval_typed _ _ a G1 (fun v I => proj1 (B1 v I))) as V.
      unfold vtyped, vnum in *. rewrite (esize_enum c) in * by (apply P; cbn; auto).
      destruct (cval tab vars a e); [reflexivity|contradiction]. }
    cbn [ceval]. rewrite X. cbn [bind].
    assert (C : map fst (combine cs (map (fun e' => match cval tab vars a e' with VE i => i | VT _ => 0 end) es)) = cs).
    { clear - L. revert cs L. induction es; intros [|c cs] L; cbn in *; try discriminate; auto. f_equal. apply IHes. lia. }
    rewrite C. rewrite (find_product_ok _ _ E). unfold get_color. rewrite E.
    rewrite get_color_loop_ok. rewrite combine_length, map_length, <- L, Nat.min_id, Nat.eqb_refl. cbn [plus].
    rewrite Nat.mul_1_l.
    assert (V : vtyped tab ty (cval tab vars a (ETup es))).
    { apply cval_typed; [cbn; eauto|]. intros v I. apply (B v I). }
    pose proof (vnum_lt _ _ V) as K. unfold vnum in K |- *. cbn [cval] in K |- *. rewrite E in K |- *.
    apply color_at_ok. exact K.
Qed.

Lemma value_eqb_eq : forall u v, value_eqb u v = true <-> u = v.
Proof.
  intros [i|l] [j|m]; cbn; split; intros H; try discriminate.
  - apply Nat.eqb_eq in H. congruence.
  - inversion H. apply Nat.eqb_refl.
  - destruct (list_eq_dec Nat.eq_dec l m); [congruence|discriminate].
  - inversion H. destruct (list_eq_dec Nat.eq_dec m m); congruence.
Qed.

Lemma vnum_eqb : forall ty u v, vtyped tab ty u -> vtyped tab ty v ->
  Nat.eqb (vnum tab ty u) (vnum tab ty v) = value_eqb u v.
Proof.
  intros. destruct (value_eqb u v) eqn:E.
  - apply value_eqb_eq in E. subst. apply Nat.eqb_refl.
  - apply Nat.eqb_neq. intros C. apply vnum_inj in C; auto. apply value_eqb_eq in C. congruence.
Qed.

Lemma enum_not_tuple : forall ty i, 0 < esize tab ty -> is_tuple tab (ty, i) = false.
Proof. intros. unfold is_tuple, tuple_colors. cbn [fst]. rewrite esize_enum by auto. reflexivity. Qed.

Lemma geval_ok : forall g b a, gtyped n g -> brel b a (gvars g) ->
  geval tab cmap vars b g = Ok (gval tab vars a g).
Proof.
  induction g; intros b a H B; cbn in *;
  try (destruct H as (ty & E & H1 & H2);
       pose proof (brel_incl _ _ _ _ B (incl_appl _ (incl_refl _))) as B1;
       pose proof (brel_incl _ _ _ _ B (incl_appr _ (incl_refl _))) as B2;
       rewrite (ceval_ok _ _ _ _ H1 B1), (ceval_ok _ _ _ _ H2 B2); cbn [bind];
       pose proof (cval_typed _ _ a H1 (fun v I => proj1 (B1 v I))) as V1;
       pose proof (cval_typed _ _ a H2 (fun v I => proj1 (B2 v I))) as V2;
       unfold color_cmp; rewrite !enum_not_tuple by auto; cbn [orb fst snd]; rewrite Nat.eqb_refl; cbn [negb];
       unfold vnum, vtyped in *; rewrite (esize_enum ty) in * by auto;
       destruct (cval tab vars a l), (cval tab vars a r); try contradiction; reflexivity);
  try (destruct H as (ty & H1 & H2);
       pose proof (brel_incl _ _ _ _ B (incl_appl _ (incl_refl _))) as B1;
       pose proof (brel_incl _ _ _ _ B (incl_appr _ (incl_refl _))) as B2;
       rewrite (ceval_ok _ _ _ _ H1 B1), (ceval_ok _ _ _ _ H2 B2); cbn [bind];
       pose proof (cval_typed _ _ a H1 (fun v I => proj1 (B1 v I))) as V1;
       pose proof (cval_typed _ _ a H2 (fun v I => proj1 (B2 v I))) as V2;
       unfold color_eqb; cbn [fst snd]; rewrite Nat.eqb_refl, vnum_eqb by auto; reflexivity);
  (destruct H as [H1 H2];
   pose proof (brel_incl _ _ _ _ B (incl_appl _ (incl_refl _))) as B1;
   pose proof (brel_incl _ _ _ _ B (incl_appr _ (incl_refl _))) as B2;
   rewrite (IHg1 _ _ H1 B1), (IHg2 _ _ H2 B2); reflexivity).
Qed.

(** ** Multisets *)

Definition mids (m : mset) : list nat := map fst (snd m).

(** [m] represents the multiset [f] of colours of type [ty]. *)
Record mrep (ty : nat) (m : mset) (f : value -> N) : Prop := mkRep {
  mr_type : fst m = Some ty \/ (fst m = None /\ snd m = []);
  mr_nodup : NoDup (mids m);
  mr_ids : Forall (fun i => i < csize tab ty) (mids m);
  mr_val : forall v, vtyped tab ty v -> mlook (snd m) (vnum tab ty v) = f v }.

Lemma mlook_in : forall l i, ~ In i (map fst l) -> mlook l i = 0%N.
Proof.
  induction l as [|[j k] l IH]; intros i H; cbn in *; auto.
  destruct (Nat.eqb_spec j i); [exfalso; auto|]. auto.
Qed.

Lemma mlook_put : forall l i f j, mlook (mset_at l i f) j = if Nat.eqb i j then f (mlook l i) else mlook l j.
Proof.
  induction l as [|[k x] l IH]; intros i f j; cbn.
  - destruct (Nat.eqb_spec i j); auto.
  - destruct (Nat.eqb_spec k i); cbn.
    + subst. destruct (Nat.eqb_spec i j); auto.
    + rewrite IH. destruct (Nat.eqb_spec k j); destruct (Nat.eqb_spec i j); auto. congruence.
Qed.

Lemma put_ids : forall l i f, map fst (mset_at l i f) = if in_dec Nat.eq_dec i (map fst l) then map fst l else map fst l ++ [i].
Proof.
  induction l as [|[k x] l IH]; intros i f; [reflexivity|]. cbn [mset_at map fst].
  destruct (in_dec Nat.eq_dec i (k :: map fst l)) as [I|I]; destruct (Nat.eqb_spec k i); cbn [map fst].
  - reflexivity.
  - rewrite IH. destruct (in_dec Nat.eq_dec i (map fst l)) as [|N]; auto. destruct I; [congruence|contradiction].
  - exfalso. apply I. left. auto.
  - rewrite IH. destruct (in_dec Nat.eq_dec i (map fst l)); auto. exfalso. apply I. right. auto.
Qed.

Lemma put_nodup : forall l i f, NoDup (map fst l) -> NoDup (map fst (mset_at l i f)).
Proof.
  intros. rewrite put_ids. destruct (in_dec Nat.eq_dec i (map fst l)); auto.
  rewrite <- (rev_involutive (map fst l ++ [i])), rev_app_distr. apply NoDup_rev. cbn. constructor.
  - rewrite <- in_rev. auto.
  - apply NoDup_rev. auto.
Qed.

Lemma put_forall : forall l i f (P : nat -> Prop), Forall P (map fst l) -> P i -> Forall P (map fst (mset_at l i f)).
Proof.
  intros. rewrite put_ids. destruct (in_dec Nat.eq_dec i (map fst l)); auto. apply Forall_app. auto.
Qed.

Lemma mlook_le_sum : forall l i, (mlook l i <= sumN (map snd l))%N.
Proof. induction l as [|[j k] l IH]; intros i; cbn; [lia|]. destruct (Nat.eqb j i); [lia|]. specialize (IH i). lia. Qed.

Lemma put_sum : forall l i k, (sumN (map snd l) + k < 4294967296)%N ->
  sumN (map snd (mset_at l i (fun x => cw32 (x + k)))) = (sumN (map snd l) + k)%N.
Proof.
  induction l as [|[j x] l IH]; intros i k H; cbn in *.
  - unfold cw32. rewrite N.mod_small by lia. lia.
  - destruct (Nat.eqb j i); cbn.
    + unfold cw32. rewrite N.mod_small by lia. lia.
    + rewrite IH by lia. lia.
Qed.

Definition vsingle (w : value) (k : N) : value -> N := fun v => if value_eqb w v then k else 0%N.

(** operator[](c) += k *)
Lemma mput_ok : forall ty m f w k, mrep ty m f -> vtyped tab ty w -> (msize m + k < 4294967296)%N ->
  exists m', mput m (ty, vnum tab ty w) (fun x => cw32 (x + k)) = Ok m' /\
    mrep ty m' (fun v => f v + vsingle w k v)%N /\ msize m' = (msize m + k)%N /\ fst m' = Some ty.
Proof.
  intros ty m f w k [Ty ND I V] W S.
  unfold mput. cbn [fst snd].
  assert (E : (match fst m with None => ty | Some t => t end) = ty) by (destruct Ty as [->|[-> _]]; auto).
  rewrite E, Nat.eqb_refl. eexists. split; [reflexivity|]. split; [|split].
  - constructor; cbn [fst snd]; unfold mids in *.
    + left. auto.
    + apply put_nodup. auto.
    + apply put_forall; auto. apply vnum_lt. auto.
    + intros v Hv. rewrite mlook_put, vnum_eqb by auto. unfold vsingle.
      destruct (value_eqb w v) eqn:Ev.
      * apply value_eqb_eq in Ev. subst. rewrite V by auto. unfold cw32. apply N.mod_small.
        rewrite <- V by auto. pose proof (mlook_le_sum (snd m) (vnum tab ty v)). unfold msize in S. lia.
      * rewrite V by auto. lia.
  - unfold msize in *. cbn [snd]. apply put_sum. auto.
  - reflexivity.
Qed.

Lemma mrep_ext : forall ty m f g, mrep ty m f -> (forall v, vtyped tab ty v -> f v = g v) -> mrep ty m g.
Proof. intros ty m f g [A B C D] E. constructor; auto. intros. rewrite D, E; auto. Qed.

Lemma mrep_empty : forall ty, mrep ty mempty (fun _ => 0%N).
Proof. intros. constructor; cbn; auto; constructor. Qed.

Lemma mfill_ok : forall ty k ws m f, mrep ty m f -> Forall (vtyped tab ty) ws ->
  (msize m + k * N.of_nat (length ws) < 4294967296)%N ->
  exists m', mfill m (map (fun w => ((ty, vnum tab ty w), k)) ws) = Ok m' /\
    mrep ty m' (fun v => f v + sumN (map (fun w => vsingle w k v) ws))%N /\
    (msize m' = msize m + k * N.of_nat (length ws))%N.
Proof.
  intros ty k. induction ws as [|w ws IH]; intros m f R F S; cbn [map mfill].
  - exists m. split; [reflexivity|]. split; [|cbn; lia]. eapply mrep_ext; [exact R|]. intros. cbn. lia.
  - inversion F; subst. cbn [length] in S. rewrite Nat2N.inj_succ in S.
    destruct (@mput_ok ty m f w k R) as (m1 & E & R1 & S1 & _); auto; [nia|]. rewrite E. cbn [bind].
    destruct (IH m1 _ R1) as (m2 & E2 & R2 & S2); auto; [rewrite S1; nia|].
    exists m2. split; [exact E2|]. split.
    + eapply mrep_ext; [exact R2|]. intros. cbn [map sumN]. lia.
    + rewrite S2, S1. cbn [length]. rewrite Nat2N.inj_succ. nia.
Qed.

Lemma cevals_ok : forall ty k es b a, Forall (fun e => ctyped n e ty) es -> brel b a (flat_map cvars es) ->
  cevals tab cmap vars b es k = Ok (map (fun w => ((ty, vnum tab ty w), k)) (map (cval tab vars a) es)) /\
  Forall (vtyped tab ty) (map (cval tab vars a) es).
Proof.
  induction es as [|e es IH]; intros b a F B; cbn; [split; auto; constructor|]. inversion F; subst.
  cbn in B.
  pose proof (brel_incl _ _ _ _ B (incl_appl _ (incl_refl _))) as B1.
  pose proof (brel_incl _ _ _ _ B (incl_appr _ (incl_refl _))) as B2.
  destruct (IH _ _ H2 B2) as [E V]. rewrite (ceval_ok _ _ _ _ H1 B1), E. cbn [bind]. split; auto.
  constructor; auto. eapply cval_typed; eauto. intros v I. apply B1. auto.
Qed.

Lemma madd_loop_ok : forall ty l m f, mrep ty m f -> Forall (fun i => i < csize tab ty) (map fst l) -> NoDup (map fst l) ->
  (msize m + sumN (map snd l) < 4294967296)%N ->
  exists m', madd_loop tab (Some ty) m l = Ok m' /\
    mrep ty m' (fun v => f v + mlook l (vnum tab ty v))%N /\ (msize m' = msize m + sumN (map snd l))%N /\
    (fst m = Some ty -> fst m' = Some ty).
Proof.
  intros ty. induction l as [|[i k] l IH]; intros m f R F ND S; cbn [madd_loop].
  - exists m. split; [reflexivity|]. split; [|cbn; split; [lia|auto]]. eapply mrep_ext; [exact R|]. intros. cbn. lia.
  - cbn [map fst] in F, ND. inversion F; subst. inversion ND; subst. cbn [mcolor]. rewrite color_at_ok by auto. cbn [bind].
    cbn [map snd sumN] in S.
    destruct (@mput_ok ty m f (val_of ty i) k R) as (m1 & E & R1 & S1 & T1); [apply val_typed; auto|lia|].
    rewrite num_val in E by auto. rewrite E. cbn [bind].
    destruct (IH m1 _ R1) as (m2 & E2 & R2 & S2 & T2); auto; [lia|].
    exists m2. split; [exact E2|]. split; [|split; [cbn; lia|auto]].
    eapply mrep_ext; [exact R2|]. intros v Hv. cbn. unfold vsingle.
    rewrite <- vnum_eqb with (ty := ty), num_val by (auto; apply val_typed; auto).
    destruct (Nat.eqb_spec i (vnum tab ty v)); [|lia].
    rewrite (mlook_in l (vnum tab ty v)) by (subst; auto). lia.
Qed.

Lemma madd_ok : forall ty m o f g, mrep ty m f -> mrep ty o g -> (msize m + msize o < 4294967296)%N ->
  exists m', madd tab m o = Ok m' /\ mrep ty m' (fun v => f v + g v)%N /\ (msize m' = msize m + msize o)%N.
Proof.
  intros ty m o f g R O S. unfold madd. pose proof R as [Rt Rn Ri Rv]. pose proof O as [Ot On Oi Ov].
  destruct Ot as [Ot|[Ot Oe]].
  - assert (E : (match fst m with None => fst o | Some t => Some t end) = Some ty) by (destruct Rt as [->|[-> _]]; auto).
    rewrite E, Ot. cbn [type_clash]. rewrite Nat.eqb_refl. cbn [negb].
    destruct (@madd_loop_ok ty (snd o) (Some ty, snd m) f) as (m' & E' & R' & S' & _); auto.
    + constructor; cbn; auto.
    + exists m'. split; [exact E'|]. split; [|exact S']. eapply mrep_ext; [exact R'|]. intros. cbn. rewrite Ov; auto.
  - rewrite Ot, Oe. assert (E : type_clash (match fst m with None => None | Some t => Some t end) None = false) by (destruct (fst m); auto).
    rewrite E. cbn [madd_loop].
    eexists. split; [reflexivity|]. split; [|unfold msize; rewrite Oe; cbn; lia].
    constructor; cbn; auto.
    + destruct Rt as [->|[-> X]]; auto.
    + intros v Hv. rewrite Rv by auto. rewrite <- Ov by auto. rewrite Oe. cbn. lia.
Qed.

Lemma put_mid : forall pre i k l f, ~ In i (map fst pre) -> mset_at (pre ++ (i, k) :: l) i f = pre ++ (i, f k) :: l.
Proof.
  induction pre as [|[j x] pre IH]; intros i k l f H; cbn.
  - rewrite Nat.eqb_refl. reflexivity.
  - cbn in H. destruct (Nat.eqb_spec j i); [exfalso; auto|]. rewrite IH by auto. reflexivity.
Qed.

Lemma msub_loop_ok : forall ty o l pre, (forall i, i < csize tab ty -> mget o (ty, i) = mlook (snd o) i) ->
  Forall (fun i => i < csize tab ty) (map fst l) -> NoDup (map fst pre ++ map fst l) ->
  msub_loop tab (Some ty) o (Some ty, pre ++ l) l =
    Ok (Some ty, pre ++ map (fun x => (fst x, (snd x - mlook (snd o) (fst x))%N)) l).
Proof.
  intros ty o. induction l as [|[i k] l IH]; intros pre G F ND; cbn [msub_loop]; [cbn [map]; rewrite app_nil_r; reflexivity|].
  cbn [map fst] in F, ND. inversion F; subst. cbn [mcolor]. rewrite color_at_ok by auto. cbn [bind].
  unfold mput at 1. cbn [fst snd]. rewrite Nat.eqb_refl. cbn [bind].
  assert (NI : ~ In i (map fst pre)).
  { intros I. apply NoDup_remove_2 in ND. apply ND. apply in_or_app. auto. }
  rewrite put_mid by auto.
  replace (pre ++ (i, if (k <? mget o (ty, i))%N then 0%N else (k - mget o (ty, i))%N) :: l) with
    ((pre ++ [(i, (k - mlook (snd o) i)%N)]) ++ l).
  - rewrite IH; auto.
    + rewrite <- app_assoc. reflexivity.
    + rewrite map_app. cbn. rewrite <- app_assoc. cbn. auto.
  - rewrite <- app_assoc. cbn. do 3 f_equal. rewrite G by auto. destruct (N.ltb_spec k (mlook (snd o) i)); lia.
Qed.

Lemma mlook_map : forall l (h : nat -> N -> N) j, (forall i, h i 0%N = 0%N) ->
  mlook (map (fun x => (fst x, h (fst x) (snd x))) l) j = h j (mlook l j).
Proof.
  induction l as [|[i k] l IH]; intros h j H; cbn; [auto|].
  destruct (Nat.eqb_spec i j); [subst; auto|]. apply IH. auto.
Qed.

Lemma sum_map_le : forall l (h : nat -> N -> N), (forall i k, (h i k <= k)%N) ->
  (sumN (map snd (map (fun x : nat * N => (fst x, h (fst x) (snd x))) l)) <= sumN (map snd l))%N.
Proof. induction l as [|[i k] l IH]; intros h H; cbn; [lia|]. specialize (IH h H). specialize (H i k). lia. Qed.

Lemma mget_mlook : forall ty m f i, mrep ty m f -> mget m (ty, i) = mlook (snd m) i.
Proof.
  intros ty m f i [Ty _ _ _]. unfold mget. cbn [fst snd]. destruct Ty as [->|[-> _]]; auto. rewrite Nat.eqb_refl. auto.
Qed.

Lemma msub_ok : forall ty m o f g, mrep ty m f -> mrep ty o g ->
  exists m', msub tab m o = Ok m' /\ mrep ty m' (fun v => f v - g v)%N /\ (msize m' <= msize m)%N.
Proof.
  intros ty m o f g R O. unfold msub. pose proof R as [Rt Rn Ri Rv]. pose proof O as [Ot On Oi Ov].
  destruct Rt as [Rt|[Rt Re]].
  - rewrite Rt. assert (E : type_clash (Some ty) (fst o) = false).
    { destruct Ot as [->|[-> _]]; cbn; auto. rewrite Nat.eqb_refl. auto. }
    rewrite E. pose proof (msub_loop_ok ty o (snd m) []) as L. cbn [app map] in L. rewrite L; auto.
    + eexists. split; [reflexivity|]. split.
      * constructor; cbn [fst snd]; auto; unfold mids in *; cbn [snd].
        -- rewrite map_map. cbn. auto.
        -- rewrite map_map. cbn. auto.
        -- intros v Hv. rewrite (mlook_map (snd m) (fun i k => k - mlook (snd o) i)%N) by (intros; lia).
           rewrite Rv, Ov by auto. reflexivity.
      * unfold msize. cbn [snd]. apply (sum_map_le (snd m) (fun i k => k - mlook (snd o) i)%N). intros; lia.
    + intros. eapply mget_mlook; eauto.
  - rewrite Rt, Re. assert (E : type_clash (fst o) (fst o) = false).
    { destruct Ot as [->|[-> _]]; cbn; auto. rewrite Nat.eqb_refl. auto. }
    rewrite E. cbn [msub_loop]. eexists. split; [reflexivity|]. split.
    + constructor; cbn [fst snd]; unfold mids; cbn; auto.
      * destruct Ot as [->|[-> _]]; auto.
      * constructor.
      * intros v Hv. rewrite <- Rv by auto. rewrite Re. cbn. lia.
    + unfold msize. cbn. lia.
Qed.

Lemma mscale_ok : forall ty m f k, mrep ty m f -> (msize m * k < 4294967296)%N ->
  mrep ty (mscale m k) (fun v => k * f v)%N /\ (msize (mscale m k) <= msize m * k)%N.
Proof.
  intros ty m f k [Rt Rn Ri Rv] S. split.
  - constructor; cbn [fst snd mscale]; unfold mids in *; cbn [mscale snd].
    + destruct Rt as [->|[-> ->]]; auto.
    + rewrite map_map. cbn. auto.
    + rewrite map_map. cbn. auto.
    + intros v Hv. rewrite (mlook_map (snd m) (fun _ x => cw32 (x * k))) by (intros; reflexivity).
      rewrite Rv by auto. unfold cw32. rewrite N.mod_small; [lia|].
      rewrite <- Rv by auto. pose proof (mlook_le_sum (snd m) (vnum tab ty v)). unfold msize in S. nia.
  - unfold msize, mscale in *. cbn [snd]. revert S. generalize (snd m). intros l.
    induction l as [|[i x] l IH]; intros S; cbn in *; [lia|].
    assert (cw32 (x * k) <= x * k)%N by (unfold cw32; apply N.mod_le; lia). rewrite N.mul_add_distr_r in *. lia.
Qed.

Lemma aexp_ind' : forall P : aexp -> Prop,
  (forall es k, P (ANum es k)) -> (forall es, Forall P es -> P (AAdd es)) ->
  (forall l r, P l -> P r -> P (ASub l r)) -> (forall e k, P e -> P (AScal e k)) -> forall a, P a.
Proof.
  intros P H1 H2 H3 H4. fix IH 1. intros [|es| |]; [apply H1| |apply H3; apply IH|apply H4, IH].
  apply H2. induction es; constructor; [apply IH|assumption].
Qed.

(** Evaluating a well-typed arc expression yields the multiset it denotes. *)
Lemma aeval_ok : forall a ty b s m, atyped n a ty -> brel b s (avars a) -> (aweight a < 2147483648)%N ->
  exists m', aeval tab cmap vars b a m = Ok m' /\ mrep ty m' (mval tab vars s a) /\ (msize m' <= aweight a)%N.
Proof.
  intros a. induction a using aexp_ind'; intros ty b s m H0 B W.
  - cbn in *. destruct H0 as [NE F]. destruct (cevals_ok ty k es b s F B) as [E V].
    destruct (@mfill_ok ty k (map (cval tab vars s) es) mempty _ (mrep_empty ty) V) as (m' & E' & R' & S').
    { rewrite map_length. unfold msize. cbn. lia. }
    exists m'. split.
    + destruct es; [congruence|]. rewrite E. cbn [bind]. exact E'.
    + split.
      * eapply mrep_ext; [exact R'|]. intros. cbn. rewrite map_map. reflexivity.
      * rewrite S', map_length. unfold msize. cbn. lia.
  - cbn [aeval]. cbn [atyped] in H0. destruct H0 as [_ G]. cbn [aweight] in W. cbn [avars] in B.
    assert (X : forall m ms f, mrep ty ms f -> (msize ms + sumN (map aweight es) < 4294967296)%N ->
      exists m', (fix go (es : list aexp) (m ms : mset) : res mset :=
       match es with
       | [] => Ok ms
       | e :: es' => m' <- aeval tab cmap vars b e m ;; ms' <- madd tab ms m' ;; go es' m' ms'
       end) es m ms = Ok m' /\ mrep ty m' (fun v => f v + sumN (map (fun e => mval tab vars s e v) es))%N /\
        (msize m' <= msize ms + sumN (map aweight es))%N).
    { clear m. induction H as [|e es He Hes IH]; intros m ms f R S.
      - exists ms. split; [reflexivity|]. split; [|cbn; lia]. eapply mrep_ext; [exact R|]. intros. cbn. lia.
      - cbn [map sumN flat_map] in *. destruct G as [G1 G2].
        destruct (He ty b s m G1) as (m1 & E1 & R1 & S1).
        { eapply brel_incl; [exact B|]. apply incl_appl, incl_refl. }
        { lia. }
        rewrite E1. cbn [bind].
        destruct (@madd_ok ty ms m1 f _ R R1) as (m2 & E2 & R2 & S2); [lia|]. rewrite E2. cbn [bind].
        assert (B2 : brel b s (flat_map avars es)) by (eapply brel_incl; [exact B|]; apply incl_appr, incl_refl).
        assert (W2 : (sumN (map aweight es) < 2147483648)%N) by lia.
        assert (S3' : (msize m2 + sumN (map aweight es) < 4294967296)%N) by lia.
        edestruct IH as (m3 & E3 & R3 & S3); [first [exact G2|exact B2|exact W2]..|exact R2|exact S3'|].
        exists m3. split; [exact E3|]. split; [|lia]. eapply mrep_ext; [exact R3|]. intros. cbn. lia. }
    destruct (X m mempty _ (mrep_empty ty)) as (m' & E & R & S).
    { unfold msize. cbn. lia. }
    exists m'. split; [exact E|]. split.
    + eapply mrep_ext; [exact R|]. intros. cbn. lia.
    + unfold msize in S at 2. cbn in S. cbn [aweight]. lia.
  - cbn in *. destruct H0 as [H1 H2].
    destruct (IHa1 ty b s m H1) as (m1 & E1 & R1 & S1); [eapply brel_incl; [exact B|]; apply incl_appl, incl_refl|lia|].
    rewrite E1. cbn [bind].
    destruct (IHa2 ty b s m1 H2) as (m2 & E2 & R2 & S2); [eapply brel_incl; [exact B|]; apply incl_appr, incl_refl|lia|].
    rewrite E2. cbn [bind].
    destruct (msub_ok _ _ _ _ _ R1 R2) as (m3 & E3 & R3 & S3). exists m3. split; [exact E3|]. split; [exact R3|lia].
  - cbn in *.
    destruct (IHa ty b s m H0 B) as (m1 & E1 & R1 & S1); [nia|].
    rewrite E1. cbn [bind]. eexists. split; [reflexivity|].
    destruct (@mscale_ok ty m1 _ k R1) as [R2 S2]; [nia|]. split; [exact R2|]. nia.
Qed.

Lemma evaluate_ok : forall a ty b s, atyped n a ty -> brel b s (avars a) -> (aweight a < 2147483648)%N ->
  exists m', evaluate tab cmap vars b a = Ok m' /\ mrep ty m' (mval tab vars s a) /\ (msize m' <= aweight a)%N.
Proof. intros. apply aeval_ok; auto. Qed.

End Eval.
