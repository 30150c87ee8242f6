(** Numbers of colour sequences and of bindings (C37). *)
From Verif Require Import Base BaseLemmas ColSyntax ColSpec ColModel ColRadix ColEval ColTuple ExpModel ExpSet.
From Coq Require Import Permutation.

Definition fits (l ss : list nat) : Prop := Forall2 (fun i s => i < s) l ss.

Lemma total_prod : forall ss, total_size ss = prod ss.
Proof.
  intros. unfold total_size. rewrite (fold_mul (fun s => s) ss 1). rewrite map_id. lia.
Qed.

Lemma fits_pos : forall l ss, fits l ss -> Forall (fun s => 0 < s) ss.
Proof. induction 1; constructor; auto. lia. Qed.
Lemma fits_prod : forall l ss, fits l ss -> 0 < prod ss.
Proof. intros. apply prod_pos. eapply fits_pos; eauto. Qed.

Lemma mul_div : forall s k, 0 < s -> s * k / s = k.
Proof. intros. rewrite Nat.mul_comm. apply Nat.div_mul. lia. Qed.

Lemma seq_cons_eq : forall s ss i l, 0 < s -> seq_num (s :: ss) (i :: l) = prod ss * i + seq_num ss l.
Proof. intros. unfold seq_num. rewrite !total_prod. cbn [seq_loop prod]. rewrite mul_div by auto. reflexivity. Qed.
Lemma decode_0 : forall s ss e, 0 < s -> decode (s :: ss) e 0 = (e / prod ss) mod s.
Proof. intros. unfold decode. rewrite total_prod. cbn [decode_loop prod]. rewrite mul_div by auto. reflexivity. Qed.
Lemma decode_S : forall s ss e i, 0 < s -> decode (s :: ss) e (S i) = decode ss e i.
Proof. intros. unfold decode. rewrite !total_prod. cbn [decode_loop prod]. rewrite mul_div by auto. reflexivity. Qed.

Lemma seq_lt : forall l ss, fits l ss -> seq_num ss l < prod ss.
Proof.
  induction 1 as [|i s l ss H F IH]; [cbn; lia|]. rewrite seq_cons_eq by lia. cbn [prod]. nia.
Qed.

Lemma decode_seq_gen : forall l ss k i x, fits l ss -> nth_error l i = Some x -> decode ss (k * prod ss + seq_num ss l) i = x.
Proof.
  intros l ss k i x F. revert k i. induction F as [|j s l ss H F IH]; intros k i E; [destruct i; discriminate|].
  pose proof (fits_prod _ _ F) as PP. pose proof (seq_lt _ _ F) as LT.
  rewrite seq_cons_eq by lia. cbn [prod].
  replace (k * (s * prod ss) + (prod ss * j + seq_num ss l)) with ((k * s + j) * prod ss + seq_num ss l) by nia.
  destruct i; cbn in E.
  - inversion E; subst. rewrite decode_0 by lia. rewrite Nat.add_comm, Nat.div_add by lia. rewrite Nat.div_small by auto.
    cbn [plus]. rewrite Nat.add_comm, Nat.mod_add by lia. apply Nat.mod_small. auto.
  - rewrite decode_S by lia. apply IH. auto.
Qed.
Lemma decode_seq : forall l ss i x, fits l ss -> nth_error l i = Some x -> decode ss (seq_num ss l) i = x.
Proof. intros. rewrite <- (decode_seq_gen l ss 0 i x); auto. Qed.

Lemma fits_length : forall l ss, fits l ss -> length l = length ss.
Proof. induction 1; cbn; auto. Qed.

Lemma seq_inj : forall l l' ss, fits l ss -> fits l' ss -> seq_num ss l = seq_num ss l' -> l = l'.
Proof.
  intros l l' ss F F' E. apply (list_eq_nth 0).
  - rewrite (fits_length _ _ F), (fits_length _ _ F'). auto.
  - intros i L. pose proof (fits_length _ _ F). pose proof (fits_length _ _ F').
    rewrite <- (decode_seq l ss i (nth i l 0) F) by (apply nth_error_nth'; lia).
    rewrite <- (decode_seq l' ss i (nth i l' 0) F') by (apply nth_error_nth'; lia). rewrite E. reflexivity.
Qed.

(** The digits of a number, most significant first. *)
Fixpoint bdigits (ss : list nat) (k : nat) : list nat :=
  match ss with
  | [] => []
  | s :: r => (k / prod r) mod s :: bdigits r k
  end.
Lemma bdigits_fits : forall ss k, Forall (fun s => 0 < s) ss -> fits (bdigits ss k) ss.
Proof.
  induction ss as [|s r IH]; intros k F; cbn; constructor; inversion F; subst; [|apply IH; auto].
  apply Nat.mod_upper_bound. lia.
Qed.
Lemma bdigits_mod : forall ss k, Forall (fun s => 0 < s) ss -> seq_num ss (bdigits ss k) = k mod prod ss.
Proof.
  induction ss as [|s r IH]; intros k F; [rewrite Nat.mod_1_r; reflexivity|]. inversion F; subst.
  cbn [bdigits]. rewrite seq_cons_eq by auto. rewrite IH by auto. cbn [prod].
  pose proof (prod_pos r ltac:(auto)). rewrite (Nat.mul_comm s (prod r)). rewrite Nat.mod_mul_r by lia. lia.
Qed.
Lemma bdigits_num : forall ss k, Forall (fun s => 0 < s) ss -> k < prod ss -> seq_num ss (bdigits ss k) = k.
Proof. intros. rewrite bdigits_mod by auto. apply Nat.mod_small. auto. Qed.
Lemma bdigits_seq : forall ss l, fits l ss -> bdigits ss (seq_num ss l) = l.
Proof.
  intros ss l F. pose proof (fits_pos _ _ F) as P. apply (seq_inj _ _ ss); auto; [apply bdigits_fits; auto|].
  apply bdigits_num; auto. apply seq_lt. auto.
Qed.
Lemma bdigits_nth : forall ss k i, i < length ss -> nth_error (bdigits ss k) i = Some (decode ss k i) \/ ~ Forall (fun s => 0 < s) ss.
Proof.
  induction ss as [|s r IH]; intros k i L; [cbn in L; lia|]. destruct (le_lt_dec s 0).
  - right. intros F. inversion F; subst. lia.
  - destruct i; cbn [bdigits nth_error].
    + left. rewrite decode_0 by auto. reflexivity.
    + rewrite decode_S by auto. destruct (IH k i ltac:(cbn in L; lia)) as [E|E]; [auto|]. right. intros F. inversion F; auto.
Qed.
Lemma decode_lt : forall ss k i s, Forall (fun s => 0 < s) ss -> nth_error ss i = Some s -> decode ss k i < s.
Proof.
  intros ss k i s F. revert i. induction F as [|t r H F IH]; intros i E; destruct i; cbn in E; try discriminate.
  - inversion E; subst. rewrite decode_0 by auto. apply Nat.mod_upper_bound. lia.
  - rewrite decode_S by auto. auto.
Qed.

(** ** Colours *)

Section Colours.
Variable n : cpn.
Notation tab := (cn_types n).
Hypothesis T : tab_ok n.

(** The number of a colour in the multisets of a place of type [ty]. *)
Definition enc (ty : nat) (v : value) : nat :=
  match v with
  | VE i => i
  | VT l => seq_num (basic_sizes n ty) l
  end.

Lemma basic_total : forall ty d, nth_error tab ty = Some d -> total_size (basic_sizes n ty) = csize tab ty.
Proof.
  intros ty d E. rewrite total_prod. unfold basic_sizes. rewrite E. destruct d as [k|cs].
  - cbn. lia.
  - rewrite (csize_prod n _ _ E). reflexivity.
Qed.

Lemma basic_pos : forall ty d, nth_error tab ty = Some d -> Forall (fun s => 0 < s) (basic_sizes n ty).
Proof.
  intros ty d E. unfold basic_sizes. rewrite E. destruct d as [k|cs].
  - constructor; [|constructor]. eapply csize_pos; eauto.
  - eapply sizes_pos; eauto.
Qed.

Lemma vt_fits : forall ty l, vtyped tab ty (VT l) -> fits l (basic_sizes n ty).
Proof.
  intros ty l V. unfold vtyped in V. unfold basic_sizes. destruct (nth_error tab ty) as [[k|cs]|]; try contradiction.
  apply (proj1 (Forall2_map_r (fun i s => i < s) _ _ _)). auto.
Qed.

Lemma enc_lt : forall ty v, vtyped tab ty v -> enc ty v < csize tab ty.
Proof.
  intros ty v V. destruct v as [i|l].
  - unfold vtyped in V. cbn. unfold csize. destruct (nth_error tab ty) as [[k|cs]|]; try contradiction. auto.
  - pose proof (vt_fits _ _ V) as F. cbn. unfold vtyped in V. destruct (nth_error tab ty) as [[k|cs]|] eqn:E; try contradiction.
    rewrite <- (basic_total _ _ E), total_prod. apply seq_lt. auto.
Qed.

Lemma enc_inj : forall ty u v, vtyped tab ty u -> vtyped tab ty v -> enc ty u = enc ty v -> u = v.
Proof.
  intros ty u v U V E. destruct u as [i|l], v as [j|m]; cbn in E.
  - congruence.
  - unfold vtyped in U, V. destruct (nth_error tab ty) as [[k|cs]|]; contradiction.
  - unfold vtyped in U, V. destruct (nth_error tab ty) as [[k|cs]|]; contradiction.
  - f_equal. eapply seq_inj; [apply vt_fits; exact U|apply vt_fits; exact V|auto].
Qed.

Lemma enc_surj : forall ty c, c < csize tab ty -> exists v, vtyped tab ty v /\ enc ty v = c.
Proof.
  intros ty c L. destruct (nth_error tab ty) as [[k|cs]|] eqn:E.
  - exists (VE c). unfold vtyped, csize in *. rewrite E in *. auto.
  - exists (VT (bdigits (basic_sizes n ty) c)). pose proof (basic_pos _ _ E) as P. split.
    + unfold vtyped. rewrite E. pose proof (bdigits_fits _ c P) as F. unfold basic_sizes in *. rewrite E in *.
      apply (proj2 (Forall2_map_r (fun i s => i < s) _ _ _)). exact F.
    + cbn. apply bdigits_num; auto. rewrite <- total_prod, (basic_total _ _ E). auto.
  - unfold csize in L. rewrite E in L. lia.
Qed.

Lemma enc_eqb : forall ty u v, vtyped tab ty u -> vtyped tab ty v -> Nat.eqb (enc ty u) (enc ty v) = value_eqb u v.
Proof.
  intros ty u v U V. apply Bool.eq_true_iff_eq. rewrite Nat.eqb_eq, value_eqb_eq. split; [apply enc_inj; auto|congruence].
Qed.

Lemma enc_perm : forall ty d, nth_error tab ty = Some d -> Permutation (map (enc ty) (values tab ty)) (seq 0 (csize tab ty)).
Proof.
  intros ty d E. destruct (values_spec n T ty) as [ND IN]. apply NoDup_Permutation.
  - assert (G : forall l, NoDup l -> (forall v, In v l -> vtyped tab ty v) -> NoDup (map (enc ty) l)).
    { induction l as [|x l IH]; intros ND' F; cbn; constructor; inversion ND'; subst.
      - intros I. apply in_map_iff in I. destruct I as (y & Ey & I).
        assert (y = x) by (eapply enc_inj; eauto; [apply F; right; auto|apply F; left; auto]). subst. auto.
      - apply IH; auto. intros. apply F. right. auto. }
    apply G; auto. intros v. apply IN.
  - apply seq_NoDup.
  - intros c. rewrite in_map_iff, in_seq. split.
    + intros (v & <- & I). apply IN in I. pose proof (enc_lt _ _ I). lia.
    + intros [_ L]. destruct (enc_surj ty c ltac:(lia)) as (v & V & Ev). exists v. split; auto. apply IN. auto.
Qed.

Lemma sumZ_perm : forall a b, Permutation a b -> sumZ a = sumZ b.
Proof. induction 1; unfold sumZ in *; cbn in *; lia. Qed.

Lemma sum_values : forall ty d f, nth_error tab ty = Some d ->
  sum_to (csize tab ty) f = sumZ (map (fun v => f (enc ty v)) (values tab ty)).
Proof.
  intros ty d f E. unfold sum_to. rewrite <- (map_map (enc ty) f). apply sumZ_perm. apply Permutation_map.
  apply Permutation_sym. eapply enc_perm; eauto.
Qed.

End Colours.
