(** The numbering of the colours of a product (C34). *)
From Verif Require Import Base BaseLemmas ColSyntax ColSpec ColModel ColRadix ColEval.

Lemma components_ok : forall tab cs index div, 0 < div -> (forall c, In c cs -> 0 < esize tab c) ->
  components tab cs index div = combine cs (digits (map (esize tab) cs) (index / div)).
Proof.
  induction cs as [|c cs IH]; intros index div D P; cbn; [reflexivity|].
  change (ksize tab c) with (esize tab c). pose proof (P c (or_introl eq_refl)). f_equal.
  rewrite IH; [|nia|intros; apply P; right; auto]. rewrite Nat.div_div by lia. reflexivity.
Qed.

Theorem tuple_numbering : forall n, tab_ok n -> forall ty cs l, nth_error (cn_types n) ty = Some (TProd cs) ->
  Forall2 (fun i c => i < esize (cn_types n) c) l cs ->
  get_color (cn_types n) ty (combine cs l) = Ok (ty, vnum (cn_types n) ty (VT l)) /\
  tuple_colors (cn_types n) (ty, vnum (cn_types n) ty (VT l)) = combine cs l.
Proof.
  intros n T ty cs l E F.
  assert (F' : Forall2 (fun i s => i < s) l (map (esize (cn_types n)) cs)) by (clear E; induction F; cbn; constructor; auto).
  assert (LE : length cs = length l) by (clear - F; induction F; cbn; auto).
  split.
  - unfold get_color. rewrite E. rewrite get_color_loop_ok. rewrite combine_length, <- LE, Nat.min_id, Nat.eqb_refl. cbn [plus]. rewrite Nat.mul_1_l.
    assert (V : vtyped (cn_types n) ty (VT l)) by (unfold vtyped; rewrite E; exact F).
    pose proof (vnum_lt n ty (VT l) V) as K. unfold vnum in K |- *. rewrite E in K |- *.
    unfold color_at. apply Nat.ltb_lt in K. unfold sizes. rewrite K. reflexivity.
  - unfold tuple_colors. cbn [fst snd]. rewrite E. rewrite components_ok; [|lia|].
    + rewrite Nat.div_1_r. unfold vnum. rewrite E. rewrite digits_num by auto. reflexivity.
    + intros c I. destruct T as (_ & _ & P & _). eapply P; eauto.
Qed.
