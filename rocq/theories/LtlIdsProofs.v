(** The two parts of a product id can be read back. *)
From Verif Require Import Base LtlIds.
Local Open Scope N_scope.

Lemma pid_eq : forall m b, m < 2 ^ 44 -> get_product_id m b = b mod 2 ^ 20 + m * 2 ^ 20.
Proof.
  intros m b Hm. unfold get_product_id, size_t, buchi_mask, nbits. rewrite N.land_ones, N.shiftl_mul_pow2.
  rewrite (N.mod_small (m * 2 ^ 20)) by (change (2 ^ 64) with (2 ^ 44 * 2 ^ 20); apply N.mul_lt_mono_pos_r; [reflexivity|exact Hm]).
  symmetry; rewrite <- N.lxor_lor, <- N.add_nocarry_lxor; try reflexivity.
  - apply N.bits_inj. intros i. rewrite N.land_spec, N.bits_0. destruct (N.lt_ge_cases i 20) as [L|L].
    + rewrite N.mul_pow2_bits_low by exact L. apply andb_false_r.
    + rewrite N.mod_pow2_bits_high by exact L. reflexivity.
  - apply N.bits_inj. intros i. rewrite N.land_spec, N.bits_0. destruct (N.lt_ge_cases i 20) as [L|L].
    + rewrite N.mul_pow2_bits_low by exact L. apply andb_false_r.
    + rewrite N.mod_pow2_bits_high by exact L. reflexivity.
Qed.
Lemma ids_read_back : forall m b, m < 2 ^ 44 -> b < 2 ^ 20 ->
  get_marking_id (get_product_id m b) = m /\ get_buchi_state (get_product_id m b) = b.
Proof.
  intros m b Hm Hb. rewrite pid_eq by exact Hm. rewrite (N.mod_small b) by exact Hb. unfold get_marking_id, get_buchi_state, buchi_mask, nbits.
  rewrite N.shiftr_div_pow2, N.land_ones. split.
  - rewrite N.div_add by discriminate. rewrite N.div_small by exact Hb. reflexivity.
  - rewrite N.mod_add by discriminate. apply N.mod_small. exact Hb.
Qed.
Lemma ids_injective : forall m b m' b', m < 2 ^ 44 -> m' < 2 ^ 44 -> b < 2 ^ 20 -> b' < 2 ^ 20 ->
  get_product_id m b = get_product_id m' b' -> m = m' /\ b = b'.
Proof.
  intros m b m' b' H1 H2 H3 H4 E. destruct (ids_read_back m b H1 H3) as (A & B). destruct (ids_read_back m' b' H2 H4) as (A' & B').
  rewrite E in A, B. split; congruence.
Qed.
Lemma ids_collide : exists b b', b <> b' /\ get_product_id 0 b = get_product_id 0 b'.
Proof. exists 0, (2 ^ 20). split; [discriminate|reflexivity]. Qed.
