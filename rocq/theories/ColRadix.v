(** Mixed-radix numbers: the numbering of tuples (used for colours of products and for the
    enumeration of bindings). *)
From Verif Require Import Base BaseLemmas ColSyntax ColSpec.

Fixpoint prod (ss : list nat) : nat := match ss with [] => 1 | s :: r => s * prod r end.

Fixpoint digits (ss : list nat) (k : nat) : list nat :=
  match ss with
  | [] => []
  | s :: r => k mod s :: digits r (k / s)
  end.

Lemma prod_pos : forall ss, Forall (fun s => 0 < s) ss -> 0 < prod ss.
Proof. induction 1; cbn; nia. Qed.

Lemma fold_mul : forall {A} (f : A -> nat) l a, fold_left (fun x c => x * f c) l a = a * prod (map f l).
Proof. induction l; intros; cbn; [lia|]. rewrite IHl. nia. Qed.

Lemma num_digits : forall ss k, Forall (fun s => 0 < s) ss -> k < prod ss -> tuple_num ss (digits ss k) = k.
Proof.
  induction ss as [|s r IH]; intros k F L; cbn in *; [lia|]. inversion F; subst.
  rewrite IH; auto.
  - rewrite Nat.add_comm. symmetry. apply Nat.div_mod. lia.
  - apply Nat.div_lt_upper_bound; lia.
Qed.

Lemma digits_lt : forall ss k, Forall (fun s => 0 < s) ss -> Forall2 (fun i s => i < s) (digits ss k) ss.
Proof.
  induction ss as [|s r IH]; intros k F; cbn; constructor; inversion F; subst; auto.
  apply Nat.mod_upper_bound. lia.
Qed.

Lemma num_lt : forall ss l, Forall2 (fun i s => i < s) l ss -> tuple_num ss l < prod ss.
Proof. induction 1; cbn; [lia|]. nia. Qed.

Lemma digits_num : forall ss l, Forall2 (fun i s => i < s) l ss -> digits ss (tuple_num ss l) = l.
Proof.
  induction 1; cbn; [reflexivity|]. f_equal.
  - rewrite Nat.add_comm, Nat.mul_comm, Nat.add_comm, Nat.mod_add by lia. apply Nat.mod_small. auto.
  - replace (x + y * tuple_num l' l) with (x + tuple_num l' l * y) by lia.
    rewrite Nat.div_add by lia. rewrite Nat.div_small by auto. cbn. auto.
Qed.

Lemma digits_length : forall ss k, length (digits ss k) = length ss.
Proof. induction ss; intros; cbn; auto. Qed.

Lemma digits_inj : forall ss j k, Forall (fun s => 0 < s) ss -> j < prod ss -> k < prod ss ->
  digits ss j = digits ss k -> j = k.
Proof.
  intros. rewrite <- (num_digits ss j), <- (num_digits ss k); auto. f_equal. auto.
Qed.

(** The enumeration of the tuples follows their numbers. *)
Lemma flat_map_seq : forall {A} (f : nat -> list A) s a, 
  flat_map f (seq a s) = concat (map f (seq a s)).
Proof. intros. apply flat_map_concat_map. Qed.

Lemma map_seq_shift : forall {A} (f : nat -> A) a k, map f (seq a k) = map (fun i => f (a + i)) (seq 0 k).
Proof.
  intros A f a k. revert a. induction k; intros; cbn; [reflexivity|]. f_equal; [f_equal; lia|].
  rewrite IHk, <- seq_shift, map_map. apply map_ext. intros. f_equal. lia.
Qed.

Lemma tuples_seq : forall ss, Forall (fun s => 0 < s) ss -> tuples ss = map (digits ss) (seq 0 (prod ss)).
Proof.
  induction ss as [|s r IH]; intros F; [reflexivity|]. inversion F as [|? ? S0 F']; subst.
  cbn [tuples]. rewrite IH by auto. cbn [prod].
  rewrite flat_map_concat_map, map_map.
  generalize (prod r) as k. intros k. clear IH F F'.
  induction k as [|k IHk].
  - cbn. rewrite Nat.mul_0_r. reflexivity.
  - rewrite seq_S, map_app, concat_app, IHk. replace (s * S k) with (s * k + s) by lia.
    rewrite seq_app, map_app. cbn [plus]. f_equal. cbn [map concat]. rewrite app_nil_r.
    rewrite map_seq_shift with (a := s * k). apply map_ext_in. intros i Hi. apply in_seq in Hi.
    cbn [digits]. rewrite Nat.add_comm, Nat.mul_comm. rewrite Nat.mod_add, Nat.div_add by lia.
    rewrite Nat.mod_small, Nat.div_small by lia. cbn. reflexivity.
Qed.
