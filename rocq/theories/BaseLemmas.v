(** Lemmas on arrays, updates and slices. *)
From Verif Require Import Base.
Set Implicit Arguments.

Lemma rd_some : forall {A} (l : list A) i x, nth_error l i = Some x -> rd l i = Ok x.
Proof. intros A l i x H; unfold rd; rewrite H; reflexivity. Qed.

Lemma rd_nth : forall {A} (l : list A) i d, i < length l -> rd l i = Ok (nth i l d).
Proof.
  intros A l i d H; apply rd_some. apply nth_error_nth'; exact H.
Qed.

Lemma rd_ok_inv : forall {A} (l : list A) i x, rd l i = Ok x -> nth_error l i = Some x.
Proof.
  intros A l i x; unfold rd; destruct (nth_error l i); congruence.
Qed.

Lemma upd_length : forall {A} (l : list A) i x, length (upd l i x) = length l.
Proof.
  induction l as [|y l IH]; intros i x; simpl; [reflexivity|].
  destruct i; simpl; [reflexivity|]. rewrite IH; reflexivity.
Qed.

Lemma nth_upd_eq : forall {A} (l : list A) i x d, i < length l -> nth i (upd l i x) d = x.
Proof.
  induction l as [|y l IH]; intros i x d H; simpl in *; [lia|].
  destruct i; simpl; [reflexivity|]. apply IH; lia.
Qed.

Lemma nth_upd_neq : forall {A} (l : list A) i j x d, i <> j -> nth j (upd l i x) d = nth j l d.
Proof.
  induction l as [|y l IH]; intros i j x d H; simpl; [reflexivity|].
  destruct i; simpl.
  - destruct j; [lia|reflexivity].
  - destruct j; [reflexivity|]. apply IH; lia.
Qed.

Lemma nth_error_upd_eq : forall {A} (l : list A) i x, i < length l -> nth_error (upd l i x) i = Some x.
Proof.
  induction l as [|y l IH]; intros i x H; simpl in *; [lia|].
  destruct i; simpl; [reflexivity|]. apply IH; lia.
Qed.

Lemma nth_error_upd_neq : forall {A} (l : list A) i j x, i <> j -> nth_error (upd l i x) j = nth_error l j.
Proof.
  induction l as [|y l IH]; intros i j x H; simpl; [reflexivity|].
  destruct i; simpl.
  - destruct j; [lia|reflexivity].
  - destruct j; [reflexivity|]. apply IH; lia.
Qed.

Lemma wr_ok : forall {A} (l : list A) i x, i < length l -> wr l i x = Ok (upd l i x).
Proof.
  intros A l i x H; unfold wr. destruct (Nat.ltb_spec i (length l)); [reflexivity|lia].
Qed.

Lemma nth_skipn_add : forall {A} (l : list A) a i d, nth i (skipn a l) d = nth (a + i) l d.
Proof.
  induction l as [|y l IH]; intros a i d.
  - rewrite skipn_nil. destruct a, i; reflexivity.
  - destruct a; simpl; [reflexivity|apply IH].
Qed.

Lemma slice_length : forall {A} (l : list A) a b, b <= length l -> length (slice l a b) = b - a.
Proof.
  intros A l a b H; unfold slice. rewrite firstn_length, skipn_length. lia.
Qed.

Lemma slice_nil : forall {A} (l : list A) a, slice l a a = [].
Proof. intros A l a; unfold slice. rewrite Nat.sub_diag. reflexivity. Qed.

Lemma skipn_cons_nth : forall {A} (l : list A) a x,
  nth_error l a = Some x -> skipn a l = x :: skipn (S a) l.
Proof.
  induction l as [|y l IH]; intros a x H; destruct a; simpl in *; try discriminate.
  - injection H as ->; reflexivity.
  - rewrite (IH _ _ H). destruct l; reflexivity.
Qed.

Lemma slice_cons : forall {A} (l : list A) a b x,
  a < b -> nth_error l a = Some x -> slice l a b = x :: slice l (S a) b.
Proof.
  intros A l a b x Hab H; unfold slice.
  rewrite (skipn_cons_nth _ _ H).
  replace (b - a) with (S (b - S a)) by lia. reflexivity.
Qed.

Lemma nth_error_lt : forall {A} (l : list A) i x, nth_error l i = Some x -> i < length l.
Proof. intros A l i x H; apply nth_error_Some; congruence. Qed.

Lemma nth_error_ex : forall {A} (l : list A) i, i < length l -> exists x, nth_error l i = Some x.
Proof.
  intros A l i H; destruct (nth_error l i) eqn:E; [eauto|].
  apply nth_error_None in E; lia.
Qed.

Lemma sumN_app : forall l1 l2, sumN (l1 ++ l2) = (sumN l1 + sumN l2)%N.
Proof. induction l1 as [|x l1 IH]; intros l2; simpl; [reflexivity|]. rewrite IH; lia. Qed.

(** Equality of lists from equality of all positions. *)
Lemma list_eq_nth : forall {A} (d : A) (l1 l2 : list A),
  length l1 = length l2 ->
  (forall i, i < length l1 -> nth i l1 d = nth i l2 d) -> l1 = l2.
Proof.
  induction l1 as [|x l1 IH]; intros [|y l2] Hl H; simpl in *; try discriminate; [reflexivity|].
  f_equal.
  - apply (H 0); lia.
  - apply IH; [lia|]. intros i Hi. apply (H (S i)); lia.
Qed.
