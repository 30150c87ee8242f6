(** Specification of sets of colours kept as intervals (C45). *)
From Verif Require Import Base RangeSpec IntvModel.
Set Implicit Arguments.

(** A colour of a product type is a list of numbers. *)
Definition inb (b : box) (c : list N) : Prop := Forall2 (fun r v => fst r <= v <= snd r)%N b c.
Definition inv (l : list box) (c : list N) : Prop := exists b, In b l /\ inb b c.

(** All intervals have [d] components. *)
Definition dims (d : nat) (l : list box) : Prop := Forall (fun b => length b = d) l.
(** No interval is empty. *)
Definition nonempty (b : box) : Prop := Forall (fun r => fst r <= snd r)%N b.
(** No upper bound is the greatest 32-bit number. *)
Definition bounded (b : box) : Prop := Forall (fun r => snd r < 2 ^ 32 - 1)%N b.

(** The colour is outside the interval in a component that is not on the diagonal. *)
Fixpoint outside (diag : list bool) (b : box) (c : list N) : Prop :=
  match diag, b, c with
  | d :: diag', r :: b', v :: c' => (d = false /\ ~ (fst r <= v <= snd r)%N) \/ outside diag' b' c'
  | _, _, _ => False
  end.

(** The colour after [k] steps, in every component. *)
Fixpoint moved_by (k : Z) (sizes c c' : list N) : Prop :=
  match sizes, c, c' with
  | [], [], [] => True
  | s :: sizes, v :: c, v' :: c' => Z.of_N v' = ((Z.of_N v + k) mod Z.of_N s)%Z /\ moved_by k sizes c c'
  | _, _, _ => False
  end.
(** The components of an interval are colours of types of the given sizes. *)
Definition fits (k : Z) (sizes : list N) (b : box) : Prop :=
  Forall2 (fun s r => (fst r <= snd r)%N /\ (snd r < s)%N /\ (0 <= Z.of_N s + k)%Z /\ (Z.of_N s + Z.of_N s + k < 2 ^ 32)%Z) sizes b.
(** The distances between intervals fit into 32 bits. *)
Definition small (d : nat) (l : list box) : Prop :=
  exists m, (m < 2 ^ 31)%N /\ (N.of_nat d * m < 2 ^ 32 - 1)%N /\ Forall (Forall (fun r => snd r <= m)%N) l.
(** The first components are above (below) the values. *)
Definition above (strict : bool) (vs c : list N) : Prop :=
  forall i v w, nth_error vs i = Some v -> nth_error c i = Some w -> if strict then (v < w)%N else (v <= w)%N.
Definition under (strict : bool) (vs c : list N) : Prop :=
  forall i v w, nth_error vs i = Some v -> nth_error c i = Some w -> if strict then (w < v)%N else (w <= v)%N.
