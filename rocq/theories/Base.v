(** Common definitions: outcomes of C++ code and array access. *)
From Coq Require Export List Arith NArith ZArith Bool Lia.
Export ListNotations.
Set Implicit Arguments.

(** Outcome of a piece of C++ code.
    [Ok x]   : normal return.
    [Throw]  : a C++ exception ([base_error]) is thrown.
    [UB]     : undefined behaviour (out-of-bounds access, null dereference...).
    [NoFuel] : the model's own fuel ran out (never a behaviour of the code). *)
Inductive res (A : Type) : Type :=
| Ok (a : A)
| Throw
| UB
| NoFuel.
Arguments Ok {A} a.
Arguments Throw {A}.
Arguments UB {A}.
Arguments NoFuel {A}.

Definition bind {A B} (x : res A) (f : A -> res B) : res B :=
  match x with
  | Ok a => f a
  | Throw => Throw
  | UB => UB
  | NoFuel => NoFuel
  end.

Notation "x <- e1 ;; e2" := (bind e1 (fun x => e2))
  (at level 61, e1 at next level, right associativity).

(** Read access to a C++ array / vector: out of bounds is UB. *)
Definition rd {A} (l : list A) (i : nat) : res A :=
  match nth_error l i with
  | Some x => Ok x
  | None => UB
  end.

(** Functional update of position [i] (no effect when out of bounds; callers
    guard with [wr] when the write itself could be out of bounds). *)
Fixpoint upd {A} (l : list A) (i : nat) (x : A) : list A :=
  match l, i with
  | [], _ => []
  | _ :: l', O => x :: l'
  | y :: l', S i' => y :: upd l' i' x
  end.

Definition wr {A} (l : list A) (i : nat) (x : A) : res (list A) :=
  if i <? length l then Ok (upd l i x) else UB.

(** Sum of a list of token counts. *)
Fixpoint sumN (l : list N) : N :=
  match l with
  | [] => 0%N
  | x :: l' => (x + sumN l')%N
  end.

(** [slice l a b] = elements at positions a, a+1, ..., b-1. *)
Definition slice {A} (l : list A) (a b : nat) : list A :=
  firstn (b - a) (skipn a l).
