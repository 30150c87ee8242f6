(** The names given to unfolded places and transitions (C34). *)
From Verif Require Import Base ColSyntax ColModel.
From Coq Require Import String Ascii Decimal DecimalString DecimalNat.
Local Open Scope string_scope.

(** std::to_string of an unsigned number. *)
Definition dec (k : nat) : string := NilZero.string_of_uint (Nat.to_uint k).

(** Unfolder.cpp:139, 216 and 290, 89 and 102. *)
Definition uname_string (pname : nat -> string) (u : uname) : string :=
  match u with
  | UCol p c => pname p ++ "_" ++ dec c
  | USum p => pname p ++ "Sum"
  | UOrph p => pname p ++ "_orphan"
  end.
(** Unfolder.cpp:152, 176. *)
Definition copy_string (tname : nat -> string) (t i : nat) : string := tname t ++ "_" ++ dec i.
