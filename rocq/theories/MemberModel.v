(** Model of the linear forms of query simplification (class Member). *)
From Verif Require Import Base PqlSyntax NetModel.
Set Implicit Arguments.

(** include/PetriEngine/Simplification/Member.h:14-18: coefficients of the transitions, the
    initial value, and whether the form is exact.  The 64-bit arithmetic on coefficients and
    constants is treated as exact. *)
Record member := mkMember { mb_vars : list Z; mb_const : Z; mb_ok : bool }.

(** conversion of a 64-bit number to int *)
Definition i32 (z : Z) : Z := ((z + 2 ^ 31) mod 2 ^ 32 - 2 ^ 31)%Z.

(** Member.h:25-27, Member(int): the argument is converted to int; and the default
    constructor *)
Definition member_int (c : Z) : member := mkMember [] (i32 c) true.
Definition member_none : member := mkMember [] 0 false.
(** Member.h:32, constant(), returns int *)
Definition mb_int (m : member) : Z := i32 (mb_const m).

(** Member.h:149-177, addVariables and subtractVariables *)
Fixpoint vop (f : Z -> Z -> Z) (a b : list Z) : list Z :=
  match a, b with
  | a, [] => a
  | [], y :: b => f 0%Z y :: vop f [] b
  | x :: a, y :: b => f x y :: vop f a b
  end.
(** Member.h:38-54 *)
Definition mb_add (m n : member) : member :=
  mkMember (vop Z.add (mb_vars m) (mb_vars n)) (mb_const m + mb_const n)%Z (mb_ok m && mb_ok n).
Definition mb_sub (m n : member) : member :=
  mkMember (vop Z.sub (mb_vars m) (mb_vars n)) (mb_const m - mb_const n)%Z (mb_ok m && mb_ok n).
(** Member.h:89-94 *)
Definition mb_zero (m : member) : bool := forallb (Z.eqb 0) (mb_vars m).
(** Member.h:179-192, multiply *)
Definition mb_scale (m n : member) : list Z :=
  if eqb (mb_zero m) (mb_zero n) then []
  else if negb (mb_zero m) then map (fun v => v * mb_const n)%Z (mb_vars m)
  else map (fun v => v * mb_const m)%Z (mb_vars n).
(** Member.h:56-69 *)
Definition mb_mul (m n : member) : member :=
  if negb (mb_zero m) && negb (mb_zero n) then mkMember [] 0 false
  else mkMember (mb_scale m n) (mb_const m * mb_const n)%Z (mb_ok m && mb_ok n).

(** Member.h:71-87, substrationIsZero, and 118-136, operator==: equal up to trailing zeros *)
Fixpoint veq (a b : list Z) : bool :=
  match a, b with
  | [], b => forallb (Z.eqb 0) b
  | a, [] => forallb (Z.eqb 0) a
  | x :: a, y :: b => Z.eqb x y && veq a b
  end.
Definition mb_same (m n : member) : bool := veq (mb_vars m) (mb_vars n).

(** Member.h:96-116, getType *)
Inductive mtype := TConstant | TInput | TOutput | TRegular.
Definition mb_type (m : member) : mtype :=
  if forallb (Z.eqb 0) (mb_vars m) then TConstant
  else if forallb (fun v => Z.leb v 0) (mb_vars m) then TInput
  else if forallb (Z.leb 0) (mb_vars m) then TOutput
  else TRegular.

(** Member.h:194-226, trivialLessThan: the comparison takes ints; [None] is Indeterminate *)
Definition cmp_int (strict : bool) (x y : Z) : bool :=
  if strict then (i32 x <? i32 y)%Z else (i32 x <=? i32 y)%Z.
Definition trivial_lt (strict : bool) (m n : member) : option bool :=
  let c := cmp_int strict (mb_const m) (mb_const n) in
  if mb_same m n then Some c
  else
    match mb_type m, mb_type n with
    | TConstant, TConstant => Some c
    | TConstant, TInput => if c then None else Some false
    | TConstant, TOutput => if c then Some true else None
    | TInput, TConstant | TInput, TOutput => if c then Some true else None
    | TOutput, TConstant | TOutput, TInput => if c then None else Some false
    | _, _ => None
    end.

Section Constraint.
  Variable net : cnet.
  (** the marking of the simplification context: the initial marking *)
  Variable m0 : list N.

  (** src/PetriEngine/PetriNet.cpp:51-88, inArc and outArc: the first arc at the place; an
      inhibitor arc counts as 0 *)
  Fixpoint arc_at (l : list invariant) (p : nat) : N :=
    match l with
    | [] => 0
    | iv :: l => if Nat.eqb (iv_place iv) p then (if iv_inhib iv then 0 else iv_tokens iv) else arc_at l p
    end.
  Definition in_arc (p t : nat) : res N :=
    a <- rd (cn_transitions net) t ;;
    Ok (arc_at (slice (cn_invs net) (fst a) (snd a)) p).
  Fixpoint out_at (l : list invariant) (p : nat) : N :=
    match l with
    | [] => 0
    | iv :: l => if Nat.eqb (iv_place iv) p then iv_tokens iv else out_at l p
    end.
  Definition out_arc (t p : nat) : res N :=
    a <- rd (cn_transitions net) t ;;
    b <- rd (cn_transitions net) (S t) ;;
    Ok (out_at (slice (cn_invs net) (snd a) (fst b)) p).

  (** src/PetriEngine/PQL/Simplifier.cpp:206-214, memberForPlace *)
  Fixpoint place_row (p t k : nat) : res (list Z) :=
    match k with
    | O => Ok []
    | S k =>
      o <- out_arc t p ;;
      i <- in_arc p t ;;
      r <- place_row p (S t) k ;;
      Ok ((Z.of_N o - Z.of_N i)%Z :: r)
    end.
  Definition member_for_place (p : nat) : res member :=
    row <- place_row p 0 (cn_ntrans net) ;;
    v <- rd m0 p ;;
    Ok (mkMember row (Z.of_N v) true).

  (** Simplifier.cpp:223-249, _commutative_cons: [acc] is None while [first] holds *)
  Definition fold_first (op : member -> member -> member) (acc : option member) (m : member) : option member :=
    match acc with None => Some m | Some a => Some (op a m) end.
  Fixpoint fold_places (op : member -> member -> member) (acc : option member) (ids : list nat) : res (option member) :=
    match ids with
    | [] => Ok acc
    | p :: ids => m <- member_for_place p ;; fold_places op (fold_first op acc m) ids
    end.
  Definition fold_exprs (f : expr -> res member) (op : member -> member -> member) :=
    fix go (acc : option member) (es : list expr) : res (option member) :=
    match es with
    | [] => Ok acc
    | e :: es => m <- f e ;; go (fold_first op acc m) es
    end.
  Definition fold_sub (f : expr -> res member) :=
    fix go (acc : member) (es : list expr) : res member :=
    match es with
    | [] => Ok acc
    | e :: es => m <- f e ;; go (mb_sub acc m) es
    end.
  Definition start (neutral c : Z) (ids : list nat) (es : list expr) : option member :=
    if negb (Z.eqb c neutral) || match ids, es with [], [] => true | _, _ => false end
    then Some (member_int c) else None.
  Definition finish (acc : option member) : member := match acc with Some m => m | None => member_none end.
  (** Simplifier.cpp:216-291, the constraint visitor *)
  Fixpoint constraint (e : expr) : res member :=
    match e with
    | Lit z => Ok (member_int z)
    | Pl p => member_for_place p
    | Ident e => constraint e
    | Minus e => m <- constraint e ;; Ok (mb_mul m (member_int (-1)))
    | Sub e es => m <- constraint e ;; fold_sub constraint m es
    | Plus c ids es =>
      a <- fold_places mb_add (start 0 c ids es) ids ;;
      a <- fold_exprs constraint mb_add a es ;;
      Ok (finish a)
    | Mul c ids es =>
      a <- fold_places mb_mul (start 1 c ids es) ids ;;
      a <- fold_exprs constraint mb_mul a es ;;
      Ok (finish a)
    end.
End Constraint.
