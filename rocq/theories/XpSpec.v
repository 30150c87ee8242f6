(** Specification for the reading of guards and inscriptions (C36): what a PNML tree means. *)
From Verif Require Import Base ColSyntax ColSpec XpModel.
Set Implicit Arguments.

(** All ways to take one element of each list. *)
Fixpoint cart {A} (ps : list (list A)) : list (list A) :=
  match ps with
  | [] => [[]]
  | p :: r => flat_map (fun a => map (cons a) (cart r)) p
  end.

Fixpoint all_some {A} (l : list (option A)) : option (list A) :=
  match l with
  | [] => Some []
  | Some a :: l' => match all_some l' with Some r => Some (a :: r) | None => None end
  | None :: _ => None
  end.

Section Meaning.
Variable tab : list tdecl.
Variable vars : list nat.
Variable names : list (list nat).

(** The colour with a given name: [has ty i name]. *)
Definition has (ty i name : nat) : Prop :=
  (exists n, nth_error tab ty = Some (TEnum n)) /\ nth_error (nth ty names []) i = Some name.
Definition unique_names : Prop :=
  forall ty i ty' i' name, has ty i name -> has ty' i' name -> ty = ty' /\ i = i'.

Variable color_of : nat -> nat * nat.   (* what the name of a colour stands for *)
Variable b : assignment.

(** The colours a colour term denotes, with their types (0 for tuples): one for most terms,
    all colours of a sort for <all>, all combinations for a tuple of such terms, and for a sum
    those of its parts. *)
Fixpoint elems (x : xml) : option (list (nat * value)) :=
  match x with
  | X Tdot _ => Some [(0, VE 0)]
  | X (Tvar v) _ => Some [(nth v vars 0, b v)]
  | X (Tuser name) _ => Some [(fst (color_of name), VE (snd (color_of name)))]
  | X Tsucc [k] =>
    match elems k with
    | Some l => all_some (map (fun p => match p with
                                        | (ty, VE i) => Some (ty, VE ((i + 1) mod esize tab ty))
                                        | _ => None
                                        end) l)
    | None => None
    end
  | X Tpred [k] =>
    match elems k with
    | Some l => all_some (map (fun p => match p with
                                        | (ty, VE i) => Some (ty, VE ((i + (esize tab ty - 1)) mod esize tab ty))
                                        | _ => None
                                        end) l)
    | None => None
    end
  | X Tall [X (Tsort ty) _] => Some (map (pair ty) (values tab ty))
  | X Ttuple ks =>
    match all_some (map elems ks) with
    | Some ps => all_some (map (fun c => match all_some (map (fun p => match p with (_, VE i) => Some i | _ => None end) c) with
                                         | Some l => Some (0, VT l)
                                         | None => None
                                         end) (cart ps))
    | None => None
    end
  | X Tadd ks => match all_some (map elems ks) with Some ps => Some (concat ps) | None => None end
  | X (Tstructure | Tsubterm) [k] => elems k
  | _ => None
  end.

Definition count (l : list (nat * value)) (v : value) : N :=
  sumN (map (fun p => if value_eqb (snd p) v then 1%N else 0%N) l).

Fixpoint number (x : xml) : option N :=
  match x with
  | X (Tnumber k) _ => if (k <? 0)%Z then None else Some (Z.to_N k)
  | X Tsubterm [k] => number k
  | _ => None
  end.

(** The multiset an inscription denotes. *)
Fixpoint inscription (x : xml) : option (value -> N) :=
  match x with
  | X Tnumberof [n; t] =>
    match number n, elems t with
    | Some k, Some l => Some (fun v => (k * count l v)%N)
    | _, _ => None
    end
  | X Tadd ks =>
    match all_some (map inscription ks) with
    | Some ms => Some (fun v => sumN (map (fun m => m v) ms))
    | None => None
    end
  | X Tsub (k :: ks) =>
    match inscription k, all_some (map inscription ks) with
    | Some m, Some ms => Some (fun v => (m v - sumN (map (fun m => m v) ms))%N)
    | _, _ => None
    end
  | X Tscal [n; t] =>
    match number n, inscription t with
    | Some k, Some m => Some (fun v => (k * m v)%N)
    | _, _ => None
    end
  | X (Tall | Ttuple) _ => match elems x with Some l => Some (count l) | None => None end
  | X (Tstructure | Tsubterm) [k] => inscription k
  | _ => None
  end.

(** The truth of a guard; colours of an enumeration are ordered by their position. *)
Definition compare (t : tag) (u v : value) : option bool :=
  match t, u, v with
  | Teq, _, _ => Some (value_eqb u v)
  | Tne, _, _ => Some (negb (value_eqb u v))
  | Tlt, VE i, VE j => Some (i <? j)
  | Tgt, VE i, VE j => Some (j <? i)
  | Tle, VE i, VE j => Some (i <=? j)
  | Tge, VE i, VE j => Some (j <=? i)
  | _, _, _ => None
  end.
Fixpoint guard (x : xml) : option bool :=
  match x with
  | X Tnot [k] => option_map negb (guard k)
  | X (Tstructure | Tsubterm) [k] => guard k
  | X Tand ks => option_map (forallb (fun v => v)) (all_some (map guard ks))
  | X Tor ks => option_map (existsb (fun v => v)) (all_some (map guard ks))
  | X t [l; r] =>
    match elems l, elems r with
    | Some [(_, u)], Some [(_, v)] => compare t u v
    | _, _ => None
    end
  | _ => None
  end.
End Meaning.

(** ** The trees for which the parser is right *)
Section Supported.
Variable tab : list tdecl.
Variable known : nat -> Prop.   (* declared colour names *)

(** A term for exactly one colour of an enumeration. *)
Fixpoint single (x : xml) : Prop :=
  match x with
  | X (Tdot | Tvar _) _ => True
  | X (Tuser name) _ => known name
  | X (Tsucc | Tpred | Tstructure | Tsubterm) [k] => single k
  | _ => False
  end.
Definition enum_sort (ks : list xml) : Prop :=
  match ks with [X (Tsort ty) _] => exists n, nth_error tab ty = Some (TEnum n) /\ 0 < n | _ => False end.
Fixpoint component (x : xml) : Prop :=
  match x with
  | X Tall ks => enum_sort ks
  | X (Tstructure | Tsubterm) [k] => component k
  | _ => single x
  end.
Fixpoint term (x : xml) : Prop :=
  match x with
  | X Ttuple ks => ks <> [] /\ Forall component ks
  | X (Tstructure | Tsubterm) [k] => term k
  | _ => component x
  end.

Fixpoint number_below (x : xml) : Prop :=
  match x with
  | X (Tnumber k) _ => (0 <= k < 2 ^ 32)%Z
  | X Tsubterm [k] => number_below k
  | _ => False
  end.
Definition positive (x : xml) : Prop := number_below x /\ number x <> Some 0%N.

(** [wrapped]: the element is the only child of a subterm or structure element. *)
Fixpoint inscription_ok (x : xml) (wrapped : Prop) : Prop :=
  match x with
  | X Tnumberof [n; t] => positive n /\ term t
  | X Tadd ks => fold_right (fun k P => inscription_ok k False /\ P) True ks
  | X Tsub (l :: r :: rest) =>
    inscription_ok l False /\ inscription_ok r False /\ fold_right (fun k P => inscription_ok k False /\ P) True rest
  | X Tscal [n; t] => number_below n /\ inscription_ok t False
  | X Tall ks => wrapped /\ enum_sort ks
  | X Ttuple ks => 2 <= length ks /\ Forall (fun k => exists t k', k = X t [k'] /\ (t = Tstructure \/ t = Tsubterm) /\ component k') ks
  | X (Tstructure | Tsubterm) [k] => inscription_ok k True
  | _ => False
  end.

(** No negation below a negation, and conjunctions of at most two parts. *)
Fixpoint guard_ok (x : xml) (negated : bool) : Prop :=
  match x with
  | X Tnot [k] => negated = false /\ guard_ok k true
  | X (Tstructure | Tsubterm) [k] => guard_ok k negated
  | X Tand [k] => guard_ok k negated
  | X Tand [k; k'] => guard_ok k negated /\ guard_ok k' negated
  | X Tor (k :: ks) => guard_ok k negated /\ fold_right (fun k P => guard_ok k negated /\ P) True ks
  | X (Tlt | Tgt | Tle | Tge) [l; r] => single l /\ single r
  | X (Teq | Tne) [l; r] => single l /\ single r
  | _ => False
  end.
End Supported.
