(** Model of the reading of guards and inscriptions of coloured nets from PNML (C36):
    PNMLParser.cpp:241-592, 877-885 and 899-933. *)
From Verif Require Import Base ColSyntax.
Set Implicit Arguments.

(** ** XML trees

    The element names the parser distinguishes, with the attributes it reads.  Names of
    colours, variables and types are numbers.  Simplifications: the two spellings of each
    comparison are one tag; numberconstant carries the value of its attribute after atoll;
    finiteintrangeconstant and partitions (findPartitionColors) are not modelled. *)
Inductive tag :=
| Tstructure | Tsubterm
| Tnot | Tand | Tor | Tlt | Tgt | Tle | Tge | Teq | Tne
| Tdot | Tvar (v : nat) | Tuser (name : nat) | Tsucc | Tpred | Ttuple
| Tall | Tsort (ty : nat)
| Tnumber (k : Z) | Tnumberof | Tadd | Tsub | Tscal
| Tother.
Inductive xml := X (t : tag) (kids : list xml).
Definition kids (x : xml) : list xml := match x with X _ k => k end.

(** ** Loops over vectors *)

Fixpoint mapM {A B} (f : A -> res B) (l : list A) : res (list B) :=
  match l with
  | [] => Ok []
  | a :: l' => b <- f a ;; bs <- mapM f l' ;; Ok (b :: bs)
  end.

(** PNMLParser.cpp:499-516 and 569-586: one combination of the constituents after the other.
    [pick_all] takes the element at its index of each constituent, [last_inc] is the last
    position that can be incremented (0 if there is none). *)
Fixpoint pick_all {A} (ps : list (list A)) (ix : list nat) : res (list A) :=
  match ps, ix with
  | [], [] => Ok []
  | p :: ps', i :: ix' => a <- rd p i ;; r <- pick_all ps' ix' ;; Ok (a :: r)
  | _, _ => UB
  end.
Fixpoint last_inc {A} (ps : list (list A)) (ix : list nat) (i li : nat) : nat :=
  match ps, ix with
  | p :: ps', j :: ix' => last_inc ps' ix' (S i) (if j + 1 <? length p then i else li)
  | _, _ => li
  end.
Definition increment (ix : list nat) (li : nat) : list nat :=
  firstn li ix ++ (match nth_error ix li with Some j => [j + 1] | None => [] end) ++ repeat 0 (length ix - (li + 1)).
Fixpoint combos {A} (fuel : nat) (ps : list (list A)) (ix : list nat) : res (list (list A)) :=
  match fuel with
  | O => NoFuel
  | S f =>
    c <- pick_all ps ix ;;
    match ix with
    | [] => UB
    | _ =>
      let ix' := increment ix (last_inc ps ix 0 0) in
      match ps, ix' with
      | p :: _, j :: _ => if j <? length p then r <- combos f ps ix' ;; Ok (c :: r) else Ok [c]
      | _, _ => UB
      end
    end
  end.
Definition all_combos {A} (ps : list (list A)) : res (list (list A)) :=
  combos (S (fold_right (fun p n => length p * n) 1 ps)) ps (repeat 0 (length ps)).

(** ** The parser *)

Section Parser.
Variable tab : list tdecl.        (* colorTypes *)
Variable cmap : list nat.         (* the order in which the map of types is iterated *)
Variable names : list (list nat). (* the names of the colours of each enumeration *)
Variable ctx : option nat.        (* placeTypeContext *)

(** Colors.cpp:175-181 and 233-249 operator[](name).  A name without commas is one part: for
    a product of one constituent the first and last characters are cut off, not modelled (UB). *)
Definition color_named (ty name : nat) : res (option nat) :=
  match nth_error tab ty with
  | Some (TProd [_]) => UB
  | Some (TProd _) => Ok None
  | _ => Ok (let l := nth ty names [] in
             find (fun i => Nat.eqb (nth i l 0) name) (seq 0 (length l)))
  end.

(** PNMLParser.cpp:899-933 findColor. *)
Fixpoint find_nested (cs : list nat) (name : nat) : res (option (nat * nat)) :=
  match cs with
  | [] => Ok None
  | c :: cs' =>
    match nth_error tab c with
    | Some (TProd (_ :: _ :: _)) => Throw
    | _ => r <- color_named c name ;;
           match r with Some i => Ok (Some (c, i)) | None => find_nested cs' name end
    end
  end.
Fixpoint find_color_loop (l : list nat) (name : nat) : res (nat * nat) :=
  match l with
  | [] => Throw
  | ty :: l' =>
    let look := r <- color_named ty name ;;
                match r with Some i => Ok (ty, i) | None => find_color_loop l' name end in
    match ctx with
    | None => look
    | Some p =>
      match nth_error tab p with
      | Some (TProd (a :: b :: cs)) =>
        r <- find_nested (a :: b :: cs) name ;;
        match r with Some x => Ok x | None => look end
      | _ => if Nat.eqb ty p then look else find_color_loop l' name
      end
    end
  end.
Definition find_color (name : nat) : res cexp :=
  r <- find_color_loop cmap name ;; Ok (EUser (fst r) (snd r)).

(** PNMLParser.cpp:541-555 parseUserSort. *)
Fixpoint user_sort (x : xml) : res nat :=
  match x with
  | X _ ks =>
    (fix go (l : list xml) : res nat :=
       match l with
       | [] => UB
       | k :: l' => match k with
                    | X (Tsort ty) _ => Ok ty
                    | X (Tstructure | Tsubterm) _ => user_sort k
                    | _ => go l'
                    end
       end) ks
  end.
(** The colours an iterator over a type delivers: those of _colors, none for a product. *)
Definition sort_colors (ty : nat) : list cexp :=
  match nth_error tab ty with
  | Some (TEnum n) => map (EUser ty) (seq 0 n)
  | _ => []
  end.

(** PNMLParser.cpp:471-529 parseColorExpression. *)
Fixpoint parse_color (x : xml) : res (list cexp) :=
  match x with
  | X Tdot _ => Ok [EDot]
  | X (Tvar v) _ => Ok [EVar v]
  | X (Tuser name) _ => c <- find_color name ;; Ok [c]
  | X Tsucc (k :: _) => l <- parse_color k ;; Ok (map ESucc l)
  | X Tpred (k :: _) => l <- parse_color k ;; Ok (map EPred l)
  | X (Tsucc | Tpred | Tstructure | Tsubterm) [] => UB
  | X Ttuple ks =>
    ps <- (fix go (l : list xml) : res (list (list cexp)) :=
             match l with
             | [] => Ok []
             | k :: l' => b <- parse_color k ;; bs <- go l' ;; Ok (b :: bs)
             end) ks ;;
    cs <- all_combos ps ;;
    Ok (map ETup cs)
  | X (Tstructure | Tsubterm) (k :: _) => parse_color k
  | X Tall _ => ty <- user_sort x ;; Ok (sort_colors ty)
  | _ => Throw
  end.

(** PNMLParser.cpp:877-885 parseNumberConstant: (uint32_t) of the value. *)
Fixpoint parse_number (x : xml) : res N :=
  match x with
  | X (Tnumber k) _ => Ok (Z.to_N (k mod 2 ^ 32)%Z)
  | X Tsubterm (k :: _) => parse_number k
  | X Tsubterm [] => UB
  | _ => Ok 0%N
  end.

(** PNMLParser.cpp:557-592 parseNumberOfExpression on the children of an element. *)
Definition number_of (ks : list xml) : res aexp :=
  match ks with
  | [] => UB
  | num :: rest =>
    n <- parse_number num ;;
    let (number, l) := if (n =? 0)%N then (1%N, ks) else (n, rest) in
    cs <- mapM parse_color l ;;
    r <- all_combos cs ;;
    match map (fun es => ANum es number) r with
    | [a] => Ok a
    | l => Ok (AAdd l)
    end
  end.

(** PNMLParser.cpp:326-379 collectColorsInTuple. *)
Fixpoint append_each (a b : list (list cexp)) : res (list (list cexp)) :=
  match a, b with
  | [], _ => Ok []
  | x :: a', y :: b' => r <- append_each a' b' ;; Ok ((x ++ y) :: r)
  | _ :: _, [] => UB
  end.
Fixpoint collect (x : xml) (acc : list (list cexp)) : res (list (list cexp)) :=
  match x with
  | X Ttuple ks =>
    (fix go (l : list xml) (acc : list (list cexp)) : res (list (list cexp)) :=
       match l with
       | [] => Ok acc
       | X _ [] :: _ => UB
       | X _ (k :: _) :: l' => a <- collect k acc ;; go l' a
       end) ks acc
  | X Tall _ => ty <- user_sort x ;; Ok (acc ++ [sort_colors ty])
  | X Tadd ks =>
    r <- (fix go (l : list xml) (i1 i2 : list (list cexp)) : res (list (list cexp)) :=
            match l with
            | [] => Ok i1
            | k :: l' =>
              i2' <- collect k i2 ;;
              i1' <- (match i1 with [] => Ok i2' | _ => append_each i1 i2' end) ;;
              go l' i1' i2'
            end) ks [] [] ;;
    Ok (acc ++ r)
  | X (Tstructure | Tsubterm) (k :: _) => collect k acc
  | X (Tstructure | Tsubterm) [] => UB
  | X (Tuser _ | Tdot | Tvar _ | Tsucc | Tpred) _ =>
    l <- parse_color x ;;
    match l with [_] => Ok (acc ++ [l]) | _ => UB end
  | _ => Throw
  end.

(** PNMLParser.cpp:304-324 cartesianProduct, 277-302 constructAddExpressionFromTupleExpression. *)
Definition cart2 (a b : list cexp) : list (list cexp) := flat_map (fun x => map (fun y => [x; y]) b) a.
Definition cart_add (a : list (list cexp)) (b : list cexp) : list (list cexp) :=
  flat_map (fun s => map (fun y => s ++ [y]) b) a.
Definition tuple_expr (cols : list (list cexp)) (number : N) : res aexp :=
  match cols with
  | [] => UB
  | [c] => Ok (AAdd (map (fun e => ANum [e] number) c))
  | a :: b :: r => Ok (AAdd (map (fun s => ANum [ETup s] number) (fold_left cart_add r (cart2 a b))))
  end.

(** PNMLParser.cpp:241-275 parseArcExpression; [siblings] are the children of the parent. *)
Fixpoint parse_arc (x : xml) (siblings : list xml) : res aexp :=
  match x with
  | X Tnumberof ks => number_of ks
  | X Tadd ks =>
    l <- (fix go (l : list xml) : res (list aexp) :=
            match l with
            | [] => Ok []
            | k :: l' => b <- parse_arc k ks ;; bs <- go l' ;; Ok (b :: bs)
            end) ks ;;
    Ok (AAdd l)
  | X Tsub ks =>
    match ks with
    | l :: r :: rest =>
      a <- parse_arc l ks ;; b <- parse_arc r ks ;;
      (fix go (l : list xml) (acc : aexp) : res aexp :=
         match l with
         | [] => Ok acc
         | k :: l' => b <- parse_arc k ks ;; go l' (ASub acc b)
         end) rest (ASub a b)
    | _ => UB
    end
  | X Tscal ks =>
    match ks with
    | s :: m :: _ => e <- parse_arc m ks ;; k <- parse_number s ;; Ok (AScal e k)
    | _ => UB
    end
  | X Tall _ => number_of siblings
  | X (Tstructure | Tsubterm) ks => match ks with k :: _ => parse_arc k ks | [] => UB end
  | X Ttuple _ => cols <- collect x [] ;; tuple_expr cols 1
  | _ => Throw
  end.

(** PNMLParser.cpp:381-469 parseGuardExpression. *)
Fixpoint parse_guard (x : xml) (neg : bool) : res gexp :=
  match x with
  | X Tnot ks => match ks with k :: _ => parse_guard k true | [] => UB end
  | X (Tstructure | Tsubterm) ks => match ks with k :: _ => parse_guard k neg | [] => UB end
  | X Tand ks =>
    match ks with
    | [] => UB
    | [l] => parse_guard l neg
    | l :: r :: _ =>
      a <- parse_guard l neg ;; b <- parse_guard r neg ;;
      Ok (if neg then GOr a b else GAnd a b)
    end
  | X Tor ks =>
    match ks with
    | [] => UB
    | [l] => parse_guard l neg
    | l :: r :: rest =>
      a <- parse_guard l neg ;; b <- parse_guard r neg ;;
      (fix go (l : list xml) (acc : gexp) : res gexp :=
         match l with
         | [] => Ok acc
         | k :: l' => c <- parse_guard k neg ;; go l' (if neg then GAnd acc c else GOr acc c)
         end) rest (if neg then GAnd a b else GOr a b)
    end
  | X t (l :: r :: _) =>
    lc <- parse_color l ;; rc <- parse_color r ;;
    match lc, rc with
    | [a], [b] =>
      match t with
      | Tlt => Ok (if neg then GLe b a else GLt a b)
      | Tgt => Ok (if neg then GLe a b else GLt b a)
      | Tle => Ok (if neg then GLt b a else GLe a b)
      | Tge => Ok (if neg then GLt a b else GLe b a)
      | Teq => Ok (if neg then GNe a b else GEq a b)
      | Tne => Ok (if neg then GEq a b else GNe a b)
      | _ => Throw
      end
    | _, _ => UB
    end
  | _ => UB
  end.
End Parser.
