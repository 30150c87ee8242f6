(** Model of the binary query writer and reader.  A file is a list of bytes; the machine is
    little endian with 4-byte int and enumerations and 8-byte double. *)
From Verif Require Import Base PqlSyntax PqlModel BinSpec.
Set Implicit Arguments.

(** os.write(reinterpret_cast<const char*>(&x), k) *)
Fixpoint le (k : nat) (n : N) : list N :=
  match k with
  | O => []
  | S k => (n mod 256)%N :: le k (n / 256)
  end.
Definition w32 (n : N) : list N := le 4 n.
(** the conversion of an int64_t to int32_t, then its bytes *)
Definition wi32 (z : Z) : list N := le 4 (Z.to_N (z mod 2 ^ 32)).

(** bin.read(reinterpret_cast<char*>(&x), k).  At the end of the file the variable would stay
    uninitialised: UB. *)
Definition read (k : nat) (bs : list N) : res (list N * list N) :=
  if length bs <? k then UB else Ok (firstn k bs, skipn k bs).
Fixpoint unle (l : list N) : N :=
  match l with
  | [] => 0
  | b :: l => b + 256 * unle l
  end%N.
Definition r32 (bs : list N) : res (N * list N) := p <- read 4 bs ;; Ok (unle (fst p), snd p).
Definition sign32 (n : N) : Z := if (n <? 2 ^ 31)%N then Z.of_N n else (Z.of_N n - 2 ^ 32)%Z.
Definition ri32 (bs : list N) : res (Z * list N) := p <- r32 bs ;; Ok (sign32 (fst p), snd p).
(** a bool other than 0 and 1 is UB *)
Definition rbool (bs : list N) : res (bool * list N) :=
  p <- read 1 bs ;; match fst p with [0%N] => Ok (false, snd p) | [1%N] => Ok (true, snd p) | _ => UB end.
(** std::getline(bin, s, '\0') *)
Fixpoint getline (bs : list N) : list N * list N :=
  match bs with
  | [] => ([], [])
  | b :: bs => if (b =? 0)%N then ([], bs) else let p := getline bs in (b :: fst p, snd p)
  end.

(** include/PetriEngine/PQL/PQL.h:64-65. *)
Definition qAND : Z := 1. Definition qOR : Z := 2. Definition qA : Z := 3. Definition qE : Z := 4. Definition qNEG : Z := 5.
Definition qCOMPCONJ : Z := 6. Definition qDEADLOCK : Z := 7. Definition qUPPERBOUNDS : Z := 8. Definition qPN_BOOLEAN : Z := 9.
Definition qBControl : Z := 10. Definition qEMPTY : Z := (-1)%Z.
Definition pG : Z := 1. Definition pX : Z := 2. Definition pF : Z := 3. Definition pU : Z := 4. Definition pPControl : Z := 5. Definition pError : Z := (-1)%Z.

(** * The writer, src/PetriEngine/PQL/BinaryPrinter.cpp *)

Definition ch_l : N := 108. Definition ch_i : N := 105. Definition ch_minus : N := 45. Definition ch_plus : N := 43. Definition ch_mul : N := 42.
Definition ch_lt : N := 60. Definition ch_eq : N := 61. Definition ch_gt : N := 62. Definition ch_bang : N := 33.

(** BinaryPrinter.cpp:20-69 and 160-162. *)
Fixpoint print_expr (e : expr) : list N :=
  match e with
  | Lit z => ch_l :: wi32 z
  | Pl p => ch_i :: wi32 (Z.of_nat p)
  | Ident e => print_expr e
  | Minus e => ch_minus :: w32 2 ++ (ch_l :: wi32 0) ++ print_expr e
  | Sub e es => ch_minus :: w32 (N.of_nat (S (length es))) ++ print_expr e ++ flat_map print_expr es
  | Plus c ids es => ch_plus :: wi32 c ++ w32 (N.of_nat (length ids)) ++ w32 (N.of_nat (length es)) ++
                     flat_map (fun p => w32 (N.of_nat p)) ids ++ flat_map print_expr es
  | Mul c ids es => ch_mul :: wi32 c ++ w32 (N.of_nat (length ids)) ++ w32 (N.of_nat (length es)) ++
                    flat_map (fun p => w32 (N.of_nat p)) ids ++ flat_map print_expr es
  end.
(** getPath() and getQuantifier() of the classes, include/PetriEngine/PQL/Expressions.h:437-1142. *)
Definition code1 (h : head1) : Z * Z :=
  match h with
  | HNot => (pError, qNEG)
  | HE => (pError, qE) | HA => (pError, qA)
  | HEX => (pX, qE) | HAX => (pX, qA) | HX => (pX, qEMPTY)
  | HEF => (pF, qE) | HAF => (pF, qA) | HF => (pF, qEMPTY)
  | HEG => (pG, qE) | HAG => (pG, qA) | HG => (pG, qEMPTY)
  | HControl => (pPControl, qBControl)
  end.
Definition code2 (h : head2) : Z * Z :=
  match h with HU => (pU, qEMPTY) | HEU => (pU, qE) | HAU => (pU, qA) end.
Definition w2 (p : Z * Z) : list N := wi32 (fst p) ++ wi32 (snd p).
(** op() of the comparisons, with the terminating zero *)
Definition opname (o : cmp) : list N :=
  match o with OpEq => [ch_eq; ch_eq] | OpNe => [ch_bang; ch_eq] | OpLt => [ch_lt] | OpLe => [ch_lt; ch_eq] end.
Definition wbool (b : bool) : N := if b then 1%N else 0%N.
(** BinaryPrinter.cpp:71-158, 164-166. *)
Fixpoint print (f : form) : list N :=
  match f with
  | FBool b => w2 (pError, qPN_BOOLEAN) ++ [wbool b]
  | FDead => w2 (pError, qDEADLOCK)
  | F1 h f => w2 (code1 h) ++ print f
  | F2 h f g => w2 (code2 h) ++ print f ++ print g
  | FAnd l => w2 (pError, qAND) ++ w32 (N.of_nat (length l)) ++ flat_map print l
  | FOr l => w2 (pError, qOR) ++ w32 (N.of_nat (length l)) ++ flat_map print l
  | FCmp o a b => w2 (pError, qEMPTY) ++ opname o ++ [0%N] ++ print_expr a ++ print_expr b
  | FConj neg cs => w2 (pError, qCOMPCONJ) ++ [wbool neg] ++ w32 (N.of_nat (length cs)) ++
                    flat_map (fun c => w32 (N.of_nat (c_place c)) ++ w32 (c_lower c) ++ w32 (c_upper c)) cs
  | FBounds mx off ps => w2 (pError, qUPPERBOUNDS) ++ w32 (N.of_nat (length ps)) ++ mx ++ off ++
                         flat_map (fun q => w32 (N.of_nat (fst q)) ++ snd q) ps
  end.

(** * The reader, src/PetriParse/QueryBinaryParser.cpp *)

(** for(uint32_t i = 0; i < size; ++i) l.push_back(f(bin)) *)
Fixpoint times (A : Type) (f : list N -> res (A * list N)) (n : nat) (bs : list N) : res (list A * list N) :=
  match n with
  | O => Ok ([], bs)
  | S n => p <- f bs ;; q <- times f n (snd p) ;; Ok (fst p :: fst q, snd q)
  end.
(** The loop ends at the first failure, at the latest at the end of the bytes: [times_n] is
    [times] for a 32-bit counter, and does not count further than the bytes that are left
    (every [f] consumes one). *)
Definition times_n (A : Type) (f : list N -> res (A * list N)) (n : N) (bs : list N) : res (list A * list N) :=
  if (N.of_nat (length bs) <? n)%N then UB else times f (N.to_nat n) bs.

Section Parse.
  (** the number of places whose names were read: names[i] for other [i] is UB *)
  Variable np : nat.
  Definition place (n : N) : res nat := if (n <? N.of_nat np)%N then Ok (N.to_nat n) else UB.
  Definition placez (z : Z) : res nat := if (0 <=? z)%Z then place (Z.to_N z) else UB.
  Definition rplace (bs : list N) : res (nat * list N) := p <- r32 bs ;; i <- place (fst p) ;; Ok (i, snd p).

  (** QueryBinaryParser.cpp:235-311, parseExpr.  A subtraction without operands cannot be
      represented (its value would be UB). *)
  Fixpoint parse_expr (fuel : nat) (bs : list N) : res (expr * list N) :=
    match fuel with
    | O => NoFuel
    | S fuel =>
      t <- read 1 bs ;;
      let c := hd 0%N (fst t) in
      let bs := snd t in
      if (c =? ch_l)%N then p <- ri32 bs ;; Ok (Lit (fst p), snd p)
      else if (c =? ch_i)%N then p <- ri32 bs ;; i <- placez (fst p) ;; Ok (Pl i, snd p)
      else if (c =? ch_minus)%N then
        n <- r32 bs ;;
        p <- times_n (parse_expr fuel) (fst n) (snd n) ;;
        match fst p with
        | [] => UB
        | e :: es => Ok (Sub e es, snd p)
        end
      else if (c =? ch_mul)%N || (c =? ch_plus)%N then
        k <- ri32 bs ;;
        n <- r32 (snd k) ;;
        x <- r32 (snd n) ;;
        ids <- times_n rplace (fst n) (snd x) ;;
        es <- times_n (parse_expr fuel) (fst x) (snd ids) ;;
        let l := Lit (fst k) :: map Pl (fst ids) ++ fst es in
        Ok (if (c =? ch_mul)%N then mk_mul l else mk_plus l, snd es)
      else Throw
    end.

  Definition rcons (bs : list N) : res (cons * list N) :=
    p <- r32 bs ;; l <- r32 (snd p) ;; u <- r32 (snd l) ;; i <- place (fst p) ;; Ok (mkCons i (fst l) (fst u), snd u).
  Definition rbound (bs : list N) : res ((nat * dbl) * list N) :=
    p <- rplace bs ;; d <- read 8 (snd p) ;; Ok ((fst p, fst d), snd d).
  Definition eqs (a b : list N) : bool := if list_eq_dec N.eq_dec a b then true else false.

  (** QueryBinaryParser.cpp:57-233, parseQuery; nullptr (and the failing assertions before
      it) are [Throw]. *)
  Fixpoint parse_form (fuel : nat) (bs : list N) : res (form * list N) :=
    match fuel with
    | O => NoFuel
    | S fuel =>
      pp <- ri32 bs ;;
      qq <- ri32 (snd pp) ;;
      let p := fst pp in
      let q := fst qq in
      let bs := snd qq in
      if (p =? pError)%Z then
        if (q =? qNEG)%Z then c <- parse_form fuel bs ;; Ok (F1 HNot (fst c), snd c)
        else if (q =? qDEADLOCK)%Z then Ok (FDead, bs)
        else if (q =? qPN_BOOLEAN)%Z then b <- rbool bs ;; Ok (FBool (fst b), snd b)
        else if (q =? qAND)%Z || (q =? qOR)%Z then
          n <- r32 bs ;;
          l <- times_n (parse_form fuel) (fst n) (snd n) ;;
          Ok (if (q =? qAND)%Z then FAnd (fst l) else FOr (fst l), snd l)
        else if (q =? qCOMPCONJ)%Z then
          b <- rbool bs ;;
          n <- r32 (snd b) ;;
          l <- times_n rcons (fst n) (snd n) ;;
          Ok (FConj (fst b) (fst l), snd l)
        else if (q =? qEMPTY)%Z then
          let s := getline bs in
          a <- parse_expr fuel (snd s) ;;
          b <- parse_expr fuel (snd a) ;;
          let a' := fst a in
          let b' := fst b in
          if eqs (fst s) [ch_lt] then Ok (FCmp OpLt a' b', snd b)
          else if eqs (fst s) [ch_lt; ch_eq] then Ok (FCmp OpLe a' b', snd b)
          else if eqs (fst s) [ch_gt; ch_eq] then Ok (FCmp OpLe b' a', snd b)
          else if eqs (fst s) [ch_gt] then Ok (FCmp OpLt b' a', snd b)
          else if eqs (fst s) [ch_eq; ch_eq] then Ok (FCmp OpEq a' b', snd b)
          else if eqs (fst s) [ch_bang; ch_eq] then Ok (FCmp OpNe a' b', snd b)
          else Throw
        else if (q =? qUPPERBOUNDS)%Z then
          n <- r32 bs ;;
          mx <- read 8 (snd n) ;;
          off <- read 8 (snd mx) ;;
          l <- times_n rbound (fst n) (snd off) ;;
          Ok (FBounds (fst mx) (fst off) (fst l), snd l)
        else if (q =? qA)%Z || (q =? qE)%Z then
          c <- parse_form fuel bs ;;
          Ok (F1 (if (q =? qA)%Z then HA else HE) (fst c), snd c)
        else Throw
      else
        c <- parse_form fuel bs ;;
        if (p =? pX)%Z then Ok (F1 (if (q =? qEMPTY)%Z then HX else if (q =? qA)%Z then HAX else HEX) (fst c), snd c)
        else if (p =? pF)%Z then Ok (F1 (if (q =? qEMPTY)%Z then HF else if (q =? qA)%Z then HAF else HEF) (fst c), snd c)
        else if (p =? pG)%Z then Ok (F1 (if (q =? qEMPTY)%Z then HG else if (q =? qA)%Z then HAG else HEG) (fst c), snd c)
        else if (p =? pU)%Z then
          d <- parse_form fuel (snd c) ;;
          Ok (F2 (if (q =? qEMPTY)%Z then HU else if (q =? qA)%Z then HAU else HEU) (fst c) (fst d), snd d)
        else if (p =? pPControl)%Z then Ok (F1 HControl (fst c), snd c)
        else Throw
    end.
  (** Every level of recursion consumes a byte: this fuel is enough. *)
  Definition parse_query (bs : list N) : res (form * list N) := parse_form (S (length bs)) bs.
End Parse.

(** * Query files *)

(** A query with its name, and whether the formula is a constant (isTriviallyTrue or
    isTriviallyFalse). *)
Definition named := (list N * form)%type.
Definition is_const (f : form) : bool := match f with FBool _ => true | _ => false end.
Definition kept (keep_solved : bool) (f : form) : bool := negb (is_const f && negb keep_solved).
(** src/VerifyPN.cpp:338-352, the loop that writes the queries *)
Fixpoint write_body (queries : list named) (keep_solved : bool) (order : list nat) : res (list N) :=
  match order with
  | [] => Ok []
  | i :: order =>
    q <- rd queries i ;;
    rest <- write_body queries keep_solved order ;;
    Ok ((if kept keep_solved (snd q) then fst q ++ [0%N] ++ print (snd q) else []) ++ rest)
  end.
(** VerifyPN.cpp:315-359, writeQueries in binary form.  [names] are the place names with
    their numbers in the order of the hash map; [order] is an order of the queries. *)
Definition write_file (names : list (list N * nat)) (queries : list named) (order : list nat) (keep_solved : bool) : res (list N) :=
  let cnt := length (filter (fun q => kept keep_solved (snd q)) queries) in
  body <- write_body queries keep_solved order ;;
  Ok (w32 (N.of_nat cnt) ++ w32 (N.of_nat (length names)) ++
      flat_map (fun kv => w32 (N.of_nat (snd kv)) ++ fst kv ++ [0%N]) names ++ body).
(** QueryBinaryParser.cpp:22-55, parse: the table of names and the queries. *)
Definition rname (bs : list N) : res ((N * list N) * list N) :=
  p <- r32 bs ;; let s := getline (snd p) in Ok ((fst p, fst s), snd s).
Fixpoint set_names (l : list (N * list N)) (names : list (list N)) : res (list (list N)) :=
  match l with
  | [] => Ok names
  | (i, s) :: l => if (i <? N.of_nat (length names))%N then set_names l (upd names (N.to_nat i) s) else UB
  end.
Definition rquery (np : nat) (bs : list N) : res (named * list N) :=
  let s := getline bs in
  q <- parse_query np (snd s) ;;
  Ok ((fst s, fst q), snd q).
Definition read_file (bs : list N) : res (list (list N) * list named) :=
  n <- r32 bs ;;
  nn <- r32 (snd n) ;;
  kvs <- times_n rname (fst nn) (snd nn) ;;
  names <- set_names (fst kvs) (repeat [] (N.to_nat (fst nn))) ;;
  qs <- times_n (rquery (length names)) (fst n) (snd kvs) ;;
  Ok (names, fst qs).
