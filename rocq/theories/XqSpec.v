(** Specification for C38: what a query in a query file means, what a formula means, and which
    trees are queries. *)
From Verif Require Import Base PqlSyntax XqSyntax.
Set Implicit Arguments.
Local Open Scope string_scope.

(** ** Structures in which formulas are true or false

    States and runs are arbitrary.  [starts s r]: [r] is a maximal run from [s].  [rest i r]
    is what remains of [r] after [i] steps, if it is that long.  [wins s R]: a controller can
    see to it that the run from [s] is one of [R].  Whether a run that ends goes on for ever
    in its last state is left to the structure. *)
Record frame := mkFrame {
  st : Type;
  run : Type;
  first : run -> st;
  starts : st -> run -> Prop;
  rest : nat -> run -> option run;
  tok : st -> string -> N;
  fires : st -> string -> Prop;
  dead : st -> Prop;
  wins : st -> (run -> Prop) -> Prop;
  places : list string;
  transitions : list string }.

(** [wins] depends on the runs in the set only. *)
Definition frame_ok (F : frame) : Prop :=
  forall s R R', (forall r, R r <-> R' r) -> wins F s R -> wins F s R'.

Section Meaning.
Variable F : frame.

(** Runs with a name (HyperLTL) *)
Definition env := string -> option (run F).
Definition eshift (i : nat) (e : env) : env :=
  fun n => match e n with Some r => rest F i r | None => None end.
Definition ebind (n : string) (r : run F) (e : env) : env :=
  fun m => if String.eqb n m then Some r else e m.

(** ** Predicates on runs *)
Definition pred := env -> run F -> Prop.
Definition pnot (p : pred) : pred := fun e r => ~ p e r.
Definition pall (l : list pred) : pred := fun e r => forall p, In p l -> p e r.
Definition pany (l : list pred) : pred := fun e r => exists p, In p l /\ p e r.
Definition exists_path (p : pred) : pred := fun e r => exists r', starts F (first F r) r' /\ p e r'.
Definition all_paths (p : pred) : pred := fun e r => forall r', starts F (first F r) r' -> p e r'.
Definition named_exists (n : string) (p : pred) : pred :=
  fun e r => exists r', starts F (first F r) r' /\ p (ebind n r' e) r'.
Definition named_all (n : string) (p : pred) : pred :=
  fun e r => forall r', starts F (first F r) r' -> p (ebind n r' e) r'.
Definition after (i : nat) (p : pred) : pred :=
  fun e r => exists r', rest F i r = Some r' /\ p (eshift i e) r'.
Definition next (p : pred) : pred := after 1 p.
Definition finally (p : pred) : pred := fun e r => exists i, after i p e r.
Definition globally (p : pred) : pred :=
  fun e r => forall i r', rest F i r = Some r' -> p (eshift i e) r'.
Definition until (p q : pred) : pred :=
  fun e r => exists i, after i q e r /\ forall j, j < i -> after j p e r.
Definition scope (n : string) (p : pred) : pred :=
  fun e r => match e n with Some r' => p e r' | None => False end.
Definition control (p : pred) : pred := fun e r => wins F (first F r) (p e).

(** ** Numbers *)
Definition val := env -> run F -> Z.
Definition tokens_of (p : string) : val := fun _ r => Z.of_N (tok F (first F r) p).
(** (for a name without a run the scope is ignored) *)
Definition scope_val (n : string) (v : val) : val :=
  fun e r => match e n with Some r' => v e r' | None => v e r end.
Definition vsum (l : list val) : val := fun e r => fold_right (fun v x => (v e r + x)%Z) 0%Z l.
Definition vprod (l : list val) : val := fun e r => fold_right (fun v x => (v e r * x)%Z) 1%Z l.
(** the first minus all the others; a single number is negated *)
Definition vdiff (l : list val) : val :=
  fun e r => match l with
             | [] => 0%Z
             | [v] => (- v e r)%Z
             | v :: l' => (v e r - vsum l' e r)%Z
             end.
Definition compares (o : cmp) (u v : val) : pred :=
  fun e r => match o with
             | OpEq => u e r = v e r
             | OpNe => u e r <> v e r
             | OpLt => (u e r < v e r)%Z
             | OpLe => (u e r <= v e r)%Z
             end.
Definition const (z : Z) : val := fun _ _ => z.

(** ** Global properties *)
(** in every reachable state every place has at most the given number of tokens *)
Definition k_safe (k : val) : pred :=
  fun e r => forall p, In p (places F) -> all_paths (globally (compares OpLe (tokens_of p) k)) e r.
Definition quasi_live : pred :=
  fun e r => forall t, In t (transitions F) -> exists_path (finally (fun _ r => fires F (first F r) t)) e r.
Definition live : pred :=
  fun e r => forall t, In t (transitions F) ->
    all_paths (globally (exists_path (finally (fun _ r => fires F (first F r) t)))) e r.
(** some place never changes *)
Definition stable : pred :=
  fun e r => exists p, In p (places F) /\
    all_paths (globally (compares OpEq (tokens_of p) (const (Z.of_N (tok F (first F r) p))))) e r.

(** ** Meaning of formulas *)

Fixpoint nval (x : nexpr) : val :=
  match x with
  | NLit z => const z
  | NId p => tokens_of p
  | NMinus y => fun e r => (- nval y e r)%Z
  | NSub ys => match ys with
               | [] => const 0
               | y :: ys' => fun e r => (nval y e r - vsum (map nval ys') e r)%Z
               end
  | NPlus c ids ys => fun e r => (c + vsum (map tokens_of ids) e r + vsum (map nval ys) e r)%Z
  | NMul c ids ys => fun e r => (c * vprod (map tokens_of ids) e r * vprod (map nval ys) e r)%Z
  | NPath n y => scope_val n (nval y)
  end.

(** the largest 32-bit number as greatest value means that there is none *)
Definition within (c : string * N * N) : pred :=
  fun _ r => let '(p, lo, hi) := c in
    (lo <= tok F (first F r) p)%N /\ (hi = u32max \/ (tok F (first F r) p <= hi)%N).

Fixpoint nsat (c : ncond) : pred :=
  match c with
  | NBool b => fun _ _ => b = true
  | NDead => fun _ r => dead F (first F r)
  | NFire t => fun _ r => fires F (first F r) t
  | NNot c => pnot (nsat c)
  | NAnd l => pall (map nsat l)
  | NOr l => pany (map nsat l)
  | NCmp o a b => compares o (nval a) (nval b)
  | NConj false cs => pall (map within cs)
  | NConj true cs => pnot (pall (map within cs))
  | N1 OE c => exists_path (nsat c)
  | N1 OA c => all_paths (nsat c)
  | N1 OX c => next (nsat c)
  | N1 OF c => finally (nsat c)
  | N1 OG c => globally (nsat c)
  | N1 OEX c => exists_path (next (nsat c))
  | N1 OAX c => all_paths (next (nsat c))
  | N1 OEF c => exists_path (finally (nsat c))
  | N1 OAF c => all_paths (finally (nsat c))
  | N1 OEG c => exists_path (globally (nsat c))
  | N1 OAG c => all_paths (globally (nsat c))
  | N1 OControl c => control (nsat c)
  | N2 OU a b => until (nsat a) (nsat b)
  | N2 OEU a b => exists_path (until (nsat a) (nsat b))
  | N2 OAU a b => all_paths (until (nsat a) (nsat b))
  | NEx n c => named_exists n (nsat c)
  | NAll n c => named_all n (nsat c)
  | NSel n c => scope n (nsat c)
  | NSafe k => k_safe (nval k)
  | NQuasi => quasi_live
  | NStable => stable
  | NLive => live
  | NBounds _ => fun _ _ => False
  end.

(** ** Meaning of query trees *)

(** White space does not count in names of places. *)
Definition isspace (a : ascii) : bool :=
  existsb (Ascii.eqb a) [" "; "009"; "010"; "011"; "012"; "013"]%char.
Fixpoint nospace (s : string) : string :=
  match s with
  | EmptyString => EmptyString
  | String a s' => if isspace a then nospace s' else String a (nospace s')
  end.

(** Decimal numbers: digits with an optional sign *)
Definition digit_val (a : ascii) : option Z :=
  let n := nat_of_ascii a in
  if ((48 <=? n) && (n <=? 57))%nat then Some (Z.of_nat (n - 48)%nat) else None.
Fixpoint digits_val (acc : Z) (s : string) : option Z :=
  match s with
  | EmptyString => Some acc
  | String a s' => match digit_val a with Some d => digits_val (acc * 10 + d)%Z s' | None => None end
  end.
Definition natural (s : string) : option Z :=
  match s with EmptyString => None | _ => digits_val 0 s end.
Definition number (s : string) : option Z :=
  match s with
  | String a s' => if Ascii.eqb a "-" then option_map Z.opp (natural s')
                   else if Ascii.eqb a "+" then natural s' else natural s
  | EmptyString => None
  end.

Definition xplace (x : xml) : val := tokens_of (nospace (text_of x)).
Fixpoint xval (x : xml) : val :=
  match x with
  | X t a s ks =>
    match t with
    | Tconstant => match number s with Some z => const z | None => const 0 end
    | Ttokens => vsum (map xplace ks)
    | Tsum => vsum (map xval ks)
    | Tproduct => vprod (map xval ks)
    | Tdifference => vdiff (map xval ks)
    | Tscope => match a, ks with Some n, [k] => scope_val n (xval k) | _, _ => const 0 end
    | _ => const 0
    end
  end.

Definition pfalse : pred := fun _ _ => False.
Definition pone (l : list pred) : pred := match l with [p] => p | _ => pfalse end.
Definition ptwo (f : pred -> pred -> pred) (l : list pred) : pred :=
  match l with [p; q] => f p q | _ => pfalse end.
Definition vtwo (f : val -> val -> pred) (l : list val) : pred :=
  match l with [p; q] => f p q | _ => pfalse end.

(** Formulas as in the Model Checking Contest, with paths with names. *)
Fixpoint xsat (x : xml) : pred :=
  match x with
  | X t a s ks =>
    match t with
    | Tinvariant => all_paths (globally (pone (map xsat ks)))
    | Timpossibility => all_paths (globally (pnot (pone (map xsat ks))))
    | Tpossibility => exists_path (finally (pone (map xsat ks)))
    | Tcontrol => control (pone (map xsat ks))
    | Texists => match a with
                 | None => exists_path (pone (map xsat ks))
                 | Some n => named_exists n (pone (map xsat ks))
                 end
    | Tall => match a with
              | None => all_paths (pone (map xsat ks))
              | Some n => named_all n (pone (map xsat ks))
              end
    | Tnext => next (pone (map xsat ks))
    | Tglobally => globally (pone (map xsat ks))
    | Tfinally => finally (pone (map xsat ks))
    | Tuntil => ptwo until (map xsat ks)
    | Tbefore | Treach => pone (map xsat ks)
    | Tdeadlock => fun _ r => dead F (first F r)
    | Ttrue => fun _ _ => True
    | Tnegation | Tnot => pnot (pone (map xsat ks))
    | Tconjunction | Tand => pall (map xsat ks)
    | Tdisjunction | Tor => pany (map xsat ks)
    | Txor => ptwo (fun p q e r => (p e r /\ ~ q e r) \/ (q e r /\ ~ p e r)) (map xsat ks)
    | Timplication => ptwo (fun p q e r => p e r -> q e r) (map xsat ks)
    | Tequivalence => ptwo (fun p q e r => p e r <-> q e r) (map xsat ks)
    | Teq => vtwo (compares OpEq) (map xval ks)
    | Tne => vtwo (compares OpNe) (map xval ks)
    | Tlt => vtwo (compares OpLt) (map xval ks)
    | Tle => vtwo (compares OpLe) (map xval ks)
    | Tgt => vtwo (fun u v => compares OpLt v u) (map xval ks)
    | Tge => vtwo (fun u v => compares OpLe v u) (map xval ks)
    | Tfireable => fun _ r => exists k, In k ks /\ fires F (first F r) (text_of k)
    | Tscope => match a with Some n => scope n (pone (map xsat ks)) | None => pfalse end
    | Tksafe => match ks with [k] => k_safe (xval k) | _ => pfalse end
    | Tquasi => quasi_live
    | Tstable => stable
    | Tliveness => live
    | _ => pfalse
    end
  end.

End Meaning.

(** Two formulas with the same meaning *)
Definition same (c c' : ncond) : Prop :=
  forall F, frame_ok F -> forall (e : env F) r, nsat c e r <-> nsat c' e r.
(** The formula says what the tree says. *)
Definition says (c : ncond) (x : xml) : Prop :=
  forall F, frame_ok F -> forall (e : env F) r, nsat c e r <-> xsat x e r.

(** ** Queries that are well formed *)

Definition i32 (z : Z) : bool := ((- 2 ^ 31 <=? z) && (z <? 2 ^ 31))%Z.
Definition nonempty {A} (l : list A) : bool := match l with [] => false | _ => true end.
Definition single {A} (l : list A) : bool := match l with [_] => true | _ => false end.
Definition pair {A} (l : list A) : bool := match l with [_; _] => true | _ => false end.
Definition is_tag (t : tag) (x : xml) : bool :=
  match t, tag_of x with
  | Tplace, Tplace | Ttransition, Ttransition | Tbefore, Tbefore | Treach, Treach
  | Tid, Tid | Tformula, Tformula | Tproperty, Tproperty => true
  | _, _ => false
  end.
Definition place_ok (x : xml) : bool := is_tag Tplace x && negb (String.eqb (nospace (text_of x)) "").

Fixpoint wf_exp (x : xml) : bool :=
  match x with
  | X t a s ks =>
    match t with
    | Tconstant => match number s with Some z => i32 z | None => false end
    | Ttokens => nonempty ks && forallb place_ok ks
    | Tsum | Tproduct | Tdifference => nonempty ks && forallb wf_exp ks
    | Tscope => match a with Some _ => single ks && forallb wf_exp ks | None => false end
    | _ => false
    end
  end.
Fixpoint wf_form (x : xml) : bool :=
  match x with
  | X t a s ks =>
    match t with
    | Tinvariant | Timpossibility | Tpossibility | Tcontrol | Texists | Tall | Tnext | Tglobally | Tfinally
    | Tnegation | Tnot => single ks && forallb wf_form ks
    | Tuntil => match ks with
                | [X Tbefore _ _ [b]; X Treach _ _ [c]] => wf_form b && wf_form c
                | _ => false
                end
    | Tdeadlock | Ttrue | Tfalse => true
    | Tconjunction | Tand | Tdisjunction | Tor => nonempty ks && forallb wf_form ks
    | Txor | Timplication | Tequivalence => pair ks && forallb wf_form ks
    | Teq | Tne | Tlt | Tle | Tgt | Tge => pair ks && forallb wf_exp ks
    | Tfireable => nonempty ks && forallb (is_tag Ttransition) ks
    | Tscope => match a with Some _ => single ks && forallb wf_form ks | None => false end
    | _ => false
    end
  end.

(** The numbers of a query are folded in 64 bits: the size of a sum is the sum of the sizes,
    that of a product the product. *)
Definition absN (z : Z) : N := Z.to_N (Z.abs z).
Definition prodN (l : list N) : N := fold_right (fun a b => N.max 1 a * b)%N 1%N l.
Fixpoint size (x : xml) : N :=
  match x with
  | X t a s ks =>
    match t with
    | Tconstant => match number s with Some z => absN z | None => 0%N end
    | Tsum | Tdifference | Tscope => sumN (map size ks)
    | Tproduct => prodN (map size ks)
    | _ => 0%N
    end
  end.
Definition small_num (n : N) : bool := (n <? 2 ^ 63)%N.
(** every expression in the tree is small *)
Fixpoint small (x : xml) : bool :=
  match x with
  | X t a s ks =>
    match t with
    | Teq | Tne | Tlt | Tle | Tgt | Tge | Tksafe => forallb (fun k => small_num (size k)) ks
    | _ => forallb small ks
    end
  end.

(** A query below its formula element: a formula, a global property or a bound. *)
Definition wf_query (x : xml) : bool :=
  match x with
  | X Tksafe _ _ ks => single ks && forallb wf_exp ks
  | X Tquasi _ _ _ | X Tstable _ _ _ | X Tliveness _ _ _ => true
  | _ => wf_form x
  end.
Definition wf_bound (x : xml) : bool :=
  match x with X Tbound _ _ ks => forallb place_ok ks | _ => false end.

(** ** Formulas of CTL *)
Fixpoint ctl (c : ncond) : bool :=
  match c with
  | NBool _ | NDead | NFire _ | NCmp _ _ _ | NConj _ _ | NSafe _ | NQuasi | NStable | NLive | NBounds _ => true
  | NNot c => ctl c
  | NAnd l | NOr l => forallb ctl l
  | N1 o c => match o with OEX | OAX | OEF | OAF | OEG | OAG | OControl => ctl c | _ => false end
  | N2 o a b => match o with OEU | OAU => ctl a && ctl b | _ => false end
  | NEx _ _ | NAll _ _ | NSel _ _ => false
  end.

(** ** Queries as the user wrote them and as they are read *)

(** Formulas that start with an operator on runs *)
Fixpoint path_formula (c : ncond) : bool :=
  match c with
  | N1 OX _ | N1 OF _ | N1 OG _ | N2 OU _ _ => true
  | N1 OControl c => path_formula c
  | _ => false
  end.
(** "control" is applied to formulas about states. *)
Fixpoint controls_states (c : ncond) : bool :=
  match c with
  | NNot c | NEx _ c | NAll _ c | NSel _ c => controls_states c
  | NAnd l | NOr l => forallb controls_states l
  | N1 OControl c => negb (path_formula c) && controls_states c
  | N1 _ c => controls_states c
  | N2 _ a b => controls_states a && controls_states b
  | _ => true
  end.

(** What reading the query [q] must give: for a bound, that of the named places; otherwise a
    formula that says what the tree says. *)
Definition reads (c : ncond) (q : xml) : Prop :=
  match tag_of q with
  | Tbound => c = N1 OEF (NBounds (map (fun k => nospace (text_of k)) (kids_of q)))
  | _ => says c q
  end.
(** A property element with name [id] and query [q] *)
Definition is_property (x : xml) (id : string) (q : xml) : Prop :=
  tag_of x = Tproperty /\
  map text_of (filter (is_tag Tid) (kids_of x)) = [id] /\ id <> "" /\
  (exists a s, filter (is_tag Tformula) (kids_of x) = [X Tformula a s [q]]) /\
  forall k j, In k (kids_of x) -> tag_of k = Ttags -> In j (kids_of k) -> tag_of j = Tisreach -> text_of j <> "true".
Definition good_query (q : xml) : bool := (wf_query q || wf_bound q) && small q.
(** The queries whose numbers are wanted; an empty list of numbers asks for all. *)
Definition wantsb (only : list nat) (i : nat) : bool :=
  match only with [] => true | _ => if in_dec Nat.eq_dec i only then true else false end.
Fixpoint chosen {A} (only : list nat) (i : nat) (l : list A) : list A :=
  match l with
  | [] => []
  | a :: l' => if wantsb only i then a :: chosen only (S i) l' else chosen only (S i) l'
  end.

(** ** Formulas that can be written *)

Definition name_ok (p : string) : bool := negb (String.eqb p "") && String.eqb (nospace p) p.
Fixpoint exp_ok (e : nexpr) : bool :=
  match e with
  | NLit z => i32 z
  | NId p => name_ok p
  | NMinus e | NPath _ e => exp_ok e
  | NSub es => (2 <=? List.length es)%nat && forallb exp_ok es
  | NPlus c ids es =>
      i32 c && forallb name_ok ids && forallb exp_ok es && (negb (c =? 0)%Z || nonempty ids || nonempty es)
  | NMul c ids es =>
      i32 c && forallb name_ok ids && forallb exp_ok es && (negb (c =? 1)%Z || nonempty ids || nonempty es)
  end.
Fixpoint exp_size (e : nexpr) : N :=
  match e with
  | NLit z => absN z
  | NId _ => 0%N
  | NMinus e | NPath _ e => exp_size e
  | NSub es => sumN (map exp_size es)
  | NPlus c _ es => (absN c + sumN (map exp_size es))%N
  | NMul c _ es => (N.max 1 (absN c) * prodN (map exp_size es))%N
  end.
Definition cons_ok (c : string * N * N) : bool :=
  let '(p, lo, hi) := c in name_ok p && i32 (Z.of_N lo) && ((hi =? u32max)%N || i32 (Z.of_N hi)).
Definition no_limit (c : string * N * N) : bool := let '(_, lo, hi) := c in ((lo =? 0) && (hi =? u32max))%N.
Fixpoint cond_ok (c : ncond) : bool :=
  match c with
  | NBool _ | NDead | NFire _ => true
  | NNot c | N1 _ c | NEx _ c | NAll _ c | NSel _ c => cond_ok c
  | NAnd l | NOr l => forallb cond_ok l
  | NCmp _ a b => exp_ok a && exp_ok b && small_num (exp_size a) && small_num (exp_size b)
  | NConj _ cs => forallb cons_ok cs && match cs with [] => true | _ => negb (forallb no_limit cs) end
  | N2 _ a b => cond_ok a && cond_ok b
  | NSafe _ | NQuasi | NStable | NLive | NBounds _ => false
  end.
(** The numbers of the queries that are written: all in [order], or those without an answer *)
Definition written (keep : bool) (solved : list bool) (order : list nat) : list nat :=
  filter (fun i => keep || negb (nth i solved false)) order.

(** ** Formulas that CTL has: each path quantifier has its operator, each operator its
    quantifier *)
Fixpoint state_formula (c : ncond) : bool :=
  match c with
  | NBool _ | NDead | NFire _ | NCmp _ _ _ | NConj _ _ | NSafe _ | NQuasi | NStable | NLive | NBounds _ => true
  | NNot c => state_formula c
  | NAnd l | NOr l => nonempty l && forallb state_formula l
  | N1 o d =>
    match o with
    | OE | OA => match d with
                 | N1 OX x | N1 OF x | N1 OG x => state_formula x
                 | N2 OU x y => state_formula x && state_formula y
                 | _ => false
                 end
    | OX | OF | OG => false
    | _ => state_formula d
    end
  | N2 _ _ _ | NEx _ _ | NAll _ _ | NSel _ _ => false
  end.
