(** Specification of the answers of the explicit engine for coloured nets (C37): reachable
    markings, queries, and the nets for which the engine is exact. *)
From Verif Require Import Base ColSyntax ColSpec ExpSyntax.
Set Implicit Arguments.

Section Meaning.
Variable n : cpn.

(** Sequences of steps of the coloured net. *)
Inductive crun : cmark -> list nat -> cmark -> Prop :=
| run_nil : forall M, crun M [] M
| run_cons : forall M t M' ts M'', cstep n M t M' -> crun M' ts M'' -> crun M (t :: ts) M''.
Definition creach (M : cmark) : Prop := exists ts, crun (cinit n) ts M.

Definition tval (M : cmark) (x : qterm) : Z :=
  match x with
  | TLit k => k
  | TPlace p => Z.of_N (total n M p)
  end.

(** The query holds in a marking. *)
Fixpoint qholds (M : cmark) (q : kquery) : Prop :=
  match q with
  | KQAnd l => (fix go (l : list kquery) : Prop := match l with [] => True | x :: l' => qholds M x /\ go l' end) l
  | KQOr l => (fix go (l : list kquery) : Prop := match l with [] => False | x :: l' => qholds M x \/ go l' end) l
  | KQNot x => ~ qholds M x
  | KQLt l r => (tval M l < tval M r)%Z
  | KQLe l r => (tval M l <= tval M r)%Z
  | KQEq l r => tval M l = tval M r
  | KQNe l r => tval M l <> tval M r
  | KQDead => ~ exists t M', cstep n M t M'
  | KQFire t => exists M', cstep n M t M'
  end.

(** The meaning of the whole query. *)
Definition holds (qt : quant) (q : kquery) : Prop :=
  match qt with
  | QEF => exists M, creach M /\ qholds M q
  | QAG => forall M, creach M -> qholds M q
  end.

(** ** Nets for which the engine is exact *)

Notation tab := (cn_types n).
Notation vars := (cn_vars n).

(** Does a colour expression mention a variable? *)
Fixpoint hasv (e : cexp) : bool :=
  match e with
  | EDot | EUser _ _ => false
  | EVar _ => true
  | ESucc e' | EPred e' => hasv e'
  | ETup es => existsb hasv es
  end.

(** All numbers and factors are positive. *)
Fixpoint apos (a : aexp) : Prop :=
  match a with
  | ANum _ k => k <> 0%N
  | AAdd es => (fix go (es : list aexp) : Prop := match es with [] => True | e :: es' => apos e /\ go es' end) es
  | ASub l r => apos l /\ apos r
  | AScal e k => k <> 0%N /\ apos e
  end.

(** No subtraction. *)
Fixpoint plain (a : aexp) : Prop :=
  match a with
  | ANum _ _ => True
  | AAdd es => (fix go (es : list aexp) : Prop := match es with [] => True | e :: es' => plain e /\ go es' end) es
  | ASub _ _ => False
  | AScal e _ => plain e
  end.

(** Tokens whose colour does not depend on variables, and the number of the others, of an
    expression without subtraction. *)
Fixpoint gmul (a : aexp) (v : value) : N :=
  match a with
  | ANum es k => sumN (map (fun e => if hasv e then 0%N else if value_eqb (cval tab vars (fun _ => VE 0) e) v then k else 0%N) es)
  | AAdd es => sumN (map (fun e => gmul e v) es)
  | ASub l _ => gmul l v
  | AScal e k => (k * gmul e v)%N
  end.
Fixpoint vmul (a : aexp) : N :=
  match a with
  | ANum es k => sumN (map (fun e => if hasv e then k else 0%N) es)
  | AAdd es => sumN (map vmul es)
  | ASub l _ => vmul l
  | AScal e k => (k * vmul e)%N
  end.

(** Every tuple that is not subtracted mentions a variable. *)
Fixpoint allv (a : aexp) : Prop :=
  match a with
  | ANum es _ => Forall (fun e => hasv e = true) es
  | AAdd es => (fix go (es : list aexp) : Prop := match es with [] => True | e :: es' => allv e /\ go es' end) es
  | ASub l _ => allv l
  | AScal e _ => allv e
  end.

(** Subtractions are not nested on the right, and what is subtracted mentions a variable,
    or nothing but variables is subtracted from, or the tokens subtracted are all present. *)
Fixpoint sub_ok (a : aexp) : Prop :=
  match a with
  | ANum _ _ => True
  | AAdd es => (fix go (es : list aexp) : Prop := match es with [] => True | e :: es' => sub_ok e /\ go es' end) es
  | ASub l r => sub_ok l /\ plain r /\
      (vmul r <> 0%N \/ allv l \/ (plain l /\ forall v, (gmul r v <= gmul l v)%N))
  | AScal e _ => sub_ok e
  end.

(** The only tuple of an expression that consists of one tuple. *)
Fixpoint only_tuple (a : aexp) : option (list cexp) :=
  match a with
  | ANum [ETup es] _ => Some es
  | AAdd [e] => only_tuple e
  | AScal e _ => only_tuple e
  | _ => None
  end.

(** If the expression is one tuple without variables, its components have types of one size. *)
Definition const_ok (a : aexp) : Prop :=
  forall es, only_tuple a = Some es -> existsb hasv es = false ->
    forall e e', In e es -> In e' es -> esize tab (ctype vars e) = esize tab (ctype vars e').

Definition exp_ok : Prop :=
  (* the variables range over enumerations *)
  (forall v ty, nth_error vars v = Some ty -> 0 < esize tab ty) /\
  (* colours fit into 32 bits *)
  (forall ty, (N.of_nat (length (values tab ty)) < 4294967296)%N) /\
  forall t tr, nth_error (cn_trs n) t = Some tr ->
    NoDup (map fst (ct_in tr)) /\
    Forall (fun x => apos (snd x) /\ sub_ok (snd x) /\ const_ok (snd x)) (ct_in tr) /\
    Forall (fun x => const_ok (snd x)) (ct_out tr).

End Meaning.

(** The numbers in the query fit into 32 bits and are not negative. *)
Definition term_ok (x : qterm) : Prop :=
  match x with TLit k => (0 <= k < 4294967296)%Z | TPlace _ => True end.
Fixpoint query_ok (q : kquery) : Prop :=
  match q with
  | KQAnd l | KQOr l => (fix go (l : list kquery) : Prop := match l with [] => True | x :: l' => query_ok x /\ go l' end) l
  | KQNot x => query_ok x
  | KQLt l r | KQLe l r | KQEq l r | KQNe l r => term_ok l /\ term_ok r
  | KQDead | KQFire _ => True
  end.
