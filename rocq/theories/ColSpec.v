(** Specification for coloured nets (C34): colours as structured values, the meaning of
    expressions, and the coloured firing rule. *)
From Verif Require Import Base ColSyntax.
Set Implicit Arguments.

(** ** Colours *)

(** A colour: an element of an enumeration or a tuple of such elements. *)
Inductive value := VE (i : nat) | VT (l : list nat).

Definition value_eqb (a b : value) : bool :=
  match a, b with
  | VE i, VE j => Nat.eqb i j
  | VT l, VT m => if list_eq_dec Nat.eq_dec l m then true else false
  | _, _ => false
  end.

(** Number of elements of an enumeration (0 for anything else). *)
Definition esize (tab : list tdecl) (ty : nat) : nat :=
  match nth_error tab ty with Some (TEnum n) => n | _ => 0 end.

(** The colours of a type. *)
Definition vtyped (tab : list tdecl) (ty : nat) (v : value) : Prop :=
  match nth_error tab ty, v with
  | Some (TEnum n), VE i => i < n
  | Some (TProd cs), VT l => Forall2 (fun i c => i < esize tab c) l cs
  | _, _ => False
  end.

(** All tuples over the given sizes. *)
Fixpoint tuples (ss : list nat) : list (list nat) :=
  match ss with
  | [] => [[]]
  | s :: r => flat_map (fun l => map (fun i => i :: l) (seq 0 s)) (tuples r)
  end.

(** All colours of a type, each once (see [values_spec] in the proofs). *)
Definition values (tab : list tdecl) (ty : nat) : list value :=
  match nth_error tab ty with
  | Some (TEnum n) => map VE (seq 0 n)
  | Some (TProd cs) => map VT (tuples (map (esize tab) cs))
  | None => []
  end.

(** The number of a tuple, its first component varying fastest. *)
Fixpoint tuple_num (ss l : list nat) : nat :=
  match ss, l with
  | s :: ss', i :: l' => i + s * tuple_num ss' l'
  | _, _ => 0
  end.

(** The number of a colour within its type; it is the number in the names of the
    unfolded places. *)
Definition vnum (tab : list tdecl) (ty : nat) (v : value) : nat :=
  match nth_error tab ty, v with
  | Some (TEnum _), VE i => i
  | Some (TProd cs), VT l => tuple_num (map (esize tab) cs) l
  | _, _ => 0
  end.

(** ** Expressions *)

Definition assignment := nat -> value.

Section Meaning.
Variable tab : list tdecl.
Variable vars : list nat.

Fixpoint ctype (e : cexp) : nat :=
  match e with
  | EDot => 0
  | EVar v => nth v vars 0
  | EUser ty _ => ty
  | ESucc e' | EPred e' => ctype e'
  | ETup _ => 0
  end.

Variable b : assignment.

(** Successor and predecessor are cyclic. *)
Fixpoint cval (e : cexp) : value :=
  match e with
  | EDot => VE 0
  | EVar v => b v
  | EUser _ i => VE i
  | ESucc e' => match cval e' with
                | VE i => VE ((i + 1) mod esize tab (ctype e'))
                | v => v
                end
  | EPred e' => match cval e' with
                | VE i => VE ((i + (esize tab (ctype e') - 1)) mod esize tab (ctype e'))
                | v => v
                end
  | ETup es => VT (map (fun e' => match cval e' with VE i => i | VT _ => 0 end) es)
  end.

Definition velt (u v : value) : bool :=
  match u, v with VE i, VE j => i <? j | _, _ => false end.
Definition vele (u v : value) : bool :=
  match u, v with VE i, VE j => i <=? j | _, _ => false end.

Fixpoint gval (g : gexp) : bool :=
  match g with
  | GLt l r => velt (cval l) (cval r)
  | GLe l r => vele (cval l) (cval r)
  | GEq l r => value_eqb (cval l) (cval r)
  | GNe l r => negb (value_eqb (cval l) (cval r))
  | GAnd l r => gval l && gval r
  | GOr l r => gval l || gval r
  end.

(** The multiset denoted by an arc expression. *)
Fixpoint mval (a : aexp) (v : value) : N :=
  match a with
  | ANum es n => sumN (map (fun e => if value_eqb (cval e) v then n else 0%N) es)
  | AAdd es => sumN (map (fun e => mval e v) es)
  | ASub l r => (mval l v - mval r v)%N
  | AScal e k => (k * mval e v)%N
  end.

End Meaning.

(** ** The coloured firing rule *)

Definition cmark := nat -> value -> N.

Section Firing.
Variable n : cpn.
Notation tab := (cn_types n).
Notation vars := (cn_vars n).

Definition ptype (p : nat) : nat :=
  match nth_error (cn_pls n) p with Some pl => cp_type pl | None => 0 end.

(** Tokens of a place, over all its colours. *)
Definition total (M : cmark) (p : nat) : N := sumN (map (M p) (values tab (ptype p))).

Definition cinit : cmark := fun p v =>
  match nth_error (cn_pls n) p with
  | Some pl => match cp_init pl with
               | Some a => mval tab vars (fun _ => VE 0) a v
               | None => 0%N
               end
  | None => 0%N
  end.

(** What the arcs move for the binding [b]. *)
Definition moved (b : assignment) (arcs : list (nat * aexp)) (p : nat) (v : value) : N :=
  sumN (map (fun x => if Nat.eqb (fst x) p then mval tab vars b (snd x) v else 0%N) arcs).

(** A binding gives every variable a colour of its type. *)
Definition binds (b : assignment) : Prop :=
  forall v ty, nth_error vars v = Some ty -> vtyped tab ty (b v).

(** Transition [t] is enabled with binding [b]: the guard holds, the places hold the
    colours the input arcs ask for, and the number of tokens of every inhibiting place is
    below the weight of its inhibitor arc. *)
Definition cenabled (M : cmark) (t : nat) (tr : ctrans) (b : assignment) : Prop :=
  binds b /\
  (forall g, ct_guard tr = Some g -> gval tab vars b g = true) /\
  (forall p v, (moved b (ct_in tr) p v <= M p v)%N) /\
  (forall p w, In (p, t, w) (cn_inh n) -> (total M p < w)%N).

Definition cstep (M : cmark) (t : nat) (M' : cmark) : Prop :=
  exists tr b, nth_error (cn_trs n) t = Some tr /\ cenabled M t tr b /\
    forall p v, M' p v = (M p v - moved b (ct_in tr) p v + moved b (ct_out tr) p v)%N.

(** ** Well-formed nets *)

Definition tab_ok : Prop :=
  nth_error tab 0 = Some (TEnum 1) /\
  (forall ty k, nth_error tab ty = Some (TEnum k) -> 0 < k) /\
  (forall ty cs c, nth_error tab ty = Some (TProd cs) -> In c cs -> 0 < esize tab c) /\
  (forall t1 t2 cs, nth_error tab t1 = Some (TProd cs) -> nth_error tab t2 = Some (TProd cs) -> t1 = t2) /\
  (forall ty cs, nth_error tab ty = Some (TProd cs) -> In ty (cn_map n)).

Fixpoint ctyped (e : cexp) (ty : nat) : Prop :=
  match e with
  | EDot => ty = 0
  | EVar v => nth_error vars v = Some ty
  | EUser t i => ty = t /\ i < esize tab t
  | ESucc e' | EPred e' => ctyped e' ty /\ 0 < esize tab ty
  | ETup es => exists cs, nth_error tab ty = Some (TProd cs) /\ length es = length cs /\
      (fix go (es : list cexp) (cs : list nat) : Prop :=
         match es, cs with
         | e' :: es', c :: cs' => ctyped e' c /\ go es' cs'
         | _, _ => True
         end) es cs
  end.

(** Order comparisons are between elements of one enumeration, equalities between colours
    of one type. *)
Fixpoint gtyped (g : gexp) : Prop :=
  match g with
  | GLt l r | GLe l r => exists ty, 0 < esize tab ty /\ ctyped l ty /\ ctyped r ty
  | GEq l r | GNe l r => exists ty, ctyped l ty /\ ctyped r ty
  | GAnd l r | GOr l r => gtyped l /\ gtyped r
  end.

Fixpoint atyped (a : aexp) (ty : nat) : Prop :=
  match a with
  | ANum es _ => es <> [] /\ Forall (fun e => ctyped e ty) es
  | AAdd es => es <> [] /\
      (fix go (es : list aexp) : Prop :=
         match es with [] => True | e :: es' => atyped e ty /\ go es' end) es
  | ASub l r => atyped l ty /\ atyped r ty
  | AScal e _ => atyped e ty
  end.

(** The sum of all the numbers an arc expression mentions, with their factors. *)
Fixpoint aweight (a : aexp) : N :=
  match a with
  | ANum es k => (k * N.of_nat (length es))%N
  | AAdd es => sumN (map aweight es)
  | ASub l r => (aweight l + aweight r)%N
  | AScal e k => (N.max 1 k * aweight e)%N
  end.

(** No expression mentions a variable (initial markings). *)
Fixpoint cground (e : cexp) : Prop :=
  match e with
  | EVar _ => False
  | EDot | EUser _ _ => True
  | ESucc e' | EPred e' => cground e'
  | ETup es => (fix go (es : list cexp) : Prop :=
                  match es with [] => True | e' :: es' => cground e' /\ go es' end) es
  end.
Fixpoint aground (a : aexp) : Prop :=
  match a with
  | ANum es _ => Forall cground es
  | AAdd es => (fix go (es : list aexp) : Prop :=
                  match es with [] => True | e :: es' => aground e /\ go es' end) es
  | ASub l r => aground l /\ aground r
  | AScal e _ => aground e
  end.

Definition arc_ok (x : nat * aexp) : Prop :=
  exists pl, nth_error (cn_pls n) (fst x) = Some pl /\ atyped (snd x) (cp_type pl) /\
             (aweight (snd x) < 2147483648)%N.

Definition cpn_ok : Prop :=
  tab_ok /\
  (forall v ty, nth_error vars v = Some ty -> exists d, nth_error tab ty = Some d) /\
  (forall p pl, nth_error (cn_pls n) p = Some pl ->
     (exists d, nth_error tab (cp_type pl) = Some d) /\
     forall a, cp_init pl = Some a ->
       atyped a (cp_type pl) /\ aground a /\ (aweight a < 2147483648)%N) /\
  (forall t tr, nth_error (cn_trs n) t = Some tr ->
     (forall g, ct_guard tr = Some g -> gtyped g) /\
     Forall arc_ok (ct_in tr) /\ Forall arc_ok (ct_out tr)) /\
  (forall p t w, In (p, t, w) (cn_inh n) -> p < length (cn_pls n) /\ t < length (cn_trs n)).

End Firing.
