(** Query files as trees, and formulas with names (C38).  Shared by the specification and the
    model. *)
From Coq Require Export String Ascii.
From Verif Require Import Base PqlSyntax.
Set Implicit Arguments.

(** The element names the query reader distinguishes, src/PetriParse/QueryXMLParser.cpp; a
    string compared with them is one of these constructors, any other name is [Tother].
    [Tdata] is a data node (text between tags). *)
Inductive tag :=
| Tset | Tproperty | Tid | Ttags | Tisreach | Tformula
| Tksafe | Tquasi | Tstable | Tliveness | Tbound
| Tinvariant | Timpossibility | Tpossibility | Tcontrol
| Texists | Tall | Tnext | Tglobally | Tfinally | Tuntil | Tbefore | Treach
| Tdeadlock | Ttrue | Tfalse | Tnegation | Tnot | Tconjunction | Tand | Tdisjunction | Tor
| Txor | Timplication | Tequivalence
| Teq | Tne | Tlt | Tle | Tgt | Tge
| Tfireable | Ttransition | Tscope
| Tconstant | Ttokens | Tplace | Tsum | Tproduct | Tdifference
| Tdata | Tother.

(** A node: its name, the value of its attribute "name" if it has one, its value() and its
    child nodes in order.  An XML library turns text into such trees; that step is not part
    of the model. *)
Inductive xml := X (t : tag) (attr : option string) (text : string) (kids : list xml).
Definition tag_of (x : xml) : tag := match x with X t _ _ _ => t end.
Definition attr_of (x : xml) : option string := match x with X _ a _ _ => a end.
Definition text_of (x : xml) : string := match x with X _ _ s _ => s end.
Definition kids_of (x : xml) : list xml := match x with X _ _ _ k => k end.

(** Expressions, include/PetriEngine/PQL/Expressions.h:225-440, with places by name.  [NId] is
    an IdentifierExpr or an UnfoldedIdentifierExpr. *)
Inductive nexpr :=
| NLit (z : Z)
| NId (p : string)
| NMinus (e : nexpr)
| NSub (es : list nexpr)
| NPlus (c : Z) (ids : list string) (es : list nexpr)
| NMul (c : Z) (ids : list string) (es : list nexpr)
| NPath (n : string) (e : nexpr).

(** Operators with one and two operands, Expressions.h:521-760. *)
Inductive op1 := OE | OA | OX | OF | OG | OEX | OAX | OEF | OAF | OEG | OAG | OControl.
Inductive op2 := OU | OEU | OAU.

(** Conditions, Expressions.h:437-1300.  [NEx], [NAll], [NSel] are ExistPath, AllPaths and
    PathSelectCondition; [NConj] lists names with their least and greatest value; [NSafe],
    [NQuasi], [NStable] and [NLive] are the global properties; [NBounds] asks for the bound
    of a set of places. *)
Inductive ncond :=
| NBool (b : bool)
| NDead
| NFire (t : string)
| NNot (c : ncond)
| NAnd (l : list ncond)
| NOr (l : list ncond)
| NCmp (o : cmp) (a b : nexpr)
| NConj (neg : bool) (cs : list (string * N * N))
| N1 (o : op1) (c : ncond)
| N2 (o : op2) (a b : ncond)
| NEx (n : string) (c : ncond)
| NAll (n : string) (c : ncond)
| NSel (n : string) (c : ncond)
| NSafe (e : nexpr)
| NQuasi
| NStable
| NLive
| NBounds (ps : list string).

(** Induction with the operands of lists. *)
Section XmlInd.
  Variable P : xml -> Prop.
  Hypothesis HX : forall t a s ks, Forall P ks -> P (X t a s ks).
  Fixpoint xml_ind' (x : xml) : P x :=
    match x with
    | X t a s ks => HX t a s
        ((fix all (l : list xml) : Forall P l :=
            match l with [] => Forall_nil P | y :: l' => Forall_cons y (xml_ind' y) (all l') end) ks)
    end.
End XmlInd.

Section NexprInd.
  Variable P : nexpr -> Prop.
  Hypothesis HLit : forall z, P (NLit z).
  Hypothesis HId : forall p, P (NId p).
  Hypothesis HMinus : forall e, P e -> P (NMinus e).
  Hypothesis HSub : forall es, Forall P es -> P (NSub es).
  Hypothesis HPlus : forall c ids es, Forall P es -> P (NPlus c ids es).
  Hypothesis HMul : forall c ids es, Forall P es -> P (NMul c ids es).
  Hypothesis HPath : forall n e, P e -> P (NPath n e).
  Fixpoint nexpr_ind' (e : nexpr) : P e :=
    let fix all (l : list nexpr) : Forall P l :=
      match l with [] => Forall_nil P | x :: l' => Forall_cons x (nexpr_ind' x) (all l') end in
    match e with
    | NLit z => HLit z
    | NId p => HId p
    | NMinus e => HMinus (nexpr_ind' e)
    | NSub es => HSub (all es)
    | NPlus c ids es => HPlus c ids (all es)
    | NMul c ids es => HMul c ids (all es)
    | NPath n e => HPath n (nexpr_ind' e)
    end.
End NexprInd.

Section NcondInd.
  Variable P : ncond -> Prop.
  Hypothesis HBool : forall b, P (NBool b).
  Hypothesis HDead : P NDead.
  Hypothesis HFire : forall t, P (NFire t).
  Hypothesis HNot : forall c, P c -> P (NNot c).
  Hypothesis HAnd : forall l, Forall P l -> P (NAnd l).
  Hypothesis HOr : forall l, Forall P l -> P (NOr l).
  Hypothesis HCmp : forall o a b, P (NCmp o a b).
  Hypothesis HConj : forall n cs, P (NConj n cs).
  Hypothesis H1 : forall o c, P c -> P (N1 o c).
  Hypothesis H2 : forall o a b, P a -> P b -> P (N2 o a b).
  Hypothesis HEx : forall n c, P c -> P (NEx n c).
  Hypothesis HAll : forall n c, P c -> P (NAll n c).
  Hypothesis HSel : forall n c, P c -> P (NSel n c).
  Hypothesis HSafe : forall e, P (NSafe e).
  Hypothesis HQuasi : P NQuasi.
  Hypothesis HStable : P NStable.
  Hypothesis HLive : P NLive.
  Hypothesis HBounds : forall ps, P (NBounds ps).
  Fixpoint ncond_ind' (c : ncond) : P c :=
    let fix all (l : list ncond) : Forall P l :=
      match l with [] => Forall_nil P | x :: l' => Forall_cons x (ncond_ind' x) (all l') end in
    match c with
    | NBool b => HBool b | NDead => HDead | NFire t => HFire t
    | NNot c => HNot (ncond_ind' c)
    | NAnd l => HAnd (all l) | NOr l => HOr (all l)
    | NCmp o a b => HCmp o a b | NConj n cs => HConj n cs
    | N1 o c => H1 o (ncond_ind' c)
    | N2 o a b => H2 o (ncond_ind' a) (ncond_ind' b)
    | NEx n c => HEx n (ncond_ind' c) | NAll n c => HAll n (ncond_ind' c) | NSel n c => HSel n (ncond_ind' c)
    | NSafe e => HSafe e | NQuasi => HQuasi | NStable => HStable | NLive => HLive
    | NBounds ps => HBounds ps
    end.
End NcondInd.
