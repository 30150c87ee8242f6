(** What it means that a query file keeps its queries: a written and a read query have the
    same structure and their arithmetic expressions have the same values. *)
From Verif Require Import Base NetSpec PqlSyntax PqlSpec.
Set Implicit Arguments.

(** Formulas as stored in query files: those of [cond], place bounds and the controller
    operator. *)
Inductive head1 := HNot | HE | HA | HEX | HAX | HEF | HAF | HEG | HAG | HX | HF | HG | HControl.
Inductive head2 := HU | HEU | HAU.
(** a double is its eight bytes *)
Definition dbl := list N.
Inductive form :=
| FBool (b : bool)
| FDead
| F1 (h : head1) (f : form)
| F2 (h : head2) (f g : form)
| FAnd (l : list form)
| FOr (l : list form)
| FCmp (o : cmp) (a b : expr)
| FConj (neg : bool) (cs : list cons)
| FBounds (max offset : dbl) (ps : list (nat * dbl)).

(** the formulas of [cond] among them *)
Fixpoint of_cond (c : cond) : form :=
  match c with
  | CBool b => FBool b
  | CDead => FDead
  | CNot c => F1 HNot (of_cond c)
  | CAnd l => FAnd (map of_cond l)
  | COr l => FOr (map of_cond l)
  | CCmp o a b => FCmp o a b
  | CConj n cs => FConj n cs
  | CEX c => F1 HEX (of_cond c) | CAX c => F1 HAX (of_cond c)
  | CEF c => F1 HEF (of_cond c) | CAF c => F1 HAF (of_cond c)
  | CEG c => F1 HEG (of_cond c) | CAG c => F1 HAG (of_cond c)
  | CEU a b => F2 HEU (of_cond a) (of_cond b) | CAU a b => F2 HAU (of_cond a) (of_cond b)
  | CE c => F1 HE (of_cond c) | CA c => F1 HA (of_cond c)
  | CF c => F1 HF (of_cond c) | CG c => F1 HG (of_cond c) | CX c => F1 HX (of_cond c)
  | CU a b => F2 HU (of_cond a) (of_cond b)
  end.

(** the same formula up to expressions of equal value in every marking *)
Inductive same : form -> form -> Prop :=
| same_bool : forall b, same (FBool b) (FBool b)
| same_dead : same FDead FDead
| same_1 : forall h f f', same f f' -> same (F1 h f) (F1 h f')
| same_2 : forall h f f' g g', same f f' -> same g g' -> same (F2 h f g) (F2 h f' g')
| same_and : forall l l', Forall2 same l l' -> same (FAnd l) (FAnd l')
| same_or : forall l l', Forall2 same l l' -> same (FOr l) (FOr l')
| same_cmp : forall o a b a' b', (forall m, den m a' = den m a) -> (forall m, den m b' = den m b) -> same (FCmp o a b) (FCmp o a' b')
| same_conj : forall n cs, same (FConj n cs) (FConj n cs)
| same_bounds : forall mx off ps, same (FBounds mx off ps) (FBounds mx off ps).

(** What the format can hold, with [np] places. *)
Definition int32 (z : Z) : bool := ((- 2 ^ 31 <=? z) && (z <? 2 ^ 31))%Z.
Definition len32 (A : Type) (l : list A) : bool := (N.of_nat (length l) <? 2 ^ 32)%N.
Section Fits.
  Variable np : nat.
  Definition placeb (p : nat) : bool := (p <? np) && (N.of_nat p <? 2 ^ 31)%N.
  Fixpoint fite (e : expr) : bool :=
    match e with
    | Lit z => int32 z
    | Pl p => placeb p
    | Ident e | Minus e => fite e
    | Sub e es => fite e && forallb fite es && (N.of_nat (S (length es)) <? 2 ^ 32)%N
    | Plus c ids es | Mul c ids es => int32 c && forallb placeb ids && forallb fite es && len32 ids && len32 es
    end.
  Definition fitc (c : cons) : bool := placeb (c_place c) && (c_lower c <? 2 ^ 32)%N && (c_upper c <? 2 ^ 32)%N.
  Definition fitd (d : dbl) : bool := (length d =? 8) && forallb (fun b => b <? 256)%N d.
  Fixpoint fit (f : form) : bool :=
    match f with
    | FBool _ | FDead => true
    | F1 _ f => fit f
    | F2 _ f g => fit f && fit g
    | FAnd l | FOr l => forallb fit l && len32 l
    | FCmp _ a b => fite a && fite b
    | FConj _ cs => forallb fitc cs && len32 cs
    | FBounds mx off ps => fitd mx && fitd off && forallb (fun q => placeb (fst q) && fitd (snd q)) ps && len32 ps
    end.
End Fits.

Section FormInd.
  Variable P : form -> Prop.
  Hypothesis HBool : forall b, P (FBool b).
  Hypothesis HDead : P FDead.
  Hypothesis H1 : forall h f, P f -> P (F1 h f).
  Hypothesis H2 : forall h f g, P f -> P g -> P (F2 h f g).
  Hypothesis HAnd : forall l, Forall P l -> P (FAnd l).
  Hypothesis HOr : forall l, Forall P l -> P (FOr l).
  Hypothesis HCmp : forall o a b, P (FCmp o a b).
  Hypothesis HConj : forall n cs, P (FConj n cs).
  Hypothesis HBounds : forall mx off ps, P (FBounds mx off ps).
  Fixpoint form_ind' (f : form) : P f :=
    let fix all (l : list form) : Forall P l :=
      match l with
      | [] => Forall_nil P
      | x :: l' => Forall_cons x (form_ind' x) (all l')
      end in
    match f with
    | FBool b => HBool b
    | FDead => HDead
    | F1 h f => H1 h (form_ind' f)
    | F2 h f g => H2 h (form_ind' f) (form_ind' g)
    | FAnd l => HAnd (all l)
    | FOr l => HOr (all l)
    | FCmp o a b => HCmp o a b
    | FConj n cs => HConj n cs
    | FBounds mx off ps => HBounds mx off ps
    end.
End FormInd.
