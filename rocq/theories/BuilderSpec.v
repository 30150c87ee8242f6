(** Specification for the net builder (C03): what a sequence of construction calls
    declares, in terms of the calls only. *)
From Verif Require Import Base NetSpec BuilderModel.
Set Implicit Arguments.

(** A place is declared by addPlace or by being used on an arc. *)
Definition declares_place (p : nat) (c : call) : Prop :=
  match c with
  | CPlace q _ => q = p
  | CIn q _ _ _ => q = p
  | COut _ q _ => q = p
  | CTrans _ _ => False
  end.
Definition is_place (cs : list call) (p : nat) : Prop := Exists (declares_place p) cs.

(** A transition is declared by addTransition. *)
Definition declares_trans (t : nat) (c : call) : Prop :=
  match c with CTrans u _ => u = t | _ => False end.
Definition is_trans (cs : list call) (t : nat) : Prop := Exists (declares_trans t) cs.

(** Tokens of the last addPlace of [p]; 0 if there is none. *)
Definition init_of (cs : list call) (p : nat) : N :=
  fold_left (fun acc c => match c with CPlace q k => if Nat.eqb q p then k else acc | _ => acc end) cs 0%N.

(** Sum of the weights of the normal input arcs added between [p] and [t]. *)
Definition in_of (cs : list call) (p t : nat) : N :=
  sumN (map (fun c => match c with
                      | CIn q u false w => if Nat.eqb q p && Nat.eqb u t then w else 0%N
                      | _ => 0%N
                      end) cs).
(** Sum of the weights of the output arcs. *)
Definition out_of (cs : list call) (t p : nat) : N :=
  sumN (map (fun c => match c with
                      | COut u q w => if Nat.eqb q p && Nat.eqb u t then w else 0%N
                      | _ => 0%N
                      end) cs).

(** The textbook firing rule of what was declared; [M] maps place names to tokens. *)
Definition decl_enabled (cs : list call) (t : nat) (M : nat -> N) : Prop :=
  forall p, (in_of cs p t <= M p)%N /\ (forall w, In (CIn p t true w) cs -> (M p < w)%N).
Definition decl_fires (cs : list call) (t : nat) (M M' : nat -> N) : Prop :=
  decl_enabled cs t M /\
  forall p, is_place cs p -> M' p = (M p - in_of cs p t + out_of cs t p)%N.

(** Calls the builder accepts after [pre]: arcs belong to declared transitions, and
    a place is not connected to a transition by both kinds of input arc. *)
Definition call_ok (pre : list call) (c : call) : Prop :=
  match c with
  | CPlace _ _ | CTrans _ _ => True
  | CIn p t i _ => is_trans pre t /\ forall w, ~ In (CIn p t (negb i) w) pre
  | COut t _ _ => is_trans pre t
  end.
Definition calls_ok (cs : list call) : Prop :=
  forall l1 c l2, cs = l1 ++ c :: l2 -> call_ok l1 c.

(** All weights of normal arcs are positive (the parsers reject 0). *)
Definition weights_pos (cs : list call) : Prop :=
  Forall (fun c => match c with
                   | CIn _ _ false w => (0 < w)%N
                   | COut _ _ w => (0 < w)%N
                   | _ => True
                   end) cs.

(** Player of the first addTransition. *)
Definition player_of (cs : list call) (t : nat) : Z :=
  match find (fun c => match c with CTrans u _ => Nat.eqb u t | _ => false end) cs with
  | Some (CTrans _ pl) => pl
  | _ => 0%Z
  end.
