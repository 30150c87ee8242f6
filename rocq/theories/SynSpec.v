(** Specification of controller synthesis (C35): a game on the markings of a net between
    the controller and the environment.  In every marking the environment may fire any of
    its enabled transitions, and the controller proposes one of its own; it has to propose
    one if one is enabled. *)
From Verif Require Import Base NetSpec.
Set Implicit Arguments.

Section Game.
Variable net : pnet.
Variable ctrl : nat -> bool.     (* which transitions are the controller's *)

(** A strategy sees the earlier markings and the current one. *)
Definition strategy := list marking -> marking -> option nat.
Definition memoryless (s : strategy) : Prop := forall h h' m, s h m = s h' m.
Definition valid (s : strategy) : Prop := forall h m,
  (exists t m', ctrl t = true /\ step net m t m') ->
  exists t m', s h m = Some t /\ ctrl t = true /\ step net m t m'.

(** A move of a play that follows the strategy. *)
Definition move (s : strategy) (h : list marking) (m m' : marking) : Prop :=
  (exists t, ctrl t = false /\ step net m t m') \/
  (exists t, s h m = Some t /\ ctrl t = true /\ step net m t m').

(** Maximal plays from [m] with history [h]; a play that cannot go on stays where it is. *)
Definition play_from (s : strategy) (h : list marking) (m : marking) (f : nat -> marking) : Prop :=
  f 0 = m /\
  forall i, move s (h ++ map f (seq 0 i)) (f i) (f (S i)) \/
            ((forall m', ~ move s (h ++ map f (seq 0 i)) (f i) m') /\ f (S i) = f i).
Definition play (s : strategy) (m : marking) (f : nat -> marking) : Prop := play_from s [] m f.

(** The bound on the number of tokens, 0 for none. *)
Definition within (k : N) (m : marking) : Prop := k = 0%N \/ (sumN m <= k)%N.

(** control: AF goal and control: AG good, without exceeding the bound. *)
Definition wins_reach (s : strategy) (goal : marking -> Prop) (k : N) (m0 : marking) : Prop :=
  forall f, play s m0 f -> exists i, goal (f i) /\ forall j, j <= i -> within k (f j).
Definition wins_safe (s : strategy) (good : marking -> Prop) (k : N) (m0 : marking) : Prop :=
  forall f, play s m0 f -> forall i, good (f i) /\ within k (f i).
End Game.
