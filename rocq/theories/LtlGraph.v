(** Paths and cycles of the product, stacks of entries. *)
From Verif Require Import Base NetSpec LtlSpec LtlModel PqlRuns LtlProd.
Set Implicit Arguments.

Section Graph.
  Variable net : pnet.
  Variable m0 : marking.
  Variable aut : buchi.
  Variable kbound : N.
  Notation inb := (inb kbound).
  Notation psucc := (psucc net aut).

  (** Product edges to states within the bound. *)
  Definition bsucc (s s' : pstate) : Prop := psucc s s' /\ inb (fst s') = true.
  Inductive ppath : pstate -> pstate -> Prop :=
  | ppath_refl : forall s, ppath s s
  | ppath_step : forall a b c, bsucc a b -> ppath b c -> ppath a c.
  Lemma ppath_trans : forall a b c, ppath a b -> ppath b c -> ppath a c.
  Proof. intros a b c H. induction H as [|x y z E H IH]; [trivial|]. intros K. exact (ppath_step E (IH K)). Qed.
  Lemma ppath_one : forall a b, bsucc a b -> ppath a b.
  Proof. intros a b H. exact (ppath_step H (ppath_refl b)). Qed.
  (** On a cycle. *)
  Definition cyc (s : pstate) : Prop := exists s', bsucc s s' /\ ppath s' s.
  Definition istart (s : pstate) : Prop := In s (initial_states aut m0) /\ inb (fst s) = true.
  Definition ireach (s : pstate) : Prop := exists i, istart i /\ ppath i s.

  Lemma reachable_mstep : forall m m', reachable net m0 m -> mstep net m m' -> reachable net m0 m'.
  Proof.
    intros m m' (w & H) [(t & S)|(_ & ->)]; [|exists w; exact H]. exists (w ++ [t]).
    induction H as [m|m u m1 w m2 S1 H IH]; [exact (run_cons S (run_nil _ _))|exact (run_cons S1 (IH S))].
  Qed.
  Lemma reachable_psucc : forall s s', reachable net m0 (fst s) -> psucc s s' -> reachable net m0 (fst s').
  Proof. intros s s' H (A & _). exact (reachable_mstep H A). Qed.
  Lemma reachable_path : forall s s', ppath s s' -> reachable net m0 (fst s) -> reachable net m0 (fst s').
  Proof. intros s s' H. induction H as [|a b c E H IH]; [trivial|]. intros K. apply IH. exact (reachable_psucc K (proj1 E)). Qed.
  Lemma istart_mark : forall s, istart s -> fst s = m0.
  Proof. intros s (H & _). unfold initial_states in H. apply in_map_iff in H. destruct H as (e & <- & _). reflexivity. Qed.
  Lemma ireach_reachable : forall s, ireach s -> reachable net m0 (fst s).
  Proof. intros s (i & Hi & H). apply (reachable_path H). rewrite (istart_mark Hi). exists []. constructor. Qed.
  Lemma ireach_step : forall s s', ireach s -> bsucc s s' -> ireach s'.
  Proof. intros s s' (i & Hi & H) E. exists i. split; [exact Hi|]. exact (ppath_trans H (ppath_one E)). Qed.

  Definition einv := einv net aut kbound.
  Definition going := going net aut kbound.

  (** Entries below the top have a last successor. *)
  Definition low (done : pstate -> Prop) (e : entry) : Prop :=
    si_last (snd e) <> None /\ exists w, going (fst e) (snd e) w done.
  Definition sok (w : pstate) (done : pstate -> Prop) (todo : list entry) : Prop :=
    match todo with
    | [] => True
    | e :: rest => einv (fst e) (snd e) w done /\ Forall (low done) rest
    end.
  Lemma low_mono : forall (d d' : pstate -> Prop) e, (forall x, d x -> d' x) -> low d e -> low d' e.
  Proof. intros d d' e H (A & w & B). split; [exact A|]. exists w. unfold going in *. eapply going_mono; eassumption. Qed.
  Lemma low_einv : forall d e w, low d e -> einv (fst e) (snd e) w d.
  Proof. intros d e w (A & w' & B). right. eapply going_stable; eassumption. Qed.
  Lemma sok_pop : forall w w' d e rest, sok w d (e :: rest) -> sok w' d rest.
  Proof. intros w w' d e rest (_ & H). destruct rest as [|x r]; [exact I|]. inversion H as [|? ? A B]; subst. split; [exact (low_einv w' A)|exact B]. Qed.
  Lemma sok_mono : forall w (d d' : pstate -> Prop) l, (forall x, d x -> d' x) -> sok w d l -> sok w d' l.
  Proof.
    intros w d d' l H K. destruct l as [|e r]; [exact I|]. destruct K as (A & B). split; [eapply einv_mono; eassumption|].
    rewrite Forall_forall in *. intros x Hx. exact (low_mono d' H (B x Hx)).
  Qed.

  (** The stack is a path: each entry is a successor of the one below. *)
  Fixpoint chain (l : list pstate) : Prop :=
    match l with
    | a :: (b :: _) as r => bsucc b a /\ chain r
    | _ => True
    end.
  Lemma chain_path : forall l a x, chain (a :: l) -> In x (a :: l) -> ppath x a.
  Proof.
    induction l as [|b l IH]; intros a x H Hx.
    - destruct Hx as [->|[]]. constructor.
    - destruct H as (E & H). destruct Hx as [->|Hx]; [constructor|]. exact (ppath_trans (IH b x H Hx) (ppath_one E)).
  Qed.
  Lemma chain_tl : forall l a, chain (a :: l) -> chain l.
  Proof. intros [|b l] a H; [exact I|exact (proj2 H)]. Qed.
End Graph.
