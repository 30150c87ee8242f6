(** Accepting cycles of the product and accepted runs of the net. *)
From Verif Require Import Base NetSpec PqlSyntax PqlSpec LtlSpec LtlModel PqlRuns LtlProd LtlGraph LtlNdfs.
Set Implicit Arguments.

Lemma inb_within : forall k m, inb k m = true <-> within k m.
Proof.
  intros k m. unfold inb, within. rewrite orb_true_iff, negb_true_iff, N.eqb_eq, N.ltb_ge. reflexivity.
Qed.

(** A value that occurs twice among infinitely many in a finite list. *)
Section Pigeon.
  Variable P : nat -> Prop.
  Variable f : nat -> pstate.
  Hypothesis inf : forall n, exists i, n <= i /\ P i.
  Fixpoint incr (lo : nat) (l : list nat) : Prop :=
    match l with [] => True | i :: r => lo <= i /\ P i /\ incr (S i) r end.
  Lemma many : forall n lo, exists l, length l = n /\ incr lo l.
  Proof.
    induction n as [|n IH]; intros lo; [exists []; split; [reflexivity|exact I]|].
    destruct (inf lo) as (i & Hi & Pi). destruct (IH (S i)) as (l & E & H). exists (i :: l).
    split; [cbn; congruence|]. repeat split; assumption.
  Qed.
  Lemma incr_in : forall l lo i, incr lo l -> In i l -> lo <= i /\ P i.
  Proof.
    induction l as [|j l IH]; intros lo i H Hi; [destruct Hi|]. destruct H as (A & B & C). destruct Hi as [<-|Hi]; [split; assumption|].
    destruct (IH (S j) i C Hi) as (D & E). split; [lia|exact E].
  Qed.
  Lemma dup : forall l lo, incr lo l -> NoDup (map f l) \/ exists i j, i < j /\ P i /\ P j /\ f i = f j.
  Proof.
    induction l as [|a l IH]; intros lo H; [left; constructor|]. destruct H as (A & B & C).
    destruct (IH (S a) C) as [N|D]; [|right; exact D].
    destruct (in_dec peq_dec (f a) (map f l)) as [I|I]; [right|left; constructor; assumption].
    apply in_map_iff in I. destruct I as (j & E & I). destruct (@incr_in l _ _ C I) as (X & Y). exists a, j. split; [lia|]; split; [exact B|]; split; [exact Y|congruence].
  Qed.
  Lemma pigeon : forall l, (forall i, P i -> In (f i) l) -> exists i j, i < j /\ P i /\ P j /\ f i = f j.
  Proof.
    intros l Hl. destruct (many (S (length l)) 0) as (is & E & H). destruct (@dup is _ H) as [N|D]; [exfalso|exact D].
    assert (K : incl (map f is) l).
    { intros x Hx. apply in_map_iff in Hx. destruct Hx as (i & <- & Hi). apply Hl. exact (proj2 (@incr_in is _ _ H Hi)). }
    pose proof (NoDup_incl_length N K) as L. rewrite map_length in L. lia.
  Qed.
End Pigeon.

Section Runs.
  Variable net : pnet.
  Variable m0 : marking.
  Variable aut : buchi.
  Variable kbound : N.
  Hypothesis net_wf : wf_pnet net.
  Notation psucc := (psucc net aut).
  Notation bsucc := (bsucc net aut kbound).
  Notation ppath := (ppath net aut kbound).

  (** An infinite path of the product with infinitely many accepting states. *)
  Definition lasso (s : pstate) : Prop := exists f : nat -> pstate, f 0 = s /\
    (forall i, psucc (f i) (f (S i))) /\ forall n, exists i, n <= i /\ accepting aut (f i) = true.

  Lemma lasso_cons : forall a b, psucc a b -> lasso b -> lasso a.
  Proof.
    intros a b E (f & F0 & F1 & F2). exists (fun i => match i with O => a | S j => f j end). split; [reflexivity|]. split.
    - intros [|i]; [rewrite F0; exact E|apply F1].
    - intros n. destruct (F2 n) as (i & A & B). exists (S i). split; [lia|exact B].
  Qed.
  Lemma lasso_path : forall a b, ppath a b -> lasso b -> lasso a.
  Proof. intros a b H. induction H as [|x y z E H IH]; [trivial|]. intros L. exact (lasso_cons (proj1 E) (IH L)). Qed.

  Lemma path_list : forall a b, ppath a b -> exists l, nth 0 l b = a /\ forall j, j < length l -> psucc (nth j l b) (nth (S j) l b).
  Proof.
    intros a b H. induction H as [s|x y z E H (l & L0 & L1)].
    - exists []. split; [reflexivity|]. cbn. intros j Hj. lia.
    - exists (x :: l). split; [reflexivity|]. intros [|j] Hj.
      + cbn [nth]. rewrite L0. exact (proj1 E).
      + cbn [nth]. apply L1. cbn in Hj. lia.
  Qed.

  Lemma cyc_lasso : forall s, accepting aut s = true -> cyc net aut kbound s -> lasso s.
  Proof.
    intros s Ha (s' & E & P). destruct (path_list P) as (l & L0 & L1). set (c := s :: l). set (k := length c).
    assert (Hk : k <> 0) by discriminate.
    assert (C : forall j, j < k -> psucc (nth j c s) (nth (S j) c s)).
    { intros [|j] Hj; cbn [c nth]; [rewrite L0; exact (proj1 E)|apply L1; cbn in Hj; lia]. }
    exists (fun i => nth (i mod k) c s). split; [rewrite Nat.mod_0_l by exact Hk; reflexivity|]. split.
    - intros i. pose proof (Nat.mod_upper_bound i k Hk) as B.
      assert (D : nth (S i mod k) c s = nth (S (i mod k)) c s).
      { pose proof (Nat.div_mod i k Hk) as DM. destruct (Nat.eq_dec (S (i mod k)) k) as [Q|Q].
        - assert (S i mod k = 0) as ->.
          { replace (S i) with ((S (i / k)) * k) by nia. apply Nat.mod_mul. exact Hk. }
          rewrite Q. rewrite (@nth_overflow _ c k s) by (unfold k; lia). reflexivity.
        - assert (S i mod k = S (i mod k)) as ->; [|reflexivity].
          symmetry. apply Nat.mod_unique with (q := i / k); [lia|]. rewrite DM at 1. lia. }
      rewrite D. apply C. exact B.
    - intros n. exists (n * k). split; [nia|]. rewrite Nat.mod_mul by exact Hk. exact Ha.
  Qed.

  Lemma loop_lasso : forall s, accepting aut s = true -> self_loop aut s = true -> lasso s.
  Proof.
    intros [m q] Ha Hl. destruct (runs_exist net m net_wf) as (pi & M & P0). exists (fun i => (pi i, q)).
    split; [rewrite P0; reflexivity|]. split.
    - intros i. split; [exact (M i)|]. unfold self_loop in Hl. apply existsb_exists in Hl. destruct Hl as ([g x] & H1 & H2).
      cbn [fst snd] in *. apply andb_true_iff in H2. destruct H2 as (H2 & H3). apply Nat.eqb_eq in H2. subst x. destruct g; try discriminate.
      exists BTrue. split; [exact H1|exact I].
    - intros n. exists n. split; [lia|exact Ha].
  Qed.

  Lemma initial_in : forall s, In s (initial_states aut m0) <-> fst s = m0 /\ exists g, In (g, snd s) (ba_edges aut (ba_init aut)) /\ gholds (ba_ap aut) g m0.
  Proof.
    intros [m q]. unfold initial_states. rewrite in_map_iff. cbn [fst snd]. split.
    - intros ([g x] & E & H). apply filter_In in H. cbn [fst snd] in *. injection E as -> ->. split; [reflexivity|]. exists g. rewrite <- guard_valid_gholds. exact H.
    - intros (-> & g & H & G). exists (g, q). split; [reflexivity|]. apply filter_In. split; [exact H|]. apply guard_valid_gholds. exact G.
  Qed.

  Lemma bad_accepts : bad net m0 aut kbound -> exists r, run_from net m0 r /\ accepts aut r.
  Proof.
    intros (s & (i & (Hi & _) & P) & Ha & Hc).
    assert (L : lasso i).
    { apply (lasso_path P). destruct Hc as [Hc|Hc]; [exact (cyc_lasso Ha Hc)|exact (@loop_lasso s Ha Hc)]. }
    destruct L as (f & F0 & F1 & F2). apply initial_in in Hi. destruct Hi as (Em & g & G1 & G2).
    exists (fun n => fst (f n)). split; [split; [intros n; exact (proj1 (F1 n))|rewrite F0; exact Em]|].
    exists (fun n => match n with O => ba_init aut | S j => snd (f j) end). split; [reflexivity|]. split.
    - intros [|n]; [rewrite F0, Em; exists g; split; assumption|exact (proj2 (F1 n))].
    - intros n. destruct (F2 n) as (j & A & B). exists (S j). split; [lia|exact B].
  Qed.

  (** A finite set closed under successors without accepting cycles. *)
  Definition closed_free (l : list pstate) : Prop :=
    (forall s, istart m0 aut kbound s -> In s l) /\ (forall x y, In x l -> bsucc x y -> In y l) /\
    (forall x, In x l -> accepting aut x = true -> ~ cyc net aut kbound x).

  Lemma free_rejects : forall l r, closed_free l -> run_from net m0 r -> (forall i, within kbound (r i)) -> ~ accepts aut r.
  Proof.
    intros l r (C1 & C2 & C3) (R1 & R0) Hb (q & Q0 & Q1 & Q2).
    set (f := fun i => (r i, q (S i))).
    assert (Hs : forall i, bsucc (f i) (f (S i))).
    { intros i. split; [split; [exact (R1 i)|exact (Q1 (S i))]|]. apply inb_within. apply Hb. }
    assert (Hl : forall i, In (f i) l).
    { induction i as [|i IH]; [|exact (C2 _ _ IH (Hs i))]. apply C1. split; [|apply inb_within; apply Hb].
      apply initial_in. split; [exact R0|]. destruct (Q1 0) as (g & G1 & G2). exists g. rewrite Q0 in G1. rewrite R0 in G2. split; assumption. }
    destruct (@pigeon (fun i => accepting aut (f i) = true) f) with (l := l) as (i & j & Hij & Pi & _ & E).
    - intros n. destruct (Q2 (S n)) as (k & Hk & A). destruct k as [|k]; [lia|]. exists k. split; [lia|exact A].
    - intros i _. apply Hl.
    - apply (C3 (f i) (Hl i) Pi). exists (f (S i)). split; [exact (Hs i)|].
      assert (G : forall d, ppath (f (S i)) (f (S i + d))).
      { induction d as [|d IH]; [rewrite Nat.add_0_r; constructor|]. rewrite Nat.add_succ_r. exact (ppath_trans IH (ppath_one (Hs _))). }
      rewrite E. replace j with (S i + (j - S i)) by lia. apply G.
  Qed.
End Runs.
