(** Tarjan's algorithm on the product: the invariant and its steps, away from the arrays. *)
From Verif Require Import Base NetSpec LtlSpec LtlModel LtlProd LtlGraph.
Set Implicit Arguments.

(** Positions of the search path, top first: decreasing and below [n]. *)
Fixpoint decr (n : nat) (ds : list nat) : Prop :=
  match ds with [] => True | d :: r => d < n /\ decr d r end.
Lemma decr_lt : forall ds n d, decr n ds -> In d ds -> d < n.
Proof.
  induction ds as [|x ds IH]; intros n d H K; [destruct K|]. destruct H as (A & B). destruct K as [<-|K]; [exact A|].
  specialize (IH x d B K). lia.
Qed.
(** The nearest position of the search path at or below [i]. *)
Definition own (ds : list nat) (i o : nat) : Prop := In o ds /\ o <= i /\ forall d, In d ds -> d <= i -> d <= o.
Lemma own_top : forall p r n i, decr n (p :: r) -> p <= i -> own (p :: r) i p.
Proof.
  intros p r n i (_ & H) L. split; [left; reflexivity|]. split; [exact L|]. intros d [<-|K] _; [lia|]. pose proof (@decr_lt r p d H K). lia.
Qed.
Lemma own_fun : forall ds i o o', own ds i o -> own ds i o' -> o = o'.
Proof. intros ds i o o' (A & B & C) (A' & B' & C'). specialize (C o' A' B'). specialize (C' o A B). lia. Qed.
Lemma own_below : forall p r i o, i < p -> (own (p :: r) i o <-> own r i o).
Proof.
  intros p r i o L. split; intros (A & B & C).
  - destruct A as [<-|A]; [lia|]. split; [exact A|]. split; [exact B|]. intros d K. apply C. right. exact K.
  - split; [right; exact A|]. split; [exact B|]. intros d [<-|K] M; [lia|exact (C d K M)].
Qed.
Lemma own_ex : forall ds n i, decr n ds -> In 0 ds -> exists o, own ds i o.
Proof.
  induction ds as [|p r IH]; intros n i H Z; [destruct Z|]. destruct (le_lt_dec p i) as [L|L].
  - exists p. exact (@own_top _ _ _ _ H L).
  - destruct Z as [->|Z]; [lia|]. destruct (IH p i (proj2 H) Z) as (o & O). exists o. apply own_below; assumption.
Qed.

Section Core.
  Variable net : pnet.
  Variable m0 : marking.
  Variable aut : buchi.
  Variable kbound : N.
  Notation inb := (inb kbound).
  Notation bsucc := (bsucc net aut kbound).
  Notation ppath := (ppath net aut kbound).
  Notation cyc := (cyc net aut kbound).
  Notation ireach := (ireach net m0 aut kbound).
  Notation einv := (einv net aut kbound).
  Notation going := (going net aut kbound).
  Notation low := (low net aut kbound).
  Notation chain := (chain net aut kbound).
  Notation acc s := (accepting aut s = true).

  (** A handled successor [y] of position [i] with owner [o]: finished, or live and not below the
      low link of the owner, and no accepting position of the path below [i] is entered. *)
  Definition dn (n : nat) (ids : nat -> pstate) (lows : nat -> nat) (ds : list nat) (store : list pstate) (i o : nat) (y : pstate) : Prop :=
    (In y store \/ exists j, j < n /\ ids j = y /\ lows o <= j) /\
    forall a, In a ds -> acc (ids a) -> a <= i -> y <> ids a.

  Definition dok (ids : nat -> pstate) (dn : nat -> pstate -> Prop) (w : pstate) (dl : list (nat * sinfo)) : Prop :=
    match dl with
    | [] => True
    | (p, si) :: r => einv (ids p) si w (dn p) /\ Forall (fun e => low (dn (fst e)) (ids (fst e), snd e)) r
    end.

  Record core (n : nat) (ids : nat -> pstate) (lows : nat -> nat) (dl : list (nat * sinfo)) (store seen : list pstate) (w : pstate) : Prop := {
    k_decr : decr n (map fst dl);
    k_bot : 0 < n -> In 0 (map fst dl);
    k_low : forall i, i < n -> lows i <= i;
    k_inj : forall i j, i < n -> j < n -> ids i = ids j -> i = j;
    k_seen : forall x, In x seen <-> In x store \/ exists i, i < n /\ ids i = x;
    k_disj : forall i, i < n -> ~ In (ids i) store;
    k_scl : forall x y, In x store -> bsucc x y -> In y store;
    k_sac : forall x, In x store -> acc x -> ~ cyc x;
    k_ire : forall i, i < n -> ireach (ids i) /\ inb (fst (ids i)) = true;
    k_chain : chain (map (fun e => ids (fst e)) dl);
    k_own : forall i o, i < n -> own (map fst dl) i o -> ppath (ids i) (ids o);
    k_lp : forall i, i < n -> ppath (ids i) (ids (lows i));
    k_fin : forall i o, i < n -> ~ In i (map fst dl) -> own (map fst dl) i o ->
              forall y, bsucc (ids i) y -> dn n ids lows (map fst dl) store i o y;
    k_dok : dok ids (fun p => dn n ids lows (map fst dl) store p p) w dl;
    k_al : forall a i, In a (map fst dl) -> acc (ids a) -> i < n -> a <= i -> a <= lows i;
    k_na : forall i, i < n -> ~ In i (map fst dl) -> accepting aut (ids i) = false
  }.
  Arguments k_decr {n ids lows dl store seen w} _.
  Arguments k_bot {n ids lows dl store seen w} _ _.
  Arguments k_low {n ids lows dl store seen w} _ i _.
  Arguments k_inj {n ids lows dl store seen w} _ i j _ _ _.
  Arguments k_seen {n ids lows dl store seen w} _ x.
  Arguments k_disj {n ids lows dl store seen w} _ i _ _.
  Arguments k_scl {n ids lows dl store seen w} _ x y _ _.
  Arguments k_sac {n ids lows dl store seen w} _ x _ _ _.
  Arguments k_ire {n ids lows dl store seen w} _ i _.
  Arguments k_chain {n ids lows dl store seen w} _.
  Arguments k_own {n ids lows dl store seen w} _ i o _ _.
  Arguments k_lp {n ids lows dl store seen w} _ i _.
  Arguments k_fin {n ids lows dl store seen w} _ i o _ _ _ y _.
  Arguments k_dok {n ids lows dl store seen w} _.
  Arguments k_al {n ids lows dl store seen w} _ a i _ _ _ _.
  Arguments k_na {n ids lows dl store seen w} _ i _ _.

  Lemma core_init : core 0 (fun _ => (m0, 0)) (fun i => i) [] [] [] (m0, 0).
  Proof. constructor; cbn; try tauto; try (intros; lia). intros x. split; [intros []|intros [[]|(i & H & _)]; lia]. Qed.

  (** The path from a position of the search path to the top. *)
  Lemma path_top : forall n ids lows p si d store seen w, core n ids lows ((p, si) :: d) store seen w ->
    forall x, In x (p :: map fst d) -> ppath (ids x) (ids p).
  Proof.
    intros n ids lows p si d store seen w K x Hx.
    apply (@chain_path net aut kbound (map (fun e => ids (fst e)) d) (ids p) (ids x) (k_chain K)).
    destruct Hx as [->|Hx]; [left; reflexivity|right]. apply in_map_iff in Hx. destruct Hx as (e & <- & He). apply in_map_iff. exists e. split; [reflexivity|exact He].
  Qed.
  (** Any live state at or below a position of the path leads to it. *)
  Lemma path_up : forall n ids lows dl store seen w, core n ids lows dl store seen w ->
    forall i a, i < n -> In a (map fst dl) -> i <= a -> ppath (ids i) (ids a).
  Proof.
    intros n ids lows dl store seen w K i a Hi Ha L.
    destruct (@own_ex _ _ i (k_decr K) (k_bot K (Nat.le_lt_trans _ _ _ (Nat.le_0_l i) Hi))) as (o & O).
    apply (ppath_trans (k_own K i o Hi O)). destruct O as (O1 & O2 & _).
    assert (OL : o <= a) by lia. clear Hi L O2 i. pose proof (k_chain K) as C. pose proof (k_decr K) as Dc. clear K.
    revert n Dc C. induction dl as [|[p si] d IH]; intros n Dc C; [destruct Ha|].
    destruct Ha as [<-|Ha].
    - apply (@chain_path net aut kbound (map (fun e => ids (fst e)) d) (ids p) (ids o) C).
      destruct O1 as [E|O1]; [cbn in E; left; congruence|right]. apply in_map_iff in O1. destruct O1 as (e & <- & He). apply in_map_iff. exists e. split; [reflexivity|exact He].
    - cbn in Dc. destruct O1 as [<-|O1]; [pose proof (@decr_lt _ _ _ (proj2 Dc) Ha); cbn in OL; lia|].
      apply (IH Ha O1 p (proj2 Dc)). exact (@chain_tl net aut kbound _ _ C).
  Qed.

  (** A new low link and enumeration state for the top. *)
  Lemma core_top : forall n ids lows p si d store seen w lows' si2 w2,
    core n ids lows ((p, si) :: d) store seen w ->
    (forall i, i <> p -> lows' i = lows i) -> lows' p <= lows p ->
    (forall a, In a (p :: map fst d) -> acc (ids a) -> a <= lows' p) ->
    ppath (ids p) (ids (lows' p)) ->
    einv (ids p) si2 w2 (dn n ids lows' (p :: map fst d) store p p) ->
    core n ids lows' ((p, si2) :: d) store seen w2.
  Proof.
    intros n ids lows p si d store seen w lows' si2 w2 K Hlo Hle Hal Hpa He.
    assert (Hlt : p < n) by (exact (proj1 (k_decr K))).
    assert (Hdn : forall i o y, dn n ids lows (p :: map fst d) store i o y -> dn n ids lows' (p :: map fst d) store i o y).
    { intros i o y ([A|(j & A1 & A2 & A3)] & B); (split; [|exact B]); [left; exact A|right]. exists j. split; [exact A1|]. split; [exact A2|].
      destruct (Nat.eq_dec o p) as [->|N]; [lia|rewrite Hlo by exact N; exact A3]. }
    constructor; try apply K; cbn [map fst].
    - intros i Hi. destruct (Nat.eq_dec i p) as [->|N]; [pose proof (k_low K p Hlt); lia|rewrite Hlo by exact N; exact (k_low K i Hi)].
    - intros i Hi. destruct (Nat.eq_dec i p) as [->|N]; [exact Hpa|rewrite Hlo by exact N; exact (k_lp K i Hi)].
    - intros i o Hi Hn O y Hy. apply Hdn. exact (k_fin K i o Hi Hn O y Hy).
    - split; [exact He|]. pose proof (proj2 (k_dok K)) as F. rewrite Forall_forall in *. intros e Hin.
      eapply low_mono; [|exact (F e Hin)]. intros y. apply Hdn.
    - intros a i Ha Hac Hi L. destruct (Nat.eq_dec i p) as [->|N]; [exact (Hal a Ha Hac)|rewrite Hlo by exact N; exact (k_al K a i Ha Hac Hi L)].
  Qed.

  Lemma top_al : forall n ids lows p si d store seen w, core n ids lows ((p, si) :: d) store seen w ->
    forall a, In a (p :: map fst d) -> acc (ids a) -> a <= lows p.
  Proof.
    intros n ids lows p si d store seen w K a Ha Hac. apply (k_al K a p Ha Hac (proj1 (k_decr K))).
    destruct Ha as [<-|Ha]; [lia|]. pose proof (@decr_lt _ _ _ (proj2 (k_decr K)) Ha) as Q. cbn in Q. lia.
  Qed.

  (** The successor is finished. *)
  Lemma core_stored : forall n ids lows p si d store seen w si' w', core n ids lows ((p, si) :: d) store seen w ->
    In w' store -> going (ids p) (set_last si' w') w' (fun x => x = w' \/ dn n ids lows (p :: map fst d) store p p x) ->
    core n ids lows ((p, set_last si' w') :: d) store seen w'.
  Proof.
    intros n ids lows p si d store seen w si' w' K Hs G. pose proof (proj1 (k_decr K)) as Hlt. cbn in Hlt.
    apply (core_top K); auto; [intros a0 Ha0 Hac0; exact (top_al K Ha0 Hac0)|exact (k_lp K p Hlt)|]. right. eapply going_mono; [|exact G].
    intros x [->|Hx]; [|exact Hx]. split; [left; exact Hs|]. intros a Ha _ _ ->. apply (k_disj K a); [|exact Hs].
    destruct Ha as [<-|Ha]; [exact Hlt|]. pose proof (@decr_lt _ _ _ (proj2 (k_decr K)) Ha). cbn in *. lia.
  Qed.

  (** The successor is beyond the bound. *)
  Lemma core_skip : forall n ids lows p si d store seen w si' w', core n ids lows ((p, si) :: d) store seen w ->
    going (ids p) si' w' (dn n ids lows (p :: map fst d) store p p) ->
    core n ids lows ((p, si') :: d) store seen w'.
  Proof.
    intros n ids lows p si d store seen w si' w' K G. pose proof (proj1 (k_decr K)) as Hlt. cbn in Hlt.
    apply (core_top K); auto; [intros a0 Ha0 Hac0; exact (top_al K Ha0 Hac0)|exact (k_lp K p Hlt)|right; exact G].
  Qed.

  (** The successor is live, at position [j]: an accepting cycle, or new low links. *)
  Lemma live_bad : forall n ids lows p si d store seen w j a, core n ids lows ((p, si) :: d) store seen w ->
    bsucc (ids p) (ids j) -> j < n -> In a (p :: map fst d) -> acc (ids a) -> j <= a -> ireach (ids a) /\ cyc (ids a).
  Proof.
    intros n ids lows p si d store seen w j a K E Hj Ha Hac L.
    assert (Han : a < n) by (exact (@decr_lt _ _ _ (k_decr K) Ha)).
    split; [exact (proj1 (k_ire K a Han))|].
    pose proof (path_top K Ha) as P1. pose proof (path_up K Hj Ha L) as P2.
    destruct P1 as [x|x y z E1 P1]; [exists (ids j); split; assumption|].
    exists y. split; [exact E1|]. exact (ppath_trans P1 (ppath_step E P2)).
  Qed.

  Lemma core_live : forall n ids lows p si d store seen w si' j lows', core n ids lows ((p, si) :: d) store seen w ->
    bsucc (ids p) (ids j) -> j < n ->
    going (ids p) (set_last si' (ids j)) (ids j) (fun x => x = ids j \/ dn n ids lows (p :: map fst d) store p p x) ->
    (lows j <= lows p /\ lows' = (fun i => if Nat.eqb i p then lows j else lows i) /\ (forall a, In a (p :: map fst d) -> acc (ids a) -> a < j)
     \/ lows p < lows j /\ lows' = lows) ->
    core n ids lows' ((p, set_last si' (ids j)) :: d) store seen (ids j).
  Proof.
    intros n ids lows p si d store seen w si' j lows' K E Hj G H. pose proof (proj1 (k_decr K)) as Hlt. cbn in Hlt.
    assert (Hin : forall a, In a (p :: map fst d) -> a <= p).
    { intros a [<-|Ha]; [lia|]. pose proof (@decr_lt _ _ _ (proj2 (k_decr K)) Ha). cbn in *. lia. }
    assert (Hne : forall a, In a (p :: map fst d) -> acc (ids a) -> a <> j).
    { intros a Ha Hac ->. destruct H as [(_ & _ & H)|(H & _)]; [specialize (H j Ha Hac); lia|].
      pose proof (top_al K Ha Hac). pose proof (k_low K j Hj). lia. }
    assert (Hle : lows' p <= lows p /\ lows' p <= j).
    { pose proof (k_low K j Hj). destruct H as [(H & -> & _)|(H & ->)]; rewrite ?Nat.eqb_refl; lia. }
    apply (core_top K).
    - intros i N. destruct H as [(_ & -> & _)|(_ & ->)]; [|reflexivity]. destruct (Nat.eqb_spec i p); [contradiction|reflexivity].
    - exact (proj1 Hle).
    - intros a Ha Hac. destruct H as [(H1 & -> & H2)|(_ & ->)]; [|exact (top_al K Ha Hac)]. rewrite Nat.eqb_refl.
      apply (k_al K a j Ha Hac Hj). specialize (H2 a Ha Hac). lia.
    - destruct H as [(H1 & -> & H2)|(_ & ->)]; [rewrite Nat.eqb_refl; exact (ppath_step E (k_lp K j Hj))|exact (k_lp K p Hlt)].
    - right. eapply going_mono; [|exact G]. intros x [->|([Hx|(i & A & B & C)] & Hx2)].
      + split; [right; exists j; split; [exact Hj|]; split; [reflexivity|exact (proj2 Hle)]|].
        intros a Ha Hac _ Q. apply (Hne a Ha Hac). symmetry. apply (k_inj K); [exact Hj| |exact Q].
        pose proof (Hin a Ha). lia.
      + split; [left; exact Hx|exact Hx2].
      + split; [right|exact Hx2]. exists i. split; [exact A|]. split; [exact B|]. lia.
  Qed.

  (** A new state. *)
  Lemma core_push : forall n ids lows dl store seen w s,
    core n ids lows dl store seen w -> ireach s -> inb (fst s) = true -> ~ In s seen ->
    forall dl1, map fst dl1 = map fst dl -> chain (s :: map (fun e => ids (fst e)) dl) -> (n = 0 -> dl = []) -> (dl = [] -> n = 0) ->
    Forall (fun e => low (fun x => x = s \/ dn n ids lows (map fst dl) store (fst e) (fst e) x) (ids (fst e), snd e)) dl1 ->
    core (S n) (fun i => if Nat.eqb i n then s else ids i) (fun i => if Nat.eqb i n then n else lows i)
         ((n, si_init) :: dl1) store (s :: seen) s.
  Proof.
    intros n ids lows dl store seen w s K Hre Hb Hns dl1 Ed Hch Hz1 Hz2 HF.
    set (ids' := fun i => if Nat.eqb i n then s else ids i). set (lows' := fun i => if Nat.eqb i n then n else lows i).
    assert (I1 : ids' n = s) by (unfold ids'; rewrite Nat.eqb_refl; reflexivity).
    assert (I2 : forall i, i < n -> ids' i = ids i) by (intros i Hi; unfold ids'; destruct (Nat.eqb_spec i n); [lia|reflexivity]).
    assert (L1 : lows' n = n) by (unfold lows'; rewrite Nat.eqb_refl; reflexivity).
    assert (L2 : forall i, i < n -> lows' i = lows i) by (intros i Hi; unfold lows'; destruct (Nat.eqb_spec i n); [lia|reflexivity]).
    assert (Hd : forall a, In a (map fst dl) -> a < n) by (intros a Ha; exact (@decr_lt _ _ _ (k_decr K) Ha)).
    assert (Hlive : forall i, i < n -> ids i <> s).
    { intros i Hi E. apply Hns. apply (k_seen K). right. exists i. split; assumption. }
    assert (Hst : ~ In s store) by (intros H; apply Hns; apply (k_seen K); left; exact H).
    assert (Hin : forall a, In a (n :: map fst dl1) -> a = n \/ In a (map fst dl) /\ a < n).
    { intros a [<-|Ha]; [left; reflexivity|right]. rewrite Ed in Ha. split; [exact Ha|exact (Hd a Ha)]. }
    assert (Hdn : forall i o y, i < n -> o < n -> dn n ids lows (map fst dl) store i o y -> dn (S n) ids' lows' (n :: map fst dl1) store i o y).
    { intros i o y Hi Ho (A & B). split.
      - destruct A as [A|(j & A1 & A2 & A3)]; [left; exact A|right]. exists j. split; [lia|]. rewrite I2, L2 by assumption. split; assumption.
      - intros a Ha Hac Hle. destruct (Hin a Ha) as [->|(Ha' & Hl)]; [lia|]. rewrite I2 in * by exact Hl. exact (B a Ha' Hac Hle). }
    constructor; cbn [map fst].
    - split; [lia|]. rewrite Ed. exact (k_decr K).
    - intros _. destruct (Nat.eq_dec n 0) as [->|N]; [left; reflexivity|right]. rewrite Ed. apply (k_bot K). lia.
    - intros i Hi. destruct (Nat.eq_dec i n) as [->|N]; [rewrite L1; lia|rewrite L2 by lia; apply (k_low K); lia].
    - intros i j Hi Hj E. destruct (Nat.eq_dec i n) as [->|N]; destruct (Nat.eq_dec j n) as [->|M]; [reflexivity| | |].
      + rewrite I1, I2 in E by lia. exfalso. apply (Hlive j); [lia|congruence].
      + rewrite I1, I2 in E by lia. exfalso. apply (Hlive i); [lia|congruence].
      + rewrite !I2 in E by lia. apply (k_inj K); [lia|lia|exact E].
    - intros x. cbn [In]. rewrite (k_seen K). split.
      + intros [<-|[H|(i & Hi & E)]]; [right; exists n; split; [lia|exact I1]|left; exact H|right; exists i; split; [lia|rewrite I2 by exact Hi; exact E]].
      + intros [H|(i & Hi & E)]; [right; left; exact H|]. destruct (Nat.eq_dec i n) as [->|N]; [left; congruence|right; right; exists i; split; [lia|rewrite I2 in E by lia; exact E]].
    - intros i Hi. destruct (Nat.eq_dec i n) as [->|N]; [rewrite I1; exact Hst|rewrite I2 by lia; apply (k_disj K); lia].
    - apply K.
    - apply K.
    - intros i Hi. destruct (Nat.eq_dec i n) as [->|N]; [rewrite I1; split; assumption|rewrite I2 by lia; apply (k_ire K); lia].
    - rewrite I1. replace (map (fun e => ids' (fst e)) dl1) with (map (fun e => ids (fst e)) dl); [exact Hch|].
      rewrite <- (map_map fst ids dl), <- (map_map fst ids' dl1), Ed. apply map_ext_in. intros a Ha. symmetry. apply I2. exact (Hd a Ha).
    - intros i o Hi O. rewrite Ed in O. destruct (Nat.eq_dec i n) as [->|N].
      + assert (o = n) as ->; [|constructor]. apply (own_fun O). apply (@own_top n (map fst dl) (S n) n); [split; [lia|exact (k_decr K)]|lia].
      + apply own_below in O; [|lia]. pose proof (Hd o (proj1 O)). rewrite !I2 by lia. apply (k_own K); [lia|exact O].
    - intros i Hi. destruct (Nat.eq_dec i n) as [->|N]; [rewrite L1; constructor|].
      assert (i < n) by lia. pose proof (k_low K i H). rewrite L2 by exact H. rewrite !I2 by lia. apply (k_lp K). exact H.
    - intros i o Hi Hn O y Hy. assert (i <> n) by (intros ->; apply Hn; left; reflexivity). rewrite Ed in O. apply own_below in O; [|lia].
      rewrite I2 in Hy by lia. apply Hdn; [lia|exact (Hd o (proj1 O))|]. apply (k_fin K i o); [lia| |exact O|exact Hy].
      intros Q. apply Hn. right. rewrite Ed. exact Q.
    - split; [left; reflexivity|]. rewrite Forall_forall in *. intros e He. specialize (HF e He).
      assert (Hen : In (fst e) (map fst dl)) by (rewrite <- Ed; apply in_map; exact He). pose proof (Hd _ Hen) as Hlt.
      rewrite I2 by exact Hlt. eapply low_mono; [|exact HF]. intros x [->|Hx]; [|apply Hdn; assumption].
      split; [right; exists n; split; [lia|]; split; [exact I1|]; rewrite L2 by exact Hlt; pose proof (k_low K _ Hlt); lia|].
      intros a Ha _ Hle. destruct (Hin a Ha) as [->|(_ & Hl)]; [lia|]. rewrite I2 by exact Hl. intros Q. exact (Hlive a Hl (eq_sym Q)).
    - intros a i Ha Hac Hi Hle. destruct (Nat.eq_dec i n) as [->|N]; [rewrite L1; exact Hle|].
      destruct (Hin a Ha) as [->|(Ha' & Hl)]; [lia|]. rewrite L2 by lia. rewrite I2 in Hac by exact Hl. apply (k_al K); try assumption; lia.
    - intros i Hi Hn. assert (i <> n) by (intros ->; apply Hn; left; reflexivity). rewrite I2 by lia. apply (k_na K); [lia|].
      intros Q. apply Hn. right. rewrite Ed. exact Q.
  Qed.

  (** All successors of the top are handled and its low link is its position: the component is
      finished. *)
  Lemma core_pop_scc : forall n ids lows p si d store seen w store' w', core n ids lows ((p, si) :: d) store seen w ->
    (forall y, bsucc (ids p) y -> dn n ids lows (p :: map fst d) store p p y) -> lows p = p ->
    (forall x, In x store' <-> In x store \/ exists i, p <= i < n /\ ids i = x) ->
    core p ids lows d store' seen w'.
  Proof.
    intros n ids lows p si d store seen w store' w' K Hall Hlow Hst. pose proof (k_decr K) as (Hlt & Hdec). cbn [fst] in *.
    assert (Hin : forall a, In a (map fst d) -> a < p) by (intros a Ha; exact (@decr_lt _ _ _ Hdec Ha)).
    assert (Hcl : forall i y, p <= i < n -> bsucc (ids i) y -> (In y store \/ exists j, p <= j < n /\ ids j = y) /\ (acc (ids p) -> y <> ids p)).
    { intros i y Hi Hy.
      assert (Q : dn n ids lows (p :: map fst d) store i p y).
      { destruct (Nat.eq_dec i p) as [->|N]; [exact (Hall y Hy)|].
        apply (k_fin K i p); [lia| |exact (@own_top _ _ _ _ (k_decr K) (proj1 Hi))|exact Hy].
        intros [Q|Q]; [cbn in Q; lia|]. specialize (Hin i Q). lia. }
      destruct Q as (Q1 & Q2). rewrite Hlow in Q1. split.
      - destruct Q1 as [Q1|(j & A & B & C)]; [left; exact Q1|right; exists j; split; [lia|exact B]].
      - intros Hac. apply Q2; [left; reflexivity|exact Hac|lia]. }
    assert (Hcl' : forall x y, In x store' -> bsucc x y -> In y store').
    { intros x y Hx Hy. apply Hst. apply Hst in Hx. destruct Hx as [Hx|(i & Hi & <-)]; [left; exact (k_scl K x y Hx Hy)|exact (proj1 (Hcl i y Hi Hy))]. }
    constructor; cbn [map fst].
    - exact Hdec.
    - intros H. destruct (k_bot K (Nat.le_lt_trans _ _ _ (Nat.le_0_l p) Hlt)) as [E|E]; [cbn in E; lia|exact E].
    - intros i Hi. apply (k_low K). lia.
    - intros i j Hi Hj. apply (k_inj K); lia.
    - intros x. rewrite (k_seen K). rewrite Hst. split.
      + intros [H|(i & Hi & E)]; [left; left; exact H|]. destruct (le_lt_dec p i); [left; right; exists i; split; [lia|exact E]|right; exists i; split; [lia|exact E]].
      + intros [[H|(i & Hi & E)]|(i & Hi & E)]; [left; exact H| |]; right; exists i; (split; [lia|exact E]).
    - intros i Hi H. apply Hst in H. destruct H as [H|(j & Hj & E)]; [apply (k_disj K i); [lia|exact H]|].
      assert (j = i) by (apply (k_inj K); [lia|lia|exact E]). lia.
    - exact Hcl'.
    - intros x Hx Hac (y & Hy & P). apply Hst in Hx. destruct Hx as [Hx|(i & Hi & <-)]; [apply (k_sac K x Hx Hac); exists y; split; assumption|].
      assert (i = p) as ->.
      { destruct (Nat.eq_dec i p) as [E|N]; [exact E|exfalso]. assert (H : accepting aut (ids i) = false); [|congruence].
        apply (k_na K); [lia|]. intros [Q|Q]; [cbn in Q; lia|]. specialize (Hin i Q). lia. }
      assert (G : forall a b, ppath a b -> b = ids p -> (In a store \/ exists j, p <= j < n /\ ids j = a) -> a <> ids p -> False).
      { intros a b Q. induction Q as [a|a b c E Q IH]; intros Eb Ha Hne; [contradiction|].
        apply IH; [exact Eb| |].
        - destruct Ha as [Ha|(j & Hj & <-)]; [left; exact (k_scl K a b Ha E)|exact (proj1 (Hcl j b Hj E))].
        - destruct Ha as [Ha|(j & Hj & <-)]; [|exact (proj2 (Hcl j b Hj E) Hac)].
          intros ->. apply (k_disj K p Hlt). exact (k_scl K a (ids p) Ha E). }
      apply (G y (ids p) P eq_refl); [exact (proj1 (Hcl p y Hi Hy))|exact (proj2 (Hcl p y Hi Hy) Hac)].
    - intros i Hi. apply (k_ire K). lia.
    - exact (@chain_tl net aut kbound _ _ (k_chain K)).
    - intros i o Hi O. apply (k_own K); [lia|]. apply own_below; assumption.
    - intros i Hi. apply (k_lp K). lia.
    - intros i o Hi Hn O y Hy.
      assert (Q : dn n ids lows (p :: map fst d) store i o y).
      { apply (k_fin K i o); [lia| |apply own_below; assumption|exact Hy]. intros [E|E]; [cbn in E; lia|contradiction]. }
      destruct Q as (Q1 & Q2). split; [|intros a Ha; apply Q2; right; exact Ha].
      destruct Q1 as [Q1|(j & A & B & C)]; [left; apply Hst; left; exact Q1|].
      destruct (le_lt_dec p j); [left; apply Hst; right; exists j; split; [lia|exact B]|right; exists j; repeat split; assumption].
    - assert (Hlowmono : forall i o y, i < p -> dn n ids lows (p :: map fst d) store i o y -> dn p ids lows (map fst d) store' i o y).
      { intros i o y Hi (Q1 & Q2). split; [|intros a Ha; apply Q2; right; exact Ha].
        destruct Q1 as [Q1|(j & A & B & C)]; [left; apply Hst; left; exact Q1|].
        destruct (le_lt_dec p j); [left; apply Hst; right; exists j; split; [lia|exact B]|right; exists j; repeat split; assumption]. }
      pose proof (proj2 (k_dok K)) as F.
      assert (F' : Forall (fun e => low (dn p ids lows (map fst d) store' (fst e) (fst e)) (ids (fst e), snd e)) d).
      { rewrite Forall_forall in *. intros e He. eapply low_mono; [|exact (F e He)]. intros y. apply Hlowmono. apply Hin. apply in_map. exact He. }
      destruct d as [|[q sq] d']; [exact I|]. inversion F' as [|? ? F1 F2]; subst. split; [exact (low_einv w' F1)|exact F2].
    - intros a i Ha Hac Hi Hle. apply (k_al K); [right; exact Ha|exact Hac|lia|exact Hle].
    - intros i Hi Hn. apply (k_na K); [lia|]. intros [E|E]; [cbn in E; lia|contradiction].
  Qed.

  (** All successors of the top are handled, its low link is below: it joins the component of the
      entry below. *)
  Lemma core_pop_keep : forall n ids lows p si q sq d store seen w w' lows', core n ids lows ((p, si) :: (q, sq) :: d) store seen w ->
    (forall y, bsucc (ids p) y -> dn n ids lows (p :: q :: map fst d) store p p y) -> lows p <> p ->
    (lows p <= lows q /\ lows' = (fun i => if Nat.eqb i q then lows p else lows i) \/ lows q < lows p /\ lows' = lows) ->
    core n ids lows' ((q, sq) :: d) store seen w'.
  Proof.
    intros n ids lows p si q sq d store seen w w' lows' K Hall Hlow HL. pose proof (k_decr K) as (Hlt & Hqp & Hdec). cbn [fst] in *.
    pose proof (k_low K p Hlt) as Hlp. assert (Hlpp : lows p < p) by lia.
    assert (Hin : forall a, In a (q :: map fst d) -> a <= q).
    { intros a [<-|Ha]; [lia|]. pose proof (@decr_lt _ _ _ Hdec Ha). lia. }
    assert (Hnacc : accepting aut (ids p) = false).
    { destruct (accepting aut (ids p)) eqn:E; [|reflexivity]. pose proof (k_al K p p (or_introl eq_refl) E Hlt (Nat.le_refl p)). lia. }
    assert (Hpq : bsucc (ids q) (ids p)) by (exact (proj1 (k_chain K))).
    assert (Hback : ppath (ids p) (ids q)).
    { apply (ppath_trans (k_lp K p Hlt)).
      assert (Hl : lows p < n) by lia. destruct (le_lt_dec (lows p) q) as [L|L].
      - apply (path_up K Hl); [right; left; reflexivity|exact L].
      - apply (k_own K (lows p) q Hl). apply own_below; [exact Hlpp|]. apply (@own_top q (map fst d) p); [split; assumption|lia]. }
    assert (Hl'q : lows' q <= lows q /\ lows' q <= lows p).
    { destruct HL as [(H & ->)|(H & ->)]; rewrite ?Nat.eqb_refl; lia. }
    assert (Hl'o : forall i, i <> q -> lows' i = lows i).
    { intros i N. destruct HL as [(H & ->)|(H & ->)]; [|reflexivity]. destruct (Nat.eqb_spec i q); [contradiction|reflexivity]. }
    assert (Hdn : forall i o y, dn n ids lows (p :: q :: map fst d) store i o y -> forall o', lows' o' <= lows o -> dn n ids lows' (q :: map fst d) store i o' y).
    { intros i o y (A & B) o' Ho. split; [|intros a Ha; apply B; right; exact Ha].
      destruct A as [A|(j & A1 & A2 & A3)]; [left; exact A|right]. exists j. split; [exact A1|]. split; [exact A2|lia]. }
    assert (Hown : forall i o, i < n -> own (q :: map fst d) i o -> (p <= i /\ o = q) \/ (i < p /\ own (p :: q :: map fst d) i o)).
    { intros i o Hi O. destruct (le_lt_dec p i) as [L|L]; [left; split; [exact L|]|right; split; [exact L|apply own_below; assumption]].
      apply (own_fun O). apply (@own_top q (map fst d) p); [split; assumption|lia]. }
    assert (Hle' : forall o, lows' o <= lows o).
    { intros o. destruct (Nat.eq_dec o q) as [->|N]; [exact (proj1 Hl'q)|rewrite Hl'o by exact N; lia]. }
    constructor; cbn [map fst].
    - split; [lia|exact Hdec].
    - intros H. destruct (k_bot K H) as [E|E]; [cbn in E; lia|exact E].
    - intros i Hi. pose proof (k_low K i Hi). pose proof (Hle' i). lia.
    - apply K.
    - apply K.
    - apply K.
    - apply K.
    - apply K.
    - apply K.
    - exact (proj2 (k_chain K)).
    - intros i o Hi O. destruct (Hown i o Hi O) as [(L & ->)|(L & O')]; [|exact (k_own K i o Hi O')].
      exact (ppath_trans (k_own K i p Hi (@own_top _ _ _ _ (k_decr K) L)) Hback).
    - intros i Hi. destruct (Nat.eq_dec i q) as [->|N]; [|rewrite Hl'o by exact N; exact (k_lp K i Hi)].
      destruct HL as [(H & ->)|(H & ->)]; [rewrite Nat.eqb_refl; exact (ppath_step Hpq (k_lp K p Hlt))|exact (k_lp K q Hi)].
    - intros i o Hi Hn O y Hy. destruct (Hown i o Hi O) as [(L & ->)|(L & O')].
      + apply (@Hdn i p y); [|exact (proj2 Hl'q)]. destruct (Nat.eq_dec i p) as [->|N]; [exact (Hall y Hy)|].
        apply (k_fin K i p Hi); [|exact (@own_top _ _ _ _ (k_decr K) L)|exact Hy]. intros [E|E]; [cbn in E; lia|contradiction].
      + apply (@Hdn i o y); [|apply Hle']. apply (k_fin K i o Hi); [|exact O'|exact Hy]. intros [E|E]; [cbn in E; lia|contradiction].
    - pose proof (proj2 (k_dok K)) as F.
      assert (F' : Forall (fun e => low (dn n ids lows' (q :: map fst d) store (fst e) (fst e)) (ids (fst e), snd e)) ((q, sq) :: d)).
      { rewrite Forall_forall in *. intros e He. eapply low_mono; [|exact (F e He)]. intros y Hy. apply (Hdn _ _ _ Hy). apply Hle'. }
      inversion F' as [|? ? F1 F2]; subst. split; [exact (low_einv w' F1)|exact F2].
    - intros a i Ha Hac Hi Hle. destruct (Nat.eq_dec i q) as [->|N]; [|rewrite Hl'o by exact N; apply (k_al K); [right; exact Ha|exact Hac|exact Hi|exact Hle]].
      destruct HL as [(H & ->)|(H & ->)]; [rewrite Nat.eqb_refl|]; apply (k_al K); try (right; exact Ha); try exact Hac; try assumption; lia.
    - intros i Hi Hn. destruct (Nat.eq_dec i p) as [->|N]; [exact Hnacc|]. apply (k_na K i Hi). intros [E|E]; [cbn in E; lia|contradiction].
  Qed.
End Core.
