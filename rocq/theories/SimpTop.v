(** The simplifier as a whole, the constraints of a conjunction, and concrete nets. *)
From Verif Require Import Base BaseLemmas NetSpec PqlSyntax PqlSpec PqlModel PqlProofs PqlPush PqlRuns NetModel NetProofs BuilderModel BuilderSpec BuilderMain
  LpSpec SimpSpec MemberModel MemberProofs LpModel LpProofs LpSat LpBase SimpModel SimpProofs SimpLeaf SimpMain.

(** The simplifier's program for one comparison (Simplifier.cpp:403-404, 465-466, 543-544; no
    constraint if a side is not linear), and for a conjunction of comparisons
    (MergeCollection::merge with LinearProgram::make_union). *)
Definition prog_of (net : cnet) (m0 : list N) (q : expr * lop * expr) : res prog :=
  let '(a, o, b) := q in
  ma <- constraint net m0 a ;;
  mb <- constraint net m0 b ;;
  if mb_ok ma && mb_ok mb then
    k <- int_sub (mb_int mb) (mb_int ma) ;;
    match single (mb_sub ma mb) k o with Single _ _ p => Ok p | _ => UB end
  else Ok no_prog.
Fixpoint conj_prog (addr : lrow -> N) (net : cnet) (m0 : list N) (l : list (expr * lop * expr)) : res prog :=
  match l with
  | [] => Ok no_prog
  | q :: l => p <- prog_of net m0 q ;; r <- conj_prog addr net m0 l ;; Ok (make_union addr p r)
  end.
Definition with_rows (B : lp) (p : prog) : lp :=
  mkLp (lp_n B) (lp_columns B) (lp_lower B) (map (fun q => (eq_row q, eq_lo q, eq_hi q)) (pr_eqs p)).

Section Top.
  Variable addr : lrow -> N.
  Hypothesis addr_inj : forall r s, addr r = addr s -> r = s.
  Variable net : cnet.
  Variable m0 : list N.
  Hypothesis L : layout net.
  Hypothesis Hm0 : length m0 = cn_places net.

  Lemma member_change : forall e mb, expr_ok (cn_places net) e = true -> constraint net m0 e = Ok mb -> mb_ok mb = true ->
    forall w m, run (to_pnet net) m0 w m -> mb_const mb = den m0 e /\ den m e = (den m0 e + lin 0 (mb_vars mb) (occ w))%Z.
  Proof.
    intros e mb He E Ho w m R. assert (R0 : run (to_pnet net) m0 [] m0) by constructor.
    destruct (constraint_ok L Hm0 R0 e He) as (x & Ex & G0). rewrite E in Ex. injection Ex as <-.
    destruct (constraint_ok L Hm0 R e He) as (x & Ex & G1). rewrite E in Ex. injection Ex as <-.
    specialize (G0 Ho). specialize (G1 Ho). unfold mval in *.
    assert (Z0 : lin 0 (mb_vars mb) (occ []) = 0%Z).
    { clear. generalize 0 as i. induction (mb_vars mb) as [|z v IH]; intros i; [reflexivity|]. cbn [lin]. rewrite IH. unfold occ. cbn. lia. }
    lia.
  Qed.
  Lemma prog_of_ok : forall a o b w m, expr_ok (cn_places net) a = true -> expr_ok (cn_places net) b = true ->
    val_ok m0 a = true -> val_ok m0 b = true -> run (to_pnet net) m0 w m ->
    exists p, prog_of net m0 (a, o, b) = Ok p /\ pr_imp p = false /\ (lop_holds o (den m a) (den m b) -> psem p (occ w)).
  Proof.
    intros a o b w m Ea Eb Va Vb R.
    destruct (constraint_ok L Hm0 R a Ea) as (ma & Ca & _). destruct (constraint_ok L Hm0 R b Eb) as (mb & Cb & _).
    unfold prog_of. rewrite Ca, Cb. cbn [bind]. destruct (mb_ok ma && mb_ok mb) eqn:Ho.
    2:{ exists no_prog. split; [reflexivity|]. split; [reflexivity|]. intros _. constructor. }
    apply andb_prop in Ho. destruct Ho as (O1 & O2).
    destruct (member_change a ma Ea Ca O1 w m R) as (K1 & D1). destruct (member_change b mb Eb Cb O2 w m R) as (K2 & D2).
    unfold val_ok in Va, Vb. rewrite !andb_true_iff, !Z.ltb_lt in Va, Vb.
    assert (I1 : int32 (mb_const ma) = true) by (apply int32_spec; lia). assert (I2 : int32 (mb_const mb) = true) by (apply int32_spec; lia).
    unfold mb_int. rewrite !i32_id by assumption. rewrite int_sub_ok by lia. cbn [bind single]. eexists. split; [reflexivity|]. split; [reflexivity|].
    intros H. apply new_prog_sem. cbn [mb_sub mb_vars]. rewrite lin_sub. destruct o; cbn [lop_holds] in *; lia.
  Qed.
  Lemma conj_prog_ok : forall l w m, run (to_pnet net) m0 w m ->
    (forall a o b, In (a, o, b) l -> expr_ok (cn_places net) a = true /\ expr_ok (cn_places net) b = true /\ val_ok m0 a = true /\ val_ok m0 b = true) ->
    (forall a o b, In (a, o, b) l -> lop_holds o (den m a) (den m b)) ->
    exists p, conj_prog addr net m0 l = Ok p /\ pr_imp p = false /\ psem p (occ w).
  Proof.
    intros l w m R. induction l as [|[[a o] b] l IH]; intros Ho Hh.
    - exists no_prog. split; [reflexivity|]. split; [reflexivity|constructor].
    - destruct (Ho a o b (or_introl eq_refl)) as (A1 & A2 & A3 & A4). destruct (prog_of_ok a o b w m A1 A2 A3 A4 R) as (p & Ep & Ip & Sp).
      destruct IH as (q & Eq & Iq & Sq); [intros x y z Hi; apply (Ho x y z); right; exact Hi|intros x y z Hi; apply Hh; right; exact Hi|].
      cbn [conj_prog]. rewrite Ep, Eq. cbn [bind]. eexists. split; [reflexivity|]. destruct (make_union_sem addr addr_inj p q Ip Iq) as (U1 & U2). split; [exact U1|].
      apply U2. split; [apply Sp, Hh; left; reflexivity|exact Sq].
  Qed.
  Lemma with_rows_solution : forall B p x, solution B x -> psem p x -> solution (with_rows B p) x.
  Proof.
    intros B p x (S1 & S2 & _) P. split; [exact S1|]. split; [exact S2|]. intros r lo hi Hi. cbn [with_rows lp_rows] in Hi.
    apply in_map_iff in Hi. destruct Hi as (q & E & Hq). injection E as <- <- <-. unfold psem in P. rewrite Forall_forall in P. exact (P q Hq).
  Qed.
  Lemma is_impossible_false : forall clock simplex intopt, sorted_arcs net ->
    sound_solver simplex -> sound_solver intopt -> forall p w m s, run (to_pnet net) m0 w m -> pr_imp p = false -> psem p (occ w) ->
    match is_impossible clock simplex intopt net m0 p s with Ok (_, yes, _) => yes = false | _ => False end.
  Proof.
    intros clock simplex intopt So H1 H2 p w m s R Ip Sp. destruct (base_ok m0 L So Hm0) as (B & EB & HB).
    assert (T : exists y s', is_impossible clock simplex intopt net m0 p s = Ok (y, s')).
    { unfold is_impossible. rewrite Ip. destruct (pr_eqs p) as [|q0 eqs0]; [eexists _, _; reflexivity|]. generalize (q0 :: eqs0) as eqs. intros eqs.
      unfold mbind, timeout, lift, ret, make_base. cbn [bind fst snd]. destruct (clock s); cbn [bind fst snd]; [eexists _, _; reflexivity|].
      destruct (out_of_bounds m0); cbn [bind fst snd]; [eexists _, _; reflexivity|].
      unfold mbind, timeout, lift, ret. cbn [bind fst snd]. destruct (clock (S s)); cbn [bind fst snd]; [eexists _, _; reflexivity|].
      rewrite EB. cbn [bind fst snd].
      assert (A : forall eqs rows s, exists y s', add_rows clock eqs rows s = Ok (y, s')).
      { clear. induction eqs as [|q eqs IH]; intros rows s; [eexists _, _; reflexivity|]. cbn [add_rows].
        destruct (match eq_lo q with Some l => match eq_hi q with Some h => (h <? l)%Z | None => false end | None => false end); [eexists _, _; reflexivity|].
        unfold mbind, timeout. cbn [bind fst snd]. destruct (clock s); [eexists _, _; reflexivity|]. apply IH. }
      destruct (A eqs [] (S (S s))) as (y & s' & ->). cbn [bind fst snd]. destruct y as [[|]|rows]; [eexists _, _; reflexivity|eexists _, _; reflexivity|].
      unfold solve. cbn [bind fst snd].
      destruct (simplex s' _) as [[] []]; cbn [bind fst snd]; try (eexists _, _; reflexivity); destruct (intopt _ _) as [[] []]; cbn [bind fst snd]; eexists _, _; reflexivity. }
    destruct T as ([q y] & s' & T). pose proof (is_impossible_ok clock H1 H2 net m0 EB p s Ip) as G.
    unfold mpost in G. rewrite T in *. cbn [post fst snd] in G. destruct G as (_ & _ & G & _). destruct y; [|reflexivity].
    exfalso. exact (G eq_refl (occ w) (HB w m R) Sp).
  Qed.
End Top.

Theorem simplify_ok : forall addr clock simplex intopt net m0,
  (forall r s, addr r = addr s -> r = s) -> (forall n, clock n = true -> clock (S n) = true) -> sound_solver simplex -> sound_solver intopt ->
  layout net -> sorted_arcs net -> length m0 = cn_places net -> (forall v, In v m0 -> (v < 2 ^ 31)%N) ->
  forall k c s, query_ok (cn_places net) m0 c = true -> cls k c = true ->
  match simplify addr clock simplex intopt net m0 c s with
  | Ok (f, _) => cls k f = true /\ forall m pi, reachable (to_pnet net) m0 m -> maximal (to_pnet net) pi -> pi 0 = m -> (holds (to_pnet net) pi f <-> holds (to_pnet net) pi c)
  | UB => True
  | _ => False
  end.
Proof.
  intros addr clock simplex intopt net m0 Ha Hc H1 H2 L So Hl Hb k c s Hq Hk. destruct (base_ok m0 L So Hl) as (B & EB & HB).
  pose proof (simp_ok addr Ha clock Hc simplex intopt H1 H2 net m0 B EB HB L Hl Hb k c false s Hq Hk) as G.
  unfold mpost in G. unfold simplify, mbind, ret. destruct (simp addr clock simplex intopt net m0 false c s) as [[r s']| | |]; cbn [bind post fst snd] in *; auto.
  destruct G as (_ & _ & _ & G1 & G2). split; [exact G1|]. intros m pi (w & R) M E. subst m. exact (proj1 (G2 w pi (conj M R))).
Qed.

(** * Concrete nets *)
(** an injective numbering of rows *)
Definition un (n : nat) (k : positive) : positive := Nat.iter n xI (xO k).
Definition enz (z : Z) (k : positive) : positive :=
  match z with Z0 => xO (xO k) | Zpos p => xO (xI (un (Pos.to_nat p) k)) | Zneg p => xI (un (Pos.to_nat p) k) end.
Fixpoint enr (r : lrow) : positive := match r with [] => xH | (i, z) :: r => un i (enz z (enr r)) end.
Definition number (r : lrow) : N := Npos (enr r).
Lemma un_inj : forall n m k l, un n k = un m l -> n = m /\ k = l.
Proof.
  induction n as [|n IH]; intros [|m] k l H; unfold un in *; cbn in H; try discriminate; injection H as H; auto.
  destruct (IH m k l H). auto.
Qed.
Lemma enz_inj : forall z y k l, enz z k = enz y l -> z = y /\ k = l.
Proof.
  intros [|p|p] [|q|q] k l H; cbn in H; try discriminate; try (injection H as H; auto); destruct (un_inj _ _ _ _ H) as (A & ->); apply Pos2Nat.inj in A; subst; auto.
Qed.
Lemma un_xH : forall n k, un n k <> xH. Proof. intros [|n] k; discriminate. Qed.
Lemma number_inj : forall r s, number r = number s -> r = s.
Proof.
  intros r s H. injection H as H. revert s H. induction r as [|[i z] r IH]; intros [|[j y] s] H; cbn [enr] in H.
  - reflexivity.
  - destruct (un_xH _ _ (eq_sym H)).
  - destruct (un_xH _ _ H).
  - destruct (un_inj _ _ _ _ H) as (-> & H'). destruct (enz_inj _ _ _ _ H') as (-> & H''). rewrite (IH s H''). reflexivity.
Qed.

Definition never : nat -> bool := fun _ => false.
Definition lazy_solver (n : nat) (P : lp) : glp_ret * glp_status := (GDone, GOpt).
Lemma lazy_sound : sound_solver lazy_solver. Proof. intros n P []. Qed.
Definition lp_dec : forall a b : lp, {a = b} + {a <> b}.
Proof. repeat decide equality. Defined.
(** a solver that runs into its time limit at first, and knows some systems to be infeasible *)
Definition knows (k : nat) (l : list lp) (n : nat) (P : lp) : glp_ret * glp_status :=
  if n <? k then (GTimeLimit, GUndef) else if in_dec lp_dec P l then (GDone, GNofeas) else (GDone, GOpt).
Lemma knows_sound : forall k l, (forall P, In P l -> ~ exists x, solution P x) -> sound_solver (knows k l).
Proof. intros k l H n P. unfold knows. destruct (n <? k); [intros []|]. destruct (in_dec lp_dec P l) as [Hi|]; [|intros []]. intros _. exact (H P Hi). Qed.

Definition no_net : cnet := mkCnet 0 0 [] [] [] [] [].
Definition built (cs : list call) : cnet :=
  match do_calls b_empty cs with Ok b => match make_net b false with Ok (n, _, _) => n | _ => no_net end | _ => no_net end.
Lemma built_ok : forall cs, weights_pos cs -> (exists p, is_place cs p) -> (exists b, do_calls b_empty cs = Ok b) -> layout (built cs) /\ sorted_arcs (built cs).
Proof.
  intros cs W P (b & E). destruct (@builder_correct cs b false W E P) as (net & ids & tids & pidx & tidx & Hm & L & _).
  pose proof (@builder_sorted cs b false net ids tids W E P Hm) as S. unfold built. rewrite E, Hm. auto.
Qed.
(** places p and q; t takes a token from p to q *)
Definition move (a b : N) : cnet := built [CPlace 10 a; CPlace 11 b; CTrans 20 0; CIn 10 20 false 1; COut 20 11 1].
Lemma move_ok : forall a b, layout (move a b) /\ sorted_arcs (move a b).
Proof.
  intros a b. apply built_ok.
  - repeat constructor; lia.
  - exists 10. left. reflexivity.
  - eexists. reflexivity.
Qed.
