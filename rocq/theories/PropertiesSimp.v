(** Property theorems about query simplification: C15, C28 and C29. *)
From Verif Require Import Base NetSpec PqlSyntax PqlSpec PqlModel PqlPush PqlRuns NetModel LpSpec SimpSpec MemberModel LpModel LpProofs LpBase SimpModel SimpTop.

(** C15.  For every net as the builder lays it out, every initial marking, every state or
    path formula whose numbers fit the simplifier's int arithmetic, every behaviour of the
    clock and every sound solver: if simplification returns, then the returned query is of
    the same kind and has the same truth value on every maximal run that starts in a
    reachable marking.  It neither throws nor loops; C15_crash_refuted is about the
    remaining outcome. *)
Theorem C15_simplification_keeps_meaning : forall addr clock simplex intopt net m0,
  (forall r s, addr r = addr s -> r = s) -> (forall n, clock n = true -> clock (S n) = true) ->
  sound_solver simplex -> sound_solver intopt ->
  layout net -> sorted_arcs net -> length m0 = cn_places net -> (forall v, In v m0 -> (v < 2 ^ 31)%N) ->
  forall kind c s, query_ok (cn_places net) m0 c = true -> cls kind c = true ->
  match simplify addr clock simplex intopt net m0 c s with
  | Ok (f, _) => cls kind f = true /\ forall m pi, reachable (to_pnet net) m0 m -> maximal (to_pnet net) pi -> pi 0 = m ->
      (holds (to_pnet net) pi f <-> holds (to_pnet net) pi c)
  | UB => True
  | _ => False
  end.
Proof. exact simplify_ok. Qed.
Print Assumptions C15_simplification_keeps_meaning.

(** In particular the answer in the initial marking is the same. *)
Theorem C15_same_answer_initially : forall addr clock simplex intopt net m0,
  (forall r s, addr r = addr s -> r = s) -> (forall n, clock n = true -> clock (S n) = true) ->
  sound_solver simplex -> sound_solver intopt ->
  layout net -> sorted_arcs net -> length m0 = cn_places net -> (forall v, In v m0 -> (v < 2 ^ 31)%N) ->
  forall kind c s f s', query_ok (cn_places net) m0 c = true -> cls kind c = true ->
  simplify addr clock simplex intopt net m0 c s = Ok (f, s') -> (sat (to_pnet net) m0 f <-> sat (to_pnet net) m0 c).
Proof.
  intros addr clock simplex intopt net m0 Ha Hc H1 H2 L So Hl Hb kind c s f s' Hq Hk E.
  pose proof (simplify_ok addr clock simplex intopt net m0 Ha Hc H1 H2 L So Hl Hb kind c s Hq Hk) as G. rewrite E in G. destruct G as (_ & G).
  assert (R : reachable (to_pnet net) m0 m0) by (exists []; constructor).
  split; intros H pi M P; apply (G m0 pi R M P), H; assumption.
Qed.
Print Assumptions C15_same_answer_initially.

(** a solver that knows the infeasible systems of the examples *)
Definition sxA : lp := mkLp 1 [[(0, (-1)%Z); (1, 1%Z)]] [0; 0]%Z [([(0, (-1)%Z)], Some 1%Z, None)].
Definition sxB : lp := mkLp 1 [[(0, (-1)%Z); (1, 1%Z)]] [0; 0]%Z [([(0, (-1)%Z)], None, Some (-1)%Z)].
Lemma sx_infeasible : forall P, In P [sxA; sxB] -> ~ exists x, solution P x.
Proof.
  intros P [<-|[<-|[]]] (x & S1 & S2 & S3); specialize (S1 0); specialize (S2 0 0%Z eq_refl); destruct (S3 _ _ _ (or_introl eq_refl)) as (S4 & S5);
    unfold above, below, row_value, column_sum, sumto, entry, sxA, sxB in *; cbn [map fold_right fst snd lp_n lp_columns nth filter Nat.eqb] in *; lia.
Qed.
Definition sx_query : cond := CEF (CEU (CCmp OpEq (Lit 1) (Lit 2)) (CCmp OpNe (Pl 0) (Lit 0))).
(** with both places empty, p never gets a token: EF (1=2 EU p!=0) is simplified to false *)
Example C15_case :
  (forall r s, number r = number s -> r = s) /\ (forall n, never n = true -> never (S n) = true) /\
  sound_solver (knows 0 [sxA; sxB]) /\ sound_solver lazy_solver /\ layout (move 0 0) /\ sorted_arcs (move 0 0) /\
  length [0; 0]%N = cn_places (move 0 0) /\ query_ok 2 [0; 0]%N sx_query = true /\ cls true sx_query = true /\
  (exists s', simplify number never (knows 0 [sxA; sxB]) lazy_solver (move 0 0) [0; 0]%N sx_query 0 = Ok (CBool false, s')).
Proof.
  split; [exact number_inj|]. split; [discriminate|]. split; [apply knows_sound, sx_infeasible|]. split; [exact lazy_sound|].
  destruct (move_ok 0 0) as (L & So). split; [exact L|]. split; [exact So|]. split; [reflexivity|]. split; [reflexivity|]. split; [reflexivity|].
  eexists. vm_compute. reflexivity.
Qed.

(** Finding: if the solver runs into its time limit on early programs and answers later ones,
    simplification can look at the first element of an empty vector (undefined behaviour):
    the members of a union are erased while a copy of it is in use. *)
Theorem C15_crash_refuted : exists addr clock simplex intopt net m0 c s,
  (forall r s, addr r = addr s -> r = s) /\ (forall n, clock n = true -> clock (S n) = true) /\
  sound_solver simplex /\ sound_solver intopt /\
  layout net /\ sorted_arcs net /\ length m0 = cn_places net /\ (forall v, In v m0 -> (v < 2 ^ 31)%N) /\
  query_ok (cn_places net) m0 c = true /\ cls true c = true /\
  simplify addr clock simplex intopt net m0 c s = UB.
Proof.
  exists number, never, (knows 8 [sxA; sxB]), lazy_solver, (move 0 0), [0; 0]%N, sx_query, 0.
  split; [exact number_inj|]. split; [discriminate|]. split; [apply knows_sound, sx_infeasible|]. split; [exact lazy_sound|].
  destruct (move_ok 0 0) as (L & So). split; [exact L|]. split; [exact So|]. split; [reflexivity|].
  split; [intros v [<-|[<-|[]]]; reflexivity|]. split; [reflexivity|]. split; [reflexivity|]. vm_compute. reflexivity.
Qed.
Print Assumptions C15_crash_refuted.

(** Finding: without the bound on the values of the two sides in the initial marking the
    claim is false.  The sum of the tokens is truncated to an int and becomes negative:
    p + q <= 5 is simplified to true although p + q is always 3000000000. *)
Theorem C15_truncation_refuted : exists addr clock simplex intopt net m0 c s f s',
  (forall r s, addr r = addr s -> r = s) /\ (forall n, clock n = true -> clock (S n) = true) /\
  sound_solver simplex /\ sound_solver intopt /\
  layout net /\ sorted_arcs net /\ length m0 = cn_places net /\ (forall v, In v m0 -> (v < 2 ^ 31)%N) /\
  (exists a b, c = CCmp OpLe a b /\ expr_ok (cn_places net) a = true /\ expr_ok (cn_places net) b = true) /\ cls true c = true /\
  simplify addr clock simplex intopt net m0 c s = Ok (f, s') /\
  sat (to_pnet net) m0 f /\ ~ sat (to_pnet net) m0 c.
Proof.
  exists number, never, lazy_solver, lazy_solver, (move 1500000000 1500000000), [1500000000; 1500000000]%N,
    (CCmp OpLe (Plus 0 [0; 1] []) (Lit 5)), 0, (CBool true), 1.
  split; [exact number_inj|]. split; [discriminate|]. split; [exact lazy_sound|]. split; [exact lazy_sound|].
  destruct (move_ok 1500000000 1500000000) as (L & So). split; [exact L|]. split; [exact So|]. split; [reflexivity|].
  split; [intros v [<-|[<-|[]]]; reflexivity|]. split; [eexists _, _; split; [reflexivity|]; split; reflexivity|]. split; [reflexivity|]. split; [vm_compute; reflexivity|].
  split; [intros pi _ _; reflexivity|]. intros H.
  destruct (runs_exist (to_pnet (move 1500000000 1500000000)) [1500000000; 1500000000]%N) as (pi & M & P); [exact (ly_wf L)|].
  specialize (H pi M P). cbn [holds cmp_holds] in H. rewrite P in H. revert H. vm_compute. auto.
Qed.
Print Assumptions C15_truncation_refuted.

(** C28.  For every expression over the net's places the simplifier computes a linear form.
    If it is marked valid, then after every firing sequence [w] the value of the expression
    has changed by the form's value for the firing counts of [w]. *)
Theorem C28_member_gives_change : forall net m0, layout net -> length m0 = cn_places net ->
  forall e, expr_ok (cn_places net) e = true -> exists mb, constraint net m0 e = Ok mb /\
  (mb_ok mb = true -> forall w m, run (to_pnet net) m0 w m -> den m e = (den m0 e + lin 0 (mb_vars mb) (occ w))%Z).
Proof.
  intros net m0 L Hl e He. destruct (MemberProofs.constraint_ok L Hl (run_nil (to_pnet net) m0) e He) as (mb & E & _).
  exists mb. split; [exact E|]. intros Ho w m R. exact (proj2 (member_change net m0 L Hl e mb He E Ho w m R)).
Qed.
Print Assumptions C28_member_gives_change.

(** The triviality test for a < b and a <= b: what it answers is right in every reachable
    marking, provided both sides are ints initially. *)
Theorem C28_triviality_test : forall net m0, layout net -> length m0 = cn_places net ->
  forall a b ma mb strict r, expr_ok (cn_places net) a = true -> expr_ok (cn_places net) b = true ->
  constraint net m0 a = Ok ma -> constraint net m0 b = Ok mb -> mb_ok ma = true -> mb_ok mb = true ->
  int32 (den m0 a) = true -> int32 (den m0 b) = true -> trivial_lt strict ma mb = Some r ->
  forall m, reachable (to_pnet net) m0 m -> ((if strict then den m a < den m b else den m a <= den m b)%Z <-> r = true).
Proof.
  intros net m0 L Hl a b ma mb strict r Ea Eb Ca Cb Oa Ob Ia Ib T m (w & R).
  destruct (member_change net m0 L Hl a ma Ea Ca Oa w m R) as (K1 & D1). destruct (member_change net m0 L Hl b mb Eb Cb Ob w m R) as (K2 & D2).
  rewrite <- K1 in Ia. rewrite <- K2 in Ib. pose proof (@MemberProofs.trivial_ok strict ma mb r (occ w) (MemberProofs.occ_nonneg w) Ia Ib T) as G. unfold MemberProofs.mval in G.
  rewrite <- G. destruct strict; rewrite D1, D2; lia.
Qed.
Print Assumptions C28_triviality_test.

(** p + 2*q grows by 1 with each firing of t, so 9 <= p + 2*q is trivial if it is initially true *)
Example C28_case : expr_ok 2 (Plus 0 [0] [Mul 2 [1] []]) = true /\
  constraint (move 4 3) [4; 3]%N (Plus 0 [0] [Mul 2 [1] []]) = Ok (mkMember [1]%Z 10%Z true) /\
  constraint (move 4 3) [4; 3]%N (Lit 9) = Ok (mkMember [] 9%Z true) /\
  trivial_lt false (mkMember [] 9%Z true) (mkMember [1]%Z 10%Z true) = Some true /\
  trivial_lt false (mkMember [] 12%Z true) (mkMember [1]%Z 10%Z true) = None /\
  layout (move 4 3).
Proof. repeat apply conj; try (vm_compute; reflexivity). apply move_ok. Qed.

(** C29.  A conjunction of comparisons between expressions that holds in a marking reached by
    [w]: the linear program with the base constraints of the net and the merged rows of the
    comparisons is solved by the firing counts of [w], and with a sound solver the program
    is never taken to be impossible, whatever the clock says. *)
Theorem C29_state_equation : forall addr net m0, (forall r s, addr r = addr s -> r = s) ->
  layout net -> sorted_arcs net -> length m0 = cn_places net ->
  forall l w m, run (to_pnet net) m0 w m ->
  (forall a o b, In (a, o, b) l -> expr_ok (cn_places net) a = true /\ expr_ok (cn_places net) b = true /\ val_ok m0 a = true /\ val_ok m0 b = true) ->
  (forall a o b, In (a, o, b) l -> lop_holds o (den m a) (den m b)) ->
  exists B p, base_lp net m0 = Ok B /\ conj_prog addr net m0 l = Ok p /\ solution (with_rows B p) (occ w) /\
    forall clock simplex intopt s, sound_solver simplex -> sound_solver intopt ->
      match is_impossible clock simplex intopt net m0 p s with Ok (_, yes, _) => yes = false | _ => False end.
Proof.
  intros addr net m0 Ha L So Hl l w m R Ho Hh. destruct (base_ok m0 L So Hl) as (B & EB & HB).
  destruct (conj_prog_ok addr Ha net m0 L Hl l w m R Ho Hh) as (p & Ep & Ip & Sp).
  exists B, p. split; [exact EB|]. split; [exact Ep|]. split; [apply with_rows_solution; [exact (HB w m R)|exact Sp]|].
  intros clock simplex intopt s H1 H2. exact (is_impossible_false net m0 L Hl clock simplex intopt So H1 H2 p w m s R Ip Sp).
Qed.
Print Assumptions C29_state_equation.

(** q = 5, p < q and 2 <= p, after firing t twice from (4,3); and the rows for it *)
Definition c29_l : list (expr * lop * expr) := [(Pl 1, LEq, Lit 5); (Pl 0, LLt, Pl 1); (Lit 2, LLe, Pl 0)].
Example C29_case : layout (move 4 3) /\ sorted_arcs (move 4 3) /\ run (to_pnet (move 4 3)) [4; 3]%N [0; 0] [2; 5]%N /\
  (forall a o b, In (a, o, b) c29_l -> expr_ok 2 a = true /\ expr_ok 2 b = true /\ val_ok [4; 3]%N a = true /\ val_ok [4; 3]%N b = true /\
     lop_holds o (den [2; 5]%N a) (den [2; 5]%N b)) /\
  exists p, conj_prog number (move 4 3) [4; 3]%N c29_l = Ok p /\
    map (fun q => (eq_row q, eq_lo q, eq_hi q)) (pr_eqs p) = [([(0, 1%Z)], Some 2%Z, Some 2%Z); ([(0, (-2)%Z)], None, Some (-2)%Z)].
Proof.
  destruct (move_ok 4 3) as (L & So). split; [exact L|]. split; [exact So|]. split.
  { assert (F : forall a b, step (to_pnet (move 4 3)) [N.succ a; b] 0 [a; N.succ b]).
    { intros a b. exists (mkTrans [mkArc 0 1 false] [mkArc 1 1 false]). split; [vm_compute; reflexivity|]. split.
      - intros c [<-|[]]. cbn. lia.
      - split; [reflexivity|]. intros [|[|p]] Hp; cbn in Hp |- *; [lia|lia|lia]. }
    eapply run_cons; [exact (F 3 3)%N|]. eapply run_cons; [exact (F 2 4)%N|]. apply run_nil. }
  split.
  - intros a o b [E|[E|[E|[]]]]; injection E as <- <- <-; (split; [reflexivity|]); (split; [reflexivity|]); (split; [reflexivity|]); (split; [reflexivity|]); vm_compute; auto; discriminate.
  - eexists. split; [vm_compute; reflexivity|]. reflexivity.
Qed.
