(** The check with the simplification of queries by linear programs (C15). *)
From Verif Require Import Base BaseLemmas NetSpec NetModel ColSyntax ColSpec ColUnfold ExpSpec PqlSyntax PqlSpec PqlModel PqlPush LpModel LpSpec SimpModel SimpSpec SimpTop CtlFrag IgnModel IgnSpec IgnCheck IgnMain IgnVerdict.

Lemma init_small : forall n net pidx, cpn_ok n -> same_places n net pidx -> same_tokens n net pidx (cinit n) (cn_init net) ->
  forall v, In v (cn_init net) -> (v < 2 ^ 31)%N.
Proof.
  intros n net pidx OK (P1 & P2 & P3) [L T] v I. apply In_nth with (d := 0%N) in I. destruct I as (i & Li & <-).
  assert (X : incl (seq 0 (cn_places net)) (map pidx (seq 0 (length (cn_pls n))))).
  { apply NoDup_length_incl.
    - assert (Y : forall l, NoDup l -> (forall x, In x l -> x < length (cn_pls n)) -> NoDup (map pidx l)).
      { induction l as [|x l IH]; intros ND F; constructor; inversion ND; subst.
        - intros J. apply in_map_iff in J. destruct J as (y & Ey & J). apply P3 in Ey; [subst; auto|apply F; right; auto|apply F; left; auto].
        - apply IH; auto. intros. apply F. right. auto. }
      apply Y; [apply seq_NoDup|]. intros x Ix. apply in_seq in Ix. lia.
    - rewrite map_length, !seq_length. lia.
    - intros x Ix. apply in_map_iff in Ix. destruct Ix as (y & <- & Iy). apply in_seq in Iy. apply in_seq. split; [lia|]. apply P2. lia. }
  assert (J : In i (map pidx (seq 0 (length (cn_pls n))))) by (apply X, in_seq; lia).
  apply in_map_iff in J. destruct J as (p & <- & Ip). apply in_seq in Ip. specialize (T p ltac:(lia)). unfold tokens in T. rewrite T.
  destruct (@nth_error_ex _ _ _ (proj2 Ip)) as [pl PL]. destruct (marking_ok n OK p pl PL) as (m & _ & R & S).
  rewrite (init_total n OK _ _ _ PL R). exact S.
Qed.

Lemma prepared_cls : forall net f q q0 q1 e, reach_query q = true -> in_range q = true -> prepared net f q = Ok (q0, q1, e) -> cls true q0 = true /\ cls true q1 = true.
Proof.
  intros net f q p0 p1 e Q I E. unfold prepared, pushed in E.
  apply bindR in E. destruct E as (q0 & H0 & E). destruct (push_shape _ _ _ _ _ _ _ Q I H0) as (a & CA & IA & -> & EA).
  assert (Y : forall b c, card c = true -> in_range c = true -> cls true (decide_initially net (notif b (CEF c))) = true).
  { intros b c Cc Ic. unfold decide_initially. destruct (evaluate _ _ _); [reflexivity|reflexivity|]. unfold cls. destruct b; cbn [notif in_range stf]; rewrite Ic, (card_stf c Cc); reflexivity. }
  apply bindR in E. destruct E as (q1 & H1 & E). injection E as <- <- _. split; [apply Y; auto|].
  destruct (xorb (fst (goal_of q)) false); cbn [notif] in H1; destruct (push_shape _ _ _ _ _ (CAG a) _ CA IA H1) as (b & CB & IB & -> & EB); apply Y; auto.
Qed.

Theorem cardinality_simplified : forall n tname fuel net, cpn_ok n -> arcs_pos n -> 0 < length (cn_pls n) ->
  (forall t k t' k', tname t k = tname t' k' -> t = t' /\ k = k') -> ignorant_net n tname fuel = Ok net ->
  exists pidx, same_places n net pidx /\
  forall addr clock simplex intopt, (forall r s, addr r = addr s -> r = s) -> (forall k, clock k = true -> clock (S k) = true) ->
  sound_solver simplex -> sound_solver intopt ->
  forall f q v q0 q1 e s0 f0 s0' s1 f1 s1', reach_query q = true -> in_range q = true -> Forall (fun p => p < length (cn_pls n)) (places q) ->
  prepared net f (rename pidx q) = Ok (q0, q1, e) ->
  query_ok (cn_places net) (cn_init net) q0 = true -> query_ok (cn_places net) (cn_init net) q1 = true ->
  simplify addr clock simplex intopt net (cn_init net) q0 s0 = Ok (f0, s0') ->
  simplify addr clock simplex intopt net (cn_init net) q1 s1 = Ok (f1, s1') ->
  check_cardinality net f (fun _ _ => (f0, f1)) (rename pidx q) = Ok v ->
  (v = Satisfied -> means n q) /\ (v = Unsatisfied -> ~ means n q).
Proof.
  intros n tname fuel net O A L J H. pose proof (ignorant_sorted n tname fuel net O A L J H) as So.
  destruct (ignorant_follows n tname fuel net O A L J H) as (LY & pidx & P & F).
  exists pidx. split; auto. intros addr clock simplex intopt Ha Hc S1 S2 f q v q0 q1 e s0 f0 s0' s1 f1 s1' Q I PL Pr K0 K1 Z0 Z1 C.
  pose proof (init_small n net pidx O P (proj1 F)) as Sm.
  assert (Q' : reach_query (rename pidx q) = true) by (rewrite rename_reach; auto).
  assert (I' : in_range (rename pidx q) = true) by (rewrite (rename_range pidx (length (cn_pls n))); auto; apply P).
  destruct (prepared_cls _ _ _ _ _ _ Q' I' Pr) as [C0 C1].
  assert (X : forall c s g s', cls true c = true -> query_ok (cn_places net) (cn_init net) c = true -> simplify addr clock simplex intopt net (cn_init net) c s = Ok (g, s') -> constant_right net c g).
  { intros c s g s' Cc Kc Zc b ->. pose proof (simplify_ok addr clock simplex intopt net (cn_init net) Ha Hc S1 S2 LY So (proj1 (proj1 F)) Sm true c s Kc Cc) as G.
    rewrite Zc in G. destruct G as (_ & G). assert (R : reachable (to_pnet net) (cn_init net) (cn_init net)) by (exists []; constructor).
    split; intros B.
    - destruct (PqlRuns.runs_exist _ (cn_init net) (ly_wf LY)) as (pi & M & P0). apply (G _ pi R M P0). apply B; auto.
    - intros pi M P0. apply (G _ pi R M P0). exact B. }
  eapply (cardinality_pidx n net pidx); eauto. intros r0 r1 e' E. rewrite Pr in E. injection E as <- <- <-. cbn [fst snd]. split; eapply X; eauto.
Qed.
