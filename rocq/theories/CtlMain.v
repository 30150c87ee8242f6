(** The CTL engine answers CTL queries over the reachable markings of a net. *)
From Verif Require Import Base BaseLemmas NetSpec NetModel NetProofs StoreProofs SearchModel SearchMain PqlSyntax PqlSpec PqlModel PqlProofs PqlRuns
  QueryModel QueryProofs DgSpec DgModel DgSearch CtlModel CtlProofs CtlSol CtlLev CtlSem CtlNet CtlFrag.
Set Implicit Arguments.

(** No reachable marking enables a transition that exceeds the token limit. *)
Definition no_overflow (net : cnet) : Prop :=
  forall m t tr, reachable (to_pnet net) (cn_init net) m -> nth_error (pn_trans (to_pnet net)) t = Some tr -> enabled tr m -> ~ overflows tr m.

Section Main.
  Variable net : cnet.
  Hypothesis L : layout net.
  Hypothesis Hpl : 0 < cn_places net.
  Hypothesis Hlen : length (cn_init net) = cn_places net.
  Hypothesis Hfit : fits32 (cn_init net).
  Hypothesis Hno : no_overflow net.
  Notation pn := (to_pnet net).
  Definition reach (m : marking) : Prop := reachable pn (cn_init net) m.

  Lemma reach_step : forall m m', reach m -> nstep pn m m' -> reach m'.
  Proof.
    intros m m' (w & Hw) (t & Ht). exists (w ++ [t]). clear Hlen Hfit. revert m Hw Ht. generalize (cn_init net).
    induction w as [|x w IH]; intros m0 m Hw Ht; inversion Hw; subst; cbn; [eapply run_cons; [exact Ht|constructor]|].
    eapply run_cons; [eassumption|]. eapply IH; eassumption.
  Qed.
  Lemma reach_ok : forall m, reach m -> length m = cn_places net /\ fits32 m.
  Proof.
    intros m (w & Hw). assert (G : forall w m0 m, reach m0 -> length m0 = cn_places net /\ fits32 m0 -> run pn m0 w m -> length m = cn_places net /\ fits32 m).
    { clear - L Hno. induction w as [|t w IH]; intros m0 m Hr (A1 & A2) R; inversion R as [|? ? m1 ? ? HS HR]; subst; [auto|].
      assert (Hm1 : reach m1) by (apply (@reach_step m0); [exact Hr|exists t; exact HS]).
      apply (IH m1 m Hm1); [|exact HR]. destruct (net_stream_ok L A1 A2) as (S1 & [(S2 & S3)|(_ & x & tr & X1 & X2 & X3)]).
      - apply (S1 _ _ (S3 _ _ HS)).
      - exfalso. apply (Hno _ Hr X1 X2 X3). }
    apply (G w (cn_init net)); [exists []; constructor|auto|exact Hw].
  Qed.
  Lemma reach_succ : forall m m', reach m -> (In m' (net_succs net m) <-> nstep pn m m').
  Proof.
    intros m m' Hr. destruct (reach_ok Hr) as (A1 & A2). unfold net_succs. destruct (successors_spec L A1 A2) as [(r & E & _ & K)|(E & x & tr & X1 & X2 & X3)].
    - rewrite E. rewrite in_map_iff. split.
      + intros ([t y] & <- & Hy). exists t. apply K. exact Hy.
      + intros (t & Ht). exists (t, m'). split; [reflexivity|]. apply K. exact Ht.
    - exfalso. apply (Hno _ Hr X1 X2 X3).
  Qed.
  Lemma reach_fits : forall m, reach m -> fits m.
  Proof. intros m Hr p. destruct (reach_ok Hr) as (_ & A). specialize (A p). unfold u32max. lia. Qed.
  Lemma reach_dead : forall m, reach m -> (net_deadb net m = true <-> dead pn m).
  Proof.
    intros m Hr. destruct (reach_ok Hr) as (A & _). destruct (@deadlocked_spec net m L Hpl A) as (d & Hd & Ed). unfold net_deadb. rewrite Hd. exact Ed.
  Qed.
  Lemma reach_sat : forall c m, frag c = true -> reach m -> (sat pn m c <-> tsat (net_deadb net) (net_succs net) c m).
  Proof. exact (@sat_tsat pn (net_deadb net) (net_succs net) reach (layout_wf net L) reach_step reach_succ reach_fits reach_dead). Qed.

  Theorem graph_encodes : forall root, frag root = true ->
    exists val depth, solution (ctl_graph net root) val /\ leveled (ctl_graph net root) (cn_init net, []) depth /\
      (forall m p c, reach m -> sub root p = Some c -> evaluate (net_deadb net) m c = RUnknown -> (val (m, p) <-> sat pn m c)) /\
      ((forall c, root <> CNot c) -> forall m, reach m -> (val (m, []) <-> sat pn m root)).
  Proof.
    intros root Hf. exists (val (net_deadb net) (net_succs net) root), (depth root).
    split; [apply (dg_solution (net_deadb net) (net_succs net) root Hf)|]. split; [apply dg_leveled|]. split.
    - intros m p c Hr Hs E. rewrite (@reach_sat c m (frag_sub p root Hf Hs) Hr). rewrite (val_at (net_deadb net) (net_succs net) root p m Hs). apply gval_unknown. exact E.
    - intros Hn m Hr. rewrite (@reach_sat root m Hf Hr). unfold val. cbn [fst snd sub]. destruct root; try (cbn; tauto). exfalso. apply (Hn root). reflexivity.
  Qed.
  Theorem single_solve_ok : forall root addr choice fuel, frag root = true ->
    (evaluate (net_deadb net) (cn_init net) root = RUnknown \/ forall c, root <> CNot c) ->
    match ctl_single_solve net root addr choice fuel with
    | Ok b => b = true <-> sat pn (cn_init net) root
    | NoFuel => True
    | _ => False
    end.
  Proof.
    intros root addr choice fuel Hf He. destruct (graph_encodes root Hf) as (v & d & Hs & Hl & K1 & K2).
    assert (Hr : reach (cn_init net)) by (exists []; constructor).
    assert (Hv : v (cn_init net, []) <-> sat pn (cn_init net) root).
    { destruct He as [He|He]; [apply (K1 _ [] root Hr eq_refl He)|apply (K2 He _ Hr)]. }
    assert (S := search_ok ctlconf_eq addr Hs Hl choice fuel).
    change (match ctl_single_solve net root addr choice fuel with Ok b => b = true <-> v (cn_init net, []) | NoFuel => True | _ => False end) in S.
    destruct (ctl_single_solve net root addr choice fuel); [|exact S|exact S|exact S]. rewrite S. exact Hv.
  Qed.
  Theorem main_direct_ok : forall root addr choice fuel, frag root = true ->
    match ctl_main_direct net root addr choice fuel with
    | Ok b => b = true <-> sat pn (cn_init net) root
    | NoFuel => True
    | _ => False
    end.
  Proof.
    intros root addr choice fuel Hf. unfold ctl_main_direct. assert (Hr : reach (cn_init net)) by (exists []; constructor).
    destruct (evaluate (net_deadb net) (cn_init net) root) eqn:E.
    - split; [|reflexivity]. intros _. apply (@reach_sat root (cn_init net) Hf Hr). apply ev_true; auto.
    - split; [discriminate|]. intros K. exfalso. apply (@reach_sat root (cn_init net) Hf Hr) in K. revert K. apply ev_false; auto.
    - apply single_solve_ok; [exact Hf|left; exact E].
  Qed.

  Lemma ctl_stf : forall c, ctl c = true -> stf c = true.
  Proof.
    induction c using cond_ind'; cbn [ctl stf]; intros Hf; auto; try discriminate.
    - rewrite Forall_forall in H. rewrite forallb_forall in *. auto.
    - rewrite Forall_forall in H. rewrite forallb_forall in *. auto.
    - apply andb_prop in Hf. destruct Hf. rewrite IHc1, IHc2; auto.
    - apply andb_prop in Hf. destruct Hf. rewrite IHc1, IHc2; auto.
  Qed.
  Lemma ctl_push_sat : forall c r fuel0, ctl c = true -> in_range c = true ->
    push (net_deadb net) (cn_init net) true fuel0 false false c = Ok r -> (sat pn (cn_init net) r <-> sat pn (cn_init net) c).
  Proof.
    intros c r fuel0 Hc Hr Hp. assert (Hi : reach (cn_init net)) by (exists []; constructor).
    destruct (@push_sat pn (net_deadb net) (cn_init net) true fuel0 false c r (layout_wf net L)) as (_ & _ & K); auto.
    - intros _. split; [apply reach_fits; exact Hi|apply reach_dead; exact Hi].
    - apply ctl_stf. exact Hc.
  Qed.
End Main.
