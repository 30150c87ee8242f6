(** The theorems about the answers and the traces of the explicit engine (C37). *)
From Verif Require Import Base BaseLemmas ColSyntax ColSpec ColModel ColRadix ColEval ExpSyntax ExpSpec ExpModel ExpShow ExpSet ExpCodec ExpArc ExpComp ExpGen ExpNet ExpEnc ExpSearch.

(** The counts of a marking, and of the steps that are printed. *)
Definition counts (M : kmark) (p c : nat) : Z := match nth_error M p with Some m => ms_get m c | None => 0%Z end.
Definition shown (steps : list (nat * binding * kmark)) : list (nat * (nat -> nat) * (nat -> nat -> Z)) :=
  map (fun x => (fst (fst x), bget (snd (fst x)), counts (snd x))) steps.

Lemma seq_fold : forall l ss a, fits l ss -> fold_left (fun acc x => acc * snd x + fst x) (combine l ss) a = a * prod ss + seq_num ss l.
Proof.
  intros l ss a F. revert a. induction F as [|i s l ss H F IH]; intros a; [cbn; lia|].
  cbn [combine fold_left fst snd]. rewrite IH. rewrite seq_cons_eq by lia. cbn [prod]. nia.
Qed.

Section Main.
Variable n : cpn.
Hypothesis OK : cpn_ok n.
Hypothesis EO : exp_ok n.
Variable net : knet.
Hypothesis BUILD : build n = Ok net.
Notation tab := (cn_types n).

Lemma color_num_enc : forall ty v, vtyped tab ty v -> color_num n ty v = enc n ty v.
Proof.
  intros ty v V. unfold vtyped in V. unfold color_num, enc, basic_sizes. destruct (nth_error tab ty) as [[k|cs]|] eqn:E; destruct v as [i|l]; try contradiction; auto.
  assert (F : fits l (map (esize tab) cs)) by (clear E; unfold fits; induction V; cbn; constructor; auto).
  rewrite (seq_fold _ _ 0 F). cbn [mult plus]. f_equal.
Qed.

Lemma krep_shows : forall M Mc, krep n net M Mc -> shows n (counts M) Mc.
Proof.
  intros M Mc R p pl v E V. rewrite (color_num_enc _ _ V). unfold counts. destruct (krep_place n OK net BUILD _ _ _ _ R E) as (m & EM & _).
  rewrite EM. apply (proj2 R p pl m v E EM V).
Qed.

Definition lastM (M : kmark) (steps : list (nat * binding * kmark)) : kmark := match rev steps with [] => M | x :: _ => snd x end.
Lemma lastM_cons : forall M x steps, lastM M (x :: steps) = lastM (snd x) steps.
Proof. intros. unfold lastM. cbn [rev]. destruct (rev steps); reflexivity. Qed.
Lemma lastM_snoc : forall M x steps, lastM M (steps ++ [x]) = snd x.
Proof. intros. unfold lastM. rewrite rev_app_distr. reflexivity. Qed.

Lemma replay_snoc : forall l M0 steps t kt k b M', replay net M0 l = Ok steps ->
  nth_error (kn_trans net) t = Some kt -> find_next net (lastM M0 steps) kt k = Ok (Some (k, b)) -> kfire (lastM M0 steps) kt b = Ok M' ->
  replay net M0 (l ++ [(t, k)]) = Ok (steps ++ [(t, b, map ms_shrink M')]).
Proof.
  induction l as [|[t0 k0] l IH]; intros M0 steps t kt k b M' H ET FN KF; cbn [replay app] in *.
  - inversion H; subst. unfold lastM in *. cbn in FN, KF. rewrite (rd_some _ _ ET). cbn [bind]. rewrite FN. cbn [bind]. rewrite KF. reflexivity.
  - binv H kt0 E0. rewrite ?E0. cbn [bind]. binv H r ER. rewrite ?ER. cbn [bind]. cbv zeta in *. binv H Ma EA. rewrite ?EA. cbn [bind]. binv H rest EREST.
    inversion H; subst. rewrite lastM_cons in FN, KF. cbn [snd] in *. rewrite (IH _ _ _ _ _ _ _ EREST ET FN KF). reflexivity.
Qed.

Lemma follows_snoc : forall M steps M1, follows n M steps M1 -> forall x M2, follows n M1 [x] M2 -> follows n M (steps ++ [x]) M2.
Proof. induction 1; intros; cbn [app]; auto. econstructor; eauto. Qed.

Lemma step_follows : forall M Mc t kt k b M', krep n net M Mc -> nth_error (kn_trans net) t = Some kt -> valid net M kt k b -> kfire M kt b = Ok M' ->
  exists Mc', follows n Mc [(t, bget b, counts (map ms_shrink M'))] Mc' /\ krep n net (map ms_shrink M') Mc' /\ cstep n Mc t Mc'.
Proof.
  intros M Mc t kt k b M' R ET (BG & KE & _) H. destruct (of_trans n net BUILD _ _ ET) as (tr & E1 & E2). destruct (build_trans_ok n OK EO net BUILD _ _ _ E1 E2) as [CT TG].
  destruct (assign_ok n EO net BUILD _ _ _ _ CT BG) as [B A]. set (s := assign_of (kt_vars kt) b) in *.
  assert (CE : cenabled n Mc t tr s) by (eapply enabled_iff; eauto).
  assert (R' : krep n net (map ms_shrink M') (fired n Mc tr s)) by (apply krep_shrink; auto; eapply fired_rep; eauto).
  exists (fired n Mc tr s). split; [|split; auto; exists tr, s; split; auto]. eapply fo_cons with (s := s); eauto.
  - intros v I L. destruct (@nth_error_ex _ _ _ L) as [ty EVT]. apply (A v ty I EVT).
  - intros p v. apply eq_refl.
  - apply krep_shows. auto.
  - constructor.
Qed.

Lemma chain_trace : forall m id M l, chain net m id M l -> forall fuel acc, id < fuel -> trace_to fuel m id acc = Ok (Some (l ++ acc)).
Proof.
  intros m id M l H. induction H as [|pred id M M' l t kt k b H IH L F ET V FN KF]; intros [|fuel] acc LT; try lia; cbn [trace_to].
  - reflexivity.
  - destruct (Nat.eqb_spec id 0); [lia|]. rewrite F. rewrite IH by lia. rewrite <- app_assoc. reflexivity.
Qed.

Lemma chain_replay : forall m id M l, chain net m id M l -> exists steps Mc, replay net (kn_init net) l = Ok steps /\
  lastM (kn_init net) steps = M /\ map (fun x => fst (fst x)) steps = map fst l /\ follows n (cinit n) (shown steps) Mc /\ krep n net M Mc.
Proof.
  intros m id M l H. induction H as [|pred id M M' l t kt k b H (steps & Mc & R1 & R2 & R3 & R4 & R5) L F ET V FN KF].
  - exists [], (cinit n). split; [reflexivity|]. split; [reflexivity|]. split; [reflexivity|]. split; [constructor|]. apply init_rep; auto.
  - destruct (step_follows _ _ _ _ _ _ _ R5 ET V KF) as (Mc' & S1 & S2 & _).
    exists (steps ++ [(t, b, map ms_shrink M')]), Mc'. split; [|split; [|split; [|split]]]; auto.
    + eapply replay_snoc; eauto; rewrite R2; auto.
    + apply lastM_snoc.
    + rewrite !map_app. cbn. f_equal. auto.
    + unfold shown. rewrite map_app. eapply follows_snoc; eauto.
Qed.

Lemma gen_answers : forall C gen start pick qt q fuel r, gen_ok net C gen start -> query_ok q ->
  search net gen start pick qt q fuel = Ok r -> (sr_full r = true \/ sr_id r <> None) -> (sr_answer r = true <-> holds n qt q).
Proof.
  intros C gen start pick qt q fuel r (inv & todo & GS & GN) QO H F.
  eapply (answer_ok n OK EO net BUILD qt q r QO); eauto. eapply (search_ok n OK EO net BUILD C gen start pick qt q inv todo GS GN); eauto.
Qed.

Lemma gen_traces : forall C gen start pick qt q fuel r id, gen_ok net C gen start -> query_ok q ->
  search net gen start pick qt q fuel = Ok r -> sr_id r = Some id ->
  exists l steps M, trace_to (S id) (sr_map r) id [] = Ok (Some l) /\ replay net (kn_init net) l = Ok steps /\
    map (fun x => fst (fst x)) steps = map fst l /\ follows n (cinit n) (shown steps) M /\ decides n qt q M.
Proof.
  intros C gen start pick qt q fuel r id (inv & todo & GS & GN) QO H EI.
  pose proof (search_ok n OK EO net BUILD C gen start pick qt q inv todo GS GN _ _ H) as RO. unfold result_ok in RO. rewrite EI in RO.
  destruct RO as (M & v & l & CH & RM & EV & EA & _). destruct (chain_replay _ _ _ _ CH) as (steps & Mc & R1 & R2 & R3 & R4 & R5).
  exists l, steps, Mc. split; [|split; [auto|split; [auto|split; [auto|]]]].
  - rewrite (chain_trace _ _ _ _ CH) by lia. rewrite app_nil_r. reflexivity.
  - pose proof (query_eval_ok n OK EO net BUILD _ _ _ _ R5 QO EV) as Q. unfold early, decides in *. destruct qt, v; try discriminate.
    + apply Q. auto.
    + intros X. apply Q in X. discriminate.
Qed.

Theorem fixed_answers : forall pick qt q fuel r, query_ok q -> search net (fixed_gen net) (0, 0) pick qt q fuel = Ok r ->
  (sr_full r = true \/ sr_id r <> None) -> (sr_answer r = true <-> holds n qt q).
Proof. intros. eapply gen_answers; eauto. apply (fixed_gen_ok net (PP n OK net BUILD) (VP n EO net BUILD) (trans_good n OK EO net BUILD)). Qed.
Theorem even_answers : forall strict pick qt q fuel r, query_ok q -> search net (even_gen net strict) (even0 net) pick qt q fuel = Ok r ->
  (sr_full r = true \/ sr_id r <> None) -> (sr_answer r = true <-> holds n qt q).
Proof. intros. eapply gen_answers; eauto. apply (even_gen_ok net (PP n OK net BUILD) (VP n EO net BUILD) (trans_good n OK EO net BUILD)). Qed.
Theorem fixed_traces : forall pick qt q fuel r id, query_ok q -> search net (fixed_gen net) (0, 0) pick qt q fuel = Ok r -> sr_id r = Some id ->
  exists l steps M, trace_to (S id) (sr_map r) id [] = Ok (Some l) /\ replay net (kn_init net) l = Ok steps /\
    map (fun x => fst (fst x)) steps = map fst l /\ follows n (cinit n) (shown steps) M /\ decides n qt q M.
Proof. intros. eapply gen_traces; eauto. apply (fixed_gen_ok net (PP n OK net BUILD) (VP n EO net BUILD) (trans_good n OK EO net BUILD)). Qed.
Theorem even_traces : forall strict pick qt q fuel r id, query_ok q -> search net (even_gen net strict) (even0 net) pick qt q fuel = Ok r -> sr_id r = Some id ->
  exists l steps M, trace_to (S id) (sr_map r) id [] = Ok (Some l) /\ replay net (kn_init net) l = Ok steps /\
    map (fun x => fst (fst x)) steps = map fst l /\ follows n (cinit n) (shown steps) M /\ decides n qt q M.
Proof. intros. eapply gen_traces; eauto. apply (even_gen_ok net (PP n OK net BUILD) (VP n EO net BUILD) (trans_good n OK EO net BUILD)). Qed.
End Main.
