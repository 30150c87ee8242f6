(** The preemptive firing of transitions in coloured nets keeps the answers, if the transitions
    take any colour (C48). *)
From Verif Require Import Base BaseLemmas BuilderModel BuilderSpec CtlFrag ColSyntax ColSpec ColModel ColRadix ColEval ColGen ColUnfold ColMain ColRedModel ColRedSpec ColRedProofs ColRedMain ColRedTotal ColPreModel ColPreSpec ColPreMove.

Lemma view_trans : forall ut up a b c M1 M2 M3, same_view ut up a b M1 M2 -> same_view ut up b c M2 M3 -> same_view ut up a c M1 M3.
Proof.
  intros ut up a b c M1 M2 M3 [A1 A2] [B1 B2]. split; [intros p v U; rewrite B1, A1; auto|]. intros t U. rewrite (A2 t U). apply B2. exact U.
Qed.
Lemma answers_refl : forall ut up r, same_answers ut up r r.
Proof. intros. split; intros M R; exists M; (split; [exact R|]); split; auto; intros; tauto. Qed.
Lemma answers_trans : forall ut up a b c, same_answers ut up a b -> same_answers ut up b c -> same_answers ut up a c.
Proof.
  intros ut up a b c [A1 A2] [B1 B2]. split; intros M R.
  - destruct (A1 M R) as (N & RN & V). destruct (B1 N RN) as (K & RK & W). exists K. split; [exact RK|]. exact (view_trans _ _ _ _ _ _ _ _ V W).
  - destruct (B2 M R) as (N & RN & V). destruct (A2 N RN) as (K & RK & W). exists K. split; [exact RK|]. exact (view_trans _ _ _ _ _ _ _ _ W V).
Qed.

Lemma give_nth : forall a outs pls q, one_arc outs ->
  nth_error (give pls a outs) q = match nth_error pls q with Some c => Some (if existsb (Nat.eqb q) (map fst outs) then add_init c a else c) | None => None end.
Proof.
  intros a. induction outs as [|o outs IH]; intros pls q H; cbn [give map existsb]; [destruct (nth_error pls q); reflexivity|]. inversion H as [|? ? N1 N2]; subst. rewrite IH by exact N2.
  destruct (Nat.eqb_spec q (fst o)) as [E|E]; cbn [orb].
  - assert (X : existsb (Nat.eqb q) (map fst outs) = false). { destruct (existsb (Nat.eqb q) (map fst outs)) eqn:K; [|reflexivity]. apply existsb_exists in K. destruct K as (y & I & EY). apply Nat.eqb_eq in EY. exfalso. apply N1. rewrite <- E, EY. exact I. }
    rewrite X. subst q. destruct (nth_error pls (fst o)) as [c|] eqn:EC; [|rewrite EC; reflexivity]. rewrite nth_error_upd_eq by (apply (nth_error_lt _ _ EC)). reflexivity.
  - destruct (nth_error pls (fst o)) as [c|] eqn:EC; [|reflexivity]. rewrite nth_error_upd_neq by auto. reflexivity.
Qed.
Lemma give_length : forall a outs pls, length (give pls a outs) = length pls.
Proof. intros a. induction outs as [|o outs IH]; intros pls; cbn [give]; [reflexivity|]. rewrite IH. destruct (nth_error pls (fst o)); [apply upd_length|reflexivity]. Qed.

Section Rule.
Variable used_t used_p : nat -> bool.
Variable same : aexp -> aexp -> bool.
Variable timeout : nat -> bool.
Variable cleared : nat -> res nat.
Hypothesis CL : forall t u, cleared t = Ok u -> u = t.

Definition typed_arc (n : cpn) (y : nat * aexp) : Prop := exists pl, nth_error (cn_pls n) (fst y) = Some pl /\ atyped n (snd y) (cp_type pl).
Definition init_ok (n : cpn) (pl : cplace) : Prop := forall a v, cp_init pl = Some a -> (0 < mval (cn_types n) (cn_vars n) (fun _ => VE 0%nat) a v)%N -> vtyped (cn_types n) (cp_type pl) v.
Definition wf (r : rnet) : Prop := let n := r_net r in
  tab_ok n /\ (forall v ty, nth_error (cn_vars n) v = Some ty -> exists d, nth_error (cn_types n) ty = Some d) /\
  (forall p pl, nth_error (cn_pls n) p = Some pl -> init_ok n pl) /\
  (forall t tr, nth_error (cn_trs n) t = Some tr -> Forall (typed_arc n) (ct_in tr) /\ Forall (typed_arc n) (ct_out tr)) /\
  arcs_once n /\ same_ok n same /\ moves_any used_t used_p n /\ (forall t tr, In t (r_trs r) -> nth_error (cn_trs n) t = Some tr -> ct_in tr = []).
Lemma bare_ok : forall n, tab_ok n -> (forall v ty, nth_error (cn_vars n) v = Some ty -> exists d, nth_error (cn_types n) ty = Some d) -> cpn_ok (mkCpn (cn_types n) (cn_map n) (cn_vars n) [] [] []).
Proof.
  intros n T V. split; [exact T|]. split; [exact V|]. split; [intros q c E; destruct q; discriminate E|]. split; [intros q c E; destruct q; discriminate E|]. intros q u w [].
Qed.
(** An expression that gives a colour whenever the variable has it is of a type with the colour. *)
Lemma type_of : forall n x ty e ty' v, tab_ok n -> (forall v ty, nth_error (cn_vars n) v = Some ty -> exists d, nth_error (cn_types n) ty = Some d) ->
  nth_error (cn_vars n) x = Some ty -> vtyped (cn_types n) ty v -> atyped n e ty' -> (forall b, b x = v -> (0 < mval (cn_types n) (cn_vars n) b e v)%N) -> vtyped (cn_types n) ty' v.
Proof.
  intros n x ty e ty' v T V X TV TE L. set (b := fun y => if Nat.eqb y x then v else some_value (cn_types n) (nth y (cn_vars n) 0)).
  apply (mval_typed _ (bare_ok n T V) e ty' b v TE); [|apply L; unfold b; rewrite Nat.eqb_refl; reflexivity].
  intros y _. unfold b. cbn [cn_types cn_vars]. destruct (Nat.eqb_spec y x) as [->|NE]; [rewrite (nth_error_nth _ _ _ X); exact TV|].
  destruct (nth_error (cn_vars n) y) as [k|] eqn:E.
  - rewrite (nth_error_nth _ _ _ E). destruct (V _ _ E) as (d & D). exact (some_value_ok n k d T D).
  - rewrite nth_overflow by (apply nth_error_None; exact E). exact (some_value_ok n 0 _ T (proj1 T)).
Qed.
Lemma wf_of : forall n, cpn_ok n -> arcs_once n -> same_ok n same -> moves_any used_t used_p n -> wf (mkR n [] []).
Proof.
  intros n (T & V & P & TR & _) ON SA MA. split; [exact T|]. split; [exact V|]. split; [intros p pl E a v A L; destruct (P _ _ E) as [_ H]; destruct (H a A) as (H1 & H2 & _); apply (mval_typed _ (bare_ok n T V) a (cp_type pl) (fun _ => VE 0) v H1); [|exact L]; rewrite (ground_avars a H2); intros y []|].
  split; [|split; [exact ON|split; [exact SA|split; [exact MA|intros t tr []]]]]. intros t tr E. destruct (TR _ _ E) as (_ & A & B). rewrite Forall_forall in A, B.
  split; apply Forall_forall; intros y I; [destruct (A y I) as (pl & H1 & H2 & _)|destruct (B y I) as (pl & H1 & H2 & _)]; exists pl; auto.
Qed.

(** The markings of places are changed, to typed ones. *)
Definition retyped (pls pls' : list cplace) : Prop := forall q, match nth_error pls q, nth_error pls' q with Some c, Some c' => cp_type c' = cp_type c | None, None => True | _, _ => False end.
Lemma wf_places : forall r pls, wf r -> retyped (cn_pls (r_net r)) pls -> (forall p pl, nth_error pls p = Some pl -> init_ok (r_net r) pl) -> wf (with_places r pls).
Proof.
  intros r pls (T & V & P & TR & ON & SA & MA & SK) RT IO. split; [exact T|]. split; [exact V|]. split; [exact IO|]. split; [|split; [exact ON|split; [exact SA|split; [exact MA|exact SK]]]].
  intros t tr E. destruct (TR t tr E) as [A B]. rewrite Forall_forall in A, B.
  assert (K : forall y, typed_arc (r_net r) y -> typed_arc (r_net (with_places r pls)) y).
  { intros y (pl & E1 & E2). specialize (RT (fst y)). rewrite E1 in RT. destruct (nth_error pls (fst y)) as [c|] eqn:EC; [|contradiction]. exists c. split; [exact EC|]. rewrite RT. exact E2. }
  split; apply Forall_forall; auto.
Qed.
Lemma wf_skip : forall r t, wf r -> wf (skip_transition r t).
Proof.
  intros r t (T & V & P & TR & ON & SA & MA & SK). split; [exact T|]. split; [exact V|]. split; [exact P|]. split; [|split; [|split; [exact SA|split]]].
  - intros u tr H. apply skip_nth in H. destruct H as [[_ H]|[-> (tr0 & H & ->)]]; [exact (TR _ _ H)|]. split; constructor.
  - intros u tr H. apply skip_nth in H. destruct H as [[_ H]|[-> (tr0 & H & ->)]]; [exact (ON _ _ H)|]. split; constructor.
  - intros u tr p i H. apply skip_nth in H. destruct H as [[_ H]|[-> (tr0 & H & ->)]]; [exact (MA _ _ p i H)|]. discriminate.
  - intros u tr I H. apply skip_nth in H. destruct H as [[NE H]|[-> (tr0 & H & ->)]]; [|reflexivity]. destruct I as [I|I]; [congruence|]. exact (SK _ _ I H).
Qed.
(** A place is removed of which one transition takes and on which none puts, and then the
    transition. *)
Lemma wf_place : forall r p t, wf r -> (forall u tru, nth_error (cn_trs (r_net r)) u = Some tru -> u <> t -> ~ In p (map fst (ct_in tru)) /\ ~ In p (map fst (ct_out tru))) ->
  wf (skip_transition (skip_place r p) t).
Proof.
  intros r p t W NO. pose proof (wf_skip r t W) as (T & V & P & TR & ON & SA & MA & SK).
  assert (K : forall u, nth_error (cn_trs (r_net (skip_transition (skip_place r p) t))) u = nth_error (cn_trs (r_net (skip_transition r t))) u).
  { intros u. cbn [skip_transition r_net cn_trs]. destruct (Nat.eq_dec u t) as [->|NE].
    - destruct (nth_error (cn_trs (r_net r)) t) as [tr|] eqn:E.
      + rewrite !nth_error_upd_eq; [|apply (nth_error_lt _ _ E)|cbn [skip_place r_net cn_trs]; rewrite map_length; apply (nth_error_lt _ _ E)]. unfold tr_of at 1. erewrite nth_error_nth by (rewrite place_nth, E; reflexivity). unfold tr_of. erewrite nth_error_nth by exact E. reflexivity.
      + rewrite !(proj2 (nth_error_None _ _)); [reflexivity| |]; rewrite upd_length; [|cbn [skip_place r_net cn_trs]; rewrite map_length]; apply nth_error_None; exact E.
    - rewrite !nth_error_upd_neq by auto. rewrite place_nth. destruct (nth_error (cn_trs (r_net r)) u) as [tr|] eqn:E; [|reflexivity]. destruct (NO u tr E NE) as [N1 N2]. unfold drop_tr. rewrite !drop_id by auto. destruct tr; reflexivity. }
  split; [exact T|]. split; [exact V|]. split; [exact P|]. split; [intros u tru; rewrite K; exact (TR u tru)|]. split; [intros u tru; rewrite K; exact (ON u tru)|]. split; [exact SA|].
  split; [intros u tru q i; rewrite K; exact (MA u tru q i)|intros u tru I; rewrite K; exact (SK u tru I)].
Qed.

Lemma filter_all : forall (A : Type) (f : A -> bool) l, (forall y, In y l -> f y = true) -> forall y, In y (filter f l) <-> In y l.
Proof. intros A f l H y. rewrite filter_In. split; [tauto|]. intros I. split; auto. Qed.
Lemma con_in : forall n p t tr i, nth_error (cn_trs n) t = Some tr -> In (p, i) (ct_in tr) -> In t (consumers n p).
Proof.
  intros n p t tr i E I. unfold consumers. apply filter_In. split; [apply in_seq; pose proof (nth_error_lt _ _ E); lia|]. rewrite (tr_of_some n t tr E). destruct (find_arc p (ct_in tr)) eqn:F; [reflexivity|]. apply find_arc_none in F. destruct F. apply in_map_iff. exists (p, i). auto.
Qed.
Lemma pro_in : forall n p t tr, nth_error (cn_trs n) t = Some tr -> In p (map fst (ct_out tr)) -> In t (producers n p).
Proof.
  intros n p t tr E I. unfold producers. apply filter_In. split; [apply in_seq; pose proof (nth_error_lt _ _ E); lia|]. rewrite (tr_of_some n t tr E). destruct (find_arc p (ct_out tr)) eqn:F; [reflexivity|]. apply find_arc_none in F. contradiction.
Qed.

Lemma fire_place_same : forall r fired p r' fired', fire_place used_t used_p same cleared r fired p = Ok (r', fired') -> wf r -> same_answers used_t used_p r r' /\ wf r'.
Proof.
  intros r fired p r' fired' H W. unfold fire_place in H.
  assert (ID : forall f f' : list nat, Ok (r, f) = Ok (r', f') -> same_answers used_t used_p r r' /\ wf r') by (intros f f' K; injection K as <- _; split; [apply answers_refl|exact W]).
  destruct (existsb (Nat.eqb p) (r_pls r)); [exact (ID _ _ H)|]. destruct (nth_error (cn_pls (r_net r)) p) as [pl|] eqn:EP; [|discriminate H].
  apply bindR in H. destruct H as (mk & EM & H). destruct (N.eqb (msize mk) 0); [exact (ID _ _ H)|]. destruct (inhibiting (r_net r) p) eqn:EI; [exact (ID _ _ H)|]. destruct (used_p p) eqn:UP; [exact (ID _ _ H)|].
  destruct (consumers (r_net r) p) as [|t [|]] eqn:EC; [exact (ID _ _ H)| |exact (ID _ _ H)]. destruct (cp_init pl) as [a|] eqn:EA; [|exact (ID _ _ H)].
  apply bindR in H. destruct H as (vi & EV & H). destruct vi; [|exact (ID _ _ H)]. clear ID.
  assert (CT : In t (consumers (r_net r) p)) by (rewrite EC; left; reflexivity). unfold consumers in CT. apply filter_In in CT. destruct CT as [CT _]. apply in_seq in CT.
  pose proof (tr_of_in (r_net r) t ltac:(lia)) as ET. remember (tr_of (r_net r) t) as tr eqn:ETR.
  unfold viable in EV. rewrite <- ETR in EV. destruct (used_t t) eqn:UT; [discriminate EV|]. destruct (existsb (Nat.eqb t) fired); [discriminate EV|]. destruct (ct_guard tr) eqn:GN; [discriminate EV|].
  destruct (inhibited (r_net r) t) eqn:IT; [discriminate EV|]. destruct (1 <? length (ct_in tr)) eqn:EL; [discriminate EV|]. destruct (find_arc p (ct_in tr)) as [i|] eqn:FA; [|discriminate EV].
  pose proof (find_arc_in _ _ _ FA) as FI. assert (IN : ct_in tr = [(p, i)]). { apply Nat.ltb_ge in EL. destruct (ct_in tr) as [|y [|]]; [destruct FI| |cbn in EL; lia]. destruct FI as [->|[]]. reflexivity. }
  pose proof W as (T & V & P & TR & ON & SA & MA & SK).
  destruct (MA t tr p i ET GN IN UT UP) as [(x & ->) NSELF].
  assert (FO : forall o, In o (ct_out tr) -> used_p (fst o) = false /\ inhibiting (r_net r) (fst o) = false /\ (forall u, In u (consumers (r_net r) (fst o)) -> used_t u = false) /\ same (snd o) (ANum [EVar x] 1) = true).
  { repeat match type of EV with (if ?c then _ else _) = _ => destruct c; try discriminate EV end. injection EV as EV. rewrite forallb_forall in EV. intros o I. specialize (EV o I).
    apply andb_prop in EV. destruct EV as [EV E4]. apply andb_prop in EV. destruct EV as [EV E3]. apply andb_prop in EV. destruct EV as [E1 E2]. rewrite negb_true_iff in E1, E2. rewrite forallb_forall in E3.
    split; [exact E1|]. split; [exact E2|]. split; [|exact E4]. intros u U. specialize (E3 u U). rewrite negb_true_iff in E3. exact E3. }
  clear EV. destruct (TR _ _ ET) as [TI TO]. destruct (ON _ _ ET) as [_ ONE].
  assert (TX : nth_error (cn_vars (r_net r)) x = Some (cp_type pl)). { rewrite IN in TI. inversion TI as [|? ? H1 _]; subst. destruct H1 as (pl' & E1 & _ & E2). cbn [fst] in E1. rewrite EP in E1. injection E1 as <-. inversion E2; subst. assumption. }
  assert (ONLY : forall u tru, nth_error (cn_trs (r_net r)) u = Some tru -> u <> t -> ~ In p (map fst (ct_in tru))).
  { intros u tru EU NE K. apply in_map_iff in K. destruct K as ([q j] & E & I). cbn [fst] in E. subst q. pose proof (con_in _ _ _ _ _ EU I) as K. rewrite EC in K. destruct K as [K|[]]. congruence. }
  assert (INHP : forall q u w, In (q, u, w) (cn_inh (r_net r)) -> inhibiting (r_net r) q = true) by (intros q u w I; unfold inhibiting; apply existsb_exists; exists (q, u, w); split; [exact I|apply Nat.eqb_refl]).
  assert (INH : forall q u w, In (q, u, w) (cn_inh (r_net r)) -> u <> t /\ q <> p /\ ~ In q (map fst (ct_out tr))).
  { intros q u w I. pose proof (INHP q u w I) as J. split; [|split].
    - intros ->. assert (K : inhibited (r_net r) t = true) by (unfold inhibited; apply existsb_exists; exists (q, t, w); split; [exact I|apply Nat.eqb_refl]). congruence.
    - intros ->. congruence.
    - intros K. apply in_map_iff in K. destruct K as (o & E & K). destruct (FO o K) as (_ & Z & _). rewrite E in Z. congruence. }
  assert (OUTS : forall o, In o (ct_out tr) -> forall b v, mval (cn_types (r_net r)) (cn_vars (r_net r)) b (snd o) v = if value_eqb (b x) v then 1%N else 0%N).
  { intros o I b v. destruct (FO o I) as (_ & _ & _ & E). rewrite (SA _ _ E b v). cbn. destruct (value_eqb (b x) v); reflexivity. }
  assert (UO : forall q, In q (map fst (ct_out tr)) -> used_p q = false /\ forall u tru, nth_error (cn_trs (r_net r)) u = Some tru -> In q (map fst (ct_in tru)) -> used_t u = false).
  { intros q K. apply in_map_iff in K. destruct K as (o & <- & K). destruct (FO o K) as (U1 & _ & U2 & _). split; [exact U1|]. intros u tru EU I. apply U2. apply in_map_iff in I. destruct I as ([q j] & E & I). cbn [fst] in E. subst q. exact (con_in _ _ _ _ _ EU I). }
  assert (NR : ~ In t (r_trs r)) by (intros K; rewrite (SK t tr K ET) in IN; discriminate IN).
  assert (TYP : forall v, (0 < cinit (r_net r) p v)%N -> vtyped (cn_types (r_net r)) (cp_type pl) v) by (intros v L; unfold cinit in L; rewrite EP, EA in L; exact (P p pl EP a v EA L)).
  set (pls := give (cn_pls (r_net r)) a (ct_out tr)) in *.
  assert (RT : retyped (cn_pls (r_net r)) pls). { intros q. unfold pls. rewrite give_nth by exact ONE. destruct (nth_error (cn_pls (r_net r)) q) as [c|]; [|exact I]. destruct (existsb _ _); reflexivity. }
  assert (NP : forall q, nth_error pls q = match nth_error (cn_pls (r_net r)) q with Some c => Some (if outb tr q then add_init c a else c) | None => None end) by (intros q; unfold pls; apply give_nth; exact ONE).
  assert (OP : forall q, outb tr q = true -> In q (map fst (ct_out tr))) by (intros q; apply outb_in).
  assert (IO : forall q c, nth_error pls q = Some c -> init_ok (r_net r) c).
  { intros q c E. rewrite NP in E. destruct (nth_error (cn_pls (r_net r)) q) as [c0|] eqn:E0; [|discriminate E]. injection E as <-. destruct (outb tr q) eqn:EO; [|exact (P q c0 E0)].
    apply OP in EO. apply in_map_iff in EO. destruct EO as (o & EQ & I). rewrite Forall_forall in TO. destruct (TO o I) as (pl' & E1 & E2). rewrite EQ, E0 in E1. injection E1 as <-.
    intros b v B L. cbn [add_init cp_init cp_type] in *. injection B as <-.
    assert (KA : (0 < mval (cn_types (r_net r)) (cn_vars (r_net r)) (fun _ => VE 0%nat) a v)%N -> vtyped (cn_types (r_net r)) (cp_type c0) v).
    { intros LA. apply (type_of (r_net r) x (cp_type pl) (snd o) (cp_type c0) v T V TX (P p pl EP a v EA LA) E2). intros b EB. rewrite (OUTS o I), EB, veqb_refl. lia. }
    destruct (cp_init c0) as [y|] eqn:EY; [|exact (KA L)]. cbn in L. destruct (N.eq_dec (mval (cn_types (r_net r)) (cn_vars (r_net r)) (fun _ => VE 0%nat) a v) 0) as [Z|Z]; [apply (P q c0 E0 y v EY); lia|apply KA; lia]. }
  assert (C8 : forall q v n1, q <> p -> cn_types n1 = cn_types (r_net r) -> cn_vars n1 = cn_vars (r_net r) -> nth_error (cn_pls n1) q = nth_error pls q -> cinit n1 q v = (cinit (r_net r) q v + if outb tr q then cinit (r_net r) p v else 0)%N).
  { intros q v n1 NE E1 E2 E3. unfold cinit. rewrite E1, E2, E3, NP, EP, EA. destruct (nth_error (cn_pls (r_net r)) q) as [c|] eqn:E0.
    - destruct (outb tr q); [|lia]. cbn [add_init cp_init]. destruct (cp_init c); cbn; lia.
    - destruct (outb tr q) eqn:EO; [|reflexivity]. apply OP in EO. apply in_map_iff in EO. destruct EO as (o & EQ & I). rewrite Forall_forall in TO. destruct (TO o I) as (pl' & X1 & _). congruence. }
  destruct (producers (r_net r) p) as [|u0 us] eqn:EPR.
  - apply bindR in H. destruct H as (t' & ECL & H). apply CL in ECL. subst t'. injection H as <- _.
    assert (NOPRE : forall u tru, nth_error (cn_trs (r_net r)) u = Some tru -> ~ In p (map fst (ct_out tru))) by (intros u tru EU K; pose proof (pro_in _ _ _ _ EU K) as Z; rewrite EPR in Z; exact Z).
    split; [|apply wf_place; [apply wf_places; auto|intros u tru EU NE; split; [exact (ONLY u tru EU NE)|exact (NOPRE u tru EU)]]].
    eapply (move_same used_t used_p r _ p t x (cp_type pl) tr true); eauto; try discriminate.
    + intros q. unfold ptype. cbn [skip_transition skip_place with_places r_net cn_pls]. specialize (RT q). destruct (nth_error (cn_pls (r_net r)) q), (nth_error pls q); auto; contradiction.
    + intros u NE. cbn [skip_transition r_net cn_trs]. rewrite nth_error_upd_neq by auto. rewrite place_nth. cbn [with_places r_net cn_trs]. destruct (nth_error (cn_trs (r_net r)) u) as [tru|] eqn:EU; [|reflexivity].
      unfold drop_tr. rewrite !drop_id by eauto. destruct tru; reflexivity.
    + intros z. cbn [skip_transition skip_place with_places r_net cn_inh]. rewrite !filter_all; [reflexivity| |].
      * intros [[q u] w] I. destruct (INH q u w I) as (_ & K & _). cbn [fst]. destruct (Nat.eqb_spec q p); [contradiction|reflexivity].
      * intros [[q u] w] I. apply filter_In in I. destruct (INH q u w (proj1 I)) as (K & _). cbn [fst snd]. destruct (Nat.eqb_spec u t); [contradiction|reflexivity].
    + intros u. cbn [skip_transition skip_place with_places r_trs In]. split; [intros [K|K]; auto|intros [K|[_ K]]; auto].
  - injection H as <- _.
    assert (LP : p < length pls) by (unfold pls; rewrite give_length; apply (nth_error_lt _ _ EP)).
    assert (RT' : retyped (cn_pls (r_net r)) (upd pls p (mkCP (cp_type pl) None))). { intros q. destruct (Nat.eq_dec q p) as [->|NE]; [rewrite nth_error_upd_eq, EP by exact LP; reflexivity|]. rewrite nth_error_upd_neq by auto. apply RT. }
    split; [|apply wf_places; [exact W|exact RT'|]].
    + eapply (move_same used_t used_p r _ p t x (cp_type pl) tr false); eauto; try discriminate.
      * intros q. unfold ptype. cbn [with_places r_net cn_pls]. specialize (RT' q). destruct (nth_error (cn_pls (r_net r)) q), (nth_error (upd pls p (mkCP (cp_type pl) None)) q); auto; contradiction.
      * intros z. reflexivity.
      * intros u. cbn [with_places r_trs]. split; [auto|intros [K|[K _]]; [exact K|discriminate K]].
      * intros q v NE. apply C8; auto. cbn [with_places r_net cn_pls]. apply nth_error_upd_neq. auto.
      * intros _ v. unfold cinit. cbn [with_places r_net cn_pls]. rewrite nth_error_upd_eq by exact LP. reflexivity.
    + intros q c E. destruct (Nat.eq_dec q p) as [->|NE]; [rewrite nth_error_upd_eq in E by exact LP; injection E as <-; intros y v Y; discriminate Y|]. rewrite nth_error_upd_neq in E by auto. exact (IO q c E).
Qed.
Lemma fire_places_same : forall ps r fired r' fired', fire_places used_t used_p same timeout cleared r fired ps = Ok (r', fired') -> wf r -> same_answers used_t used_p r r'.
Proof.
  induction ps as [|p ps IH]; intros r fired r' fired' H W; cbn [fire_places] in H; [injection H as <- _; apply answers_refl|].
  destruct (timeout p); [injection H as <- _; apply answers_refl|]. apply bindR in H. destruct H as ([r1 f1] & E & H). destruct (fire_place_same _ _ _ _ _ E W) as [A W1]. exact (answers_trans _ _ _ _ _ A (IH _ _ _ _ H W1)).
Qed.
End Rule.

Theorem preemptive_same : forall used_t used_p same timeout cleared n fired r' fired', (forall t u, cleared t = Ok u -> u = t) ->
  cpn_ok n -> arcs_once n -> same_ok n same -> moves_any used_t used_p n -> preemptive used_t used_p same timeout cleared (mkR n [] []) fired = Ok (r', fired') ->
  same_answers used_t used_p (mkR n [] []) r'.
Proof. intros ut up same tmo cl n f r' f' CL OK ON SA MA H. exact (fire_places_same ut up same tmo cl CL _ _ _ _ _ H (wf_of ut up same n OK ON SA MA)). Qed.
