(** Proofs about the removal of dead transitions from coloured nets: the rule (C46). *)
From Verif Require Import Base BaseLemmas BuilderModel BuilderSpec CtlFrag ColSyntax ColSpec ColModel ColRadix ColEval ColGen ColUnfold ColRedModel ColRedSpec ColRedProofs.

Lemma same_of_steps : forall r r', (forall p v, cinit (r_net r) p v = cinit (r_net r') p v) ->
  (forall M, rreach r M -> forall t M', rstep r M t M' <-> rstep r' M t M') -> same_runs r r'.
Proof.
  intros r r' I S. split; auto. intros M. split; intros R.
  - induction R as [M E|M t M' R IH H]; [apply reach_init; intros p v; rewrite <- I; apply E|]. eapply reach_step; [exact IH|apply (S M R); exact H].
  - induction R as [M E|M t M' R IH H]; [apply reach_init; intros p v; rewrite I; apply E|]. eapply reach_step; [exact IH|apply (S M IH); exact H].
Qed.
Lemma same_refl : forall r, same_runs r r.
Proof. intros r. split; tauto. Qed.
Lemma same_trans : forall a b c, same_runs a b -> same_runs b c -> same_runs a c.
Proof.
  intros a b c [A1 A2] [B1 B2]. split.
  - intros M. rewrite A1. apply B1.
  - intros M R t M'. rewrite (A2 M R). apply B2. apply A1. exact R.
Qed.
Definition dead (r : rnet) (t : nat) : Prop := forall M M', rreach r M -> ~ rstep r M t M'.
Lemma dead_same : forall r r' t, same_runs r r' -> dead r t -> dead r' t.
Proof. intros r r' t [A B] D M M' R S. apply A in R. apply (D M M' R). apply B; auto. Qed.

Section Rule.
Variable used_t used_p : nat -> bool.
Variable same subset : aexp -> aexp -> bool.
Variable vs : nat -> list nat.
Variable timeout : nat -> bool.
Definition good (n : cpn) : Prop := cpn_ok n /\ arcs_once n /\ vars_ok n vs /\ same_ok n same /\ puts_back n used_p.

Lemma skip_nth : forall r t u tr, nth_error (cn_trs (r_net (skip_transition r t))) u = Some tr ->
  (u <> t /\ nth_error (cn_trs (r_net r)) u = Some tr) \/ (u = t /\ exists tr0, nth_error (cn_trs (r_net r)) t = Some tr0 /\ tr = clear_tr tr0).
Proof.
  intros r t u tr H. cbn [skip_transition r_net cn_trs] in H. destruct (Nat.eq_dec u t) as [->|E].
  - right. split; auto. pose proof (nth_error_lt _ _ H) as L. rewrite upd_length in L. destruct (nth_error (cn_trs (r_net r)) t) as [tr0|] eqn:E0; [|apply nth_error_None in E0; lia].
    exists tr0. split; auto. rewrite nth_error_upd_eq in H by exact L. injection H as <-. f_equal. apply nth_error_nth. exact E0.
  - left. split; auto. rewrite nth_error_upd_neq in H by auto. exact H.
Qed.
Lemma skip_cstep : forall r t u M M', u <> t -> (cstep (r_net (skip_transition r t)) M u M' <-> cstep (r_net r) M u M').
Proof.
  intros r t u M M' NE. unfold cstep. cbn [skip_transition r_net cn_trs]. rewrite nth_error_upd_neq by auto.
  assert (K : forall tr b, cenabled (mkCpn (cn_types (r_net r)) (cn_map (r_net r)) (cn_vars (r_net r)) (cn_pls (r_net r)) (upd (cn_trs (r_net r)) t (clear_tr (tr_of (r_net r) t)))
    (filter (fun x => negb (Nat.eqb (snd (fst x)) t)) (cn_inh (r_net r)))) M u tr b <-> cenabled (r_net r) M u tr b).
  { intros tr b. unfold cenabled. cbn [cn_inh]. split; intros (B1 & B2 & B3 & B4); (split; [exact B1|]); (split; [exact B2|]); (split; [exact B3|]); intros p w I.
    - apply (B4 p w). apply filter_In. split; auto. cbn [fst snd]. destruct (Nat.eqb_spec u t); auto.
    - apply filter_In in I. apply (B4 p w (proj1 I)). }
  split; intros (tr & b & E & C & F); exists tr, b; (split; [exact E|]); (split; [apply K; exact C|exact F]).
Qed.
Lemma skip_same : forall r t, dead r t -> same_runs r (skip_transition r t).
Proof.
  intros r t D. apply same_of_steps; [reflexivity|]. intros M R u M'. unfold rstep. cbn [skip_transition r_trs]. destruct (Nat.eq_dec u t) as [->|E].
  - split; intros H; exfalso; [apply (D M M' R H)|apply (proj1 H); left; reflexivity].
  - rewrite (skip_cstep r t u M M' E). split; intros [H1 H2]; split; auto; [intros [K|K]; [congruence|auto]|intros K; apply H1; right; exact K].
Qed.
Lemma skip_good : forall r t, good (r_net r) -> good (r_net (skip_transition r t)).
Proof.
  intros r t ((T & TV & P & TR & IH) & ON & VS & SA & PB). split; [|split; [|split; [|split]]].
  - split; [exact T|]. split; [exact TV|]. split; [exact P|]. split.
    + intros u tr H. apply skip_nth in H. destruct H as [[_ H]|[-> (tr0 & H & ->)]]; [exact (TR _ _ H)|]. destruct (TR _ _ H) as [G _]. cbn [clear_tr ct_guard ct_in ct_out]. split; [exact G|]. split; constructor.
    + intros p u w I. cbn [skip_transition r_net cn_inh cn_pls cn_trs] in *. apply filter_In in I. rewrite upd_length. apply (IH p u w (proj1 I)).
  - intros u tr H. apply skip_nth in H. destruct H as [[_ H]|[-> (tr0 & H & ->)]]; [exact (ON _ _ H)|]. split; constructor.
  - intros u tr H. apply skip_nth in H. destruct H as [[_ H]|[-> (tr0 & H & ->)]]; [exact (VS _ _ H)|]. destruct (VS _ _ H) as [V1 V2]. split; [|exact V2].
    intros v I. apply V1. unfold tvars in *. cbn [clear_tr ct_guard ct_in ct_out flat_map] in I. rewrite app_nil_r in I. apply in_or_app. auto.
  - exact SA.
  - intros p. destruct (PB p) as [H|H]; auto. right. intros u tr E I. apply skip_nth in E. destruct E as [[_ E]|[-> (tr0 & E & ->)]]; [eapply H; eauto|destruct I].
Qed.

(** Transitions with arcs at the place *)
Definition touches (r : rnet) (p t : nat) : Prop := exists tr, nth_error (cn_trs (r_net r)) t = Some tr /\ (In p (map fst (ct_in tr)) \/ In p (map fst (ct_out tr))).
Lemma touches_skip : forall r p t u, touches (skip_transition r t) p u -> u <> t /\ touches r p u.
Proof.
  intros r p t u (tr & H & K). apply skip_nth in H. destruct H as [[E H]|[-> (tr0 & H & ->)]]; [split; auto; exists tr; auto|destruct K as [[]|[]]].
Qed.
Lemma skip_all_same : forall ne r sp r' sp', skip_all used_t r ne sp = (r', sp') -> good (r_net r) -> (forall t, In t ne -> dead r t) ->
  same_runs r r' /\ good (r_net r') /\ (forall t, In t (r_trs r') -> In t (r_trs r) \/ used_t t = false) /\ length (cn_pls (r_net r')) = length (cn_pls (r_net r)) /\
  (forall p, inhibiting (r_net r) p = false -> inhibiting (r_net r') p = false) /\
  (sp' = true -> sp = true /\ forall p u, touches r' p u -> touches r p u /\ ~ In u ne).
Proof.
  induction ne as [|t ne IH]; intros r sp r' sp' H G D; cbn [skip_all] in H.
  - injection H as <- <-. split; [apply same_refl|]. split; [exact G|]. split; [auto|]. split; [reflexivity|]. split; [auto|]. intros K. split; auto.
  - destruct (used_t t) eqn:U.
    + destruct (IH _ _ _ _ H G ltac:(intros u I; apply D; right; exact I)) as (I1 & I2 & I3 & I4 & I5 & I6). split; [exact I1|]. split; [exact I2|]. split; [exact I3|]. split; [exact I4|]. split; [exact I5|]. intros K. destruct (I6 K) as [K1 _]. discriminate K1.
    + pose proof (skip_same r t (D t (or_introl eq_refl))) as SS.
      destruct (IH _ _ _ _ H (skip_good r t G) ltac:(intros u I; eapply dead_same; [exact SS|apply D; right; exact I])) as (I1 & I2 & I3 & I4 & I5 & I6).
      split; [eapply same_trans; eauto|]. split; [exact I2|]. split.
      { intros u I. destruct (I3 u I) as [[<-|K]|K]; auto. }
      split; [exact I4|]. split.
      { intros p K. apply I5. unfold inhibiting in *. cbn [skip_transition r_net cn_inh]. destruct (existsb _ (filter _ _)) eqn:E; auto. apply existsb_exists in E. destruct E as (x & E1 & E2). apply filter_In in E1.
        rewrite <- K. symmetry. apply existsb_exists. exists x. split; [apply (proj1 E1)|exact E2]. }
      intros K. destruct (I6 K) as [K1 K2]. split; auto. intros p u TU. destruct (K2 p u TU) as [K3 K4]. apply touches_skip in K3. destruct K3 as [K3 K5]. split; auto. intros [->|J]; auto.
Qed.
Lemma drop_id : forall p l, ~ In p (map fst l) -> drop_arcs p l = l.
Proof.
  intros p l H. unfold drop_arcs. induction l as [|[q x] l IH]; auto. cbn [filter fst map] in *. destruct (Nat.eqb_spec q p) as [->|E]; [exfalso; apply H; left; reflexivity|]. cbn [negb]. f_equal. apply IH. intros K. apply H. right. exact K.
Qed.
Lemma skip_place_net : forall r p, (forall t, ~ touches r p t) -> inhibiting (r_net r) p = false -> r_net (skip_place r p) = r_net r.
Proof.
  intros [n st sp] p H I. cbn [skip_place r_net] in *. destruct n as [ta ma va pl tr ih]. cbn [cn_types cn_map cn_vars cn_pls cn_trs cn_inh] in *. f_equal.
  - rewrite <- (map_id tr) at 2. apply map_ext_in. intros x J. apply In_nth_error in J. destruct J as [t J].
    rewrite !drop_id; [destruct x; reflexivity| |]; intros K; apply (H t); exists x; cbn [r_net cn_trs]; auto.
  - unfold inhibiting in I. cbn [cn_inh] in I. clear H. induction ih as [|x ih IH]; auto. cbn [existsb filter] in *. apply Bool.orb_false_iff in I. destruct I as [I1 I2]. rewrite I1. cbn [negb]. f_equal. apply IH. exact I2.
Qed.
Lemma rstep_net : forall r r', r_net r = r_net r' -> r_trs r = r_trs r' -> same_runs r r'.
Proof.
  intros r r' E F. apply same_of_steps; [intros; rewrite E; reflexivity|]. intros M R t M'. unfold rstep. rewrite E, F. tauto.
Qed.
Lemma dead_place_same : forall r p r', dead_place used_t used_p same subset vs r p = Ok r' -> good (r_net r) -> p < length (cn_pls (r_net r)) ->
  same_runs r r' /\ good (r_net r') /\ (forall t, In t (r_trs r') -> In t (r_trs r) \/ used_t t = false) /\ length (cn_pls (r_net r')) = length (cn_pls (r_net r)).
Proof.
  intros r p r' H G L. set (n := r_net r) in *.
  assert (TRIV : Ok r = Ok r' -> same_runs r r' /\ good (r_net r') /\ (forall t, In t (r_trs r') -> In t (r_trs r) \/ used_t t = false) /\ length (cn_pls (r_net r')) = length (cn_pls n)).
  { intros K. injection K as <-. split; [apply same_refl|]. split; [exact G|]. split; auto. }
  unfold dead_place in H. fold n in H. destruct (existsb _ (r_pls r)); auto. destruct (inhibiting n p) eqn:INH; auto. destruct (_ <? _); auto.
  destruct (forallb _ (producers n p)) eqn:PR; cbn [negb] in H; auto. apply bindR in H. destruct H as (mk & HM & H).
  destruct (nth_error (cn_pls n) p) as [pl|] eqn:HP; [|discriminate HM]. apply bindR in H. destruct H as ([ok ne] & HT & H).
  destruct ok; cbn [negb orb] in H; auto. destruct ne as [|t0 ne0] eqn:EN; auto. rewrite <- EN in *. clear EN t0 ne0.
  assert (PC : forall t, In t (producers n p) -> In t (consumers n p)).
  { intros t I. rewrite forallb_forall in PR. specialize (PR t I). unfold consumers. apply filter_In. split; [|exact PR]. apply filter_In in I. tauto. }
  destruct G as (OK & ON & VS & SA & PB).
  assert (D : forall t, In t ne -> dead r t).
  { intros t I M M' R [_ S]. assert (RR : r = mkR n (r_trs r) (r_pls r)) by (unfold n; destruct r; reflexivity). rewrite RR in R.
    apply (proj2 (dead_right n OK ON vs VS same subset SA (r_trs r) (r_pls r) p pl mk ne true HP HM PC HT M R) t M' I). exact S. }
  destruct (skip_all used_t r ne _) as [r1 sp] eqn:SA1. destruct (skip_all_same _ _ _ _ _ SA1 (conj OK (conj ON (conj VS (conj SA PB)))) D) as (S1 & S2 & S3 & S4 & S5 & S6).
  destruct sp; injection H as <-; [|split; [exact S1|]; split; [exact S2|]; split; [exact S3|exact S4]].
  destruct (S6 eq_refl) as [K1 K2]. apply andb_prop in K1. destruct K1 as [K1 K3]. apply Nat.eqb_eq in K1. apply Bool.negb_true_iff in K3.
  destruct (PB p) as [PB1|PB1]; [congruence|].
  assert (CP : consumers n p = producers n p).
  { unfold consumers, producers. apply filter_ext_in. intros t I. apply in_seq in I. pose proof (tr_of_in n t ltac:(lia)) as ET.
    destruct (find_arc p (ct_in (tr_of n t))) eqn:F1; destruct (find_arc p (ct_out (tr_of n t))) eqn:F2; auto.
    - exfalso. apply find_arc_none in F2. apply F2. apply (PB1 t _ ET). apply find_arc_in in F1. apply in_map_iff. eexists. split; [|exact F1]. reflexivity.
    - exfalso. assert (J : In t (producers n p)) by (apply filter_In; split; [apply in_seq; lia|rewrite F2; reflexivity]). apply PC in J. apply filter_In in J. rewrite F1 in J. destruct J as [_ J]. discriminate J. }
  destruct (tally_mono n vs same subset p mk _ _ _ _ _ HT) as (_ & _ & _ & TA & _). cbn [length Nat.add app] in TA.
  assert (NE : ne = consumers n p) by (apply TA; rewrite K1, CP; reflexivity).
  assert (NT : forall t, ~ touches r1 p t).
  { intros t TT. destruct (K2 p t TT) as [(tr & ET & TI) NI]. apply NI. rewrite NE. fold n in ET. pose proof (nth_error_lt _ _ ET) as LT.
    assert (IP : In p (map fst (ct_in tr)) -> In t (consumers n p)).
    { intros J. apply filter_In. split; [apply in_seq; lia|]. rewrite (tr_of_some n _ _ ET). destruct (find_arc p (ct_in tr)) eqn:F; auto. apply find_arc_none in F. contradiction. }
    destruct TI as [TI|TI]; [auto|]. apply PC. apply filter_In. split; [apply in_seq; lia|]. rewrite (tr_of_some n _ _ ET). destruct (find_arc p (ct_out tr)) eqn:F; auto. apply find_arc_none in F. contradiction. }
  pose proof (skip_place_net r1 p NT (S5 p INH)) as EN. split; [eapply same_trans; [exact S1|apply rstep_net; [symmetry; exact EN|reflexivity]]|]. rewrite EN. split; [exact S2|]. split; [exact S3|exact S4].
Qed.
Lemma dead_places_same : forall ps r r', dead_places used_t used_p same subset vs timeout r ps = Ok r' -> good (r_net r) -> (forall p, In p ps -> p < length (cn_pls (r_net r))) ->
  same_runs r r' /\ (forall t, In t (r_trs r') -> In t (r_trs r) \/ used_t t = false).
Proof.
  induction ps as [|p ps IH]; intros r r' H G L; cbn [dead_places] in H; [injection H as <-; split; [apply same_refl|auto]|].
  destruct (timeout p); [injection H as <-; split; [apply same_refl|auto]|]. apply bindR in H. destruct H as (r1 & H1 & H2).
  destruct (dead_place_same _ _ _ H1 G (L p (or_introl eq_refl))) as (A1 & A2 & A3 & A4). destruct (IH _ _ H2 A2) as (B1 & B2); [intros q I; rewrite A4; apply L; right; exact I|].
  split; [eapply same_trans; eauto|]. intros t I. destruct (B2 t I); auto.
Qed.
End Rule.
Theorem dead_transitions_same : forall used_t used_p same subset vs timeout n st sp r',
  cpn_ok n -> arcs_once n -> vars_ok n vs -> same_ok n same -> puts_back n used_p ->
  dead_transitions used_t used_p same subset vs timeout (mkR n st sp) = Ok r' ->
  same_runs (mkR n st sp) r' /\ forall t, In t (r_trs r') -> In t st \/ used_t t = false.
Proof.
  intros used_t used_p same subset vs timeout n st sp r' OK ON VS SA PB H. unfold dead_transitions in H. eapply dead_places_same in H; [exact H|exact (conj OK (conj ON (conj VS (conj SA PB))))|].
  intros p I. apply in_seq in I. cbn [r_net] in *. lia.
Qed.
