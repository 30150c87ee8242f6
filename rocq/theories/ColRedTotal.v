(** The removal of dead transitions from any coloured net: it ends, keeps what the query is
    about, and loses no run (C46). *)
From Verif Require Import Base BaseLemmas BuilderModel BuilderSpec CtlFrag ColSyntax ColSpec ColModel ColRadix ColEval ColGen ColUnfold ColRedModel ColRedSpec ColRedProofs ColRedMain.

Lemma run_reach : forall r ts M, rrun r ts M -> rreach r M.
Proof. intros r ts M H. induction H; [apply reach_init; auto|eapply reach_step; eauto]. Qed.
Lemma run_same : forall r r' ts M, same_runs r r' -> (forall p v, cinit (r_net r) p v = cinit (r_net r') p v) -> rrun r ts M -> rrun r' ts M.
Proof.
  intros r r' ts M [_ S] E H. induction H as [M K|ts M t M' R IH K]; [apply run_init; intros; rewrite K; apply E|]. eapply run_step; [exact IH|]. apply (S M (run_reach _ _ _ R)). exact K.
Qed.

Section Rule.
Variable used_t used_p : nat -> bool.
Variable same subset : aexp -> aexp -> bool.
Variable vs : nat -> list nat.
Variable timeout : nat -> bool.
Notation fine := (good (fun _ => true) same vs).

Lemma fine_of : forall n, cpn_ok n -> arcs_once n -> vars_ok n vs -> same_ok n same -> fine n.
Proof. intros n A B C D. exact (conj A (conj B (conj C (conj D (fun p => or_introl eq_refl))))). Qed.
Lemma drop_in : forall p l x, In x (drop_arcs p l) <-> In x l /\ fst x <> p.
Proof. intros p l x. unfold drop_arcs. rewrite filter_In. destruct (Nat.eqb_spec (fst x) p); cbn [negb]; split; intros [? ?]; split; auto; try discriminate; contradiction. Qed.
Lemma drop_once : forall p l, one_arc l -> one_arc (drop_arcs p l).
Proof.
  unfold one_arc, drop_arcs. intros p. induction l as [|x l IH]; intros H; [constructor|]. cbn [filter map] in *. inversion H as [|? ? N1 N2]; subst. destruct (negb _); auto. cbn [map]. constructor; auto.
  intros K. apply N1. apply in_map_iff in K. destruct K as (y & E & I). apply filter_In in I. apply in_map_iff. exists y. tauto.
Qed.
Definition drop_tr (p : nat) (tr : ctrans) : ctrans := mkCT (ct_guard tr) (drop_arcs p (ct_in tr)) (drop_arcs p (ct_out tr)) (ct_player tr).
Lemma place_nth : forall r p t, nth_error (cn_trs (r_net (skip_place r p))) t = match nth_error (cn_trs (r_net r)) t with Some tr => Some (drop_tr p tr) | None => None end.
Proof. intros r p t. cbn [skip_place r_net cn_trs]. rewrite nth_error_map. reflexivity. Qed.
Lemma place_fine : forall r p, fine (r_net r) -> fine (r_net (skip_place r p)).
Proof.
  intros r p ((T & TV & P & TR & IH) & ON & VS & SA & _). apply fine_of.
  - split; [exact T|]. split; [exact TV|]. split; [exact P|]. split.
    + intros t tr H. rewrite place_nth in H. destruct (nth_error (cn_trs (r_net r)) t) as [tr0|] eqn:E; [|discriminate H]. injection H as <-. destruct (TR _ _ E) as (G & A & B). split; [exact G|].
      rewrite Forall_forall in A, B. split; apply Forall_forall; intros x I; cbn [drop_tr ct_in ct_out] in I; apply drop_in in I; [apply A|apply B]; tauto.
    + intros q t w I. cbn [skip_place r_net cn_inh cn_pls cn_trs] in *. apply filter_In in I. rewrite map_length. apply (IH q t w (proj1 I)).
  - intros t tr H. rewrite place_nth in H. destruct (nth_error (cn_trs (r_net r)) t) as [tr0|] eqn:E; [|discriminate H]. injection H as <-. destruct (ON _ _ E). split; apply drop_once; auto.
  - intros t tr H. rewrite place_nth in H. destruct (nth_error (cn_trs (r_net r)) t) as [tr0|] eqn:E; [|discriminate H]. injection H as <-. destruct (VS _ _ E) as [V1 V2]. split; [|exact V2].
    intros v I. apply V1. unfold tvars in *. cbn [drop_tr ct_guard ct_in ct_out] in I. rewrite !in_app_iff, !in_flat_map in *.
    destruct I as [I|[(x & I & J)|(x & I & J)]]; [auto| |]; apply drop_in in I; right; [left|right]; exists x; tauto.
  - exact SA.
Qed.
Lemma drop_moved : forall n b p l q v, moved n b (drop_arcs p l) q v = if Nat.eqb q p then 0%N else moved n b l q v.
Proof.
  intros n b p l q v. unfold moved, drop_arcs. induction l as [|[x a] l IH]; cbn [filter map fst snd]; [destruct (Nat.eqb q p); reflexivity|].
  change (sumN ((if Nat.eqb x q then mval (cn_types n) (cn_vars n) b a v else 0%N) :: map (fun x => if Nat.eqb (fst x) q then mval (cn_types n) (cn_vars n) b (snd x) v else 0%N) l))
    with ((if Nat.eqb x q then mval (cn_types n) (cn_vars n) b a v else 0%N) + sumN (map (fun x => if Nat.eqb (fst x) q then mval (cn_types n) (cn_vars n) b (snd x) v else 0%N) l))%N.
  destruct (Nat.eqb_spec x p) as [->|E]; cbn [negb].
  - rewrite IH. destruct (Nat.eqb_spec q p) as [->|F]; [reflexivity|]. destruct (Nat.eqb_spec p q) as [->|]; [contradiction|]. lia.
  - cbn [map fst snd sumN]. rewrite IH. destruct (Nat.eqb_spec q p) as [->|F]; [|reflexivity]. destruct (Nat.eqb_spec x p) as [->|]; [contradiction|]. lia.
Qed.
Lemma place_covers : forall r p ts M, rrun r ts M -> exists M', rrun (skip_place r p) ts M' /\ forall q v, q <> p -> M' q v = M q v.
Proof.
  intros r p ts M H. induction H as [M K|ts M t M1 R (N & R1 & A) [NI (tr & b & ET & (B1 & B2 & B3 & B4) & F)]].
  - exists M. split; [apply run_init; exact K|auto].
  - exists (fun q v => if Nat.eqb q p then N q v else M1 q v). split; [|intros q v E; destruct (Nat.eqb_spec q p); [contradiction|reflexivity]].
    eapply run_step; [exact R1|]. split; [exact NI|]. exists (drop_tr p tr), b. split; [rewrite place_nth, ET; reflexivity|]. split; [split; [exact B1|split; [exact B2|split]]|].
    + intros q v. change (moved (r_net (skip_place r p)) b) with (moved (r_net r) b). cbn [drop_tr ct_in]. rewrite drop_moved. destruct (Nat.eqb_spec q p) as [->|E]; [lia|]. rewrite A by exact E. apply B3.
    + intros q w I. cbn [skip_place r_net cn_inh] in I. apply filter_In in I. destruct I as [I1 I2]. cbn [fst] in I2. destruct (Nat.eqb_spec q p) as [->|E]; [discriminate I2|].
      specialize (B4 q w I1). unfold total in *. change (ptype (r_net (skip_place r p)) q) with (ptype (r_net r) q). change (cn_types (r_net (skip_place r p))) with (cn_types (r_net r)).
      erewrite sum_ext; [exact B4|]. intros v _. apply A. exact E.
    + intros q v. change (moved (r_net (skip_place r p)) b) with (moved (r_net r) b). cbn [drop_tr ct_in ct_out]. rewrite !drop_moved. destruct (Nat.eqb_spec q p) as [->|E]; [lia|]. rewrite A by exact E. apply F.
Qed.
Lemma covers_trans : forall a b c, covers a b -> covers b c -> incl (r_pls b) (r_pls c) -> covers a c.
Proof.
  intros a b c H K I ts M R. destruct (H ts M R) as (M1 & R1 & E1). destruct (K ts M1 R1) as (M2 & R2 & E2). exists M2. split; [exact R2|]. intros p v N. rewrite E2 by exact N. apply E1. intros J. apply N. apply I. exact J.
Qed.

Lemma skip_all_pls : forall ne r sp r' sp', skip_all used_t r ne sp = (r', sp') -> r_pls r' = r_pls r /\ (forall p v, cinit (r_net r) p v = cinit (r_net r') p v) /\
  (forall t, In t (r_trs r') -> In t (r_trs r) \/ used_t t = false) /\ (sp' = true -> sp = true).
Proof.
  induction ne as [|t ne IH]; intros r sp r' sp' H; cbn [skip_all] in H; [injection H as <- <-; auto|]. destruct (used_t t) eqn:U.
  - destruct (IH _ _ _ _ H) as (A & B & C & D). split; [exact A|]. split; [exact B|]. split; [exact C|]. intros K. specialize (D K). discriminate D.
  - destruct (IH _ _ _ _ H) as (A & B & C & D). split; [exact A|]. split; [exact B|]. split; [|exact D]. intros u I. destruct (C u I) as [[<-|K]|K]; auto.
Qed.
Lemma dead_place_kept : forall r p r', dead_place used_t used_p same subset vs r p = Ok r' ->
  (forall t, In t (r_trs r') -> In t (r_trs r) \/ used_t t = false) /\ (forall q, In q (r_pls r') -> In q (r_pls r) \/ used_p q = false).
Proof.
  intros r p r' H. assert (TRIV : Ok r = Ok r' -> (forall t, In t (r_trs r') -> In t (r_trs r) \/ used_t t = false) /\ (forall q, In q (r_pls r') -> In q (r_pls r) \/ used_p q = false)) by (intros K; injection K as <-; auto).
  unfold dead_place in H. destruct (existsb _ (r_pls r)); auto. destruct (inhibiting _ p); auto. destruct (_ <? _); auto. destruct (negb (forallb _ _)); auto.
  apply bindR in H. destruct H as (mk & _ & H). apply bindR in H. destruct H as ([ok ne] & _ & H). destruct (negb ok || _); auto.
  destruct (skip_all used_t r ne _) as [r1 sp] eqn:S. destruct (skip_all_pls _ _ _ _ _ S) as (A & _ & C & D). injection H as <-. destruct sp.
  - cbn [skip_place r_trs r_pls]. split; [exact C|]. intros q [<-|I]; [|rewrite A in I; auto]. right. specialize (D eq_refl). apply andb_prop in D. apply Bool.negb_true_iff. apply D.
  - split; [exact C|]. rewrite A. auto.
Qed.
Lemma dead_places_kept : forall ps r r', dead_places used_t used_p same subset vs timeout r ps = Ok r' ->
  (forall t, In t (r_trs r') -> In t (r_trs r) \/ used_t t = false) /\ (forall q, In q (r_pls r') -> In q (r_pls r) \/ used_p q = false).
Proof.
  induction ps as [|p ps IH]; intros r r' H; cbn [dead_places] in H; [injection H as <-; auto|]. destruct (timeout p); [injection H as <-; auto|]. apply bindR in H. destruct H as (r1 & H1 & H2).
  destruct (dead_place_kept _ _ _ H1) as [A B]. destruct (IH _ _ H2) as [C D]. split; [intros t I; destruct (C t I); auto|intros t I; destruct (D t I); auto].
Qed.

(** ** No run is lost *)
Lemma dead_place_covers : forall r p r', dead_place used_t used_p same subset vs r p = Ok r' -> fine (r_net r) -> p < length (cn_pls (r_net r)) ->
  covers r r' /\ fine (r_net r') /\ incl (r_pls r) (r_pls r') /\ length (cn_pls (r_net r')) = length (cn_pls (r_net r)).
Proof.
  intros r p r' H G L. set (n := r_net r) in *.
  assert (TRIV : Ok r = Ok r' -> covers r r' /\ fine (r_net r') /\ incl (r_pls r) (r_pls r') /\ length (cn_pls (r_net r')) = length (cn_pls n)).
  { intros K. injection K as <-. split; [intros ts M R; exists M; auto|]. split; [exact G|]. split; [apply incl_refl|reflexivity]. }
  unfold dead_place in H. fold n in H. destruct (existsb _ (r_pls r)); auto. destruct (inhibiting n p) eqn:INH; auto. destruct (_ <? _); auto.
  destruct (forallb _ (producers n p)) eqn:PR; cbn [negb] in H; auto. apply bindR in H. destruct H as (mk & HM & H).
  destruct (nth_error (cn_pls n) p) as [pl|] eqn:HP; [|discriminate HM]. apply bindR in H. destruct H as ([ok ne] & HT & H).
  destruct ok; cbn [negb orb] in H; auto. destruct ne as [|t0 ne0] eqn:EN; auto. rewrite <- EN in *. clear EN t0 ne0.
  assert (PC : forall t, In t (producers n p) -> In t (consumers n p)).
  { intros t I. rewrite forallb_forall in PR. specialize (PR t I). unfold consumers. apply filter_In. split; [|exact PR]. apply filter_In in I. tauto. }
  pose proof G as (OK & ON & VS & SA & _).
  assert (D : forall t, In t ne -> dead r t).
  { intros t I M M' R [_ S]. assert (RR : r = mkR n (r_trs r) (r_pls r)) by (unfold n; destruct r; reflexivity). rewrite RR in R.
    apply (proj2 (dead_right n OK ON vs VS same subset SA (r_trs r) (r_pls r) p pl mk ne true HP HM PC HT M R) t M' I). exact S. }
  destruct (skip_all used_t r ne _) as [r1 sp] eqn:SA1. destruct (skip_all_same _ (fun _ => true) same vs _ _ _ _ _ SA1 G D) as (S1 & S2 & _ & S4 & _).
  destruct (skip_all_pls _ _ _ _ _ SA1) as (P1 & P2 & _).
  assert (C1 : covers r r1) by (intros ts M R; exists M; split; [eapply run_same; eauto|auto]).
  injection H as <-. destruct sp.
  - split; [|split; [apply place_fine; exact S2|split; [cbn [skip_place r_pls]; rewrite P1; intros x I; right; exact I|exact S4]]].
    eapply covers_trans; [exact C1| |cbn [skip_place r_pls]; intros x I; right; exact I].
    intros ts M R. destruct (place_covers r1 p ts M R) as (M' & R' & E). exists M'. split; [exact R'|]. intros q v N. apply E. intros ->. apply N. left. reflexivity.
  - split; [exact C1|]. split; [exact S2|]. split; [rewrite P1; apply incl_refl|exact S4].
Qed.
Lemma dead_places_covers : forall ps r r', dead_places used_t used_p same subset vs timeout r ps = Ok r' -> fine (r_net r) -> (forall p, In p ps -> p < length (cn_pls (r_net r))) ->
  covers r r' /\ incl (r_pls r) (r_pls r').
Proof.
  assert (TRIV : forall r r', Ok r = Ok r' -> covers r r' /\ incl (r_pls r) (r_pls r')) by (intros r r' K; injection K as <-; split; [intros ts M R; exists M; auto|apply incl_refl]).
  induction ps as [|p ps IH]; intros r r' H G L; cbn [dead_places] in H; auto. destruct (timeout p); auto. apply bindR in H. destruct H as (r1 & H1 & H2).
  destruct (dead_place_covers _ _ _ H1 G (L p (or_introl eq_refl))) as (A1 & A2 & A3 & A4). destruct (IH _ _ H2 A2) as (B1 & B2); [intros q I; rewrite A4; apply L; right; exact I|].
  split; [eapply covers_trans; eauto|eapply incl_tran; eauto].
Qed.

(** ** The rule ends without an error *)
Lemma enables_total : forall n t tr p pl i mk, fine n -> nth_error (cn_trs n) t = Some tr -> find_arc p (ct_in tr) = Some i -> nth_error (cn_pls n) p = Some pl -> marking n pl = Ok mk ->
  exists e, enables vs n i mk t = Ok e.
Proof.
  intros n t tr p pl i mk (OK & _ & VS & _) HT HI HP HM. pose proof OK as (T & TV & _ & TR & _). destruct (VS _ _ HT) as [V1 V2]. destruct (TR _ _ HT) as (G & AI & _).
  unfold enables. rewrite (tr_of_some n _ _ HT).
  assert (GI : forall g, ct_guard tr = Some g -> gtyped n g /\ incl (gvars g) (vs t)).
  { intros g K. split; [auto|]. intros v I. apply V1. unfold tvars. rewrite K. apply in_or_app. auto. }
  destruct (naive_bindings_ok n T TV (vs t) V2 (ct_guard tr) GI) as (bs & B1 & B2 & _). rewrite B1. cbn [bind].
  pose proof (find_arc_in _ _ _ HI) as IA. rewrite Forall_forall in AI. destruct (AI _ IA) as (pl' & P1 & P2 & P3). cbn [fst snd] in *. rewrite HP in P1. injection P1 as <-.
  destruct (marking_ok n OK p pl HP) as (mk' & K1 & K2 & _). rewrite HM in K1. injection K1 as <-. assert (PT : ptype n p = cp_type pl) by (unfold ptype; rewrite HP; reflexivity). rewrite PT in K2.
  clear B1. induction bs as [|bm bs IH]; [eexists; reflexivity|]. cbn [enables_loop]. destruct (B2 bm (or_introl eq_refl)) as (b & _ & R & _).
  assert (R' : brel n bm b (avars i)).
  { eapply brel_incl; [exact R|]. intros v K. apply V1. unfold tvars. apply in_or_app. right. apply in_or_app. left. apply in_flat_map. exists (p, i). auto. }
  destruct (evaluate_ok n T i (cp_type pl) bm b P2 R' P3) as (m & M1 & M2 & _). rewrite M1. cbn [bind]. destruct (msub_ok n _ m mk _ _ M2 K2) as (d & E & _). unfold sub_or_eq. rewrite E. cbn [bind].
  destruct (forallb _ (snd d)); [eexists; reflexivity|]. apply IH. intros x I. apply B2. right. exact I.
Qed.
Lemma tally_total : forall n p pl mk, fine n -> nth_error (cn_pls n) p = Some pl -> marking n pl = Ok mk -> forall cs ok ne, incl cs (consumers n p) -> exists x, tally same subset vs n p mk cs ok ne = Ok x.
Proof.
  intros n p pl mk G HP HM. induction cs as [|t cs IH]; intros ok ne I; [eexists; reflexivity|]. cbn [tally]. pose proof (I t (or_introl eq_refl)) as IT. apply filter_In in IT. destruct IT as [IT1 IT2]. apply in_seq in IT1.
  destruct (find_arc p (ct_in (tr_of n t))) as [i|] eqn:FI; [|discriminate IT2].
  assert (J : incl cs (consumers n p)) by (intros x K; apply I; right; exact K).
  destruct (_ && _); [eexists; reflexivity|]. destruct (_ <? _)%N; auto.
  destruct (enables_total n t _ p pl i mk G (tr_of_in n t ltac:(lia)) FI HP HM) as (e & E). rewrite E. cbn [bind]. destruct e; auto. destruct (find_arc p (ct_out _)); auto. destruct (_ || _); auto. eexists. reflexivity.
Qed.
Lemma dead_place_total : forall r p, fine (r_net r) -> p < length (cn_pls (r_net r)) -> exists r', dead_place used_t used_p same subset vs r p = Ok r'.
Proof.
  intros r p G L. unfold dead_place. destruct (existsb _ (r_pls r)); [eexists; reflexivity|]. destruct (inhibiting _ p); [eexists; reflexivity|]. destruct (_ <? _); [eexists; reflexivity|]. destruct (negb (forallb _ _)); [eexists; reflexivity|].
  destruct (nth_error (cn_pls (r_net r)) p) as [pl|] eqn:HP; [|apply nth_error_None in HP; lia]. destruct (marking_ok _ (proj1 G) p pl HP) as (mk & K & _). rewrite K. cbn [bind].
  destruct (tally_total _ p pl mk G HP K (consumers (r_net r) p) true [] (incl_refl _)) as ([ok ne] & E). rewrite E. cbn [bind]. destruct (negb ok || _); [eexists; reflexivity|]. destruct (skip_all _ _ _ _) as [r1 sp]. eexists. reflexivity.
Qed.
Lemma dead_places_total : forall ps r, fine (r_net r) -> (forall p, In p ps -> p < length (cn_pls (r_net r))) -> exists r', dead_places used_t used_p same subset vs timeout r ps = Ok r'.
Proof.
  induction ps as [|p ps IH]; intros r G L; cbn [dead_places]; [eexists; reflexivity|]. destruct (timeout p); [eexists; reflexivity|].
  destruct (dead_place_total r p G (L p (or_introl eq_refl))) as (r1 & H1). rewrite H1. cbn [bind]. destruct (dead_place_covers _ _ _ H1 G (L p (or_introl eq_refl))) as (A1 & A2 & A3 & A4).
  apply IH; [exact A2|]. intros q I. rewrite A4. apply L. right. exact I.
Qed.
End Rule.

Theorem dead_transitions_covers : forall used_t used_p same subset vs timeout n, cpn_ok n -> arcs_once n -> vars_ok n vs -> same_ok n same ->
  exists r', dead_transitions used_t used_p same subset vs timeout (mkR n [] []) = Ok r' /\ covers (mkR n [] []) r' /\
    (forall t, In t (r_trs r') -> used_t t = false) /\ (forall p, In p (r_pls r') -> used_p p = false).
Proof.
  intros used_t used_p same subset vs timeout n OK ON VS SA. pose proof (fine_of same vs n OK ON VS SA) as G.
  assert (L : forall p, In p (seq 0 (length (cn_pls n))) -> p < length (cn_pls n)) by (intros p I; apply in_seq in I; lia).
  destruct (dead_places_total used_t used_p same subset vs timeout _ (mkR n [] []) G L) as (r' & H). exists r'. split; [exact H|]. split; [apply (dead_places_covers _ _ _ _ _ _ _ _ _ H G L)|].
  destruct (dead_places_kept _ _ _ _ _ _ _ _ _ H) as [A B]. split; [intros t I; destruct (A t I) as [[]|]; auto|intros p I; destruct (B p I) as [[]|]; auto].
Qed.
