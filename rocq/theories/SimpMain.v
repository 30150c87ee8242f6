(** The whole simplifier: same meaning in every reachable marking. *)
From Verif Require Import Base BaseLemmas NetSpec PqlSyntax PqlSpec PqlModel PqlProofs PqlPush PushRules PushProofs NetModel LpSpec SimpSpec MemberModel MemberProofs LpModel LpProofs LpSat LpBase SimpModel SimpProofs SimpLeaf.
From Coq Require Import Classical_Prop.

Section Simp.
  Variable addr : lrow -> N.
  Hypothesis addr_inj : forall r s, addr r = addr s -> r = s.
  Variable clock : nat -> bool.
  Hypothesis clock_mono : forall n, clock n = true -> clock (S n) = true.
  Variables simplex intopt : nat -> lp -> glp_ret * glp_status.
  Hypothesis simplex_sound : sound_solver simplex.
  Hypothesis intopt_sound : sound_solver intopt.
  Variable net : cnet.
  Variable m0 : list N.
  Variable B : lp.
  Hypothesis HB : base_lp net m0 = Ok B.
  Hypothesis HBs : forall w m, run (to_pnet net) m0 w m -> solution B (occ w).
  Hypothesis L : layout net.
  Hypothesis Hm0 : length m0 = cn_places net.
  Hypothesis Hb0 : forall v, In v m0 -> (v < 2 ^ 31)%N.
  Variable k : bool.
  Notation pn := (to_pnet net).
  Notation RP := (RP net m0).
  Notation rok := (rok clock net m0 B k).
  Notation target := (target net).
  Notation sm := (simp addr clock simplex intopt net m0).
  Notation mspec neg c s := (mpost (sm neg c) s (fun r s' => s <= s' /\ rok s' (target neg c) r)).

  Lemma J_target : forall isor neg l pi, JQ isor (map (target neg) l) pi <-> target neg (if xorb isor neg then COr l else CAnd l) pi.
  Proof.
    intros isor neg l pi. unfold SimpProofs.target at 2. destruct isor, neg; cbn [xorb JQ]; rewrite ?holds_or, ?holds_and.
    - split.
      + intros (Q & Hi & H) A. apply in_map_iff in Hi. destruct Hi as (c & <- & Hc). apply H. auto.
      + intros H. apply NNPP. intros K. apply H. intros c Hc. apply NNPP. intros N. apply K. exists (target true c). split; [apply in_map; exact Hc|exact N].
    - split.
      + intros (Q & Hi & H). apply in_map_iff in Hi. destruct Hi as (c & <- & Hc). eauto.
      + intros (c & Hc & H). exists (target false c). split; [apply in_map; exact Hc|exact H].
    - split.
      + intros H (c & Hc & A). apply (H (target true c)); [apply in_map; exact Hc|exact A].
      + intros H Q Hi. apply in_map_iff in Hi. destruct Hi as (c & <- & Hc). intros A. apply H. eauto.
    - split.
      + intros H c Hc. apply (H (target false c)). apply in_map. exact Hc.
      + intros H Q Hi. apply in_map_iff in Hi. destruct Hi as (c & <- & Hc). apply H. exact Hc.
  Qed.
  Lemma log_ok : forall isor (neg : bool) l s, (forall c, In c l -> forall neg s, mspec neg c s) -> Forall (fun c => cls k c = true) l ->
    (forall c, cls k c = true -> cls k (CNot c) = true) ->
    mpost (mbind (timeout clock) (fun t => if t then mbind (lift (make_log isor l)) (fun f => ret (only (if neg then CNot f else f)))
             else mbind (ops_loop (sm neg) (xorb isor neg) l []) (simp_log addr clock simplex intopt net m0 (xorb isor neg)))) s
      (fun r s' => s <= s' /\ rok s' (target neg (if isor : bool then COr l else CAnd l)) r).
  Proof.
    intros isor neg l s IH Hc Cn. eapply mpost_bind; [apply tick_ok with (P := fun _ s' => s' = S s); reflexivity|]. intros t s' ->. destruct t.
    - destruct (@make_log_spec k isor l Hc) as (f & Ef & Cf & Hf). rewrite Ef. unfold mpost, mbind, lift, ret. cbn [bind post fst snd]. split; [lia|].
      apply only_ok; [destruct neg; auto|]. intros pi P. unfold SimpProofs.target. destruct neg; cbn [holds]; rewrite Hf; destruct isor; rewrite ?holds_or, ?holds_and; cbn [J]; tauto.
    - eapply mpost_bind; [apply ops_loop_ok with (neg := neg); [exact clock_mono|intros c Hi s'; apply IH; exact Hi|constructor]|]. intros o s1 (S1 & H).
      eapply mpost_impl; [eapply simp_log_ok with (Qs := map (target neg) l); try eassumption|].
      + destruct o as [rs|]; [|exact H]. destruct H as (H1 & H2). split; [exact H1|]. intros pi P. rewrite (H2 pi P). cbn [map]. destruct (xorb isor neg); cbn [op2 J JQ]; [|split; [intros (_ & K); exact K|intros K; split; [intros c []|exact K]]].
        split; [intros [(c & [] & _)|K]; exact K|auto].
      + intros r s' (S' & R). split; [lia|]. eapply rok_iff; [|exact R]. intros pi P. rewrite J_target. replace (xorb (xorb isor neg) neg) with isor by (destruct isor, neg; reflexivity). tauto.
  Qed.
  Lemma cls_not : forall c, cls k (CNot c) = cls k c. Proof. intros c. destruct k; reflexivity. Qed.
  Lemma at0 : forall pi rho, RP pi -> from pn pi rho -> forall i, RP (shift i rho).
  Proof. intros pi rho P F i. apply RP_shift. eapply RP_from; eassumption. Qed.

  (** ** Temporal operators on predicates *)
  Definition pEX (Q : path -> Prop) (pi : path) := exists rho, from pn pi rho /\ nstep pn (rho 0) (rho 1) /\ Q (shift 1 rho).
  Definition pAX (Q : path -> Prop) (pi : path) := forall rho, from pn pi rho -> nstep pn (rho 0) (rho 1) -> Q (shift 1 rho).
  Definition pEF (Q : path -> Prop) (pi : path) := exists rho, from pn pi rho /\ exists i, Q (shift i rho).
  Definition pAF (Q : path -> Prop) (pi : path) := forall rho, from pn pi rho -> exists i, Q (shift i rho).
  Definition pEG (Q : path -> Prop) (pi : path) := exists rho, from pn pi rho /\ forall i, Q (shift i rho).
  Definition pAG (Q : path -> Prop) (pi : path) := forall rho, from pn pi rho -> forall i, Q (shift i rho).
  Definition pF (Q : path -> Prop) (pi : path) := exists i, Q (shift i pi).
  Definition pG (Q : path -> Prop) (pi : path) := forall i, Q (shift i pi).
  Definition pX (Q : path -> Prop) (pi : path) := Q (shift 1 pi).
  Definition pext (p : (path -> Prop) -> path -> Prop) : Prop :=
    forall Q Q' : path -> Prop, (forall pi, RP pi -> (Q pi <-> Q' pi)) -> forall pi, RP pi -> (p Q pi <-> p Q' pi).
  Lemma pext_all : pext pEX /\ pext pAX /\ pext pEF /\ pext pAF /\ pext pEG /\ pext pAG /\ pext pF /\ pext pG /\ pext pX.
  Proof.
    assert (M : forall p : (path -> Prop) -> path -> Prop, (forall Q Q' : path -> Prop, (forall pi, RP pi -> Q pi -> Q' pi) -> forall pi, RP pi -> p Q pi -> p Q' pi) -> pext p).
    { intros p H Q Q' E pi P. split; apply H; try assumption; intros rho Hr; apply E; exact Hr. }
    repeat apply conj; apply M; clear M; intros Q Q' H pi P.
    - intros (rho & F & N & K). exists rho. split; [exact F|]. split; [exact N|]. apply H; [apply (at0 pi rho P F)|exact K].
    - intros K rho F N. apply H; [apply (at0 pi rho P F)|]. apply K; assumption.
    - intros (rho & F & i & K). exists rho. split; [exact F|]. exists i. apply H; [apply (at0 pi rho P F)|exact K].
    - intros K rho F. destruct (K rho F) as (i & Hi). exists i. apply H; [apply (at0 pi rho P F)|exact Hi].
    - intros (rho & F & K). exists rho. split; [exact F|]. intros i. apply H; [apply (at0 pi rho P F)|apply K].
    - intros K rho F i. apply H; [apply (at0 pi rho P F)|]. apply K; exact F.
    - intros (i & K). exists i. apply H; [apply RP_shift; exact P|exact K].
    - intros K i. apply H; [apply RP_shift; exact P|apply K].
    - intros K. apply H; [apply RP_shift; exact P|exact K].
  Qed.
  (** the operator of a predicate that holds everywhere, or nowhere *)
  Definition pconst (b : bool) (p : (path -> Prop) -> path -> Prop) : Prop := forall pi, RP pi -> (p (fun _ => b = true) pi <-> b = true).
  Lemma pconst_all : forall b, (pconst b pEF /\ pconst b pAF /\ pconst b pEG /\ pconst b pAG /\ pconst b pF /\ pconst b pG /\ pconst b pX) /\
    (forall pi, RP pi -> (pEX (fun _ => b = true) pi <-> b = true /\ ~ dead pn (pi 0))) /\ (forall pi, RP pi -> (pAX (fun _ => b = true) pi <-> b = true \/ dead pn (pi 0))).
  Proof.
    intros b. split; [split; [|split; [|split; [|split; [|split; [|split]]]]]; intros pi P|split; intros pi P].
    - split; [intros (rho & F & i & K); exact K|intros K; exists pi; split; [apply (from_self net m0); exact P|exists 0; exact K]].
    - split; [intros K; destruct (K pi (from_self net m0 pi P)) as (i & Hi); exact Hi|intros K rho F; exists 0; exact K].
    - split; [intros (rho & F & K); exact (K 0)|intros K; exists pi; split; [apply (from_self net m0); exact P|intros _; exact K]].
    - split; [intros K; exact (K pi (from_self net m0 pi P) 0)|intros K rho F i; exact K].
    - split; [intros (i & K); exact K|intros K; exists 0; exact K].
    - split; [intros K; exact (K 0)|intros K i; exact K].
    - split; intros K; exact K.
    - rewrite (dead_alt net m0 pi P). split.
      + intros (rho & F & N & K). split; [exact K|]. intros D. exact (D rho F N).
      + intros (K & D). apply NNPP. intros H. apply D. intros rho F N. apply H. exists rho. split; [exact F|]. split; [exact N|exact K].
    - rewrite (dead_alt net m0 pi P). split.
      + intros K. destruct b; [left; reflexivity|right]. intros rho F N. specialize (K rho F N). discriminate.
      + intros [K|D] rho F N; [exact K|exfalso; exact (D rho F N)].
  Qed.
  (** duals *)
  Lemma pdual_all : forall (Q : path -> Prop) pi,
    (pAX (fun rho => ~ Q rho) pi <-> ~ pEX Q pi) /\ (pEX (fun rho => ~ Q rho) pi <-> ~ pAX Q pi) /\
    (pAG (fun rho => ~ Q rho) pi <-> ~ pEF Q pi) /\ (pEF (fun rho => ~ Q rho) pi <-> ~ pAG Q pi) /\
    (pEG (fun rho => ~ Q rho) pi <-> ~ pAF Q pi) /\ (pAF (fun rho => ~ Q rho) pi <-> ~ pEG Q pi) /\
    (pG (fun rho => ~ Q rho) pi <-> ~ pF Q pi) /\ (pF (fun rho => ~ Q rho) pi <-> ~ pG Q pi).
  Proof.
    intros Q pi. repeat split.
    - intros A (rho & F & N & K). exact (A rho F N K).
    - intros A rho F N K. apply A. exists rho. auto.
    - intros (rho & F & N & K) A. exact (K (A rho F N)).
    - intros A. apply NNPP. intros D. apply A. intros rho F N. apply NNPP. intros K. apply D. exists rho. auto.
    - intros A (rho & F & i & K). exact (A rho F i K).
    - intros A rho F i K. apply A. exists rho. eauto.
    - intros (rho & F & i & K) A. exact (K (A rho F i)).
    - intros A. apply NNPP. intros D. apply A. intros rho F i. apply NNPP. intros K. apply D. exists rho. eauto.
    - intros (rho & F & K) A. destruct (A rho F) as (i & Hi). exact (K i Hi).
    - intros A. apply NNPP. intros D. apply A. intros rho F. apply NNPP. intros K. apply D. exists rho. split; [exact F|]. intros i Hi. apply K. eauto.
    - intros A (rho & F & K). destruct (A rho F) as (i & Hi). exact (Hi (K i)).
    - intros A rho F. apply NNPP. intros K. apply A. exists rho. split; [exact F|]. intros i. apply NNPP. intros Hi. apply K. eauto.
    - intros A (i & K). exact (A i K).
    - intros A i K. apply A. exists i. exact K.
    - intros (i & K) A. exact (K (A i)).
    - intros A. apply NNPP. intros D. apply A. intros i. apply NNPP. intros K. apply D. exists i. exact K.
  Qed.

  Lemma op_ok : forall (f : bool -> cond -> M retval) (neg : bool) c Q' t fl (op : cond -> cond) (p : (path -> Prop) -> path -> Prop) s,
    (forall s, mpost (f neg c) s (fun r s' => s <= s' /\ rok s' (target neg c) r)) ->
    cls k t = true -> cls k fl = true -> (forall c, cls k c = true -> cls k (op c) = true) ->
    pext p -> (forall c pi, holds pn pi (op c) <-> p (fun rho => holds pn rho c) pi) ->
    (forall pi, RP pi -> (p (fun _ => true = true) pi <-> holds pn pi t)) -> (forall pi, RP pi -> (p (fun _ => false = true) pi <-> holds pn pi fl)) ->
    (forall pi, RP pi -> (p (target neg c) pi <-> Q' pi)) ->
    mpost (mbind (f neg c) (quant addr clock simplex intopt net m0 t fl op)) s (fun r s' => s <= s' /\ rok s' Q' r).
  Proof.
    intros f neg c Q' t fl op p s F Ct Cf Co Ex Ho Ht Hf HQ. eapply mpost_bind; [apply F|]. intros r s1 (S1 & R).
    eapply mpost_impl; [eapply quant_ok with (Q := target neg c) (Q' := Q'); try eassumption|].
    - intros A pi P. rewrite <- (Ht pi P), <- (HQ pi P). apply Ex; [|exact P]. intros rho Hr. specialize (A rho Hr). split; [intros _; exact A|reflexivity].
    - intros A pi P. rewrite <- (Hf pi P), <- (HQ pi P). apply Ex; [|exact P]. intros rho Hr. specialize (A rho Hr). split; [discriminate|tauto].
    - intros d A pi P. rewrite Ho, <- (HQ pi P). apply Ex; assumption.
    - intros r' s' (S' & R'). split; [lia|exact R'].
  Qed.

  Lemma is_state : forall c, cls k c = true -> ltl c = false -> k = true.
  Proof. intros c H1 H2. destruct k; [reflexivity|]. unfold cls in H1. rewrite H2, andb_false_r in H1. discriminate. Qed.
  Lemma is_path : forall c, cls k c = true -> stf c = false -> k = false.
  Proof. intros c H1 H2. destruct k; [|reflexivity]. unfold cls in H1. rewrite H2, andb_false_r in H1. discriminate. Qed.
  Definition usem (st : bool) (ev : cond -> cond) (un : cond -> cond -> cond) : Prop := forall a b, (st = true -> stf b = true) ->
    ((forall pi, RP pi -> holds pn pi b) -> forall pi, RP pi -> holds pn pi (un a b)) /\
    ((forall pi, RP pi -> ~ holds pn pi b) -> forall pi, RP pi -> ~ holds pn pi (un a b)) /\
    (forall b', (forall pi, RP pi -> holds pn pi a) -> (forall pi, RP pi -> (holds pn pi b' <-> holds pn pi b)) -> forall pi, RP pi -> (holds pn pi (ev b') <-> holds pn pi (un a b))) /\
    ((forall pi, RP pi -> ~ holds pn pi a) -> forall pi, RP pi -> (holds pn pi (un a b) <-> holds pn pi b)) /\
    (forall a' b', (forall pi, RP pi -> (holds pn pi a' <-> holds pn pi a)) -> (forall pi, RP pi -> (holds pn pi b' <-> holds pn pi b)) ->
       forall pi, RP pi -> (holds pn pi (un a' b') <-> holds pn pi (un a b))).
  Lemma pU_facts : forall a b, let U b' a' rho := exists i, holds pn (shift i rho) b' /\ forall j, j < i -> holds pn (shift j rho) a' in forall rho, RP rho ->
    ((forall pi, RP pi -> holds pn pi b) -> U b a rho) /\
    ((forall pi, RP pi -> ~ holds pn pi b) -> ~ U b a rho) /\
    (forall b', (forall pi, RP pi -> holds pn pi a) -> (forall pi, RP pi -> (holds pn pi b' <-> holds pn pi b)) -> ((exists i, holds pn (shift i rho) b') <-> U b a rho)) /\
    ((forall pi, RP pi -> ~ holds pn pi a) -> (U b a rho <-> holds pn rho b)) /\
    (forall a' b', (forall pi, RP pi -> (holds pn pi a' <-> holds pn pi a)) -> (forall pi, RP pi -> (holds pn pi b' <-> holds pn pi b)) -> (U b' a' rho <-> U b a rho)).
  Proof.
    intros a b U rho P. unfold U. repeat split.
    - intros H. exists 0. split; [apply H; apply RP_shift; exact P|intros; lia].
    - intros H (i & K & _). apply (H _ (RP_shift net m0 i rho P) K).
    - intros (i & K). exists i. split; [apply H0; [apply RP_shift; exact P|exact K]|]. intros j _. apply H. apply RP_shift. exact P.
    - intros (i & K & _). exists i. apply H0; [apply RP_shift; exact P|exact K].
    - intros (i & K & A). destruct i as [|i]; [exact K|]. exfalso. apply (H (shift 0 rho)); [apply RP_shift; exact P|apply A; lia].
    - intros K. exists 0. split; [exact K|intros; lia].
    - intros (i & K & A). exists i. split; [apply H0; [apply RP_shift; exact P|exact K]|]. intros j Hj. apply H; [apply RP_shift; exact P|apply A; exact Hj].
    - intros (i & K & A). exists i. split; [apply H0; [apply RP_shift; exact P|exact K]|]. intros j Hj. apply H; [apply RP_shift; exact P|apply A; exact Hj].
  Qed.
  Lemma CU_sem : usem false CF CU.
  Proof.
    intros a b _. split; [|split; [|split; [|split]]].
    - intros H pi P. exact (proj1 (pU_facts a b pi P) H).
    - intros H pi P. exact (proj1 (proj2 (pU_facts a b pi P)) H).
    - intros b' H1 H2 pi P. exact (proj1 (proj2 (proj2 (pU_facts a b pi P))) b' H1 H2).
    - intros H pi P. exact (proj1 (proj2 (proj2 (proj2 (pU_facts a b pi P)))) H).
    - intros a' b' H1 H2 pi P. exact (proj2 (proj2 (proj2 (proj2 (pU_facts a b pi P)))) a' b' H1 H2).
  Qed.
  Lemma first_iff : forall c pi rho, stf c = true -> from pn pi rho -> (holds pn rho c <-> holds pn pi c).
  Proof. intros c pi rho Hs (_ & E). apply stf_state; assumption. Qed.
  Lemma CEU_sem : usem true CEF CEU.
  Proof.
    intros a b St. specialize (St eq_refl). split; [|split; [|split; [|split]]].
    - intros H pi P. exists pi. split; [apply (from_self net m0); exact P|]. exact (proj1 (pU_facts a b pi P) H).
    - intros H pi P (rho & F & K). exact (proj1 (proj2 (pU_facts a b rho (RP_from net m0 pi rho P F))) H K).
    - intros b' H1 H2 pi P. split; intros (rho & F & K); exists rho; (split; [exact F|]); pose proof (proj1 (proj2 (proj2 (pU_facts a b rho (RP_from net m0 pi rho P F)))) b' H1 H2) as G; apply G; exact K.
    - intros H pi P. split.
      + intros (rho & F & K). apply (first_iff b pi rho St F). pose proof (proj1 (proj2 (proj2 (proj2 (pU_facts a b rho (RP_from net m0 pi rho P F))))) H) as G. apply G; exact K.
      + intros K. exists pi. split; [apply (from_self net m0); exact P|]. pose proof (proj1 (proj2 (proj2 (proj2 (pU_facts a b pi P)))) H) as G. apply G; exact K.
    - intros a' b' H1 H2 pi P. split; intros (rho & F & K); exists rho; (split; [exact F|]); pose proof (proj2 (proj2 (proj2 (proj2 (pU_facts a b rho (RP_from net m0 pi rho P F))))) a' b' H1 H2) as G; apply G; exact K.
  Qed.
  Lemma CAU_sem : usem true CAF CAU.
  Proof.
    intros a b St. specialize (St eq_refl). split; [|split; [|split; [|split]]].
    - intros H pi P rho F. exact (proj1 (pU_facts a b rho (RP_from net m0 pi rho P F)) H).
    - intros H pi P K. exact (proj1 (proj2 (pU_facts a b pi P)) H (K pi (from_self net m0 pi P))).
    - intros b' H1 H2 pi P. split; intros K rho F; specialize (K rho F); pose proof (proj1 (proj2 (proj2 (pU_facts a b rho (RP_from net m0 pi rho P F)))) b' H1 H2) as G; apply G; exact K.
    - intros H pi P. split.
      + intros K. specialize (K pi (from_self net m0 pi P)). pose proof (proj1 (proj2 (proj2 (proj2 (pU_facts a b pi P)))) H) as G. apply G; exact K.
      + intros K rho F. pose proof (proj1 (proj2 (proj2 (proj2 (pU_facts a b rho (RP_from net m0 pi rho P F))))) H) as G. apply G. apply (first_iff b pi rho St F). exact K.
    - intros a' b' H1 H2 pi P. split; intros K rho F; specialize (K rho F); pose proof (proj2 (proj2 (proj2 (proj2 (pU_facts a b rho (RP_from net m0 pi rho P F))))) a' b' H1 H2) as G; apply G; exact K.
  Qed.
  Lemma CEU_cls : forall a b, cls true (CEU a b) = true <-> cls true a = true /\ cls true b = true.
  Proof. intros a b. unfold cls. cbn [in_range stf]. rewrite !andb_true_iff. tauto. Qed.
  Lemma CAU_cls : forall a b, cls true (CAU a b) = true <-> cls true a = true /\ cls true b = true.
  Proof. intros a b. unfold cls. cbn [in_range stf]. rewrite !andb_true_iff. tauto. Qed.
  Lemma CU_cls : forall a b, cls false (CU a b) = true <-> cls false a = true /\ cls false b = true.
  Proof. intros a b. unfold cls. cbn [in_range ltl]. rewrite !andb_true_iff. tauto. Qed.
  Lemma cls_stf : forall c, cls true c = true -> stf c = true.
  Proof. intros c H. unfold cls in H. apply andb_true_iff in H. apply H. Qed.

  Theorem simp_ok : forall c neg s, query_ok (cn_places net) m0 c = true -> cls k c = true -> mspec neg c s.
  Proof.
    pose proof (quant_ok addr addr_inj clock clock_mono simplex intopt simplex_sound intopt_sound net m0 B HB HBs k) as QU.
    pose proof (until_ok addr addr_inj clock clock_mono simplex intopt simplex_sound intopt_sound net m0 B HB HBs k) as UN.
    assert (BT : forall b, cls k (CBool b) = true) by (intros; apply cls_bool).
    induction c using cond_ind'; intros neg s Hq Hc; cbn [simp].
    - (* bool *) apply mpost_ret. split; [lia|]. apply bool_ok. intros pi P. unfold SimpProofs.target. cbn [holds]. destruct neg, b; cbn; split; intros; try discriminate; try reflexivity; tauto.
    - (* deadlock *) apply mpost_ret. split; [lia|]. apply only_ok; [destruct neg, k; reflexivity|]. intros pi P. unfold SimpProofs.target. destruct neg; cbn [holds]; tauto.
    - (* not *) rewrite cls_not in Hc. eapply mpost_impl; [apply IHc; assumption|]. intros r s' (S' & R). split; [exact S'|]. eapply rok_iff; [|exact R]. intros pi P. unfold SimpProofs.target. destruct neg; cbn [negb holds]; [|tauto]. tauto.
    - (* and *)
      cbn [query_ok] in Hq. rewrite forallb_forall in Hq. apply cls_list in Hc. rewrite Forall_forall in H.
      pose proof (log_ok false neg l s) as G. cbn [xorb] in G. destruct neg; (apply G; [intros c Hi neg' s'; apply H; [exact Hi|apply Hq; exact Hi|rewrite Forall_forall in Hc; apply Hc; exact Hi]|exact Hc|intros c Hk; rewrite cls_not; exact Hk]).
    - (* or *)
      cbn [query_ok] in Hq. rewrite forallb_forall in Hq. apply cls_or in Hc. rewrite Forall_forall in H.
      pose proof (log_ok true neg l s) as G. cbn [xorb] in G. destruct neg; (apply G; [intros c Hi neg' s'; apply H; [exact Hi|apply Hq; exact Hi|rewrite Forall_forall in Hc; apply Hc; exact Hi]|exact Hc|intros c Hk; rewrite cls_not; exact Hk]).
    - (* comparison *) destruct o.
      + apply (equal_ok addr addr_inj clock clock_mono simplex intopt simplex_sound intopt_sound net m0 B HB HBs k L Hm0 true neg a b s Hq Hc).
      + apply (equal_ok addr addr_inj clock clock_mono simplex intopt simplex_sound intopt_sound net m0 B HB HBs k L Hm0 false neg a b s Hq Hc).
      + apply (less_ok addr addr_inj clock clock_mono simplex intopt simplex_sound intopt_sound net m0 B HB HBs k L Hm0 true neg a b s Hq Hc).
      + apply (less_ok addr addr_inj clock clock_mono simplex intopt simplex_sound intopt_sound net m0 B HB HBs k L Hm0 false neg a b s Hq Hc).
    - (* intervals *) apply (conj_ok addr addr_inj clock clock_mono simplex intopt simplex_sound intopt_sound net m0 B HB HBs k L Hm0 Hb0); assumption.
    - (* EX *) pose proof (is_state _ Hc eq_refl) as Hk. destruct neg.
      + apply op_ok with (f := sm) (p := pAX) (neg := true) (c := c); try (rewrite Hk; reflexivity); try reflexivity; try (apply pext_all).
        * intros s'; apply IHc; [exact Hq|rewrite Hk in *; exact Hc].
        * rewrite Hk. auto.
        * intros pi P. rewrite (proj2 (proj2 (pconst_all true)) pi P). cbn [holds]. tauto.
        * intros pi P. rewrite (proj2 (proj2 (pconst_all false)) pi P). cbn [holds]. split; [intros [K|K]; [discriminate|exact K]|auto].
        * intros pi P. apply (pdual_all (fun rho => holds pn rho c) pi).
      + apply op_ok with (f := sm) (p := pEX) (neg := false) (c := c); try (rewrite Hk; reflexivity); try reflexivity; try (apply pext_all).
        * intros s'; apply IHc; [exact Hq|rewrite Hk in *; exact Hc].
        * rewrite Hk. auto.
        * intros pi P. rewrite (proj1 (proj2 (pconst_all true)) pi P). cbn [holds]. tauto.
        * intros pi P. rewrite (proj1 (proj2 (pconst_all false)) pi P). cbn [holds]. split; [intros (K & _); discriminate|discriminate].
    - (* AX *) pose proof (is_state _ Hc eq_refl) as Hk. destruct neg.
      + apply op_ok with (f := sm) (p := pEX) (neg := true) (c := c); try (rewrite Hk; reflexivity); try reflexivity; try (apply pext_all).
        * intros s'; apply IHc; [exact Hq|rewrite Hk in *; exact Hc].
        * rewrite Hk. auto.
        * intros pi P. rewrite (proj1 (proj2 (pconst_all true)) pi P). cbn [holds]. tauto.
        * intros pi P. rewrite (proj1 (proj2 (pconst_all false)) pi P). cbn [holds]. split; [intros (K & _); discriminate|discriminate].
        * intros pi P. apply (pdual_all (fun rho => holds pn rho c) pi).
      + apply op_ok with (f := sm) (p := pAX) (neg := false) (c := c); try (rewrite Hk; reflexivity); try reflexivity; try (apply pext_all).
        * intros s'; apply IHc; [exact Hq|rewrite Hk in *; exact Hc].
        * rewrite Hk. auto.
        * intros pi P. rewrite (proj2 (proj2 (pconst_all true)) pi P). cbn [holds]. tauto.
        * intros pi P. rewrite (proj2 (proj2 (pconst_all false)) pi P). cbn [holds]. split; [intros [K|K]; [discriminate|exact K]|auto].
    - (* EF *) pose proof (is_state _ Hc eq_refl) as Hk. destruct neg.
      + apply op_ok with (f := sm) (p := pAG) (neg := true) (c := c); try (rewrite Hk; reflexivity); try reflexivity; try (apply pext_all).
        * intros s'; apply IHc; [exact Hq|rewrite Hk in *; exact Hc].
        * rewrite Hk. auto.
        * apply (pconst_all true).
        * apply (pconst_all false).
        * intros pi P. apply (pdual_all (fun rho => holds pn rho c) pi).
      + apply op_ok with (f := sm) (p := pEF) (neg := false) (c := c); try (rewrite Hk; reflexivity); try reflexivity; try (apply pext_all).
        * intros s'; apply IHc; [exact Hq|rewrite Hk in *; exact Hc].
        * rewrite Hk. auto.
        * apply (pconst_all true).
        * apply (pconst_all false).
    - (* AF *) pose proof (is_state _ Hc eq_refl) as Hk. destruct neg.
      + apply op_ok with (f := sm) (p := pEG) (neg := true) (c := c); try (rewrite Hk; reflexivity); try reflexivity; try (apply pext_all).
        * intros s'; apply IHc; [exact Hq|rewrite Hk in *; exact Hc].
        * rewrite Hk. auto.
        * apply (pconst_all true).
        * apply (pconst_all false).
        * intros pi P. apply (pdual_all (fun rho => holds pn rho c) pi).
      + apply op_ok with (f := sm) (p := pAF) (neg := false) (c := c); try (rewrite Hk; reflexivity); try reflexivity; try (apply pext_all).
        * intros s'; apply IHc; [exact Hq|rewrite Hk in *; exact Hc].
        * rewrite Hk. auto.
        * apply (pconst_all true).
        * apply (pconst_all false).
    - (* EG *) pose proof (is_state _ Hc eq_refl) as Hk. destruct neg.
      + apply op_ok with (f := sm) (p := pAF) (neg := true) (c := c); try (rewrite Hk; reflexivity); try reflexivity; try (apply pext_all).
        * intros s'; apply IHc; [exact Hq|rewrite Hk in *; exact Hc].
        * rewrite Hk. auto.
        * apply (pconst_all true).
        * apply (pconst_all false).
        * intros pi P. apply (pdual_all (fun rho => holds pn rho c) pi).
      + apply op_ok with (f := sm) (p := pEG) (neg := false) (c := c); try (rewrite Hk; reflexivity); try reflexivity; try (apply pext_all).
        * intros s'; apply IHc; [exact Hq|rewrite Hk in *; exact Hc].
        * rewrite Hk. auto.
        * apply (pconst_all true).
        * apply (pconst_all false).
    - (* AG *) pose proof (is_state _ Hc eq_refl) as Hk. destruct neg.
      + apply op_ok with (f := sm) (p := pEF) (neg := true) (c := c); try (rewrite Hk; reflexivity); try reflexivity; try (apply pext_all).
        * intros s'; apply IHc; [exact Hq|rewrite Hk in *; exact Hc].
        * rewrite Hk. auto.
        * apply (pconst_all true).
        * apply (pconst_all false).
        * intros pi P. apply (pdual_all (fun rho => holds pn rho c) pi).
      + apply op_ok with (f := sm) (p := pAG) (neg := false) (c := c); try (rewrite Hk; reflexivity); try reflexivity; try (apply pext_all).
        * intros s'; apply IHc; [exact Hq|rewrite Hk in *; exact Hc].
        * rewrite Hk. auto.
        * apply (pconst_all true).
        * apply (pconst_all false).
    - (* EU *) pose proof (is_state _ Hc eq_refl) as Hk. cbn [query_ok] in Hq. apply andb_true_iff in Hq. destruct Hq as (Q1 & Q2).
      assert (C12 : cls k c1 = true /\ cls k c2 = true) by (rewrite Hk in *; apply CEU_cls; exact Hc). destruct C12 as (C1 & C2).
      apply UN; [intros s'; apply (IHc1 false); assumption|intros s'; apply (IHc2 false); assumption|rewrite Hk; auto|rewrite Hk; intros c d H1 H2; apply CEU_cls; auto|rewrite Hk; auto|apply CEU_sem; intros _; apply cls_stf; rewrite Hk in C2; exact C2..].
    - (* AU *) pose proof (is_state _ Hc eq_refl) as Hk. cbn [query_ok] in Hq. apply andb_true_iff in Hq. destruct Hq as (Q1 & Q2).
      assert (C12 : cls k c1 = true /\ cls k c2 = true) by (rewrite Hk in *; apply CAU_cls; exact Hc). destruct C12 as (C1 & C2).
      apply UN; [intros s'; apply (IHc1 false); assumption|intros s'; apply (IHc2 false); assumption|rewrite Hk; auto|rewrite Hk; intros c d H1 H2; apply CAU_cls; auto|rewrite Hk; auto|apply CAU_sem; intros _; apply cls_stf; rewrite Hk in C2; exact C2..].
    - (* E *) exact I.
    - (* A *) exact I.
    - (* F *) pose proof (is_path _ Hc eq_refl) as Hk. destruct neg.
      + apply op_ok with (f := sm) (p := pG) (neg := true) (c := c); try (rewrite Hk; reflexivity); try reflexivity; try (apply pext_all).
        * intros s'; apply IHc; [exact Hq|rewrite Hk in *; exact Hc].
        * rewrite Hk. auto.
        * apply (pconst_all true).
        * apply (pconst_all false).
        * intros pi P. apply (pdual_all (fun rho => holds pn rho c) pi).
      + apply op_ok with (f := sm) (p := pF) (neg := false) (c := c); try (rewrite Hk; reflexivity); try reflexivity; try (apply pext_all).
        * intros s'; apply IHc; [exact Hq|rewrite Hk in *; exact Hc].
        * rewrite Hk. auto.
        * apply (pconst_all true).
        * apply (pconst_all false).
    - (* G *) pose proof (is_path _ Hc eq_refl) as Hk. destruct neg.
      + apply op_ok with (f := sm) (p := pF) (neg := true) (c := c); try (rewrite Hk; reflexivity); try reflexivity; try (apply pext_all).
        * intros s'; apply IHc; [exact Hq|rewrite Hk in *; exact Hc].
        * rewrite Hk. auto.
        * apply (pconst_all true).
        * apply (pconst_all false).
        * intros pi P. apply (pdual_all (fun rho => holds pn rho c) pi).
      + apply op_ok with (f := sm) (p := pG) (neg := false) (c := c); try (rewrite Hk; reflexivity); try reflexivity; try (apply pext_all).
        * intros s'; apply IHc; [exact Hq|rewrite Hk in *; exact Hc].
        * rewrite Hk. auto.
        * apply (pconst_all true).
        * apply (pconst_all false).
    - (* X *) pose proof (is_path _ Hc eq_refl) as Hk. destruct neg.
      + apply op_ok with (f := sm) (p := pX) (neg := true) (c := c); try (rewrite Hk; reflexivity); try reflexivity; try (apply pext_all).
        * intros s'; apply IHc; [exact Hq|rewrite Hk in *; exact Hc].
        * rewrite Hk. auto.
      + apply op_ok with (f := sm) (p := pX) (neg := false) (c := c); try (rewrite Hk; reflexivity); try reflexivity; try (apply pext_all).
        * intros s'; apply IHc; [exact Hq|rewrite Hk in *; exact Hc].
        * rewrite Hk. auto.
    - (* U *) pose proof (is_path _ Hc eq_refl) as Hk. cbn [query_ok] in Hq. apply andb_true_iff in Hq. destruct Hq as (Q1 & Q2).
      assert (C12 : cls k c1 = true /\ cls k c2 = true) by (rewrite Hk in *; apply CU_cls; exact Hc). destruct C12 as (C1 & C2).
      apply UN; [intros s'; apply (IHc1 false); assumption|intros s'; apply (IHc2 false); assumption|rewrite Hk; auto|rewrite Hk; intros c d H1 H2; apply CU_cls; auto|rewrite Hk; auto|apply CU_sem; discriminate..].
  Qed.
End Simp.
