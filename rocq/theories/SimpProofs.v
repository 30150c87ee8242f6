(** Query simplification keeps the meaning of the query in every reachable marking. *)
From Verif Require Import Base BaseLemmas NetSpec PqlSyntax PqlSpec PqlModel PqlProofs PqlPush PushRules PushProofs NetModel SearchMain LpSpec SimpSpec MemberModel MemberProofs LpModel LpProofs LpSat LpBase SimpModel.
From Coq Require Import Classical_Prop.

Lemma nth_error_firstn : forall A n (l : list A) i, i < n -> nth_error (firstn n l) i = nth_error l i.
Proof. induction n as [|n IH]; intros l i H; [lia|]. destruct l; [reflexivity|]. destruct i; [reflexivity|]. cbn. apply IH. lia. Qed.

Section Simp.
  Variable addr : lrow -> N.
  Hypothesis addr_inj : forall r s, addr r = addr s -> r = s.
  Variable clock : nat -> bool.
  Hypothesis clock_mono : forall n, clock n = true -> clock (S n) = true.
  Variables simplex intopt : nat -> lp -> glp_ret * glp_status.
  Hypothesis simplex_sound : sound_solver simplex.
  Hypothesis intopt_sound : sound_solver intopt.
  Variable net : cnet.
  Variable m0 : list N.
  Variable B : lp.
  Hypothesis HB : base_lp net m0 = Ok B.
  Hypothesis HBs : forall w m, run (to_pnet net) m0 w m -> solution B (occ w).
  Variable k : bool.
  Notation inv := (LpSat.inv clock B).
  Notation sat := (sat_coll addr clock simplex intopt net m0).
  Notation pn := (to_pnet net).

  Definition at_ (w : list nat) (pi : path) : Prop := maximal pn pi /\ run pn m0 w (pi 0).
  Definition RP (pi : path) : Prop := exists w, at_ w pi.
  (** what a result says about the runs on which [Q] holds *)
  Definition rok (s : nat) (Q : path -> Prop) (r : retval) : Prop :=
    inv s (rv_lps r) /\ inv s (rv_neg r) /\ cls k (rv_f r) = true /\
    forall w pi, at_ w pi -> (holds pn pi (rv_f r) <-> Q pi) /\
      (holds pn pi (rv_f r) -> msem (rv_lps r) (occ w)) /\ (~ holds pn pi (rv_f r) -> msem (rv_neg r) (occ w)).

  Lemma RP_shift : forall i pi, RP pi -> RP (shift i pi).
  Proof.
    induction i as [|i IH]; intros pi (w & Hm & Hr).
    - exists w. split; [exact Hm|exact Hr].
    - destruct (IH pi (ex_intro _ w (conj Hm Hr))) as (w' & Hm' & Hr'). unfold shift in Hr'. rewrite Nat.add_0_r in Hr'.
      assert (M : maximal pn (shift (S i) pi)) by (intros j; unfold shift; rewrite <- plus_n_Sm; apply (Hm (S i + j))).
      destruct (Hm i) as [(t & St)|(D & E)].
      + exists (w' ++ [t]). split; [exact M|]. unfold shift. rewrite Nat.add_0_r. eapply run_snoc; eassumption.
      + exists w'. split; [exact M|]. unfold shift. rewrite Nat.add_0_r, E. exact Hr'.
  Qed.
  Lemma RP_from : forall pi rho, RP pi -> from pn pi rho -> RP rho.
  Proof. intros pi rho (w & Hm & Hr) (M & E). exists w. split; [exact M|]. rewrite E. exact Hr. Qed.
  Lemma from_self : forall pi, RP pi -> from pn pi pi.
  Proof. intros pi (w & Hm & _). split; [exact Hm|reflexivity]. Qed.

  Lemma inv_later : forall s s' c, s <= s' -> inv s c -> inv s' c.
  Proof. intros. eapply inv_le; eauto. Qed.
  Lemma rok_later : forall s s' Q r, s <= s' -> rok s Q r -> rok s' Q r.
  Proof. intros s s' Q r H (A & C & D & E). split; [eapply inv_later; eauto|]. split; [eapply inv_later; eauto|]. auto. Qed.
  Lemma rok_iff : forall s (Q Q' : path -> Prop) r, (forall pi, RP pi -> (Q pi <-> Q' pi)) -> rok s Q r -> rok s Q' r.
  Proof.
    intros s Q Q' r H (A & C & D & E). split; [exact A|]. split; [exact C|]. split; [exact D|].
    intros w pi P. destruct (E w pi P) as (E1 & E2). split; [|exact E2]. rewrite E1. apply H. exists w. exact P.
  Qed.
  Lemma empty_wf : forall s, inv s empty_single.
  Proof. intros s. right. cbn. auto. Qed.
  Lemma empty_sem : forall x, msem empty_single x.
  Proof. intros x. cbn. constructor. Qed.
  Lemma only_ok : forall s (Q : path -> Prop) f, cls k f = true -> (forall pi, RP pi -> (holds pn pi f <-> Q pi)) -> rok s Q (only f).
  Proof.
    intros s Q f C H. split; [apply empty_wf|]. split; [apply empty_wf|]. split; [exact C|].
    intros w pi P. split; [apply H; exists w; exact P|]. split; intros _; apply empty_sem.
  Qed.
  Lemma bool_ok : forall s (Q : path -> Prop) b, (forall pi, RP pi -> (b = true <-> Q pi)) -> rok s Q (only (CBool b)).
  Proof. intros s Q b H. apply only_ok; [apply cls_bool|]. intros pi P. cbn [holds]. apply H, P. Qed.

  Lemma sat_ok : forall c s, inv s c -> mpost (sat c) s (fun y s' => s <= s' /\ (snd y = true -> inv s' (fst y)) /\
    (snd y = false -> forall w m, run pn m0 w m -> ~ msem c (occ w)) /\ (forall w m, run pn m0 w m -> msem c (occ w) -> msem (fst y) (occ w))).
  Proof.
    intros c s H. unfold sat_coll.
    eapply mpost_impl; [apply (satisfiable_ok addr addr_inj clock_mono simplex_sound intopt_sound net m0 HB (le_n (height c)) H)|].
    intros y s' (A & C & _ & D & E). split; [exact A|]. split; [exact C|]. split.
    - intros F w m R. apply (D F), (HBs _ _ R).
    - intros w m R. apply E, (HBs _ _ R).
  Qed.
  Lemma tick_ok : forall s (P : bool -> nat -> Prop), P (clock s) (S s) -> mpost (timeout clock) s P.
  Proof. intros s P H. exact H. Qed.
  (** if (!timeout && !satisfiable) *)
  Lemma guarded_ok : forall t c s, inv s c -> mpost (if t : bool then ret (c, true) else sat c) s (fun y s' => s <= s' /\ (snd y = true -> inv s' (fst y)) /\
    (snd y = false -> forall w m, run pn m0 w m -> ~ msem c (occ w)) /\ (forall w m, run pn m0 w m -> msem c (occ w) -> msem (fst y) (occ w))).
  Proof.
    intros [|] c s H; [|apply sat_ok; exact H]. apply mpost_ret. cbn [fst snd]. split; [lia|]. split; [auto|]. split; [discriminate|auto].
  Qed.

  Lemma trivially_eq : forall b f, trivially b f = true -> f = CBool b.
  Proof. intros b f H. destruct f; try discriminate. cbn in H. apply eqb_prop in H. congruence. Qed.
  Lemma surely_true_ok : forall s Q r, rok s Q r -> mpost (surely_true addr clock simplex intopt net m0 r) s
    (fun y s' => s <= s' /\ (snd y = false -> rok s' Q (fst y)) /\ (snd y = true -> forall pi, RP pi -> Q pi)).
  Proof.
    intros s Q r (I1 & I2 & C & H). unfold surely_true. destruct (trivially true (rv_f r)) eqn:T.
    - apply mpost_ret. cbn [fst snd]. split; [lia|]. split; [discriminate|]. intros _ pi (w & P). apply (H w pi P). rewrite (trivially_eq _ _ T). reflexivity.
    - eapply mpost_bind; [apply sat_ok; exact I2|]. intros y s' (Hs & Y1 & Y2 & Y3). apply mpost_ret. cbn [fst snd]. split; [exact Hs|]. split.
      + intros F. apply negb_false_iff in F. split; [eapply inv_later; eauto|]. split; [apply Y1, F|]. split; [exact C|]. cbn [rv_f rv_lps rv_neg].
        intros w pi P. destruct (H w pi P) as (A1 & A2 & A3). split; [exact A1|]. split; [exact A2|]. intros N. apply (Y3 w (pi 0)); [apply P|]. auto.
      + intros F pi (w & P). apply negb_true_iff in F. destruct (H w pi P) as (A1 & A2 & A3). apply A1. apply NNPP. intros N. apply (Y2 F w (pi 0)); [apply P|]. auto.
  Qed.
  Lemma surely_false_ok : forall s Q r, rok s Q r -> mpost (surely_false addr clock simplex intopt net m0 r) s
    (fun y s' => s <= s' /\ (snd y = false -> rok s' Q (fst y)) /\ (snd y = true -> forall pi, RP pi -> ~ Q pi)).
  Proof.
    intros s Q r (I1 & I2 & C & H). unfold surely_false. destruct (trivially false (rv_f r)) eqn:T.
    - apply mpost_ret. cbn [fst snd]. split; [lia|]. split; [discriminate|]. intros _ pi (w & P). destruct (H w pi P) as (A & _). rewrite <- A. rewrite (trivially_eq _ _ T). cbn. discriminate.
    - eapply mpost_bind; [apply sat_ok; exact I1|]. intros y s' (Hs & Y1 & Y2 & Y3). apply mpost_ret. cbn [fst snd]. split; [exact Hs|]. split.
      + intros F. apply negb_false_iff in F. split; [apply Y1, F|]. split; [eapply inv_later; eauto|]. split; [exact C|]. cbn [rv_f rv_lps rv_neg].
        intros w pi P. destruct (H w pi P) as (A1 & A2 & A3). split; [exact A1|]. split; [|exact A3]. intros N. apply (Y3 w (pi 0)); [apply P|]. auto.
      + intros F pi (w & P). apply negb_true_iff in F. destruct (H w pi P) as (A1 & A2 & A3). rewrite <- A1. intros N. apply (Y2 F w (pi 0)); [apply P|]. auto.
  Qed.

  Lemma quant_ok : forall (Q Q' : path -> Prop) t f op s r, rok s Q r -> cls k t = true -> cls k f = true ->
    (forall c, cls k c = true -> cls k (op c) = true) ->
    ((forall pi, RP pi -> Q pi) -> forall pi, RP pi -> (holds pn pi t <-> Q' pi)) ->
    ((forall pi, RP pi -> ~ Q pi) -> forall pi, RP pi -> (holds pn pi f <-> Q' pi)) ->
    (forall c, (forall pi, RP pi -> (holds pn pi c <-> Q pi)) -> forall pi, RP pi -> (holds pn pi (op c) <-> Q' pi)) ->
    mpost (quant addr clock simplex intopt net m0 t f op r) s (fun r' s' => s <= s' /\ rok s' Q' r').
  Proof.
    intros Q Q' t f op s r H Ct Cf Co Ht Hf Ho. unfold quant. eapply mpost_bind; [apply surely_true_ok; exact H|]. intros [r1 b1] s1 (S1 & A1 & A2). cbn [fst snd] in *.
    destruct b1.
    - apply mpost_ret. split; [exact S1|]. apply only_ok; auto.
    - eapply mpost_bind; [apply surely_false_ok; apply A1; reflexivity|]. intros [r2 b2] s2 (S2 & B1 & B2). cbn [fst snd] in *. destruct b2.
      + apply mpost_ret. split; [lia|]. apply only_ok; auto.
      + apply mpost_ret. split; [lia|]. destruct (B1 eq_refl) as (_ & _ & C & E). apply only_ok; [auto|]. apply Ho. intros pi (w & P). apply (E w pi P).
  Qed.

  Definition target (neg : bool) (c : cond) (pi : path) : Prop := if neg then ~ holds pn pi c else holds pn pi c.
  Lemma dead_alt : forall pi, RP pi -> (dead pn (pi 0) <-> forall rho, from pn pi rho -> nstep pn (rho 0) (rho 1) -> False).
  Proof.
    intros pi P. split.
    - intros D rho (_ & E) (t & St). rewrite E in St. refine (step_dead _ D). exists t. exact St.
    - intros H. destruct P as (w & Hm & Hr). destruct (Hm 0) as [N|(D & _)]; [|exact D]. exfalso. apply (H pi); [split; [exact Hm|reflexivity]|exact N].
  Qed.

  (** ** Until *)
  Lemma until_ok : forall (f : cond -> M retval) (a b : cond) (ev : cond -> cond) (un : cond -> cond -> cond) (neg : bool) s,
    (forall s, mpost (f a) s (fun r s' => s <= s' /\ rok s' (fun pi => holds pn pi a) r)) ->
    (forall s, mpost (f b) s (fun r s' => s <= s' /\ rok s' (fun pi => holds pn pi b) r)) ->
    (forall c, cls k c = true -> cls k (ev c) = true) -> (forall c d, cls k c = true -> cls k d = true -> cls k (un c d) = true) ->
    (forall c, cls k c = true -> cls k (CNot c) = true) ->
    ((forall pi, RP pi -> holds pn pi b) -> forall pi, RP pi -> holds pn pi (un a b)) ->
    ((forall pi, RP pi -> ~ holds pn pi b) -> forall pi, RP pi -> ~ holds pn pi (un a b)) ->
    (forall b', (forall pi, RP pi -> holds pn pi a) -> (forall pi, RP pi -> (holds pn pi b' <-> holds pn pi b)) -> forall pi, RP pi -> (holds pn pi (ev b') <-> holds pn pi (un a b))) ->
    ((forall pi, RP pi -> ~ holds pn pi a) -> forall pi, RP pi -> (holds pn pi (un a b) <-> holds pn pi b)) ->
    (forall a' b', (forall pi, RP pi -> (holds pn pi a' <-> holds pn pi a)) -> (forall pi, RP pi -> (holds pn pi b' <-> holds pn pi b)) ->
       forall pi, RP pi -> (holds pn pi (un a' b') <-> holds pn pi (un a b))) ->
    mpost (simp_until addr clock simplex intopt net m0 f ev un neg a b) s (fun r s' => s <= s' /\ rok s' (target neg (un a b)) r).
  Proof.
    intros f a b ev un neg s Fa Fb Cev Cun Cnot U1 U2 U3 U4 U5. unfold simp_until.
    eapply mpost_bind; [apply Fb|]. intros r2 s1 (S1 & R2).
    eapply mpost_bind; [apply surely_true_ok; exact R2|]. intros [x1 b1] s2 (S2 & A1 & A2). cbn [fst snd] in *. destruct b1.
    { apply mpost_ret. split; [lia|]. apply bool_ok. intros pi P. pose proof (U1 (A2 eq_refl) pi P) as Hu. unfold target. destruct neg; cbn [negb]; split; intros; try discriminate; try tauto; auto. }
    eapply mpost_bind; [apply surely_false_ok; exact (A1 eq_refl)|]. intros [x2 b2] s3 (S3 & B1 & B2). cbn [fst snd] in *. destruct b2.
    { apply mpost_ret. split; [lia|]. apply bool_ok. intros pi P. pose proof (U2 (B2 eq_refl) pi P) as Hu. unfold target. destruct neg; split; intros; try discriminate; try tauto; auto. }
    specialize (B1 eq_refl). clear A1 A2 B2.
    assert (E2 : forall pi, RP pi -> (holds pn pi (rv_f x2) <-> holds pn pi b)) by (intros pi (w & P); destruct B1 as (_ & _ & _ & E); apply (E w pi P)).
    assert (C2 : cls k (rv_f x2) = true) by apply B1.
    eapply mpost_bind; [apply Fa|]. intros r1 s4 (S4 & R1).
    eapply mpost_bind; [apply surely_true_ok; exact R1|]. intros [x3 b3] s5 (S5 & A1 & A2). cbn [fst snd] in *.
    assert (T : forall f0, cls k f0 = true -> (forall pi, RP pi -> (holds pn pi f0 <-> holds pn pi (un a b))) -> forall s', rok s' (target neg (un a b)) (only (if neg then CNot f0 else f0))).
    { intros f0 Cf Hf s'. apply only_ok; [destruct neg; auto|]. intros pi P. unfold target. destruct neg; cbn [holds]; rewrite (Hf pi P); tauto. }
    destruct b3.
    { apply mpost_ret. split; [lia|]. apply (T (ev (rv_f x2))); auto. }
    eapply mpost_bind; [apply surely_false_ok; exact (A1 eq_refl)|]. intros [x4 b4] s6 (S6 & D1 & D2). cbn [fst snd] in *. destruct b4.
    { apply mpost_ret. split; [lia|]. destruct neg.
      - apply only_ok; [auto|]. intros pi P. unfold target. cbn [holds]. rewrite (U4 (D2 eq_refl) pi P), (E2 pi P). tauto.
      - apply rok_later with (s := s3); [lia|]. eapply rok_iff; [|exact B1]. intros pi P. unfold target. rewrite (U4 (D2 eq_refl) pi P). tauto. }
    apply mpost_ret. split; [lia|]. destruct (D1 eq_refl) as (_ & _ & C1 & E1). apply T; [auto|]. apply U5; [|exact E2]. intros pi (w & P). apply (E1 w pi P).
  Qed.

  (** ** Conjunctions and disjunctions *)
  Definition good (s : nat) (r : retval) : Prop := rok s (fun pi => holds pn pi (rv_f r)) r.
  Lemma good_later : forall s s' r, s <= s' -> good s r -> good s' r.
  Proof. intros s s' r H G. eapply rok_later; eauto. Qed.
  Lemma rok_good : forall s Q r, rok s Q r -> good s r.
  Proof. intros s Q r (A & C & D & E). split; [exact A|]. split; [exact C|]. split; [exact D|]. intros w pi P. split; [tauto|]. apply (E w pi P). Qed.
  Definition JQ (isor : bool) (Qs : list (path -> Prop)) (pi : path) : Prop :=
    if isor then exists Q, In Q Qs /\ Q pi else forall Q, In Q Qs -> Q pi.
  Lemma JQ_cons : forall isor Q Qs pi, JQ isor (Q :: Qs) pi <-> op2 isor (Q pi) (JQ isor Qs pi).
  Proof.
    intros [|] Q Qs pi; cbn.
    - split; [intros (x & [<-|Hx] & H); [left; exact H|right; eauto]|intros [H|(x & Hx & H)]; [exists Q; auto|exists x; auto]].
    - split; [intros H; split; [apply H; auto|intros x Hx; apply H; auto]|intros (A & C) x [<-|Hx]; [exact A|exact (C x Hx)]].
  Qed.
  Lemma ops_loop_ok : forall (f : cond -> M retval) isor neg l,
    (forall c, In c l -> forall s, mpost (f c) s (fun r s' => s <= s' /\ rok s' (target neg c) r)) ->
    forall acc s, Forall (good s) acc ->
    mpost (ops_loop f isor l acc) s (fun o s' => s <= s' /\
      match o with
      | None => forall pi, RP pi -> if isor then JQ isor (map (target neg) l) pi else ~ JQ isor (map (target neg) l) pi
      | Some rs => Forall (good s') rs /\ forall pi, RP pi -> (J isor pn pi (map rv_f rs) <-> op2 isor (J isor pn pi (map rv_f acc)) (JQ isor (map (target neg) l) pi))
      end).
  Proof.
    intros f isor neg l. induction l as [|c l IH]; intros F acc s Ha.
    - apply mpost_ret. split; [lia|]. split; [exact Ha|]. intros pi P. cbn [map]. destruct isor; cbn; [|tauto]. split; [auto|]. intros [H|(Q & [] & _)]; auto.
    - change (ops_loop f isor (c :: l) acc) with (mbind (f c) (fun r => if trivially isor (rv_f r) then ret None else if trivially (negb isor) (rv_f r) then ops_loop f isor l acc else ops_loop f isor l (acc ++ [r]))).
      eapply mpost_bind; [apply F; left; reflexivity|]. intros r s1 (S1 & R). cbn [map].
      assert (E : forall pi, RP pi -> (holds pn pi (rv_f r) <-> target neg c pi)) by (intros pi (w & P); destruct R as (_ & _ & _ & E); apply (E w pi P)).
      assert (F' : forall c, In c l -> forall s, mpost (f c) s (fun r s' => s <= s' /\ rok s' (target neg c) r)) by (intros; apply F; right; assumption).
      assert (Ha1 : Forall (good s1) acc) by (eapply Forall_impl; [|exact Ha]; intros; eapply good_later; eauto).
      destruct (trivially isor (rv_f r)) eqn:T1; [|destruct (trivially (negb isor) (rv_f r)) eqn:T2].
      + apply mpost_ret. split; [exact S1|]. intros pi P. apply trivially_eq in T1. specialize (E pi P). rewrite T1 in E. cbn [holds] in E. destruct isor; rewrite JQ_cons; cbn [op2]; [left; tauto|]. intros (H & _). apply E in H. discriminate.
      + eapply mpost_impl; [apply IH; [exact F'|exact Ha1]|]. intros o s' (S' & H). split; [lia|]. apply trivially_eq in T2.
        destruct o as [rs|].
        * destruct H as (H1 & H2). split; [exact H1|]. intros pi P. rewrite (H2 pi P), JQ_cons. specialize (E pi P). rewrite T2 in E. cbn [holds] in E.
          destruct isor; cbn [op2 negb] in *; [|tauto]. assert (~ target neg c pi) by (intros K; apply E in K; discriminate). tauto.
        * intros pi P. specialize (H pi P). specialize (E pi P). rewrite T2 in E. cbn [holds] in E. destruct isor; rewrite JQ_cons; cbn [op2]; [right; exact H|tauto].
      + eapply mpost_impl; [apply IH; [exact F'|]|].
        { apply Forall_app. split; [exact Ha1|]. constructor; [|constructor]. eapply rok_good. exact R. }
        intros o s' (S' & H). split; [lia|]. destruct o as [rs|].
        * destruct H as (H1 & H2). split; [exact H1|]. intros pi P. rewrite (H2 pi P), JQ_cons, map_app. cbn [map]. rewrite J_app, J_one, op2_assoc, (E pi P). tauto.
        * intros pi P. specialize (H pi P). destruct isor; rewrite JQ_cons; cbn [op2]; [right; exact H|tauto].
  Qed.

  Lemma merge_loop_ok : forall n (l : list coll) i j, i < length l -> 2 * i + (if i <=? j then 2 else 1) <= n ->
    exists l' c, merge_lps_loop n l i j = Ok l' /\ rd l' 0 = Ok c /\ (Forall (wf B) l -> wf B c) /\
      forall x, msem c x <-> Forall (fun d => msem d x) (firstn (S i) l).
  Proof.
    induction n as [|n IH]; intros l i j Hi Hn; [destruct (i <=? j); lia|]. cbn [merge_lps_loop]. destruct i as [|i].
    - destruct l as [|c l]; [cbn in Hi; lia|]. exists (c :: l), c. split; [reflexivity|]. split; [reflexivity|]. split; [intros F; inversion F; assumption|].
      intros x. cbn. rewrite Forall_cons_iff. split; [auto|tauto].
    - destruct (Nat.leb_spec (S i) j) as [E|E].
      + apply IH; [exact Hi|]. cbn [Nat.leb]. lia.
      + destruct (nth_error l j) as [a|] eqn:Ea; [|apply nth_error_None in Ea; lia].
        destruct (nth_error l (S i)) as [b|] eqn:Eb; [|apply nth_error_None in Eb; lia].
        unfold rd at 1 2. rewrite Ea, Eb. cbn [bind].
        unfold wr. destruct (Nat.ltb_spec j (length l)) as [Hjl|]; [|lia]. cbn [bind].
        set (l1 := upd l j (merge_of a b)).
        assert (Hlen : length l1 = length l) by (unfold l1; apply upd_length).
        destruct (IH l1 i (S j)) as (l' & c & E1 & E2 & E3 & E4); [lia|destruct (i <=? S j); lia|].
        exists l', c. split; [exact E1|]. split; [exact E2|]. split.
        * intros F. apply E3. unfold l1. rewrite Forall_forall in *. intros y Hy. apply In_nth_error in Hy. destruct Hy as (q & Hq). 
          destruct (Nat.eq_dec q j) as [->|Hqj].
          -- rewrite nth_error_upd_eq in Hq by lia. injection Hq as <-. cbn [wf merge_of notimp firstn]. split; [exact I|]. split; [apply F; eapply nth_error_In; eauto|]. split; [apply F; eapply nth_error_In; eauto|]. intros g [].
          -- rewrite nth_error_upd_neq in Hq by lia. apply F. eapply nth_error_In; eauto.
        * intros x. rewrite E4. rewrite !Forall_forall. split.
          -- intros H d Hd. apply In_nth_error in Hd. destruct Hd as (q & Hq).
             assert (Hqi : q < S (S i)). { assert (H1 : q < length (firstn (S (S i)) l)) by (apply nth_error_Some; congruence). rewrite firstn_length in H1. lia. }
             assert (Hq' : nth_error l q = Some d) by (rewrite <- Hq; symmetry; apply nth_error_firstn; lia).
             assert (Hm : msem (merge_of a b) x).
             { apply H. apply nth_error_In with j. rewrite nth_error_firstn by lia. unfold l1. apply nth_error_upd_eq. assumption. }
             cbn [msem merge_of] in Hm.
             destruct (Nat.eq_dec q j) as [->|Hqj]; [replace d with a by congruence; tauto|]. destruct (Nat.eq_dec q (S i)) as [->|Hqs]; [replace d with b by congruence; tauto|].
             apply H. apply nth_error_In with q. rewrite nth_error_firstn by lia. unfold l1. rewrite nth_error_upd_neq by lia. exact Hq'.
          -- intros H d Hd. apply In_nth_error in Hd. destruct Hd as (q & Hq).
             assert (Hqi : q < S i). { assert (H1 : q < length (firstn (S i) l1)) by (apply nth_error_Some; congruence). rewrite firstn_length in H1. lia. }
             assert (Hq' : nth_error l1 q = Some d) by (rewrite <- Hq; symmetry; apply nth_error_firstn; lia).
             destruct (Nat.eq_dec q j) as [->|Hqj].
             ++ unfold l1 in Hq'. rewrite nth_error_upd_eq in Hq' by lia. injection Hq' as <-. cbn [msem merge_of]. split; apply H.
                ** apply nth_error_In with j. rewrite nth_error_firstn by lia. exact Ea.
                ** apply nth_error_In with (S i). rewrite nth_error_firstn by lia. exact Eb.
             ++ unfold l1 in Hq'. rewrite nth_error_upd_neq in Hq' by lia. apply H. apply nth_error_In with q. rewrite nth_error_firstn by lia. exact Hq'.
  Qed.
  Lemma merge_lps_ok : forall l, l <> [] -> exists c, merge_lps l = Ok (Some c) /\ (forall s, Forall (inv s) l -> inv s c) /\
    forall x, msem c x <-> Forall (fun d => msem d x) l.
  Proof.
    intros l Hl. destruct l as [|a l]; [congruence|]. unfold merge_lps.
    destruct (merge_loop_ok (2 * length (a :: l)) (a :: l) (length (a :: l) - 1) 0) as (l' & c & E1 & E2 & E3 & E4); [cbn [length]; lia|cbn [length]; destruct (_ <=? 0); lia|].
    rewrite E1. cbn [bind]. rewrite E2. cbn [bind]. exists c. split; [reflexivity|]. split.
    - intros s F. destruct (clock s) eqn:C; [left; exact C|]. right. apply E3. eapply Forall_impl; [|exact F]. intros d [K|K]; [congruence|exact K].
    - intros x. rewrite E4. rewrite firstn_all2 by (cbn [length]; lia). tauto.
  Qed.
  Lemma union_inv : forall s l, Forall (inv s) l -> inv s (union_of l).
  Proof.
    intros s l F. destruct (clock s) eqn:C; [left; exact C|]. right. cbn [union_of wf notimp]. split; [exact I|]. apply wf_all.
    eapply Forall_impl; [|exact F]. intros d [K|K]; [congruence|exact K].
  Qed.
  Lemma simp_log_ok : forall isor o Qs s,
    match o with
    | None => forall pi, RP pi -> if isor : bool then JQ isor Qs pi else ~ JQ isor Qs pi
    | Some rs => Forall (good s) rs /\ forall pi, RP pi -> (J isor pn pi (map rv_f rs) <-> JQ isor Qs pi)
    end -> mpost (simp_log addr clock simplex intopt net m0 isor o) s (fun r s' => s <= s' /\ rok s' (JQ isor Qs) r).
  Proof.
    intros isor o Qs s H. unfold simp_log. destruct o as [rs|].
    2:{ apply mpost_ret. split; [lia|]. apply bool_ok. intros pi P. specialize (H pi P). destruct isor; [tauto|]. split; [discriminate|tauto]. }
    destruct H as (G & E). destruct rs as [|r0 rs].
    { cbn [map merge_lps]. unfold mpost, mbind, lift, ret. cbn [bind post fst snd]. split; [lia|]. apply bool_ok. intros pi P. rewrite <- (E pi P). cbn [map].
      destruct isor; cbn; [|split; [intros _ c []|auto]]. split; [discriminate|intros (c & [] & _)]. }
    remember (r0 :: rs) as l eqn:El. assert (Hne : forall (g : retval -> coll), map g l <> []) by (intros g; subst l; discriminate).
    destruct (merge_lps_ok (map (if isor then rv_neg else rv_lps) l)) as (c & Ec & Ci & Cs); [apply Hne|]. rewrite Ec.
    eapply mpost_bind; [apply mpost_lift with (P := fun c' s' => c' = Some c /\ s' = s); cbn; auto|]. intros c' s' (-> & ->).
    assert (Ic : inv s c). { apply Ci. rewrite Forall_map. eapply Forall_impl; [|exact G]. intros r Gr. destruct isor; apply Gr. }
    eapply mpost_bind; [apply tick_ok with (P := fun _ s' => s' = S s); reflexivity|]. intros t s' ->.
    eapply mpost_bind; [apply guarded_ok; eapply inv_later; [|exact Ic]; lia|]. intros [c1 b1] s1 (S1 & Y1 & Y2 & Y3). cbn [fst snd] in *.
    assert (K : forall w pi, at_ w pi -> (if isor then ~ J isor pn pi (map rv_f l) else J isor pn pi (map rv_f l)) -> msem c (occ w)).
    { intros w pi P Hj. apply Cs. rewrite Forall_map, Forall_forall. intros r Hr. rewrite Forall_forall in G. destruct (G r Hr) as (_ & _ & _ & Gr). destruct (Gr w pi P) as (_ & G1 & G2).
      destruct isor; cbn [J] in Hj; [apply G2|apply G1].
      - intros Hh. apply Hj. exists (rv_f r). split; [apply in_map; exact Hr|exact Hh].
      - apply Hj. apply in_map. exact Hr. }
    destruct b1; cbn [negb].
    2:{ apply mpost_ret. split; [lia|]. apply bool_ok. intros pi P. rewrite <- (E pi P). destruct P as (w & P). specialize (Y2 eq_refl w (pi 0) (proj2 P)). specialize (K w pi P).
        destruct isor; [|split; [discriminate|tauto]]. split; [|reflexivity]. intros _. apply NNPP. tauto. }
    destruct (@make_log_spec k isor (map rv_f l)) as (f & Ef & Cf & Hf). { rewrite Forall_map. eapply Forall_impl; [|exact G]. intros r Gr. apply Gr. }
    rewrite Ef. eapply mpost_bind; [apply mpost_lift with (P := fun f' s' => f' = f /\ s' = s1); cbn; auto|]. intros f' s' (-> & ->).
    apply mpost_ret. split; [lia|].
    assert (U : forall g : retval -> coll, Forall (inv s) (map g l) -> inv s1 (union_of (map g l))).
    { intros g F. apply union_inv. eapply Forall_impl; [|exact F]. intros d Hd. eapply inv_later; [|exact Hd]. lia. }
    specialize (Y1 eq_refl).
    destruct isor; (split; [|split; [|split]]); cbn [rv_f rv_lps rv_neg].
    - apply U. rewrite Forall_map. eapply Forall_impl; [|exact G]. intros r Gr. apply Gr.
    - exact Y1.
    - exact Cf.
    - intros w pi P. rewrite Hf. split; [apply E; exists w; exact P|]. split.
      + intros (d & Hd & Hh). apply in_map_iff in Hd. destruct Hd as (r & <- & Hr). cbn [msem union_of]. apply msem_union. exists (rv_lps r). split; [apply in_map; exact Hr|].
        rewrite Forall_forall in G. destruct (G r Hr) as (_ & _ & _ & Gr). apply (Gr w pi P). exact Hh.
      + intros Hn. apply (Y3 w (pi 0)); [apply P|]. apply (K w pi P). exact Hn.
    - exact Y1.
    - apply U. rewrite Forall_map. eapply Forall_impl; [|exact G]. intros r Gr. apply Gr.
    - exact Cf.
    - intros w pi P. rewrite Hf. split; [apply E; exists w; exact P|]. split.
      + intros Hj. apply (Y3 w (pi 0)); [apply P|]. apply (K w pi P). exact Hj.
      + intros Hn. cbn [J] in Hn. cbn [msem union_of]. apply msem_union. apply NNPP. intros Hx. apply Hn. intros d Hd. apply in_map_iff in Hd. destruct Hd as (r & <- & Hr). apply NNPP. intros Hh.
        apply Hx. exists (rv_neg r). split; [apply in_map; exact Hr|]. rewrite Forall_forall in G. destruct (G r Hr) as (_ & _ & _ & Gr). apply (Gr w pi P). exact Hh.
  Qed.
End Simp.
