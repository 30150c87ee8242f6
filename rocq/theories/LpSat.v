(** The answer "not satisfiable" of a collection of linear programs is right. *)
From Verif Require Import Base NetModel LpSpec MemberModel LpModel LpProofs.
Set Implicit Arguments.

Definition mpost {A} (x : M A) (s : nat) (P : A -> nat -> Prop) : Prop := post (x s) (fun p => P (fst p) (snd p)).
Lemma mpost_bind : forall A B (x : M A) (f : A -> M B) s P Q, mpost x s Q -> (forall a s', Q a s' -> mpost (f a) s' P) -> mpost (mbind x f) s P.
Proof. intros A B x f s P Q H G. unfold mpost, mbind in *. eapply post_bind; [exact H|]. intros [a s'] K. apply G. exact K. Qed.
Lemma mpost_ret : forall A (a : A) s (P : A -> nat -> Prop), P a s -> mpost (ret a) s P.
Proof. intros A a s P H. exact H. Qed.
Lemma mpost_lift : forall A (r : res A) s (P : A -> nat -> Prop), post r (fun a => P a s) -> mpost (lift r) s P.
Proof. intros A r s P H. unfold mpost, lift. eapply post_bind; [exact H|]. intros a K. exact K. Qed.
Lemma mpost_impl : forall A (x : M A) s (P Q : A -> nat -> Prop), mpost x s P -> (forall a s', P a s' -> Q a s') -> mpost x s Q.
Proof. intros A x s P Q H G. eapply post_impl; [exact H|]. intros [a s'] K. apply G. exact K. Qed.

Lemma combos_in : forall Ll Lr g, In g (combos Ll Lr) <-> exists a q, In a Ll /\ In q Lr /\ g = a ++ q.
Proof.
  intros. unfold combos. rewrite in_flat_map. split.
  - intros (q & Hq & Hg). apply in_map_iff in Hg. destruct Hg as (a & <- & Ha). eauto.
  - intros (a & q & Ha & Hq & ->). exists q. split; [exact Hq|]. apply in_map_iff. eauto.
Qed.
Lemma combos_length : forall Ll Lr, length (combos Ll Lr) = length Ll * length Lr.
Proof. intros Ll Lr. unfold combos. induction Lr; cbn; [lia|]. rewrite app_length, map_length, IHLr. lia. Qed.
Lemma skip_length : forall n L, length (skip n L) <= length L.
Proof.
  intros n L. unfold skip. destruct (Nat.ltb_spec n (length L)); [rewrite skipn_length; lia|]. destruct L; cbn; lia.
Qed.
Lemma skip_split : forall n L, exists pre, L = pre ++ skip n L /\ (n <= length pre \/ length L <= n) /\ (forall g, In g pre -> In g (firstn n L)).
Proof.
  intros n L. unfold skip. destruct (Nat.ltb_spec n (length L)).
  - exists (firstn n L). split; [symmetry; apply firstn_skipn|]. split; [left; rewrite firstn_length; lia|auto].
  - destruct L as [|a L]; [exists []; cbn; split; auto; split; [right; lia|tauto]|].
    exists (removelast (a :: L)). split; [apply app_removelast_last; discriminate|]. split; [right; exact H|].
    intros g Hg. rewrite firstn_all2 by exact H. rewrite (@app_removelast_last _ (a :: L) []) by discriminate. apply in_or_app. left. exact Hg.
Qed.
Lemma enum_width : forall c, length (enum c) <= width c.
Proof.
  induction c using coll_ind'; cbn [enum width]; [cbn; lia| |].
  - induction H; cbn; [lia|]. rewrite app_length. lia.
  - eapply Nat.le_trans; [apply skip_length|]. rewrite combos_length. apply Nat.mul_le_mono; assumption.
Qed.

Section Sat.
  Variable addr : lrow -> N.
  Hypothesis addr_inj : forall r s, addr r = addr s -> r = s.
  Variable clock : nat -> bool.
  Hypothesis clock_mono : forall n, clock n = true -> clock (S n) = true.
  Variables simplex intopt : nat -> lp -> glp_ret * glp_status.
  Hypothesis simplex_sound : sound_solver simplex.
  Hypothesis intopt_sound : sound_solver intopt.
  Variable net : cnet.
  Variable m0 : list N.
  Variable B : lp.
  Hypothesis HB : base_lp net m0 = Ok B.

  Lemma clock_le : forall n m, n <= m -> clock n = true -> clock m = true.
  Proof. intros n m H. induction H; auto. Qed.
  Lemma base_rows : lp_rows B = [].
  Proof. unfold base_lp in HB. destruct (columns _ _ _); try discriminate. cbn [bind] in HB. injection HB as <-. reflexivity. Qed.
  Definition infeasible (P : (nat -> Z) -> Prop) : Prop := forall x, solution B x -> ~ P x.

  Lemma add_rows_ok : forall eqs rows s, mpost (add_rows clock eqs rows) s (fun r s' => s <= s' /\
    match r with
    | inl true => forall x, ~ Forall (fun q => eqsem q x) eqs
    | inl false => True
    | inr rows' => rows' = rows ++ map (fun q => (eq_row q, eq_lo q, eq_hi q)) eqs
    end).
  Proof.
    induction eqs as [|q eqs IH]; intros rows s; cbn [add_rows].
    - apply mpost_ret. split; [lia|]. cbn. rewrite app_nil_r. reflexivity.
    - destruct (match eq_lo q, eq_hi q with Some l, Some h => (h <? l)%Z | _, _ => false end) eqn:E.
      + apply mpost_ret. split; [lia|]. intros x H. inversion H as [|? ? (H1 & H2) _]; subst. unfold eqsem in *.
        destruct (eq_lo q) as [lo|]; [|discriminate]. destruct (eq_hi q) as [hi|]; [|discriminate]. cbn in H1, H2. apply Z.ltb_lt in E. lia.
      + eapply mpost_bind with (Q := fun b s' => s' = S s); [reflexivity|]. intros b s' ->. destruct b.
        * apply mpost_ret. split; [lia|exact I].
        * eapply mpost_impl; [apply IH|]. intros [[|]|rows'] s' (H1 & H2).
          -- split; [lia|]. intros x H. apply (H2 x). inversion H; auto.
          -- split; [lia|exact I].
          -- split; [lia|]. rewrite H2, <- app_assoc. reflexivity.
  Qed.
  Lemma solve_ok : forall P s, mpost (solve simplex intopt P) s (fun b s' => s <= s' /\ (b = true -> ~ exists x, solution P x)).
  Proof.
    intros P s. unfold mpost, solve. pose proof (simplex_sound s (P := P)) as H1. pose proof (intopt_sound (S s) (P := P)) as H2.
    destruct (simplex s P) as [[| | | | |] [| | | | |]] eqn:E1; cbn [fst snd post]; unfold reports_infeasible in H1; cbn [fst snd] in H1;
      try (split; [lia|discriminate]); try (split; [lia|intros _; apply H1; exact I]).
    destruct (intopt (S s) P) as [[| | | | |] [| | | | |]] eqn:E2; cbn [fst snd post]; unfold reports_infeasible in H2; cbn [fst snd] in H2;
      try (split; [lia|discriminate]); try (split; [lia|intros _; apply H2; exact I]).
  Qed.
  Lemma is_impossible_ok : forall p s, pr_imp p = false -> mpost (is_impossible clock simplex intopt net m0 p) s
    (fun y s' => s <= s' /\ pr_eqs (fst y) = pr_eqs p /\ (snd y = true -> infeasible (psem p)) /\ (snd y = false -> pr_imp (fst y) = false)).
  Proof.
    intros p s Hp. unfold is_impossible. rewrite Hp. destruct (pr_eqs p) as [|q eqs] eqn:E.
    - apply mpost_ret. cbn. repeat split; auto. discriminate.
    - rewrite <- E. assert (T : forall s', s <= s' -> mpost (ret (p, false)) s' (fun (y : prog * bool) s' => s <= s' /\ pr_eqs (fst y) = pr_eqs p /\ (snd y = true -> infeasible (psem p)) /\ (snd y = false -> pr_imp (fst y) = false))).
      { intros s' Hs. apply mpost_ret. cbn. repeat split; auto. discriminate. }
      eapply mpost_bind with (Q := fun b s' => s' = S s); [reflexivity|]. intros b s' ->. destruct b; [apply T; lia|].
      destruct (out_of_bounds m0); [apply T; lia|].
      eapply mpost_bind with (Q := fun r s' => s <= s' /\ (r = None \/ r = Some B)).
      { unfold make_base. eapply mpost_bind with (Q := fun b s' => s' = S (S s)); [reflexivity|]. intros b s' ->. destruct b; [apply mpost_ret; split; auto; lia|].
        rewrite HB. unfold mpost, mbind, lift, ret. cbn [bind post fst snd]. split; [lia|]. right. reflexivity. }
      intros r s1 (Hs1 & [->| ->]); [apply T; lia|].
      eapply mpost_bind; [apply add_rows_ok|]. intros rows s2 (Hs2 & Hr). destruct rows as [[|]|rows].
      + apply mpost_ret. cbn. split; [lia|]. split; [reflexivity|]. split; [|discriminate]. intros _ x _ H. exact (Hr x H).
      + apply T. lia.
      + cbn [app] in Hr. eapply mpost_bind; [apply solve_ok|]. intros b s3 (Hs3 & Hb). apply mpost_ret. cbn. split; [lia|]. split; [reflexivity|]. split; [|auto].
        intros -> x Hx H. apply Hb; [reflexivity|]. exists x. destruct Hx as (A1 & A2 & _). split; [exact A1|]. split; [exact A2|]. cbn [lp_rows].
        intros row lo hi Hin. subst rows. apply in_map_iff in Hin. destruct Hin as (q0 & Eq & Hq). injection Eq as <- <- <-.
        unfold psem in H. rewrite Forall_forall in H. apply (H q0 Hq).
  Qed.

  Definition notimp (v : verdict) : Prop := match v with VImpossible => False | _ => True end.
  Fixpoint wf (c : coll) : Prop :=
    match c with
    | Single _ v p => notimp v /\ pr_imp p = false
    | Union _ v lps _ => notimp v /\ fold_right and True (map wf lps)
    | Merge _ v l r _ _ _ _ n _ => notimp v /\ wf l /\ wf r /\ forall g, In g (firstn n (combos (enum l) (enum r))) -> infeasible (sem g)
    end.
  Definition inv (s : nat) (c : coll) : Prop := clock s = true \/ wf c.
  Lemma wf_all : forall lps, fold_right and True (map wf lps) <-> Forall wf lps.
  Proof. induction lps; cbn; [split; auto|]. rewrite Forall_cons_iff, IHlps. tauto. Qed.
  Lemma wf_clean : forall c, wf c -> clean c.
  Proof.
    induction c using coll_ind'; cbn [wf clean]; [tauto| |tauto].
    intros (_ & F). rewrite wf_all in F. rewrite clean_union. rewrite Forall_forall in *. auto.
  Qed.
  Lemma wf_alike : forall a b, alike a b -> wf a -> wf b.
  Proof.
    induction a using coll_ind'; intros y Hy; inversion Hy; subst; cbn [wf].
    - auto.
    - intros (V & F). split; [exact V|]. rewrite wf_all in *.
      match goal with G : Forall2 alike lps l' |- _ => revert G end. clear Hy. revert l' F. induction H; intros l' F G; inversion G; subst; constructor; inversion F; auto.
    - match goal with F : alike a1 _ |- _ => pose proof (alike_facts F) as (E1 & _); pose proof (IHa1 _ F) end.
      match goal with F : alike a2 _ |- _ => pose proof (alike_facts F) as (E2 & _); pose proof (IHa2 _ F) end.
      rewrite E1, E2. tauto.
  Qed.
  Lemma inv_le : forall s s' c, s <= s' -> inv s c -> inv s' c.
  Proof. intros s s' c H [C|W]; [left; eapply clock_le; eauto|right; exact W]. Qed.
  Lemma inv_alike : forall s a b, alike a b -> inv s a -> inv s b.
  Proof. intros s a b H [C|W]; [left; exact C|right; eapply wf_alike; eauto]. Qed.
  Lemma msem_enum : forall c, wf c -> forall x, solution B x -> msem c x -> exists g, In g (enum c) /\ sem g x.
  Proof.
    induction c using coll_ind'; cbn [wf msem enum]; intros W x Hx Hm.
    - exists [p]. split; [left; reflexivity|]. constructor; auto.
    - destruct W as (_ & W). rewrite wf_all in W. induction H; cbn [map fold_right flat_map] in *; [destruct Hm|].
      inversion W; subst. destruct Hm as [Hm|Hm].
      + destruct (H H3 x Hx Hm) as (g & Hg & Sg). exists g. rewrite in_app_iff. auto.
      + destruct (IHForall H4 Hm) as (g & Hg & Sg). exists g. rewrite in_app_iff. auto.
    - destruct W as (_ & W1 & W2 & Wn). destruct Hm as (M1 & M2). destruct (IHc1 W1 x Hx M1) as (g1 & I1 & S1). destruct (IHc2 W2 x Hx M2) as (g2 & I2 & S2).
      exists (g1 ++ g2). assert (S12 : sem (g1 ++ g2) x) by (apply Forall_app; auto). split; [|exact S12].
      assert (I12 : In (g1 ++ g2) (combos (enum c1) (enum c2))) by (apply combos_in; eauto).
      destruct (skip_split n (combos (enum c1) (enum c2))) as (pre & E & _ & P). rewrite E in I12. apply in_app_or in I12. destruct I12 as [I12|I12]; [|exact I12].
      exfalso. apply (Wn _ (P _ I12) x Hx S12).
  Qed.

  (** the search through the programs of a conjunction *)
  Definition merged (c : coll) (C pre L : list (list prog)) : Prop :=
    match c with
    | Merge _ _ l r _ _ _ _ n _ => C = combos (enum l) (enum r) /\ C = pre ++ L /\ (n <= length pre \/ length C <= n) /\ (forall g, In g pre -> infeasible (sem g))
    | _ => False
    end.
  Lemma sat_merge_ok : forall k c s C pre L, length L < k -> wf c -> Rest c L -> merged c C pre L ->
    mpost (sat_merge addr clock simplex intopt net m0 k c) s (fun y s' => s <= s' /\ wf (fst y) /\ height (fst y) = height c /\
      (forall x, msem c x <-> msem (fst y) x) /\ (snd y = false -> infeasible (msem c))).
  Proof.
    induction k as [|k IH]; intros c s C pre L Hk W R Mg; [lia|]. cbn [sat_merge].
    eapply mpost_bind with (Q := fun b s' => s' = S s); [reflexivity|]. intros b s' ->. destruct b.
    { apply mpost_ret. cbn. split; [lia|]. repeat split; auto; discriminate. }
    eapply mpost_bind.
    { apply mpost_lift with (P := fun y s' => s' = S s /\ stepped c no_prog L y /\ (snd y = true -> fresh_merge (fst (fst (fst y))))).
      eapply post_impl; [apply merge_ok; [exact addr_inj|reflexivity|apply wf_clean, W|reflexivity|exact R]|]. intros y Hy. split; [reflexivity|exact Hy]. }
    intros [[[c1 p] he] more] s1 (-> & (h & tl & EL & A & Pi & Ps & Rm) & Fr). cbn [fst snd] in Fr.
    pose proof (wf_alike A W) as W1. destruct (alike_facts A) as (_ & Hh & _ & _ & _ & _ & Hms).
    destruct he; [apply mpost_ret; cbn; split; [lia|]; repeat split; auto; try apply Hms; discriminate|].
    eapply mpost_bind with (Q := fun b s' => s' = S (S s)); [reflexivity|]. intros b s' ->. destruct b.
    { apply mpost_ret. cbn. split; [lia|]. repeat split; auto; try apply Hms; discriminate. }
    eapply mpost_bind; [apply is_impossible_ok; exact Pi|]. intros i s2 (Hs2 & _ & Hi & _). destruct (snd i) eqn:Ei; cbn [negb].
    2:{ apply mpost_ret. cbn. split; [lia|]. repeat split; auto; try apply Hms; discriminate. }
    assert (Ih : infeasible (sem h)).
    { intros x Hx Hs. apply (Hi eq_refl x Hx). apply Ps. split; [constructor|exact Hs]. }
    destruct c as [| |e v l r t0 a0 b0 f0 n k0]; try contradiction. destruct Mg as (EC & EC2 & Hn & Hpre).
    inversion A as [| |e' v' l' l1 r' r1 t' t1 a' a1 b' b1 f' f1 n' k' k1 Al Ar]; subst e' v' l' r' t' a' b' f' n' k' c1.
    destruct (alike_facts Al) as (El & _). destruct (alike_facts Ar) as (Er & _).
    assert (EC3 : C = (pre ++ [h]) ++ tl) by (rewrite EC2, EL, <- app_assoc; reflexivity).
    assert (Hpre2 : forall g, In g (pre ++ [h]) -> infeasible (sem g)).
    { intros g Hg. apply in_app_or in Hg. destruct Hg as [Hg|[<-|[]]]; auto. }
    assert (HC : forall g, In g (firstn (S n) C) -> infeasible (sem g)).
    { intros g Hg. destruct Hn as [Hn|Hn].
      - apply Hpre2. rewrite EC3, firstn_app in Hg. apply in_app_or in Hg. destruct Hg as [Hg|Hg].
        + rewrite <- (firstn_skipn (S n) (pre ++ [h])). apply in_or_app. left. exact Hg.
        + assert (Z0 : S n - length (pre ++ [h]) = 0) by (rewrite app_length; cbn [length]; lia). rewrite Z0 in Hg. destruct Hg.
      - destruct W as (_ & _ & _ & Wn). apply Wn. rewrite <- EC. rewrite firstn_all2 in * by lia. exact Hg. }
    assert (Wc : wf (Merge e v l1 r1 t1 a1 b1 f1 (S n) k1)).
    { cbn [wf] in W1 |- *. rewrite <- El, <- Er, <- EC. tauto. }
    destruct more.
    - specialize (Fr eq_refl). cbn [fresh_merge] in Fr.
      assert (R2 : Rest (Merge e v l1 r1 t1 a1 b1 f1 (S n) k1) tl).
      { inversion Rm; subst.
        - replace (n - k1) with (S n - k1) by lia. constructor. assumption.
        - replace (n - k1) with (S n - k1) by lia. constructor; assumption. }
      eapply mpost_impl.
      + apply IH with (C := C) (pre := pre ++ [h]) (L := tl); auto.
        * rewrite EL in Hk. cbn in Hk. lia.
        * cbn [merged]. rewrite <- El, <- Er. split; [exact EC|]. split; [exact EC3|]. split; [|exact Hpre2].
          rewrite app_length. cbn. destruct Hn; [left; lia|right; lia].
      + intros y s3 (G1 & G2 & G3 & G4 & G5). split; [lia|]. split; [exact G2|]. split; [rewrite G3; cbn [height] in *; lia|]. split.
        * intros x. rewrite <- (G4 x). cbn [msem]. destruct (alike_facts Al) as (_ & _ & _ & _ & _ & _ & Ml). destruct (alike_facts Ar) as (_ & _ & _ & _ & _ & _ & Mr). rewrite Ml, Mr. tauto.
        * intros Hf x Hx Hm. apply (G5 Hf x Hx). cbn [msem] in *. destruct (alike_facts Al) as (_ & _ & _ & _ & _ & _ & Ml). destruct (alike_facts Ar) as (_ & _ & _ & _ & _ & _ & Mr). rewrite <- Ml, <- Mr. exact Hm.
    - subst tl. apply mpost_ret. cbn [fst snd]. split; [lia|]. split; [exact Wc|]. split; [cbn [height] in *; lia|]. split.
      + intros x. rewrite (Hms x). reflexivity.
      + intros _ x Hx (Ml & Mr). destruct W as (_ & Wl & Wr & _). destruct (msem_enum _ Wl Hx Ml) as (g1 & I1 & S1). destruct (msem_enum _ Wr Hx Mr) as (g2 & I2 & S2).
        apply (Hpre2 (g1 ++ g2)) with (x := x); [|exact Hx|apply Forall_app; auto].
        rewrite app_nil_r in EC3. rewrite <- EC3, EC. apply combos_in. eauto.
  Qed.

  Definition sat_spec (d : nat) (s : nat) (c : coll) (y : coll * bool) (s' : nat) : Prop :=
    s <= s' /\ (snd y = true -> inv s' (fst y)) /\ height (fst y) <= d /\ (snd y = false -> infeasible (msem c)) /\ (forall x, solution B x -> msem c x -> msem (fst y) x).

  Lemma msem_union : forall lps x, fold_right or False (map (fun c => msem c x) lps) <-> exists c, In c lps /\ msem c x.
  Proof.
    induction lps as [|a l IH]; intros x; cbn; [split; [tauto|intros (c & [] & _)]|]. rewrite IH. split.
    - intros [H|(c & Hc & H)]; eauto.
    - intros (c & [<-|Hc] & H); eauto.
  Qed.
  Lemma sat_union_ok : forall f d, (forall c s, height c <= d -> wf c -> mpost (f c) s (sat_spec d s c)) ->
    forall rl s, (forall c, In c rl -> height c <= d /\ wf c) ->
    mpost (sat_union clock f rl []) s (fun y s' => s <= s' /\ (clock s' = true \/ Forall wf (fst y)) /\ (forall c, In c (fst y) -> height c <= d) /\
      (snd y = false -> forall c, In c rl -> infeasible (msem c)) /\
      (forall x, solution B x -> (exists c, In c rl /\ msem c x) -> exists c, In c (fst y) /\ msem c x)).
  Proof.
    intros f d Hf. induction rl as [|c rl IH]; intros s Hrl; cbn [sat_union].
    { apply mpost_ret. cbn. split; [lia|]. split; [right; constructor|]. split; [tauto|]. split; [tauto|]. intros x _ (c & [] & _). }
    destruct (Hrl c (or_introl eq_refl)) as (Hc & Wc).
    eapply mpost_bind; [apply Hf; auto|]. intros [c' b] s1 (S1 & I1 & H1 & N1 & M1). cbn [fst snd] in *.
    assert (Keep : forall s2, s1 <= s2 -> (b = true \/ clock s2 = true) ->
      mpost (ret (rev rl ++ [c'], true)) s2 (fun (y : list coll * bool) s' => s <= s' /\ (clock s' = true \/ Forall wf (fst y)) /\ (forall c, In c (fst y) -> height c <= d) /\
      (snd y = false -> forall c0, In c0 (c :: rl) -> infeasible (msem c0)) /\
      (forall x, solution B x -> (exists c0, In c0 (c :: rl) /\ msem c0 x) -> exists c0, In c0 (fst y) /\ msem c0 x))).
    { intros s2 Hs Hb. apply mpost_ret. cbn [fst snd]. split; [lia|]. split.
      - assert (I2 : inv s2 c') by (destruct Hb as [Hb|Hb]; [eapply inv_le; [exact Hs|apply I1, Hb]|left; exact Hb]).
        destruct I2 as [C|W]; [left; exact C|]. right. apply Forall_app. split; [|constructor; auto].
        apply Forall_rev, Forall_forall. intros c0 H0. apply Hrl. right. exact H0.
      - split; [|split; [discriminate|]].
        + intros c0 H0. apply in_app_or in H0. destruct H0 as [H0|[<-|[]]]; [|exact H1]. apply Hrl. right. apply in_rev. exact H0.
        + intros x Hx (c0 & [<-|H0] & Hm).
          * exists c'. split; [apply in_or_app; right; left; reflexivity|auto].
          * exists c0. split; [apply in_or_app; left; apply in_rev; rewrite rev_involutive; exact H0|exact Hm]. }
    destruct b; [apply Keep; auto|].
    eapply mpost_bind with (Q := fun b s' => s' = S s1 /\ b = clock s1); [split; reflexivity|]. intros b s2 (-> & ->). destruct (clock s1) eqn:C1.
    { apply Keep; [lia|]. right. apply clock_mono, C1. }
    eapply mpost_impl; [apply IH; intros c0 H0; apply Hrl; right; exact H0|].
    intros y s3 (G1 & G2 & G3 & G4 & G5). split; [lia|]. split; [exact G2|]. split; [exact G3|]. split.
    - intros Hy c0 [<-|H0]; [apply N1; reflexivity|apply G4; auto].
    - intros x Hx (c0 & [<-|H0] & Hm); [exfalso; apply (N1 eq_refl x Hx Hm)|]. apply G5; eauto.
  Qed.
  Lemma set_res_facts : forall c v, height (set_res c v) = height c /\ (forall x, msem (set_res c v) x <-> msem c x) /\ (wf c -> notimp v -> wf (set_res c v)).
  Proof. intros [e v p|e v lps cur|e v l r t a b f n k] v'; cbn [set_res height msem wf]; (split; [reflexivity|]); (split; [tauto|]); tauto. Qed.
  Lemma notimp_dec : forall v, {v = VImpossible} + {notimp v}.
  Proof. intros [| |]; cbn; auto. Qed.

  Theorem satisfiable_ok : forall d c s, height c <= d -> inv s c -> mpost (satisfiable addr clock simplex intopt net m0 d c) s (sat_spec d s c).
  Proof.
    induction d as [|d IH]; intros c s Hd Hi; [destruct c; cbn in Hd; lia|]. cbn [satisfiable].
    eapply mpost_bind.
    { apply mpost_lift with (P := fun c' s' => s' = s /\ Rest c' (enum c) /\ alike c c'). eapply post_impl; [apply reset_post|]. intros c' H. split; [reflexivity|exact H]. }
    intros c1 s' (-> & R & A). destruct (alike_facts A) as (Ee & Hh & Ew & _ & _ & Er & Hms).
    eapply mpost_bind with (Q := fun b s' => s' = S s /\ b = clock s); [split; reflexivity|]. intros b s' (-> & ->).
    assert (T : clock s || has_empty c1 = true -> mpost (ret (c1, true)) (S s) (sat_spec (S d) s c)).
    { intros _. apply mpost_ret. split; [lia|]. cbn [fst snd]. split; [intros _; eapply inv_le; [|eapply inv_alike; eauto]; lia|]. split; [lia|]. split; [discriminate|]. intros x _. apply Hms. }
    destruct (clock s || has_empty c1) eqn:Hc; [apply T; reflexivity|]. clear T. apply orb_false_iff in Hc. destruct Hc as (Ck & _).
    destruct Hi as [Hi|W]; [congruence|]. pose proof (wf_alike A W) as W1.
    assert (Nv : match coll_res c1 with VImpossible => true | _ => false end = false).
    { destruct c1 as [e v p|e v lps cur|e v l r t a b f n k]; cbn [coll_res wf] in *; destruct v; try reflexivity; cbn [notimp] in W1; tauto. }
    rewrite Nv. clear Nv.
    (* the three implementations *)
    assert (G : mpost match c1 with
         | Single e v p => mbind (is_impossible clock simplex intopt net m0 p) (fun i => ret (Single e v (fst i), negb (snd i)))
         | Union e v lps cur => mbind (sat_union clock (satisfiable addr clock simplex intopt net m0 d) (rev lps) []) (fun q => ret (Union e v (fst q) cur, snd q || match v with VPossible => true | _ => false end))
         | Merge _ v _ _ _ _ _ _ _ _ => mbind (sat_merge addr clock simplex intopt net m0 (S (width c1)) c1) (fun q => ret (fst q, snd q || match v with VPossible => true | _ => false end))
         end (S s) (fun y s' => s <= s' /\ (snd y = true -> inv s' (fst y)) /\ height (fst y) <= S d /\ (snd y = false -> infeasible (msem c1)) /\ (forall x, solution B x -> msem c1 x -> msem (fst y) x))).
    { destruct c1 as [e v p|e v lps cur|e v l r t a b f n k].
      - cbn [wf] in W1. eapply mpost_bind; [apply is_impossible_ok, W1|]. intros i s1 (S1 & E1 & I1 & J1). apply mpost_ret. cbn [fst snd].
        split; [lia|]. split; [intros Hn; right; cbn [wf]; apply negb_true_iff in Hn; split; [apply W1|apply J1, Hn]|]. split; [cbn; lia|]. split.
        + intros Hn. apply negb_false_iff in Hn. cbn [msem]. apply I1, Hn.
        + intros x _. cbn [msem]. unfold psem. rewrite E1. auto.
      - cbn [wf] in W1. destruct W1 as (Vn & W1). rewrite wf_all in W1. cbn [height] in Hh.
        eapply mpost_bind; [apply sat_union_ok with (d := d)|].
        + intros c0 s0 H0 W0. apply IH; [exact H0|right; exact W0].
        + intros c0 H0. apply in_rev in H0. rewrite Forall_forall in W1. split; [|auto]. pose proof (@height_in c0 lps H0). lia.
        + intros y s1 (S1 & I1 & H1 & N1 & M1). apply mpost_ret. cbn [fst snd]. split; [lia|]. split.
          { intros _. destruct I1 as [I1|I1]; [left; exact I1|right]. cbn [wf]. split; [exact Vn|]. rewrite wf_all. exact I1. }
          split.
          { cbn [height]. apply le_n_S. revert H1. generalize (fst y). intros l Hl. induction l as [|a l IHl]; cbn; [lia|]. assert (height a <= d) by (apply Hl; left; reflexivity).
            assert (fold_right Nat.max 0 (map height l) <= d) by (apply IHl; intros c0 H0; apply Hl; right; exact H0). lia. }
          split.
          { intros Hf. apply orb_false_iff in Hf. destruct Hf as (Hf & _). intros x Hx Hm. cbn [msem] in Hm. apply msem_union in Hm. destruct Hm as (c0 & H0 & Hm).
            apply (N1 Hf c0) with (x := x); auto. apply in_rev. rewrite rev_involutive. exact H0. }
          { intros x Hx Hm. cbn [msem] in *. apply msem_union. apply M1; [exact Hx|]. apply msem_union in Hm. destruct Hm as (c0 & H0 & Hm). exists c0. split; [|exact Hm].
            apply in_rev. rewrite rev_involutive. exact H0. }
      - set (c1 := Merge e v l r t a b f n k) in *. destruct (skip_split n (combos (enum l) (enum r))) as (pre & Ep & Hn & Hp).
        eapply mpost_bind; [apply sat_merge_ok with (C := combos (enum l) (enum r)) (pre := pre) (L := enum c1); auto|].
        + apply Nat.lt_succ_r, enum_width.
        + rewrite <- Ee. exact R.
        + cbn [merged c1]. split; [reflexivity|]. split; [exact Ep|]. split; [exact Hn|]. intros g Hg. destruct W1 as (_ & _ & _ & Wn). apply Wn, Hp, Hg.
        + intros y s1 (S1 & I1 & H1 & M1 & N1). apply mpost_ret. cbn [fst snd]. split; [lia|]. split; [intros _; right; exact I1|]. split; [lia|]. split.
          * intros Hf. apply orb_false_iff in Hf. apply N1, Hf.
          * intros x _. apply M1. }
    eapply mpost_bind; [exact G|]. clear G. intros [c2 b] s1 (S1 & I1 & H1 & N1 & M1). cbn [fst snd] in *.
    apply mpost_ret. unfold sat_spec. cbn [fst snd]. destruct (set_res_facts c2 (if b then VPossible else VImpossible)) as (F1 & F2 & F3).
    split; [lia|]. split.
    - intros ->. destruct (I1 eq_refl) as [I|I]; [left; exact I|right; apply F3; [exact I|exact Logic.I]].
    - split; [lia|]. split.
      + intros Hb x Hx Hm. apply (N1 Hb x Hx). apply Hms, Hm.
      + intros x Hx Hm. apply F2. apply M1; [exact Hx|]. apply Hms, Hm.
  Qed.
End Sat.
