(** Proofs about the translation of queries to automata. *)
From Verif Require Import Base NetSpec PqlSyntax PqlSpec PqlModel PqlProofs PqlRuns PushRules SearchMain LtlSpec LtlModel LtlMain LtlQuerySpec LtlQueryModel.
From Coq Require Import Classical_Prop.

(** ** The list of propositions *)
Definition entry_ok (k : nat) (e : cond * name) : Prop :=
  atomic (fst e) = true /\ (snd e = NIdx k \/ snd e = NText (fst e)).
Definition aps_ok (st : aps) : Prop := forall k e, nth_error st k = Some e -> entry_ok k e.

Lemma aps_ok_nil : aps_ok [].
Proof. intros [|k] e H; discriminate H. Qed.
Lemma aps_ok_snoc : forall st e, aps_ok st -> entry_ok (length st) e -> aps_ok (st ++ [e]).
Proof.
  intros st e H He k x Hk. destruct (Nat.lt_ge_cases k (length st)) as [L|L].
  - rewrite nth_error_app1 in Hk by exact L. exact (H k x Hk).
  - rewrite nth_error_app2 in Hk by exact L. destruct (k - length st) as [|j] eqn:Ej.
    + cbn in Hk. injection Hk as <-. replace k with (length st) by lia. exact He.
    + cbn in Hk. destruct j; discriminate Hk.
Qed.
Lemma aps_fun : forall st d d' t, aps_ok st -> In (d, t) st -> In (d', t) st -> d = d'.
Proof.
  intros st d d' t H A B. apply In_nth_error in A as (i & A). apply In_nth_error in B as (j & B).
  destruct (H _ _ A) as (_ & [E1|E1]); destruct (H _ _ B) as (_ & [E2|E2]); cbn [fst snd] in *; try congruence.
Qed.

Lemma nontemporal_atomic : forall c, ltl c = true -> temporal c = false -> atomic c = true.
Proof.
  induction c using cond_ind'; cbn [ltl temporal atomic]; intros A B; try reflexivity; try discriminate; auto.
  - rewrite forallb_forall in *. intros x Hx. rewrite Forall_forall in H. apply H; auto.
    destruct (temporal x) eqn:E; auto. assert (existsb temporal l = true) by (apply existsb_exists; eauto). congruence.
  - rewrite forallb_forall in *. intros x Hx. rewrite Forall_forall in H. apply H; auto.
    destruct (temporal x) eqn:E; auto. assert (existsb temporal l = true) by (apply existsb_exists; eauto). congruence.
Qed.

Lemma wsat_and : forall w i l, wsat w i (SAnd l) <-> (forall f, In f l -> wsat w i f).
Proof.
  intros w i l. cbn [wsat]. induction l as [|f l IH]; cbn [map fold_right In]; [split; [intros _ f []|trivial]|].
  rewrite IH. split; [intros (A & B) g [<-|G]; auto|intros A; split; auto].
Qed.
Lemma wsat_or : forall w i l, wsat w i (SOr l) <-> (exists f, In f l /\ wsat w i f).
Proof.
  intros w i l. cbn [wsat]. induction l as [|f l IH]; cbn [map fold_right In]; [split; [intros []|intros (f & [] & _)]|].
  rewrite IH. split; [intros [A|(g & G & A)]; eauto|intros (g & [<-|G] & A); eauto].
Qed.

Section Translation.
  Variable net : pnet.
  Variable comp : compression.
  Variable big : cond -> bool.
  Variable expand : bool.
  Notation spot := (to_spot comp big expand).
  Notation mkap := (make_ap comp big).

  (** The word gives the listed propositions their meaning on the run. *)
  Definition reads (pi : path) (w : nat -> name -> Prop) (st : aps) : Prop :=
    forall d t i, In (d, t) st -> (w i t <-> holds net (shift i pi) d).
  Definition tgood (f : cond -> aps -> sform * aps) (c : cond) : Prop :=
    forall st, aps_ok st -> exists new,
      snd (f c st) = st ++ new /\ aps_ok (st ++ new) /\
      incl (names (fst (f c st))) (map snd (st ++ new)) /\ incl (map snd new) (names (fst (f c st))) /\
      forall pi w, reads pi w (st ++ new) -> forall i, wsat w i (fst (f c st)) <-> holds net (shift i pi) c.

  Lemma reads_app : forall pi w st new, reads pi w (st ++ new) -> reads pi w st.
  Proof. intros pi w st new H d t i A. apply H. apply in_or_app. auto. Qed.

  Lemma make_ap_good : forall c, atomic c = true -> tgood mkap c.
  Proof.
    intros c Ha st Hs. unfold make_ap.
    set (t := match comp with CompNone => NText c | CompChoose => if big c then NIdx (length st) else NText c | CompFull => NIdx (length st) end).
    assert (Ht : t = NIdx (length st) \/ t = NText c) by (unfold t; destruct comp; auto; destruct (big c); auto).
    exists [(c, t)]. cbn [fst snd names map]. split; [reflexivity|]. split; [apply aps_ok_snoc; auto; split; auto|].
    split; [intros x [<-|[]]; rewrite map_app; apply in_or_app; right; left; reflexivity|].
    split; [intros x Hx; exact Hx|].
    intros pi w R i. cbn [wsat]. apply R. apply in_or_app. right. left. reflexivity.
  Qed.

  Definition sgood (f : cond -> aps -> sform * aps) (p : cond -> bool) (l : list cond) : Prop :=
    forall st, aps_ok st -> exists new,
      snd (visit_sel f p l st) = st ++ new /\ aps_ok (st ++ new) /\
      incl (flat_map names (fst (visit_sel f p l st))) (map snd (st ++ new)) /\
      incl (map snd new) (flat_map names (fst (visit_sel f p l st))) /\
      forall pi w, reads pi w (st ++ new) -> forall i,
        (forall g, In g (fst (visit_sel f p l st)) -> exists e, In e l /\ p e = true /\ (wsat w i g <-> holds net (shift i pi) e)) /\
        (forall e, In e l -> p e = true -> exists g, In g (fst (visit_sel f p l st)) /\ (wsat w i g <-> holds net (shift i pi) e)).

  Lemma visit_sel_good : forall f p l, Forall (tgood f) l -> sgood f p l.
  Proof.
    intros f p l H. induction H as [|e l He Hl IH]; intros st Hs; cbn [visit_sel].
    - exists []. rewrite app_nil_r. cbn [fst snd flat_map map]. split; [reflexivity|]. split; [exact Hs|]. split; [intros x []|]. split; [intros x []|].
      intros pi w R i. split; [intros g []|intros e []].
    - destruct (p e) eqn:Ep.
      + destruct (He st Hs) as (n1 & E1 & O1 & I1 & J1 & R1).
        destruct (IH (snd (f e st))) as (n2 & E2 & O2 & I2 & J2 & R2); [rewrite E1; exact O1|].
        cbv zeta. cbn [fst snd flat_map]. exists (n1 ++ n2).
        set (r := visit_sel f p l (snd (f e st))) in *. rewrite E1 in E2, O2, I2, R2.
        rewrite <- app_assoc in E2, O2, I2, R2.
        split; [exact E2|]. split; [exact O2|]. split; [|split].
        * intros x Hx. apply in_app_or in Hx as [Hx|Hx]; [|apply I2, Hx].
          apply I1 in Hx. rewrite app_assoc, map_app. apply in_or_app. left. exact Hx.
        * intros x Hx. rewrite map_app in Hx. apply in_or_app. apply in_app_or in Hx as [Hx|Hx]; [left; apply J1, Hx|right; apply J2, Hx].
        * intros pi w R i. assert (Ra : reads pi w (st ++ n1)) by (apply (reads_app _ _ _ n2); rewrite <- app_assoc; exact R).
          specialize (R1 pi w Ra i). destruct (R2 pi w R i) as (A & B). split.
          -- intros g [<-|G]; [exists e; cbn [In]; auto|]. destruct (A g G) as (e' & H1 & H2 & H3). exists e'. cbn [In]. auto.
          -- intros e' [<-|G] P'; [exists (fst (f e st)); cbn [In]; auto|]. destruct (B e' G P') as (g & H1 & H2). exists g. cbn [In]. auto.
      + destruct (IH st Hs) as (n2 & E2 & O2 & I2 & J2 & R2). exists n2. split; [exact E2|]. split; [exact O2|]. split; [exact I2|].
        split; [exact J2|]. intros pi w R i. destruct (R2 pi w R i) as (A & B). split.
        * intros g G. destruct (A g G) as (e' & H1 & H2 & H3). exists e'. cbn [In]. auto.
        * intros e' [<-|G] P'; [congruence|]. destruct (B e' G P') as (g & H1 & H2). exists g. cbn [In]. auto.
  Qed.

  Lemma shift_add : forall i j pi c, holds net (shift i (shift j pi)) c <-> holds net (shift (j + i) pi) c.
  Proof. intros. apply holds_shift_shift. Qed.

  Lemma single_good : forall f c (op : sform -> sform) (co : cond -> cond),
    (forall g, names (op g) = names g) ->
    (forall g w pi, (forall i, wsat w i g <-> holds net (shift i pi) c) -> forall i, wsat w i (op g) <-> holds net (shift i pi) (co c)) ->
    tgood f c -> tgood (fun _ st => let a := f c st in (op (fst a), snd a)) (co c).
  Proof.
    intros f c op co Hn Hw H st Hs. destruct (H st Hs) as (n & E & O & I & J & R). exists n. cbv zeta. cbn [fst snd].
    rewrite Hn. split; [exact E|]. split; [exact O|]. split; [exact I|]. split; [exact J|]. intros pi w Rd. apply Hw. apply R, Rd.
  Qed.

  Lemma nt_atomic : forall l, forallb ltl l = true ->
    forallb atomic (filter (fun e => negb (temporal e)) l) = true.
  Proof.
    intros l H. rewrite forallb_forall in *. intros x Hx. apply filter_In in Hx as (A & B). apply nontemporal_atomic; auto.
    destruct (temporal x); [discriminate B|reflexivity].
  Qed.

  Lemma to_spot_good : forall c, ltl c = true -> tgood spot c.
  Proof.
    induction c using cond_ind'; cbn [ltl]; intros Hl; try discriminate Hl.
    - intros st Hs. exists []. cbn [to_spot fst snd names map]. rewrite app_nil_r. split; [reflexivity|]. split; [exact Hs|]. split; [intros x []|]. split; [intros x []|].
      intros pi w R i. cbn [wsat holds]. tauto.
    - exact (make_ap_good CDead eq_refl).
    - refine (single_good spot c SNot CNot (fun _ => eq_refl) _ (IHc Hl)). intros g w pi A i. cbn [wsat holds]. rewrite (A i). tauto.
    - (* and *)
      assert (Hg : Forall (tgood spot) l).
      { rewrite Forall_forall in *. rewrite forallb_forall in Hl. auto. }
      intros st Hs. cbn [to_spot]. cbv zeta.
      destruct (visit_sel_good spot temporal l Hg st Hs) as (n1 & E1 & O1 & I1 & J1 & R1).
      set (t := visit_sel spot temporal l st) in *.
      destruct (filter (fun e => negb (temporal e)) l) as [|e0 nt] eqn:Ef.
      + exists n1. cbn [fst snd names]. split; [exact E1|]. split; [exact O1|]. split; [exact I1|]. split; [exact J1|].
        intros pi w R i. destruct (R1 pi w R i) as (A & B). rewrite wsat_and, holds_and. split.
        * intros H1 e He. destruct (temporal e) eqn:Et.
          -- destruct (B e He Et) as (g & G1 & G2). apply G2, H1, G1.
          -- exfalso. assert (In e []) as []. rewrite <- Ef. apply filter_In. rewrite Et. auto.
        * intros H1 g G. destruct (A g G) as (e & He & _ & Hi). apply Hi, H1, He.
      + rewrite <- Ef. destruct expand eqn:Ex.
        * destruct (visit_sel_good _ (fun e => negb (temporal e)) l Hg (snd t)) as (n2 & E2 & O2 & I2 & J2 & R2); [rewrite E1; exact O1|].
          set (u := visit_sel _ (fun e => negb (temporal e)) l (snd t)) in *. rewrite E1 in E2, O2, I2, R2. rewrite <- app_assoc in E2, O2, I2, R2.
          exists (n1 ++ n2). cbn [fst snd names]. split; [exact E2|]. split; [exact O2|].
          rewrite flat_map_app. cbn [flat_map names]. rewrite app_nil_r. split; [|split].
          -- intros x Hx. apply in_app_or in Hx as [Hx|Hx]; [|apply I2, Hx].
             apply I1 in Hx. rewrite app_assoc, map_app. apply in_or_app. left. exact Hx.
          -- intros x Hx. rewrite map_app in Hx. apply in_or_app. apply in_app_or in Hx as [Hx|Hx]; [left; apply J1, Hx|right; apply J2, Hx].
          -- intros pi w R i. assert (Ra : reads pi w (st ++ n1)) by (apply (reads_app _ _ _ n2); rewrite <- app_assoc; exact R).
             destruct (R1 pi w Ra i) as (A & B). destruct (R2 pi w R i) as (C & D). rewrite wsat_and, holds_and. split.
             ++ intros H1 e He. destruct (temporal e) eqn:Et.
                ** destruct (B e He Et) as (g & G1 & G2). apply G2, H1. apply in_or_app. auto.
                ** destruct (D e He) as (g & G1 & G2); [rewrite Et; reflexivity|]. apply G2.
                   assert (S : wsat w i (SAnd (fst u))) by (apply H1; apply in_or_app; right; left; reflexivity).
                   rewrite wsat_and in S. apply S, G1.
             ++ intros H1 g G. apply in_app_or in G as [G|[<-|[]]]; [destruct (A g G) as (e & He & _ & Hi); apply Hi, H1, He|].
                rewrite wsat_and. intros g G. destruct (C g G) as (e & He & _ & Hi); apply Hi, H1, He.
        * assert (Ha : atomic (CAnd (filter (fun e => negb (temporal e)) l)) = true) by (cbn [atomic]; apply nt_atomic, Hl).
          destruct (make_ap_good (CAnd (filter (fun e => negb (temporal e)) l)) Ha (snd t)) as (n2 & E2 & O2 & I2 & J2 & R2); [rewrite E1; exact O1|].
          set (u := make_ap comp big (CAnd (filter (fun e => negb (temporal e)) l)) (snd t)) in *. rewrite E1 in E2, O2, I2, R2. rewrite <- app_assoc in E2, O2, I2, R2.
          exists (n1 ++ n2). cbn [fst snd names]. split; [exact E2|]. split; [exact O2|].
          rewrite flat_map_app. cbn [flat_map names]. rewrite app_nil_r. split; [|split].
          -- intros x Hx. apply in_app_or in Hx as [Hx|Hx]; [|apply I2, Hx].
             apply I1 in Hx. rewrite app_assoc, map_app. apply in_or_app. left. exact Hx.
          -- intros x Hx. rewrite map_app in Hx. apply in_or_app. apply in_app_or in Hx as [Hx|Hx]; [left; apply J1, Hx|right; apply J2, Hx].
          -- intros pi w R i. assert (Ra : reads pi w (st ++ n1)) by (apply (reads_app _ _ _ n2); rewrite <- app_assoc; exact R).
             destruct (R1 pi w Ra i) as (A & B). specialize (R2 pi w R i). rewrite holds_and in R2. rewrite wsat_and, holds_and. split.
             ++ intros H1 e He. destruct (temporal e) eqn:Et.
                ** destruct (B e He Et) as (g & G1 & G2). apply G2, H1. apply in_or_app. auto.
                ** apply R2; [apply H1; apply in_or_app; right; left; reflexivity|]. apply filter_In. rewrite Et. auto.
             ++ intros H1 g G. apply in_app_or in G as [G|[<-|[]]]; [destruct (A g G) as (e & He & _ & Hi); apply Hi, H1, He|].
                apply R2. intros e He. apply filter_In in He as (He & _). apply H1, He.
    - (* or *)
      assert (Hg : Forall (tgood spot) l).
      { rewrite Forall_forall in *. rewrite forallb_forall in Hl. auto. }
      intros st Hs. cbn [to_spot]. cbv zeta.
      destruct (visit_sel_good spot temporal l Hg st Hs) as (n1 & E1 & O1 & I1 & J1 & R1).
      set (t := visit_sel spot temporal l st) in *.
      destruct (filter (fun e => negb (temporal e)) l) as [|e0 nt] eqn:Ef.
      + exists n1. cbn [fst snd names]. split; [exact E1|]. split; [exact O1|]. split; [exact I1|]. split; [exact J1|].
        intros pi w R i. destruct (R1 pi w R i) as (A & B). rewrite wsat_or, holds_or. split.
        * intros (g & G & S). destruct (A g G) as (e & He & _ & Hi). exists e. split; auto. apply Hi, S.
        * intros (e & He & S). destruct (temporal e) eqn:Et.
          -- destruct (B e He Et) as (g & G1 & G2). exists g. split; auto. apply G2, S.
          -- exfalso. assert (In e []) as []. rewrite <- Ef. apply filter_In. rewrite Et. auto.
      + rewrite <- Ef. destruct expand eqn:Ex.
        * destruct (visit_sel_good _ (fun e => negb (temporal e)) l Hg (snd t)) as (n2 & E2 & O2 & I2 & J2 & R2); [rewrite E1; exact O1|].
          set (u := visit_sel _ (fun e => negb (temporal e)) l (snd t)) in *. rewrite E1 in E2, O2, I2, R2. rewrite <- app_assoc in E2, O2, I2, R2.
          exists (n1 ++ n2). cbn [fst snd names]. split; [exact E2|]. split; [exact O2|].
          rewrite flat_map_app. cbn [flat_map names]. rewrite app_nil_r. split; [|split].
          -- intros x Hx. apply in_app_or in Hx as [Hx|Hx]; [|apply I2, Hx].
             apply I1 in Hx. rewrite app_assoc, map_app. apply in_or_app. left. exact Hx.
          -- intros x Hx. rewrite map_app in Hx. apply in_or_app. apply in_app_or in Hx as [Hx|Hx]; [left; apply J1, Hx|right; apply J2, Hx].
          -- intros pi w R i. assert (Ra : reads pi w (st ++ n1)) by (apply (reads_app _ _ _ n2); rewrite <- app_assoc; exact R).
             destruct (R1 pi w Ra i) as (A & B). destruct (R2 pi w R i) as (C & D). rewrite wsat_or, holds_or. split.
             ++ intros (g & G & S). apply in_app_or in G as [G|[<-|[]]].
                ** destruct (A g G) as (e & He & _ & Hi). exists e. split; auto. apply Hi, S.
                ** rewrite wsat_or in S. destruct S as (g & G & S). destruct (C g G) as (e & He & _ & Hi). exists e. split; auto. apply Hi, S.
             ++ intros (e & He & S). destruct (temporal e) eqn:Et.
                ** destruct (B e He Et) as (g & G1 & G2). exists g. split; [apply in_or_app; auto|apply G2, S].
                ** destruct (D e He) as (g & G1 & G2); [rewrite Et; reflexivity|]. exists (SOr (fst u)). split; [apply in_or_app; right; left; reflexivity|].
                   rewrite wsat_or. exists g. split; auto. apply G2, S.
        * assert (Ha : atomic (COr (filter (fun e => negb (temporal e)) l)) = true) by (cbn [atomic]; apply nt_atomic, Hl).
          destruct (make_ap_good (COr (filter (fun e => negb (temporal e)) l)) Ha (snd t)) as (n2 & E2 & O2 & I2 & J2 & R2); [rewrite E1; exact O1|].
          set (u := make_ap comp big (COr (filter (fun e => negb (temporal e)) l)) (snd t)) in *. rewrite E1 in E2, O2, I2, R2. rewrite <- app_assoc in E2, O2, I2, R2.
          exists (n1 ++ n2). cbn [fst snd names]. split; [exact E2|]. split; [exact O2|].
          rewrite flat_map_app. cbn [flat_map names]. rewrite app_nil_r. split; [|split].
          -- intros x Hx. apply in_app_or in Hx as [Hx|Hx]; [|apply I2, Hx].
             apply I1 in Hx. rewrite app_assoc, map_app. apply in_or_app. left. exact Hx.
          -- intros x Hx. rewrite map_app in Hx. apply in_or_app. apply in_app_or in Hx as [Hx|Hx]; [left; apply J1, Hx|right; apply J2, Hx].
          -- intros pi w R i. assert (Ra : reads pi w (st ++ n1)) by (apply (reads_app _ _ _ n2); rewrite <- app_assoc; exact R).
             destruct (R1 pi w Ra i) as (A & B). specialize (R2 pi w R i). rewrite holds_or in R2. rewrite wsat_or, holds_or. split.
             ++ intros (g & G & S). apply in_app_or in G as [G|[<-|[]]].
                ** destruct (A g G) as (e & He & _ & Hi). exists e. split; auto. apply Hi, S.
                ** apply R2 in S as (e & He & S). apply filter_In in He as (He & _). eauto.
             ++ intros (e & He & S). destruct (temporal e) eqn:Et.
                ** destruct (B e He Et) as (g & G1 & G2). exists g. split; [apply in_or_app; auto|apply G2, S].
                ** exists (fst u). split; [apply in_or_app; right; left; reflexivity|]. apply R2. exists e. split; auto. apply filter_In. rewrite Et. auto.
    - exact (make_ap_good (CCmp o a b) eq_refl).
    - exact (make_ap_good (CConj n cs) eq_refl).
    - refine (single_good spot c SF CF (fun _ => eq_refl) _ (IHc Hl)). intros g w pi A i. cbn [wsat holds].
      split; intros (j & S); exists j; [apply shift_add, A, S|apply A; apply shift_add in S; exact S].
    - refine (single_good spot c SG CG (fun _ => eq_refl) _ (IHc Hl)). intros g w pi A i. cbn [wsat holds].
      split; intros S j; [apply shift_add, A, S|apply A, shift_add, S].
    - refine (single_good spot c SX CX (fun _ => eq_refl) _ (IHc Hl)). intros g w pi A i. cbn [wsat holds]. rewrite shift_add.
      replace (i + 1) with (S i) by lia. apply A.
    - (* until *)
      apply andb_true_iff in Hl as (Ha & Hb). intros st Hs. cbn [to_spot]. cbv zeta.
      destruct (IHc1 Ha st Hs) as (n1 & E1 & O1 & I1 & J1 & R1).
      destruct (IHc2 Hb (snd (spot c1 st))) as (n2 & E2 & O2 & I2 & J2 & R2); [rewrite E1; exact O1|].
      set (y := spot c2 (snd (spot c1 st))) in *. rewrite E1 in E2, O2, I2, R2. rewrite <- app_assoc in E2, O2, I2, R2.
      exists (n1 ++ n2). cbn [fst snd names]. split; [exact E2|]. split; [exact O2|]. split; [|split].
      + intros x Hx. apply in_app_or in Hx as [Hx|Hx]; [|apply I2, Hx].
        apply I1 in Hx. rewrite app_assoc, map_app. apply in_or_app. left. exact Hx.
      + intros x Hx. rewrite map_app in Hx. apply in_or_app. apply in_app_or in Hx as [Hx|Hx]; [left; apply J1, Hx|right; apply J2, Hx].
      + intros pi w R i. assert (Ra : reads pi w (st ++ n1)) by (apply (reads_app _ _ _ n2); rewrite <- app_assoc; exact R).
        pose proof (R1 pi w Ra) as P. pose proof (R2 pi w R) as Q. cbn [wsat holds].
        split; intros (j & S & T); exists j; (split; [|intros k Hk; specialize (T k Hk)]).
        * apply shift_add, Q, S.
        * apply shift_add, P, T.
        * apply Q. apply shift_add in S. exact S.
        * apply P. apply shift_add in T. exact T.
  Qed.
End Translation.

(** ** The automaton of a path formula *)
Lemma gholds_geval : forall ap g m, gholds ap g m <-> geval (fun v => ap v m) g.
Proof. intros ap g m. induction g; cbn [gholds geval]; tauto. Qed.

Section Query.
  Variable net : pnet.
  Variable deadb : list N -> bool.
  Variable comp : compression.
  Variable big : cond -> bool.
  Variable expand : bool.
  Variable tr : sform -> saut.
  Notation spot := (to_spot comp big expand).

  Lemma make_buchi_right : forall c pi, ltl c = true -> translates tr (SNot (fst (spot c []))) ->
    maximal net pi -> (forall i, fits (pi i) /\ (deadb (pi i) = true <-> dead net (pi i))) ->
    (accepts (make_buchi comp big expand tr deadb c) pi <-> ~ holds net pi c).
  Proof.
    intros c pi Hl (Hi & Hw) M Hf.
    destruct (to_spot_good net comp big expand c Hl [] aps_ok_nil) as (st & E & O & I & J & R). cbn [app] in *.
    unfold make_buchi. set (a := spot c []) in *. set (s := tr (SNot (fst a))) in *. cbv zeta.
    set (ap := fun v m => match find _ _ with Some _ => _ | None => _ end).
    assert (A : accepts (mkBuchi (sa_init s) (sa_edges s) (sa_acc s) ap) pi <-> waccepts s (fun i v => ap v (pi i))).
    { unfold accepts, waccepts. cbn [ba_init ba_edges ba_acc ba_ap]. split; intros (q & Q0 & Q1 & Q2); exists q; split; auto; split; auto;
        intros i; destruct (Q1 i) as (g & G1 & G2); exists g; split; auto; apply gholds_geval in G2 || apply gholds_geval; exact G2. }
    rewrite A, Hw. cbn [wsat].
    assert (Rd : reads net pi (fun i t => ap (sa_var s t) (pi i) = true) st).
    { intros d t i Hd. unfold ap. rewrite E.
      destruct (find (fun e => Nat.eqb (sa_var s (snd e)) (sa_var s t)) (rev st)) as [(d', t')|] eqn:Ef.
      - apply find_some in Ef as (Hin & Hv). apply in_rev in Hin. cbn [snd] in Hv. apply Nat.eqb_eq in Hv.
        assert (T : t' = t).
        { apply Hi; [apply J; apply (in_map snd) in Hin; exact Hin|apply J; apply (in_map snd) in Hd; exact Hd|exact Hv]. }
        subst t'. assert (D : d' = d) by (eapply aps_fun; eauto). subst d'.
        destruct (Hf i) as (F1 & F2).
        assert (At : atomic d = true) by (apply In_nth_error in Hd as (k & Hk); exact (proj1 (O _ _ Hk))).
        assert (K : evaluate deadb (pi i) d <> RUnknown) by (eapply evaluate_known; eauto).
        assert (S0 : shift i pi 0 = pi i) by (unfold shift; f_equal; lia).
        destruct (@evaluate_path net deadb (shift i pi) d) as (P & Q); [apply maximal_shift, M|rewrite S0; exact F1|rewrite S0; exact F2|].
        rewrite S0 in P, Q. destruct (evaluate deadb (pi i) d); [split; auto| |congruence].
        split; [discriminate|]. intros Hh. exfalso. apply Q; auto.
      - exfalso. apply in_rev in Hd. pose proof (find_none _ _ Ef _ Hd) as C. cbn [snd] in C. rewrite Nat.eqb_refl in C. discriminate C. }
    specialize (R pi _ Rd 0). rewrite R. rewrite (holds_ext net c (shift 0 pi) pi (shift0 pi)). tauto.
  Qed.

  Variable m0 : marking.
  Variable kbound : N.
  Hypothesis Hwf : wf_pnet net.
  Hypothesis Hreach : forall m, reachable net m0 m -> fits m /\ within kbound m /\ (deadb m = true <-> dead net m).

  Lemma run_reachable : forall r, run_from net m0 r -> forall i, reachable net m0 (r i).
  Proof.
    intros r (M & E) i. induction i as [|i IH]; [rewrite E; exists []; constructor|].
    destruct (M i) as [(t & S)|(_ & S)]; [|rewrite S; exact IH].
    destruct IH as (l & Hl). exists (l ++ [t]). eapply run_snoc; eauto.
  Qed.

  (** What the searches say about a path formula. *)
  Lemma search_path : forall c r, ltl c = true -> translates tr (SNot (fst (spot c []))) ->
    answer_right net m0 (make_buchi comp big expand tr deadb c) kbound (Ok r) ->
    (r = true <-> forall pi, run_from net m0 pi -> holds net pi c).
  Proof.
    intros c r Hl Ht Ha.
    assert (G : forall pi, run_from net m0 pi -> (accepts (make_buchi comp big expand tr deadb c) pi <-> ~ holds net pi c)).
    { intros pi Hp. apply make_buchi_right; auto; [exact (proj1 Hp)|]. intros i. destruct (Hreach _ (run_reachable _ Hp i)) as (A & _ & B). auto. }
    destruct r; cbn [answer_right] in Ha; split; auto; try discriminate.
    - intros _ pi Hp. apply NNPP. intros C. apply (Ha pi Hp); [intros i; apply Hreach, run_reachable, Hp|]. apply G; auto.
    - intros A. destruct Ha as (pi & Hp & Hx). exfalso. apply G in Hx; auto.
  Qed.

  Lemma sat_A : forall c, sat net m0 (CA c) <-> forall pi, run_from net m0 pi -> holds net pi c.
  Proof.
    intros c. unfold sat, run_from. cbn [holds]. split.
    - intros H pi (M & E). apply (H pi M E). apply from_refl, M.
    - intros H pi M E rho (A & B). apply H. split; [auto|congruence].
  Qed.
  Lemma sat_E : forall c, sat net m0 (CE c) <-> exists pi, run_from net m0 pi /\ holds net pi c.
  Proof.
    intros c. unfold sat, run_from. cbn [holds]. split.
    - intros H. destruct (runs_exist net m0 Hwf) as (pi & M & E). destruct (H pi M E) as (rho & (A & B) & C). exists rho. split; [split; [auto|congruence]|exact C].
    - intros (rho & (A & B) & C) pi M E. exists rho. split; [split; [auto|congruence]|exact C].
  Qed.

  Lemma ltl_solve_right : forall search q r, ltl_query q = true ->
    translates tr (SNot (fst (spot (fst (to_ltl q)) []))) ->
    (forall aut, answer_right net m0 aut kbound (search aut)) ->
    ltl_solve comp big expand tr deadb search q = Ok r -> (r = true <-> sat net m0 q).
  Proof.
    intros search q r Hq Ht Hs E. unfold ltl_solve in E. destruct (is_ltl q) eqn:Ei; cbn [negb] in E; [|discriminate E].
    destruct (search _) as [b| | |] eqn:Eb in E; try discriminate E. cbn [bind] in E. injection E as <-.
    assert (P : forall c, fst (to_ltl q) = c -> ltl c = true -> (b = true <-> forall pi, run_from net m0 pi -> holds net pi c)).
    { intros c Ec Hc. apply search_path; auto; [rewrite <- Ec; exact Ht|]. rewrite <- Ec, <- Eb. apply Hs. }
    assert (N : forall x, (b = true <-> forall pi, run_from net m0 pi -> ~ holds net pi x) ->
      (xorb b true = true <-> exists pi, run_from net m0 pi /\ holds net pi x)).
    { intros x Hx. destruct b; cbn [xorb negb]; split; auto; try discriminate.
      - intros (pi & A & B). exfalso. exact (proj1 Hx eq_refl pi A B).
      - intros _. apply NNPP. intros C. assert (false = true); [|discriminate]. apply Hx. intros pi A B. apply C. eauto. }
    assert (X : xorb b false = b) by (destruct b; reflexivity).
    destruct q; try discriminate Hq; cbn [to_ltl fst snd ltl_query] in *;
      try (change (sat net m0 (CEF q)) with (sat net m0 (CE (CF q))));
      try (change (sat net m0 (CAF q)) with (sat net m0 (CA (CF q))));
      try (change (sat net m0 (CEG q)) with (sat net m0 (CE (CG q))));
      try (change (sat net m0 (CAG q)) with (sat net m0 (CA (CG q))));
      try (change (sat net m0 (CEU q1 q2)) with (sat net m0 (CE (CU q1 q2))));
      try (change (sat net m0 (CAU q1 q2)) with (sat net m0 (CA (CU q1 q2))));
      rewrite ?sat_E, ?sat_A, ?X; first [exact (P _ eq_refl Hq) | apply N; exact (P _ eq_refl Hq)].
  Qed.
End Query.

(** ** What the validator lets through *)
Lemma ltl_not_bad : forall c, ltl c = true -> bad_ltl c = false.
Proof.
  induction c using cond_ind'; cbn [ltl bad_ltl]; intros A; try reflexivity; try discriminate; auto.
  - rewrite forallb_forall in A. rewrite Forall_forall in H. destruct (existsb bad_ltl l) eqn:E; auto.
    apply existsb_exists in E as (x & X & Y). rewrite (H x X (A x X)) in Y. discriminate.
  - rewrite forallb_forall in A. rewrite Forall_forall in H. destruct (existsb bad_ltl l) eqn:E; auto.
    apply existsb_exists in E as (x & X & Y). rewrite (H x X (A x X)) in Y. discriminate.
  - apply andb_true_iff in A as (A & _). auto.
Qed.
Lemma ltl_query_accepted : forall q, ltl_query q = true -> is_ltl q = true.
Proof.
  intros q H. destruct q; try discriminate H; cbn [ltl_query is_ltl] in *; try (rewrite ltl_not_bad by exact H; reflexivity);
    apply andb_true_iff in H as (A & B); rewrite !ltl_not_bad by assumption; reflexivity.
Qed.

(** ** Back from the library *)
Section Back.
  Variable net : pnet.
  Variable eqc : cond -> cond -> bool.
  Hypothesis Heq : forall a b, eqc a b = true <-> a = b.
  Lemma name_eqb_eq : forall s t, name_eqb eqc s t = true <-> s = t.
  Proof.
    intros [i|c] [j|d]; cbn [name_eqb]; try (split; discriminate).
    - rewrite Nat.eqb_eq. split; congruence.
    - rewrite Heq. split; congruence.
  Qed.

  Fixpoint pql_list (st : aps) (l : list sform) : res (list cond) :=
    match l with [] => Ok [] | x :: l' => c <- to_pql eqc st x ;; r <- pql_list st l' ;; Ok (c :: r) end.
  Lemma to_pql_and : forall st l, to_pql eqc st (SAnd l) = (r <- pql_list st l ;; Ok (CAnd r)).
  Proof. intros st l. cbn [to_pql]. f_equal. induction l as [|x l IH]; cbn [pql_list]; [reflexivity|]. rewrite IH. reflexivity. Qed.
  Lemma to_pql_or : forall st l, to_pql eqc st (SOr l) = (r <- pql_list st l ;; Ok (COr r)).
  Proof. intros st l. cbn [to_pql]. f_equal. induction l as [|x l IH]; cbn [pql_list]; [reflexivity|]. rewrite IH. reflexivity. Qed.

  Section SformInd.
    Variable P : sform -> Prop.
    Hypothesis HB : forall b, P (SBool b).
    Hypothesis HA : forall t, P (SAp t).
    Hypothesis HN : forall f, P f -> P (SNot f).
    Hypothesis Hand : forall l, Forall P l -> P (SAnd l).
    Hypothesis Hor : forall l, Forall P l -> P (SOr l).
    Hypothesis HX : forall f, P f -> P (SX f).
    Hypothesis HF : forall f, P f -> P (SF f).
    Hypothesis HG : forall f, P f -> P (SG f).
    Hypothesis HU : forall f g, P f -> P g -> P (SU f g).
    Fixpoint sform_ind' (f : sform) : P f :=
      match f with
      | SBool b => HB b
      | SAp t => HA t
      | SNot f => HN _ (sform_ind' f)
      | SAnd l => Hand l ((fix go l : Forall P l := match l with [] => Forall_nil _ | x :: l' => Forall_cons _ (sform_ind' x) (go l') end) l)
      | SOr l => Hor l ((fix go l : Forall P l := match l with [] => Forall_nil _ | x :: l' => Forall_cons _ (sform_ind' x) (go l') end) l)
      | SX f => HX _ (sform_ind' f)
      | SF f => HF _ (sform_ind' f)
      | SG f => HG _ (sform_ind' f)
      | SU f g => HU _ _ (sform_ind' f) (sform_ind' g)
      end.
  End SformInd.

  Lemma atomic_ltl : forall c, atomic c = true -> ltl c = true.
  Proof.
    induction c using cond_ind'; cbn [ltl atomic]; intros A; try reflexivity; try discriminate; auto;
      rewrite forallb_forall in *; rewrite Forall_forall in H; auto.
  Qed.

  Variable st : aps.
  Hypothesis Hst : aps_ok st.
  Definition pgood (f : sform) : Prop :=
    incl (names f) (map snd st) ->
    exists c, to_pql eqc st f = Ok c /\ ltl c = true /\
      forall pi w, reads net pi w st -> forall i, wsat w i f <-> holds net (shift i pi) c.
  Lemma pql_list_good : forall l, Forall pgood l -> incl (flat_map names l) (map snd st) ->
    exists r, pql_list st l = Ok r /\ forallb ltl r = true /\
      forall pi w, reads net pi w st -> forall i, Forall2 (fun f c => wsat w i f <-> holds net (shift i pi) c) l r.
  Proof.
    intros l H. induction H as [|f l Hf Hl IH]; intros I; cbn [pql_list].
    - exists []. split; [reflexivity|]. split; [reflexivity|]. constructor.
    - cbn [flat_map] in I. destruct Hf as (c & E & L & W); [intros x Hx; apply I, in_or_app; auto|].
      destruct IH as (r & E2 & L2 & W2); [intros x Hx; apply I, in_or_app; auto|].
      exists (c :: r). rewrite E, E2. cbn [bind forallb]. rewrite L, L2. split; [reflexivity|]. split; [reflexivity|].
      intros pi w R i. constructor; [apply W, R|apply W2, R].
  Qed.
  Lemma to_pql_good : forall f, pgood f.
  Proof.
    induction f using sform_ind'; intros I; cbn [names] in I.
    - exists (CBool b). split; [reflexivity|]. split; [reflexivity|]. intros pi w R i. cbn [wsat holds]. tauto.
    - cbn [to_pql]. destruct (find (fun e => name_eqb eqc (snd e) t) st) as [(d, t')|] eqn:Ef.
      + apply find_some in Ef as (Hin & Hn). cbn [snd] in Hn. apply name_eqb_eq in Hn. subst t'.
        exists d. split; [reflexivity|]. split.
        * apply atomic_ltl. apply In_nth_error in Hin as (k & Hk). exact (proj1 (Hst _ _ Hk)).
        * intros pi w R i. cbn [wsat]. apply R, Hin.
      + exfalso. assert (J : In t (map snd st)) by (apply I; left; reflexivity). apply in_map_iff in J as ((d, t') & E & J). cbn in E. subst t'.
        pose proof (find_none _ _ Ef _ J) as C. cbn [snd] in C. assert (name_eqb eqc t t = true) by (apply name_eqb_eq; reflexivity). congruence.
    - destruct (IHf I) as (c & E & L & W). exists (CNot c). cbn [to_pql]. rewrite E. split; [reflexivity|]. split; [exact L|].
      intros pi w R i. cbn [wsat holds]. rewrite (W pi w R i). tauto.
    - destruct (pql_list_good l H I) as (r & E & L & W). exists (CAnd r). rewrite to_pql_and, E. split; [reflexivity|]. split; [exact L|].
      intros pi w R i. cbn [wsat holds]. specialize (W pi w R i). clear - W.
      induction W as [|f c l' r' A B IH]; cbn [map fold_right]; [tauto|]. rewrite A, IH. tauto.
    - destruct (pql_list_good l H I) as (r & E & L & W). exists (COr r). rewrite to_pql_or, E. split; [reflexivity|]. split; [exact L|].
      intros pi w R i. cbn [wsat holds]. specialize (W pi w R i). clear - W.
      induction W as [|f c l' r' A B IH]; cbn [map fold_right]; [tauto|]. rewrite A, IH. tauto.
    - destruct (IHf I) as (c & E & L & W). exists (CX c). cbn [to_pql]. rewrite E. split; [reflexivity|]. split; [exact L|].
      intros pi w R i. cbn [wsat holds]. rewrite shift_add. replace (i + 1) with (S i) by lia. apply (W pi w R).
    - destruct (IHf I) as (c & E & L & W). exists (CF c). cbn [to_pql]. rewrite E. split; [reflexivity|]. split; [exact L|].
      intros pi w R i. cbn [wsat holds]. split; intros (j & S); exists j; [apply shift_add, (W pi w R), S|apply (W pi w R); apply shift_add in S; exact S].
    - destruct (IHf I) as (c & E & L & W). exists (CG c). cbn [to_pql]. rewrite E. split; [reflexivity|]. split; [exact L|].
      intros pi w R i. cbn [wsat holds]. split; intros S j; [apply shift_add, (W pi w R), S|apply (W pi w R), shift_add, S].
    - destruct (IHf1 (fun x Hx => I x (in_or_app _ _ _ (or_introl Hx)))) as (c & E & L & W).
      destruct (IHf2 (fun x Hx => I x (in_or_app _ _ _ (or_intror Hx)))) as (d & E2 & L2 & W2).
      exists (CU c d). cbn [to_pql]. rewrite E, E2. split; [reflexivity|]. split; [cbn [ltl]; rewrite L, L2; reflexivity|].
      intros pi w R i. cbn [wsat holds].
      split; intros (j & S & T); exists j; (split; [|intros k Hk; specialize (T k Hk)]).
      + apply shift_add, (W2 pi w R), S.
      + apply shift_add, (W pi w R), T.
      + apply (W2 pi w R). apply shift_add in S. exact S.
      + apply (W pi w R). apply shift_add in T. exact T.
  Qed.
End Back.

Section Simplify.
  Variable net : pnet.
  Variable eqc : cond -> cond -> bool.
  Hypothesis Heq : forall a b, eqc a b = true <-> a = b.
  Variable comp : compression.
  Variable big small : cond -> bool.
  Variable simp : sform -> sform.
  Hypothesis Hsimp : simplifies simp.

  Lemma spot_simplify_right : forall c, ltl c = true -> exists c',
    spot_simplify eqc comp big small simp c = Ok c' /\ ltl c' = true /\
    forall pi, holds net pi c' <-> holds net pi c.
  Proof.
    intros c Hl. destruct (to_spot_good net comp big (small c) c Hl [] aps_ok_nil) as (st & E & O & I & J & R). cbn [app] in *.
    assert (S : spot_simplify eqc comp big small simp c = to_pql eqc (snd (to_spot comp big (small c) c [])) (simp (fst (to_spot comp big (small c) c [])))).
    { destruct c; try reflexivity; discriminate Hl. }
    rewrite S, E. set (f := fst (to_spot comp big (small c) c [])) in *. destruct (Hsimp f) as (H1 & H2).
    destruct (to_pql_good net eqc Heq st O (simp f)) as (c' & Ec & Lc & W); [intros x Hx; apply I, H2, Hx|].
    exists c'. split; [exact Ec|]. split; [exact Lc|]. intros pi.
    set (w := fun i t => exists d, In (d, t) st /\ holds net (shift i pi) d).
    assert (Rd : reads net pi w st).
    { intros d t i Hd. unfold w. split; [intros (d' & A & B); rewrite (aps_fun st d d' t O Hd A); exact B|eauto]. }
    specialize (W pi w Rd 0). specialize (R pi w Rd 0). specialize (H1 w).
    rewrite <- (holds_ext net c' (shift 0 pi) pi (shift0 pi)), <- (holds_ext net c (shift 0 pi) pi (shift0 pi)). tauto.
  Qed.

  Variable m0 : marking.
  Hypothesis Hwf : wf_pnet net.
  Variables rw1 rw2 : cond -> res cond.
  Hypothesis Hr1 : keeps net m0 rw1.
  Hypothesis Hr2 : keeps net m0 rw2.
  Lemma simplify_ltl_query_right : forall q q',
    (exists c, (q = CA c \/ q = CE c) /\ ltl c = true) ->
    simplify_ltl_query eqc comp big small simp rw1 rw2 q = Ok q' ->
    (sat net m0 q' <-> sat net m0 q) /\ (ltl_query q' = true \/ exists b, q' = CBool b).
  Proof.
    intros q q' (c & Hq & Hl) E.
    assert (S : exists a c4, ltl c4 = true /\ (forall pi, run_from net m0 pi -> (holds net pi c4 <-> holds net pi c)) /\
      q = (if a : bool then CA c else CE c) /\ q' = if trivial c4 then c4 else if a then CA c4 else CE c4).
    { destruct (spot_simplify_right c Hl) as (c1 & E1 & L1 & W1).
      assert (G : forall a : bool, (c1 <- spot_simplify eqc comp big small simp c;; c2 <- rw1 c1;;
        c3 <- spot_simplify eqc comp big small simp c2;; c4 <- rw2 c3;; (if trivial c4 then Ok c4 else Ok (if a then CA c4 else CE c4))) = Ok q' ->
        exists c4, ltl c4 = true /\ (forall pi, run_from net m0 pi -> (holds net pi c4 <-> holds net pi c)) /\
          q' = if trivial c4 then c4 else if a then CA c4 else CE c4).
      { intros a G. rewrite E1 in G. cbn [bind] in G. destruct (rw1 c1) as [c2| | |] eqn:E2; try discriminate G. cbn [bind] in G.
        destruct (Hr1 _ _ L1 E2) as (L2 & W2). destruct (spot_simplify_right c2 L2) as (c3 & E3 & L3 & W3). rewrite E3 in G. cbn [bind] in G.
        destruct (rw2 c3) as [c4| | |] eqn:E4; try discriminate G. cbn [bind] in G. destruct (Hr2 _ _ L3 E4) as (L4 & W4).
        exists c4. split; [exact L4|]. split; [|destruct (trivial c4); injection G as <-; reflexivity].
        intros pi Hp. rewrite (W4 pi Hp), (W3 pi), (W2 pi Hp), (W1 pi). tauto. }
      destruct Hq as [-> | ->]; [destruct (G true E) as (c4 & A & B & C); exists true, c4; auto|destruct (G false E) as (c4 & A & B & C); exists false, c4; auto]. }
    destruct S as (a & c4 & L4 & W & -> & ->). split.
    - assert (T : sat net m0 (if a then CA c4 else CE c4) <-> sat net m0 (if a then CA c else CE c)).
      { destruct a.
        - rewrite !sat_A. split; intros H pi Hp; apply W; auto.
        - rewrite !(sat_E net m0 Hwf). split; intros (pi & Hp & H); exists pi; split; auto; apply W; auto. }
      rewrite <- T. destruct c4; try reflexivity. cbn [trivial]. destruct a.
      + rewrite sat_A. unfold sat, run_from. cbn [holds]. split; intros H pi; [intros (A & B); eauto|intros A B; apply (H pi); auto].
      + rewrite (sat_E net m0 Hwf). unfold sat. cbn [holds]. split.
        * intros H. destruct (runs_exist net m0 Hwf) as (pi & M & E0). exists pi. split; [split; auto|]. eauto.
        * intros (pi & _ & H) _ _ _. exact H.
    - destruct (trivial c4) eqn:Et; [right; destruct c4; try discriminate Et; eauto|]. left. destruct a; exact L4.
  Qed.
End Simplify.

(** ** Closed forms *)
Theorem ltl_solve_checked : forall net deadb comp big expand tr m0 kbound search q r,
  wf_pnet net ->
  (forall m, reachable net m0 m -> fits m /\ within kbound m /\ (deadb m = true <-> dead net m)) ->
  ltl_query q = true ->
  translates tr (SNot (fst (to_spot comp big expand (fst (to_ltl q)) []))) ->
  (forall aut, answer_right net m0 aut kbound (search aut)) ->
  ltl_solve comp big expand tr deadb search q = Ok r -> (r = true <-> sat net m0 q).
Proof. intros net deadb comp big expand tr m0 kbound search q r W R Q T S E. eapply ltl_solve_right; eauto. Qed.
Theorem query_ndfs : forall net deadb comp big expand tr m0 kbound order fuel weak q r,
  wf_pnet net -> enumerates net m0 order ->
  (forall m, reachable net m0 m -> fits m /\ within kbound m /\ (deadb m = true <-> dead net m)) ->
  ltl_query q = true ->
  translates tr (SNot (fst (to_spot comp big expand (fst (to_ltl q)) []))) ->
  ltl_solve comp big expand tr deadb (fun aut => ndfs_check aut order kbound fuel weak m0) q = Ok r ->
  (r = true <-> sat net m0 q).
Proof. intros. eapply ltl_solve_checked with (search := fun aut => ndfs_check aut order kbound fuel weak m0); eauto. intros aut. apply ndfs_right; auto. Qed.
Theorem query_tarjan : forall net deadb comp big expand tr m0 kbound order hash fuel q r,
  wf_pnet net -> enumerates net m0 order ->
  (forall m, reachable net m0 m -> fits m /\ within kbound m /\ (deadb m = true <-> dead net m)) ->
  ltl_query q = true ->
  translates tr (SNot (fst (to_spot comp big expand (fst (to_ltl q)) []))) ->
  ltl_solve comp big expand tr deadb (fun aut => tarjan_check aut order kbound hash fuel m0) q = Ok r ->
  (r = true <-> sat net m0 q).
Proof. intros. eapply ltl_solve_checked with (search := fun aut => tarjan_check aut order kbound hash fuel m0); eauto. intros aut. apply tarjan_right; auto. Qed.
Theorem simplify_query_checked : forall net eqc comp big small simp m0 rw1 rw2 q q',
  wf_pnet net -> (forall a b, eqc a b = true <-> a = b) -> simplifies simp ->
  keeps net m0 rw1 -> keeps net m0 rw2 ->
  (exists c, (q = CA c \/ q = CE c) /\ ltl c = true) ->
  simplify_ltl_query eqc comp big small simp rw1 rw2 q = Ok q' ->
  (sat net m0 q' <-> sat net m0 q) /\ (ltl_query q' = true \/ exists b, q' = CBool b).
Proof.
  intros net eqc comp big small simp m0 rw1 rw2 q q' W He Hs K1 K2 Hq E.
  exact (simplify_ltl_query_right net eqc He comp big small simp Hs m0 W rw1 rw2 K1 K2 q q' Hq E).
Qed.
Theorem simplify_call_checked : forall net eqc comp big small simp c,
  (forall a b, eqc a b = true <-> a = b) -> simplifies simp -> ltl c = true ->
  exists c', spot_simplify eqc comp big small simp c = Ok c' /\ ltl c' = true /\ forall pi, holds net pi c' <-> holds net pi c.
Proof. intros. apply spot_simplify_right; auto. Qed.
