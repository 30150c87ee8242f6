(** Synthesis: the table of configurations and the two loops over successors (C35). *)
From Verif Require Import Base BaseLemmas NetSpec NetModel SynModel.
From Coq Require Import Permutation.

Definition dom (s : syn) : nat := length (y_tab s).
Definition st (s : syn) (i : nat) : cstate := c_st (cf s i).

Lemma cf_set_eq : forall s i c, i < dom s -> cf (set_cf s i c) i = c.
Proof. intros s i c H. unfold cf, set_cf, set_tab. cbn. rewrite nth_upd_eq by auto. reflexivity. Qed.
Lemma cf_set_neq : forall s i j c, i <> j -> cf (set_cf s i c) j = cf s j.
Proof. intros s i j c H. unfold cf, set_cf, set_tab. cbn. rewrite nth_upd_neq by auto. reflexivity. Qed.
Lemma mk_set : forall s i j c, mk (set_cf s i c) j = mk s j.
Proof.
  intros s i j c. unfold mk, set_cf, set_tab. cbn. destruct (Nat.eq_dec i j) as [->|H].
  - destruct (Nat.lt_ge_cases j (dom s)) as [L|G].
    + rewrite nth_upd_eq by auto. reflexivity.
    + rewrite !nth_overflow; auto. rewrite upd_length. auto.
  - rewrite nth_upd_neq by auto. reflexivity.
Qed.
Lemma dom_set : forall s i c, dom (set_cf s i c) = dom s.
Proof. intros. unfold dom, set_cf, set_tab. cbn. apply upd_length. Qed.
Lemma fst_tab_set : forall s i c, map fst (y_tab (set_cf s i c)) = map fst (y_tab s).
Proof.
  intros s i c. unfold set_cf, set_tab. cbn. unfold mk. generalize (y_tab s) as l. revert i.
  induction i as [|i IH]; intros [|[m d] l]; cbn; auto. f_equal. apply IH.
Qed.
Lemma mk_map : forall s i, mk s i = nth i (map fst (y_tab s)) [].
Proof. intros s i. unfold mk. symmetry. exact (map_nth fst (y_tab s) ([], mkCf UNKNOWN 0 0 0 []) i). Qed.

Lemma idx_some : forall m l i, idx m l = Some i -> i < length l /\ forall d, fst (nth i l d) = m.
Proof.
  intros m. induction l as [|[m' c] l IH]; intros i H; cbn in H; [discriminate|].
  destruct (list_eq_dec N.eq_dec m' m) as [->|n]; [inversion H; subst; cbn; split; [lia|auto]|].
  destruct (idx m l) as [j|]; [|discriminate]. inversion H; subst. destruct (IH j eq_refl) as [H1 H2]. cbn. split; [lia|auto].
Qed.
Lemma idx_none : forall m l, idx m l = None -> ~ In m (map fst l).
Proof.
  intros m. induction l as [|[m' c] l IH]; intros H; cbn in *; [tauto|].
  destruct (list_eq_dec N.eq_dec m' m) as [->|n]; [discriminate|]. destruct (idx m l); [discriminate|]. intros [E|I]; [auto|]. apply IH; auto.
Qed.

Section Tab.
Variable safety : bool.
Variable pred : list N -> bool.
Variable kbound : N.
Variable okm : list N -> Prop.
Notation new_state := (new_state safety pred kbound).

Definition base (s : syn) : Prop := NoDup (map fst (y_tab s)) /\ forall i, i < dom s -> okm (mk s i).
Lemma base_set : forall s i c, base s -> base (set_cf s i c).
Proof. intros s i c [A B]. split; [rewrite fst_tab_set; auto|]. intros j J. rewrite mk_set. apply B. rewrite dom_set in J. auto. Qed.
Lemma mk_inj : forall s i j, base s -> i < dom s -> j < dom s -> mk s i = mk s j -> i = j.
Proof.
  intros s i j [A _] I J H. rewrite !mk_map in H. eapply NoDup_nth in A; eauto; rewrite map_length; auto.
Qed.

(** Only configuration [x] changes its state, and new configurations appear. *)
Record frame (x : nat) (s s' : syn) : Prop := mkFr {
  f_q : y_queue s' = y_queue s;
  f_b : y_back s' = y_back s;
  f_dom : dom s <= dom s';
  f_cf : forall i, i < dom s -> i <> x -> cf s' i = cf s i;
  f_mk : forall i, i < dom s -> mk s' i = mk s i;
  f_x : cf s' x = mkCf (st s' x) (c_wait (cf s x)) (c_cc (cf s x)) (c_ec (cf s x)) (c_dep (cf s x));
  f_new : forall i, dom s <= i -> i < dom s' -> cf s' i = mkCf (new_state (mk s' i)) 0 0 0 []
}.

Lemma frame_refl : forall x s, frame x s s.
Proof. intros x s. constructor; auto; try lia. unfold st. destruct (cf s x); reflexivity. Qed.
Lemma frame_trans : forall x s1 s2 s3, x < dom s1 -> frame x s1 s2 -> frame x s2 s3 -> frame x s1 s3.
Proof.
  intros x s1 s2 s3 X A B. pose proof (f_dom _ _ _ A). pose proof (f_dom _ _ _ B). constructor.
  - rewrite (f_q _ _ _ B). apply (f_q _ _ _ A).
  - rewrite (f_b _ _ _ B). apply (f_b _ _ _ A).
  - lia.
  - intros i I N. rewrite (f_cf _ _ _ B) by (auto; lia). apply (f_cf _ _ _ A); auto.
  - intros i I. rewrite (f_mk _ _ _ B) by lia. apply (f_mk _ _ _ A); auto.
  - rewrite (f_x _ _ _ B) at 1. rewrite (f_x _ _ _ A). reflexivity.
  - intros i I J. destruct (Nat.lt_ge_cases i (dom s2)) as [L|G].
    + rewrite (f_cf _ _ _ B) by lia. rewrite (f_mk _ _ _ B) by auto. apply (f_new _ _ _ A); auto.
    + apply (f_new _ _ _ B); auto.
Qed.
Lemma frame_set_st : forall x s y, x < dom s -> frame x s (set_st s x y).
Proof.
  intros x s y X. unfold set_st. constructor; try reflexivity.
  - rewrite dom_set. lia.
  - intros i I N. apply cf_set_neq. auto.
  - intros i I. apply mk_set.
  - unfold st. rewrite cf_set_eq by auto. reflexivity.
  - intros i I J. rewrite dom_set in J. lia.
Qed.
Lemma st_set_st : forall x s y, x < dom s -> st (set_st s x y) x = y.
Proof. intros x s y X. unfold st, set_st. rewrite cf_set_eq by auto. reflexivity. Qed.
Lemma base_set_st : forall x s y, base s -> base (set_st s x y).
Proof. intros. apply base_set. auto. Qed.

Lemma get_config_ok : forall x s m s1 c, get_config safety pred kbound s m = (s1, c) -> x < dom s -> base s -> okm m ->
  frame x s s1 /\ base s1 /\ cf s1 x = cf s x /\ c < dom s1 /\ mk s1 c = m.
Proof.
  intros x s m s1 c H X [A B] M. unfold get_config in H. destruct (idx m (y_tab s)) as [i|] eqn:E; inversion H; subst; clear H.
  - apply idx_some in E. destruct E as [E1 E2]. split; [apply frame_refl|]. split; [split; auto|]. split; [auto|]. split; [exact E1|apply E2].
  - apply idx_none in E. set (s1 := set_tab s _). assert (D : dom s1 = S (dom s)) by (unfold dom, s1; cbn; rewrite app_length; cbn; lia).
    assert (CF : forall i, i < dom s -> cf s1 i = cf s i) by (intros i I; unfold cf, s1; cbn; rewrite app_nth1 by auto; auto).
    assert (MK : forall i, i < dom s -> mk s1 i = mk s i) by (intros i I; unfold mk, s1; cbn; rewrite app_nth1 by auto; auto).
    assert (CN : mk s1 (length (y_tab s)) = m /\ cf s1 (length (y_tab s)) = mkCf (new_state m) 0 0 0 []).
    { unfold mk, cf, s1; cbn. rewrite app_nth2, Nat.sub_diag by lia. cbn. auto. }
    destruct CN as [CN1 CN2]. unfold dom in D.
    split; [|split; [|split; [|split]]].
    + constructor; try reflexivity.
      * unfold dom. lia.
      * intros i I N. apply CF; auto.
      * intros i I. apply MK; auto.
      * rewrite CF by auto. unfold st. rewrite CF by auto. destruct (cf s x); reflexivity.
      * unfold dom. intros i I J. assert (i = length (y_tab s)) by lia. subst i. rewrite CN1. exact CN2.
    + split.
      * unfold s1. cbn. rewrite map_app. cbn. eapply Permutation_NoDup; [apply Permutation_cons_append|]. constructor; auto.
      * unfold dom. intros i I. destruct (Nat.eq_dec i (length (y_tab s))) as [->|N]; [rewrite CN1; auto|]. rewrite MK; [apply B|]; unfold dom; lia.
    + apply CF; auto.
    + unfold dom. lia.
    + exact CN1.
Qed.

Lemma frame_base_st : forall x s s' i, frame x s s' -> i < dom s -> i <> x -> st s' i = st s i.
Proof. intros x s s' i F I N. unfold st. rewrite (f_cf _ _ _ F); auto. Qed.

Lemma env_loop_ok : forall l e x s some buf s' some' buf',
  env_loop safety pred kbound l e x s some buf = Ok (s', (some', buf')) ->
  x < dom s -> base s -> (forall y, In y l -> okm (snd y)) -> st s x = PROCESSED ->
  (forall c, In c buf -> c < dom s /\ c <> x /\ det (st s c) = false) ->
  frame x s s' /\ base s' /\
  ((st s' x = LOSING /\ some' = true /\ exists m, In m (map snd l) /\ exists c, c < dom s' /\ mk s' c = m /\ ((c = x /\ safety = false) \/ (c <> x /\ st s' c = LOSING))) \/
   (st s' x = PROCESSED /\ e = Ok tt /\
    (forall c, In c buf' -> c < dom s' /\ c <> x /\ det (st s' c) = false /\ (In c buf \/ In (mk s' c) (map snd l))) /\
    (forall c, In c buf -> In c buf') /\
    (forall m, In m (map snd l) -> exists c, c < dom s' /\ mk s' c = m /\ ((c <> x /\ st s' c = WINNING) \/ (safety = true /\ c = x) \/ In c buf')) /\
    some' = (some || match l with [] => false | _ => true end) /\ length buf' <= length buf + length l)).
Proof.
  induction l as [|[t m] l IH]; intros e x s some buf s' some' buf' H X B OKL PX BUF; cbn [env_loop] in H.
  - destruct e as [[]| | |]; cbn in H; try discriminate. inversion H; subst. split; [apply frame_refl|]. split; auto. right.
    split; auto. split; auto. split; [intros c I; destruct (BUF c I) as (? & ? & ?); auto|]. split; auto. split; [intros m []|]. split; [rewrite orb_false_r; auto|lia].
  - destruct (get_config safety pred kbound s m) as [s1 c] eqn:G.
    destruct (get_config_ok x s m s1 c G X B (OKL _ (or_introl eq_refl))) as (F & B1 & CX & C1 & C2).
    pose proof (f_dom _ _ _ F) as D. assert (X1 : x < dom s1) by lia. assert (PX1 : st s1 x = PROCESSED) by (unfold st; rewrite CX; exact PX).
    assert (BUF1 : forall c, In c buf -> c < dom s1 /\ c <> x /\ det (st s1 c) = false).
    { intros d I. destruct (BUF d I) as (Q1 & Q2 & Q3). split; [lia|]. split; auto. rewrite (frame_base_st _ _ _ _ F); auto. }
    assert (REC : forall some1 buf1 (H : env_loop safety pred kbound l e x s1 some1 buf1 = Ok (s', (some', buf'))),
       some1 = true -> (forall d, In d buf -> In d buf1) -> length buf1 <= S (length buf) ->
       (forall c, In c buf1 -> c < dom s1 /\ c <> x /\ det (st s1 c) = false) ->
       (forall d, In d buf1 -> In d buf \/ mk s1 d = m) ->
       (c <> x /\ st s1 c = WINNING) \/ (safety = true /\ c = x) \/ In c buf1 ->
  frame x s s' /\ base s' /\
  ((st s' x = LOSING /\ some' = true /\ exists m, In m (map snd l) /\ exists c, c < dom s' /\ mk s' c = m /\ ((c = x /\ safety = false) \/ (c <> x /\ st s' c = LOSING))) \/
   (st s' x = PROCESSED /\ e = Ok tt /\
    (forall d, In d buf' -> d < dom s' /\ d <> x /\ det (st s' d) = false /\ (In d buf \/ m = mk s' d \/ In (mk s' d) (map snd l))) /\
    (forall c, In c buf -> In c buf') /\
    (forall m', (m = m' \/ In m' (map snd l)) -> exists c, c < dom s' /\ mk s' c = m' /\ ((c <> x /\ st s' c = WINNING) \/ (safety = true /\ c = x) \/ In c buf')) /\
    some' = true /\ length buf' <= length buf + S (length l)))).
    { intros some1 buf1 H1 -> SUB LEN BF1 OLD CASE.
      destruct (IH e x s1 true buf1 s' some' buf' H1 X1 B1 (fun y I => OKL y (or_intror I)) PX1 BF1) as (F2 & B2 & R).
      pose proof (f_dom _ _ _ F2) as D2.
      split; [eapply frame_trans; eauto|]. split; auto. destruct R as [(R1 & R2 & R3)|(R1 & R2 & R3 & R4 & R5 & R6 & R7)]; [left; auto|right].
      split; auto. split; auto. split; [|split; [|split; [|split]]].
      - intros d I. destruct (R3 d I) as (Q1 & Q2 & Q3 & Q4). split; auto. split; auto. split; auto.
        destruct Q4 as [Q4|Q4]; auto. destruct (OLD d Q4) as [O|O]; auto. right. left. rewrite (f_mk _ _ _ F2); auto. apply BF1; auto.
      - auto.
      - intros m' [<-|I]; [|apply R5; auto]. exists c. split; [lia|]. split; [rewrite (f_mk _ _ _ F2); auto|].
        destruct CASE as [[N W]|[S|I]]; auto. left. split; auto. rewrite (frame_base_st _ _ _ _ F2); auto.
      - rewrite R6. reflexivity.
      - lia. }
    assert (MONO : forall P : (nat -> Prop), forall (Q : list N -> Prop), (exists m', In m' (map snd l) /\ Q m') -> exists m', (m = m' \/ In m' (map snd l)) /\ Q m').
    { intros _ Q (m' & I & Hq). eauto. }
    assert (WRAP : forall some1 buf1 (H : env_loop safety pred kbound l e x s1 some1 buf1 = Ok (s', (some', buf'))),
       some1 = true -> (forall d, In d buf -> In d buf1) -> length buf1 <= S (length buf) ->
       (forall c, In c buf1 -> c < dom s1 /\ c <> x /\ det (st s1 c) = false) ->
       (forall d, In d buf1 -> In d buf \/ mk s1 d = m) ->
       (c <> x /\ st s1 c = WINNING) \/ (safety = true /\ c = x) \/ In c buf1 ->
  frame x s s' /\ base s' /\
  ((st s' x = LOSING /\ some' = true /\ exists m0, In m0 (map snd ((t, m) :: l)) /\ exists c, c < dom s' /\ mk s' c = m0 /\ ((c = x /\ safety = false) \/ (c <> x /\ st s' c = LOSING))) \/
   (st s' x = PROCESSED /\ e = Ok tt /\
    (forall c, In c buf' -> c < dom s' /\ c <> x /\ det (st s' c) = false /\ (In c buf \/ In (mk s' c) (map snd ((t, m) :: l)))) /\
    (forall c, In c buf -> In c buf') /\
    (forall m0, In m0 (map snd ((t, m) :: l)) -> exists c, c < dom s' /\ mk s' c = m0 /\ ((c <> x /\ st s' c = WINNING) \/ (safety = true /\ c = x) \/ In c buf')) /\
    some' = (some || true) /\ length buf' <= length buf + length ((t, m) :: l)))).
    { intros some1 buf1 H1 S1 SUB LEN BF1 OLD CASE. destruct (REC some1 buf1 H1 S1 SUB LEN BF1 OLD CASE) as (F2 & B2 & R).
      split; auto. split; auto. destruct R as [(R1 & R2 & R3)|(R1 & R2 & R3 & R4 & R5 & R6 & R7)]; [left|right].
      - split; auto. split; auto. destruct R3 as (m' & I & Q). exists m'. split; [right; auto|auto].
      - split; auto. split; auto. split; [|split; [auto|split; [|split]]].
        + intros d I. destruct (R3 d I) as (Q1 & Q2 & Q3 & Q4). repeat (split; auto).
        + intros m' I. apply R5. exact I.
        + rewrite orb_true_r. auto.
        + cbn [length]. lia. }
    assert (TERM : forall q, is_losing (st s1 c) = true \/ (safety = false /\ c = x) -> Ok (set_st s1 x LOSING, (true, buf)) = Ok (s', (some', buf')) -> q ->
  frame x s s' /\ base s' /\
  ((st s' x = LOSING /\ some' = true /\ exists m0, In m0 (map snd ((t, m) :: l)) /\ exists c, c < dom s' /\ mk s' c = m0 /\ ((c = x /\ safety = false) \/ (c <> x /\ st s' c = LOSING))) \/ False)).
    { intros q CASE E _. inversion E; subst. pose proof (frame_set_st x s1 LOSING X1) as F2.
      split; [eapply frame_trans; eauto|]. split; [apply base_set_st; auto|]. left. split; [apply st_set_st; auto|]. split; auto.
      exists (mk s1 c). split; [left; reflexivity|]. exists c. pose proof (f_dom _ _ _ F2). split; [lia|]. split; [apply (f_mk _ _ _ F2); auto|].
      destruct CASE as [L|[S E2]]; [|left; auto]. right.
      assert (N : c <> x) by (intros ->; rewrite PX1 in L; discriminate). split; auto.
      rewrite (frame_base_st _ _ _ _ F2); auto. destruct (st s1 c); try discriminate; auto. }
    fold (st s1 c) in H. destruct (is_losing (st s1 c)) eqn:EL.
    { destruct (TERM True (or_introl eq_refl) H I) as (F2 & B2 & [R|[]]). split; auto. }
    destruct (is_winning (st s1 c)) eqn:EW.
    { apply (WRAP true buf H); auto. left. split; [intros ->; rewrite PX1 in EW; discriminate|]. destruct (st s1 c); try discriminate; auto. }
    assert (ND : det (st s1 c) = false) by (destruct (st s1 c); cbn in *; auto; discriminate).
    destruct (Nat.eqb_spec c x) as [->|N].
    + destruct safety eqn:ES; [apply (WRAP true buf H); auto|].
      destruct (TERM True (or_intror (conj eq_refl eq_refl)) H I) as (F2 & B2 & [R|[]]). split; auto.
    + apply (WRAP true (buf ++ [c]) H); auto.
      * intros d I. apply in_or_app. auto.
      * rewrite app_length. cbn. lia.
      * intros d I. apply in_app_or in I. destruct I as [I|[<-|[]]]; auto.
      * intros d I. apply in_app_or in I. destruct I as [I|[<-|[]]]; auto.
      * right. right. apply in_or_app. right. left. auto.
Qed.

Lemma ctrl_loop_ok : forall l e x ee s some buf s' some' w buf',
  ctrl_loop safety pred kbound l e x ee s some buf = Ok (s', (some', w, buf')) ->
  x < dom s -> base s -> (forall y, In y l -> okm (snd y)) -> st s x = PROCESSED ->
  (forall c, In c buf -> c < dom s /\ c <> x /\ det (st s c) = false) ->
  frame x s s' /\ base s' /\
  ((safety = true /\ some' = true /\ w = false /\ buf' = [] /\ st s' x = (if ee then WINNING else MAYBE) /\ In (mk s' x) (map snd l)) \/
   (some' = true /\ w = true /\ buf' = [] /\ st s' x = (if ee then WINNING else MAYBE) /\
    exists c, c < dom s' /\ c <> x /\ st s' c = WINNING /\ In (mk s' c) (map snd l)) \/
   (st s' x = PROCESSED /\ e = Ok tt /\ w = false /\
    (forall c, In c buf' -> c < dom s' /\ c <> x /\ det (st s' c) = false /\ (In c buf \/ In (mk s' c) (map snd l))) /\
    (forall c, In c buf -> In c buf') /\
    (forall m, In m (map snd l) -> exists c, c < dom s' /\ mk s' c = m /\ ((c <> x /\ st s' c = LOSING) \/ (safety = false /\ c = x) \/ In c buf')) /\
    some' = (some || match l with [] => false | _ => true end) /\ length buf' <= length buf + length l)).
Proof.
  induction l as [|[t m] l IH]; intros e x ee s some buf s' some' w buf' H X B OKL PX BUF; cbn [ctrl_loop] in H.
  - destruct e as [[]| | |]; cbn in H; try discriminate. inversion H; subst. split; [apply frame_refl|]. split; auto. right. right.
    split; auto. split; auto. split; auto. split; [intros c I; destruct (BUF c I) as (? & ? & ?); auto|]. split; auto. split; [intros m []|]. split; [rewrite orb_false_r; auto|lia].
  - destruct (get_config safety pred kbound s m) as [s1 c] eqn:G.
    destruct (get_config_ok x s m s1 c G X B (OKL _ (or_introl eq_refl))) as (F & B1 & CX & C1 & C2).
    pose proof (f_dom _ _ _ F) as D. assert (X1 : x < dom s1) by lia. assert (PX1 : st s1 x = PROCESSED) by (unfold st; rewrite CX; exact PX).
    assert (BUF1 : forall c, In c buf -> c < dom s1 /\ c <> x /\ det (st s1 c) = false).
    { intros d I. destruct (BUF d I) as (Q1 & Q2 & Q3). split; [lia|]. split; auto. rewrite (frame_base_st _ _ _ _ F); auto. }
    match goal with |- ?G => assert (WRAP : forall some1 buf1 (H : ctrl_loop safety pred kbound l e x ee s1 some1 buf1 = Ok (s', (some', w, buf'))),
       some1 = true -> (forall d, In d buf -> In d buf1) -> length buf1 <= S (length buf) ->
       (forall c, In c buf1 -> c < dom s1 /\ c <> x /\ det (st s1 c) = false) ->
       (forall d, In d buf1 -> In d buf \/ mk s1 d = m) ->
       (c <> x /\ st s1 c = LOSING) \/ (safety = false /\ c = x) \/ In c buf1 -> G) end.
    { intros some1 buf1 H1 -> SUB LEN BF1 OLD CASE.
      destruct (IH e x ee s1 true buf1 s' some' w buf' H1 X1 B1 (fun y I => OKL y (or_intror I)) PX1 BF1) as (F2 & B2 & R).
      pose proof (f_dom _ _ _ F2) as D2.
      split; [eapply frame_trans; eauto|]. split; auto.
      destruct R as [(R1 & R2 & R3 & R4 & R5 & R6)|[(R1 & R2 & R3 & R4 & d & R5 & R6 & R7 & R8)|(R1 & R2 & R3 & R4 & R5 & R6 & R7 & R8)]].
      - left. repeat (split; auto). right. auto.
      - right. left. repeat (split; auto). exists d. repeat (split; auto). right. auto.
      - right. right. split; auto. split; auto. split; auto. split; [|split; [|split; [|split]]].
        + intros d I. destruct (R4 d I) as (Q1 & Q2 & Q3 & Q4). split; auto. split; auto. split; auto.
          destruct Q4 as [Q4|Q4]; [|right; right; auto]. destruct (OLD d Q4) as [O|O]; auto. right. left. cbn. rewrite (f_mk _ _ _ F2); auto. apply BF1; auto.
        + auto.
        + intros m' [E|I]; [|apply R6; auto]. cbn in E. subst m'. exists c. split; [lia|]. split; [rewrite (f_mk _ _ _ F2); auto|].
          destruct CASE as [[N W]|[S|I]]; auto. left. split; auto. rewrite (frame_base_st _ _ _ _ F2); auto.
        + rewrite R7. cbn. rewrite orb_true_r. reflexivity.
        + cbn [length]. lia. }
    fold (st s1 c) in H. destruct (Nat.eqb_spec c x) as [->|N].
    + destruct safety eqn:ES; [|apply (WRAP true buf H); auto]. inversion H; subst.
      pose proof (frame_set_st x s1 (if ee then WINNING else MAYBE) X1) as F2.
      split; [eapply frame_trans; eauto|]. split; [apply base_set_st; auto|]. left. repeat (split; auto); [apply st_set_st; auto|].
      left. symmetry. exact (f_mk _ _ _ F2 x C1).
    + destruct (is_losing (st s1 c)) eqn:EL.
      { apply (WRAP true buf H); auto. left. split; auto. destruct (st s1 c); try discriminate; auto. }
      destruct (is_winning (st s1 c)) eqn:EW.
      { inversion H; subst. pose proof (frame_set_st x s1 (if ee then WINNING else MAYBE) X1) as F2.
        split; [eapply frame_trans; eauto|]. split; [apply base_set_st; auto|]. right. left. repeat (split; auto); [apply st_set_st; auto|].
        exists c. pose proof (f_dom _ _ _ F2). split; [lia|]. split; auto. split.
        - rewrite (frame_base_st _ _ _ _ F2); auto. destruct (st s1 c); try discriminate; auto.
        - left. symmetry. exact (f_mk _ _ _ F2 c C1). }
      assert (ND : det (st s1 c) = false) by (destruct (st s1 c); cbn in *; auto; discriminate).
      apply (WRAP true (buf ++ [c]) H); auto.
      * intros d I. apply in_or_app. auto.
      * rewrite app_length. cbn. lia.
      * intros d I. apply in_app_or in I. destruct I as [I|[<-|[]]]; auto.
      * intros d I. apply in_app_or in I. destruct I as [I|[<-|[]]]; auto.
      * right. right. apply in_or_app. right. left. auto.
Qed.

Lemma env_loop_res : forall l e x s some buf,
  (exists r, env_loop safety pred kbound l e x s some buf = Ok r) \/ (e = Throw /\ env_loop safety pred kbound l e x s some buf = Throw) \/ e = UB \/ e = NoFuel.
Proof.
  induction l as [|[t m] l IH]; intros e x s some buf; cbn [env_loop].
  - destruct e as [[]| | |]; cbn; eauto.
  - destruct (get_config safety pred kbound s m) as [s1 c]. destruct (is_losing _); [eauto|]. destruct (is_winning _); [eauto|]. destruct (c =? x); [destruct safety|]; eauto.
Qed.
Lemma ctrl_loop_res : forall l e x ee s some buf,
  (exists r, ctrl_loop safety pred kbound l e x ee s some buf = Ok r) \/ (e = Throw /\ ctrl_loop safety pred kbound l e x ee s some buf = Throw) \/ e = UB \/ e = NoFuel.
Proof.
  induction l as [|[t m] l IH]; intros e x ee s some buf; cbn [ctrl_loop].
  - destruct e as [[]| | |]; cbn; eauto.
  - destruct (get_config safety pred kbound s m) as [s1 c]. destruct (c =? x); [destruct safety; eauto|]. destruct (is_losing _); [eauto|]. destruct (is_winning _); eauto.
Qed.
End Tab.

(** ** Edges and the waiting list *)
Definition edge : Type := ((bool * nat) * nat)%type.
Definition edges_of (g : nat -> list (bool * nat)) (n : nat) : list edge := flat_map (fun i => map (fun d => (d, i)) (g i)) (seq 0 n).
Definition edges (s : syn) : list edge := edges_of (fun i => c_dep (cf s i)) (dom s).

Lemma flat_map_ext_in : forall A B (f g : A -> list B) l, (forall x, In x l -> f x = g x) -> flat_map f l = flat_map g l.
Proof. induction l as [|a l IH]; intros H; cbn; auto. rewrite (H a), IH; auto; intros; try apply H; cbn; auto. Qed.
Lemma edges_of_ext : forall g h n, (forall i, i < n -> g i = h i) -> edges_of g n = edges_of h n.
Proof. intros g h n H. apply flat_map_ext_in. intros i I. apply in_seq in I. rewrite H by lia. reflexivity. Qed.
Lemma edges_of_split : forall g x n, x < n -> Permutation (edges_of g n) (map (fun d => (d, x)) (g x) ++ edges_of (fun i => if Nat.eqb i x then [] else g i) n).
Proof.
  intros g x n. unfold edges_of. induction n as [|n IH]; intros L; [lia|].
  rewrite seq_S, !flat_map_app. cbn. rewrite !app_nil_r. destruct (Nat.eqb_spec n x) as [->|N].
  - cbn. rewrite app_nil_r. rewrite (flat_map_ext_in _ _ (fun i => map (fun d => (d, i)) (if i =? x then [] else g i)) (fun i => map (fun d => (d, i)) (g i))).
    + apply Permutation_app_comm.
    + intros i I. apply in_seq in I. destruct (Nat.eqb_spec i x); [lia|auto].
  - rewrite app_assoc. apply Permutation_app; auto. apply IH. lia.
Qed.
Lemma edges_of_grow : forall g n n', n <= n' -> (forall i, n <= i -> i < n' -> g i = []) -> edges_of g n' = edges_of g n.
Proof.
  intros g n n' L H. replace n' with (n + (n' - n)) by lia. unfold edges_of. rewrite seq_app, flat_map_app.
  assert (E : flat_map (fun i => map (fun d => (d, i)) (g i)) (seq (0 + n) (n' - n)) = []).
  { rewrite (flat_map_ext_in _ _ _ (fun _ => [])); [induction (seq (0 + n) (n' - n)); auto|]. intros i I. apply in_seq in I. rewrite H by lia. reflexivity. }
  rewrite E, app_nil_r. reflexivity.
Qed.
Lemma edges_set : forall s i c, i < dom s -> c_dep c = c_dep (cf s i) -> edges (set_cf s i c) = edges s.
Proof.
  intros s i c I H. unfold edges. rewrite dom_set. apply edges_of_ext. intros j J. destruct (Nat.eq_dec i j) as [<-|N].
  - rewrite cf_set_eq; auto.
  - rewrite cf_set_neq; auto.
Qed.
Lemma edges_set_dep : forall s i c, i < dom s ->
  Permutation (edges s) (map (fun d => (d, i)) (c_dep (cf s i)) ++ edges_of (fun j => if Nat.eqb j i then [] else c_dep (cf s j)) (dom s)) /\
  Permutation (edges (set_cf s i c)) (map (fun d => (d, i)) (c_dep c) ++ edges_of (fun j => if Nat.eqb j i then [] else c_dep (cf s j)) (dom s)).
Proof.
  intros s i c I. split; [apply edges_of_split; auto|]. unfold edges. rewrite dom_set. eapply perm_trans; [apply (edges_of_split _ i); auto|].
  cbv beta. rewrite cf_set_eq by auto. apply Permutation_app_head. erewrite edges_of_ext; [apply Permutation_refl|]. intros j J. cbn.
  destruct (Nat.eqb_spec j i); auto. rewrite cf_set_neq; auto.
Qed.
Lemma edges_frame : forall sa pr k x s s', x < dom s -> frame sa pr k x s s' -> edges s' = edges s.
Proof.
  intros sa pr k x s s' X F. pose proof (f_dom _ _ _ _ _ _ F). unfold edges. rewrite (edges_of_grow _ (dom s)).
  - apply edges_of_ext. intros i I. destruct (Nat.eq_dec i x) as [->|N]; [rewrite (f_x _ _ _ _ _ _ F)|rewrite (f_cf _ _ _ _ _ _ F)]; auto.
  - auto.
  - intros i I J. rewrite (f_new _ _ _ _ _ _ F); auto.
Qed.
Lemma in_edges : forall s d c, In (d, c) (edges s) <-> c < dom s /\ In d (c_dep (cf s c)).
Proof.
  intros s d c. unfold edges, edges_of. rewrite in_flat_map. split.
  - intros (i & I & H). apply in_map_iff in H. destruct H as (d' & E & H). inversion E; subst. apply in_seq in I. split; [lia|auto].
  - intros [L H]. exists c. split; [apply in_seq; lia|]. apply in_map_iff. exists d. auto.
Qed.

(** What [to_queue] does. *)
Record queued (succs : list nat) (b : bool) (x : nat) (s s' : syn) : Prop := mkTq {
  t_dom : dom s' = dom s;
  t_back : y_back s' = y_back s;
  t_fst : map fst (y_tab s') = map fst (y_tab s);
  t_st : forall i, st s' i = st s i;
  t_cc : forall i, c_cc (cf s' i) = c_cc (cf s i);
  t_ec : forall i, c_ec (cf s' i) = c_ec (cf s i);
  t_wait : forall i, c_wait (cf s' i) = if in_dec Nat.eq_dec i succs then (if Nat.eqb (c_wait (cf s i)) 0 then 1 else c_wait (cf s i)) else c_wait (cf s i);
  t_same : forall i, ~ In i succs -> cf s' i = cf s i;
  t_q : exists new, y_queue s' = y_queue s ++ new /\ NoDup new /\ (forall i, In i new <-> In i succs /\ c_wait (cf s i) = 0);
  t_ed : Permutation (edges s') (map (fun c => ((b, x), c)) succs ++ edges s)
}.
Lemma to_queue_ok : forall succs b x s, (forall c, In c succs -> c < dom s) -> queued succs b x s (to_queue succs b x s).
Proof.
  induction succs as [|c succs IH]; intros b x s H; cbn [to_queue].
  - constructor; auto.
    + exists []. rewrite app_nil_r. split; auto. split; [constructor|]. intros i; cbn; tauto.
  - cbv zeta.
    set (s1 := if c_wait (cf s c) =? 0 then _ else s). set (s2 := set_cf s1 c _). assert (CL : c < dom s) by (apply H; left; auto).
    assert (D1 : dom s1 = dom s) by (unfold s1; destruct (c_wait (cf s c) =? 0); auto; unfold dom; cbn; apply upd_length).
    assert (CF1 : forall i, i <> c -> cf s1 i = cf s i).
    { intros i N. unfold s1. destruct (c_wait (cf s c) =? 0); auto. apply (cf_set_neq s c i); auto. }
    assert (CC1 : cf s1 c = mkCf (c_st (cf s c)) (if c_wait (cf s c) =? 0 then 1 else c_wait (cf s c)) (c_cc (cf s c)) (c_ec (cf s c)) (c_dep (cf s c))).
    { unfold s1. destruct (c_wait (cf s c) =? 0) eqn:W; [apply (cf_set_eq s c); auto|destruct (cf s c); auto]. }
    assert (E1 : edges s1 = edges s).
    { unfold s1. destruct (c_wait (cf s c) =? 0); auto. apply (edges_set s c); auto. }
    assert (D2 : dom s2 = dom s) by (unfold s2; rewrite dom_set; auto).
    assert (CF2 : forall i, i <> c -> cf s2 i = cf s i) by (intros i N; unfold s2; rewrite cf_set_neq; auto).
    assert (CC2 : cf s2 c = mkCf (c_st (cf s c)) (if c_wait (cf s c) =? 0 then 1 else c_wait (cf s c)) (c_cc (cf s c)) (c_ec (cf s c)) ((b, x) :: c_dep (cf s c))).
    { unfold s2. rewrite cf_set_eq by lia. rewrite CC1. reflexivity. }
    assert (E2 : Permutation (edges s2) (((b, x), c) :: edges s)).
    { unfold s2. rewrite <- E1. destruct (edges_set_dep s1 c (mkCf (c_st (cf s1 c)) (c_wait (cf s1 c)) (c_cc (cf s1 c)) (c_ec (cf s1 c)) ((b, x) :: c_dep (cf s1 c)))) as [P1 P2]; [lia|].
      eapply perm_trans; [exact P2|]. cbn. constructor. apply Permutation_sym. exact P1. }
    assert (F2 : map fst (y_tab s2) = map fst (y_tab s)).
    { unfold s2. rewrite fst_tab_set. unfold s1. destruct (c_wait (cf s c) =? 0); auto. apply (fst_tab_set s c). }
    assert (B2 : y_back s2 = y_back s) by (unfold s2; cbn; unfold s1; destruct (c_wait (cf s c) =? 0); auto).
    assert (Q2 : y_queue s2 = y_queue s ++ (if c_wait (cf s c) =? 0 then [c] else [])).
    { unfold s2; cbn; unfold s1; destruct (c_wait (cf s c) =? 0); auto. rewrite app_nil_r; auto. }
    destruct (IH b x s2) as [T1 T2 T3 T4 T5 T6 T7 T8 T9 T10]; [intros d I; rewrite D2; apply H; right; auto|].
    constructor.
    + congruence.
    + congruence.
    + congruence.
    + intros i. rewrite T4. unfold st. destruct (Nat.eq_dec i c) as [->|N]; [rewrite CC2|rewrite CF2]; auto.
    + intros i. rewrite T5. destruct (Nat.eq_dec i c) as [->|N]; [rewrite CC2|rewrite CF2]; auto.
    + intros i. rewrite T6. destruct (Nat.eq_dec i c) as [->|N]; [rewrite CC2|rewrite CF2]; auto.
    + intros i. rewrite T7. destruct (Nat.eq_dec i c) as [->|N].
      * rewrite CC2. cbn [c_wait]. destruct (in_dec Nat.eq_dec c (c :: succs)) as [_|K]; [|exfalso; apply K; left; auto].
        destruct (in_dec Nat.eq_dec c succs); destruct (c_wait (cf s c) =? 0) eqn:W; auto. rewrite W. auto.
      * rewrite CF2 by auto. destruct (in_dec Nat.eq_dec i succs) as [I|K], (in_dec Nat.eq_dec i (c :: succs)) as [I2|K2]; auto.
        -- exfalso. apply K2. right; auto.
        -- destruct I2; [congruence|contradiction].
    + intros i K. rewrite T8; [apply CF2|]; intros Q; apply K; cbn; auto.
    + destruct T9 as (new & N1 & N2 & N3). rewrite Q2, <- app_assoc in N1. eexists. split; [exact N1|].
      destruct (c_wait (cf s c) =? 0) eqn:W.
      * apply Nat.eqb_eq in W. split.
        -- cbn. constructor; auto. intros I. apply N3 in I. rewrite CC2 in I. destruct I as [_ I]. cbn in I. discriminate.
        -- intros i. cbn. rewrite N3. destruct (Nat.eq_dec i c) as [->|NE].
           ++ split; auto.
           ++ rewrite CF2 by auto. split; [intros [?|[? ?]]; [congruence|auto]|intros [[?|?] ?]; [congruence|auto]].
      * apply Nat.eqb_neq in W. cbn. split; auto. intros i. rewrite N3. destruct (Nat.eq_dec i c) as [->|NE].
        -- rewrite CC2. cbn. destruct (c_wait (cf s c)) eqn:W2; [contradiction|]. cbn. split; intros [_ K]; lia.
        -- rewrite CF2 by auto. split; [intros [? ?]; auto|intros [[?|?] ?]; [congruence|auto]].
    + eapply perm_trans; [exact T10|]. cbn. eapply perm_trans; [apply Permutation_app_head; exact E2|]. apply Permutation_sym, Permutation_middle.
Qed.
