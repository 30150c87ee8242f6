(** Sequences of reductions, and the two rules that do not keep the reachable properties. *)
From Verif Require Import Base BaseLemmas NetSpec NetModel BuilderModel RedTheory RedSpec RedModel RedCand RedProofs RedNet RedRules RedRuleJ RedAgg RedOps RedRuleA RedRuleFNO RedRuleE RedRuleD RedRuleC RedRuleI RedModelH RedRuleH RedModelB RedRuleB.

Theorem try_rule_ok : forall inq b c, good b -> fair b c -> sound_result inq b (try_rule inq b c).
Proof.
  intros inq b c G F. destruct c; cbn [try_rule fair] in *.
  - apply rule_a_ok; exact G.
  - apply rule_f_ok; exact G.
  - apply rule_fno_ok; exact G.
  - apply rule_g_ok; assumption.
  - apply rule_j_ok; assumption.
  - destruct F. apply rule_l_ok; assumption.
  - apply rule_q_ok; exact G.
  - apply rule_efmnop_ok; exact G.
  - destruct F. apply rule_d_ok; assumption.
  - apply rule_d0_ok; exact G.
  - apply rule_c_ok; assumption.
  - apply rule_m_ok; exact G.
  - apply rule_i_ok; assumption.
  - apply rule_h_ok; exact G.
  - apply rule_b_ok; assumption.
Qed.
Theorem reduced_ok : forall inq b b', good b -> reduced inq b b' -> good b' /\ same_views inq b b'.
Proof.
  intros inq b b' G H. induction H as [b|b c b1 b2 F E H IH]; [split; [exact G|apply same_views_refl]|].
  pose proof (try_rule_ok inq b c G F) as S. rewrite E in S. destruct S as (G1 & V1). destruct (IH G1) as (G2 & V2). split; [exact G2|eapply same_views_trans; eauto].
Qed.

(** ** Building small nets for the examples *)
(** places with their initial marking; transitions with their arcs: the vectors at the places are
    computed from the arcs *)
Definition ids_with (p : nat) (side : btrans -> list arc) (ts : list btrans) : list nat :=
  filter (fun t => existsb (fun a => Nat.eqb (arc_place a) p) (side (nth t ts btrans0))) (seq 0 (length ts)).
Definition inh_place (p : nat) (ts : list btrans) : bool := existsb (fun x => existsb (fun a => Nat.eqb (arc_place a) p && arc_inhib a) (bt_pre x)) ts.
Definition small_net (init : list N) (ts : list (list arc * list arc)) : builder :=
  let bts := map (fun x => mkBT (fst x) (snd x) 0%Z false (existsb arc_inhib (fst x))) ts in
  mkB (seq 0 (length init)) (seq 0 (length ts)) bts
      (map (fun p => mkBP (ids_with p bt_pre bts) (ids_with p bt_post bts) false (inh_place p bts)) (seq 0 (length init))) init.
(** a decidable form of [good] *)
Fixpoint sortedb (l : list nat) : bool := match l with [] => true | x :: l' => forallb (fun y => x <? y) l' && sortedb l' end.
Lemma sortedb_ok : forall l, sortedb l = true -> sorted l.
Proof.
  induction l as [|x l IH]; intros H; [exact I|]. cbn in H. apply andb_true_iff in H. destruct H as (A & B). split; [|apply IH; exact B].
  intros y Hy. rewrite forallb_forall in A. apply Nat.ltb_lt. apply A. exact Hy.
Qed.
Definition goodb (b : builder) : bool :=
  let np := length (b_places b) in let nt := length (b_trans b) in
  (np =? length (b_pnames b)) && (nt =? length (b_tnames b)) && (length (b_init b) =? length (b_pnames b)) && sortedb (b_pnames b) && sortedb (b_tnames b) &&
  forallb (fun t => let x := tr_of b t in
    (negb (bt_skip x) || match bt_pre x, bt_post x with [], [] => true | _, _ => false end) &&
    forallb (fun a => negb (bp_skip (pl_of b (arc_place a))) && (0 <? arc_weight a)%N && (negb (arc_inhib a) || (bt_inhib x && bp_inhib (pl_of b (arc_place a)))) && (arc_place a <? np) && existsb (Nat.eqb t) (bp_cons (pl_of b (arc_place a)))) (bt_pre x) &&
    forallb (fun a => negb (bp_skip (pl_of b (arc_place a))) && (0 <? arc_weight a)%N && negb (arc_inhib a) && (arc_place a <? np) && existsb (Nat.eqb t) (bp_prod (pl_of b (arc_place a)))) (bt_post x) &&
    sortedb (map arc_place (bt_pre x)) && sortedb (map arc_place (bt_post x))) (seq 0 nt) &&
  forallb (fun p => let x := pl_of b p in sortedb (bp_cons x) && sortedb (bp_prod x) &&
    forallb (fun t => existsb (Nat.eqb p) (map arc_place (bt_pre (tr_of b t)))) (bp_cons x) &&
    forallb (fun t => existsb (Nat.eqb p) (map arc_place (bt_post (tr_of b t)))) (bp_prod x)) (seq 0 np).
Lemma goodb_ok : forall b, goodb b = true -> good b.
Proof.
  intros b H. unfold goodb in H. apply andb_true_iff in H. destruct H as (H & Hpl). apply andb_true_iff in H. destruct H as (H & Htr). apply andb_true_iff in H. destruct H as (H & H5). apply andb_true_iff in H. destruct H as (H & H4).
  apply andb_true_iff in H. destruct H as (H & H3). apply andb_true_iff in H. destruct H as (H1 & H2). apply Nat.eqb_eq in H1, H2, H3.
  rewrite forallb_forall in Htr, Hpl.
  assert (Out : forall t, length (b_trans b) <= t -> tr_of b t = btrans0) by (intros t Ht; unfold tr_of; apply nth_overflow; exact Ht).
  assert (OutP : forall p, length (b_places b) <= p -> pl_of b p = bplace0) by (intros t Ht; unfold pl_of; apply nth_overflow; exact Ht).
  assert (T : forall t, t < length (b_trans b) ->
    (bt_skip (tr_of b t) = true -> bt_pre (tr_of b t) = [] /\ bt_post (tr_of b t) = []) /\
    (forall a, In a (bt_pre (tr_of b t)) -> bp_skip (pl_of b (arc_place a)) = false /\ (0 < arc_weight a)%N /\ (arc_inhib a = true -> bt_inhib (tr_of b t) = true /\ bp_inhib (pl_of b (arc_place a)) = true) /\ arc_place a < length (b_places b) /\ In t (bp_cons (pl_of b (arc_place a)))) /\
    (forall a, In a (bt_post (tr_of b t)) -> bp_skip (pl_of b (arc_place a)) = false /\ (0 < arc_weight a)%N /\ arc_inhib a = false /\ arc_place a < length (b_places b) /\ In t (bp_prod (pl_of b (arc_place a)))) /\
    sorted (map arc_place (bt_pre (tr_of b t))) /\ sorted (map arc_place (bt_post (tr_of b t)))).
  { intros t Ht. specialize (Htr t ltac:(apply in_seq; lia)). cbv zeta in Htr. apply andb_true_iff in Htr. destruct Htr as (Htr & S2). apply andb_true_iff in Htr. destruct Htr as (Htr & S1). apply andb_true_iff in Htr. destruct Htr as (Htr & Q2). apply andb_true_iff in Htr. destruct Htr as (Q0 & Q1).
    rewrite forallb_forall in Q1, Q2. split; [|split; [|split; [|split; apply sortedb_ok; assumption]]].
    - intros Sk. rewrite Sk in Q0. cbn in Q0. destruct (bt_pre (tr_of b t)); [|discriminate]. destruct (bt_post (tr_of b t)); [auto|discriminate].
    - intros a Ha. specialize (Q1 a Ha). apply andb_true_iff in Q1. destruct Q1 as (Q1 & R5). apply andb_true_iff in Q1. destruct Q1 as (Q1 & R4). apply andb_true_iff in Q1. destruct Q1 as (Q1 & R3). apply andb_true_iff in Q1. destruct Q1 as (R1 & R2).
      apply negb_true_iff in R1. apply N.ltb_lt in R2. apply Nat.ltb_lt in R4. apply existsb_in in R5. split; [exact R1|]. split; [exact R2|]. split; [|auto]. intros X. rewrite X in R3. cbn in R3. apply andb_true_iff in R3. exact R3.
    - intros a Ha. specialize (Q2 a Ha). apply andb_true_iff in Q2. destruct Q2 as (Q2 & R5). apply andb_true_iff in Q2. destruct Q2 as (Q2 & R4). apply andb_true_iff in Q2. destruct Q2 as (Q2 & R3). apply andb_true_iff in Q2. destruct Q2 as (R1 & R2).
      apply negb_true_iff in R1, R3. apply N.ltb_lt in R2. apply Nat.ltb_lt in R4. apply existsb_in in R5. auto. }
  assert (P : forall p, sorted (bp_cons (pl_of b p)) /\ sorted (bp_prod (pl_of b p)) /\ (forall t, In t (bp_cons (pl_of b p)) -> In p (map arc_place (bt_pre (tr_of b t)))) /\ (forall t, In t (bp_prod (pl_of b p)) -> In p (map arc_place (bt_post (tr_of b t))))).
  { intros p. destruct (Nat.lt_ge_cases p (length (b_places b))) as [L|L]; [|rewrite (OutP p L); cbn; repeat split; intros t []].
    specialize (Hpl p ltac:(apply in_seq; lia)). cbv zeta in Hpl. apply andb_true_iff in Hpl. destruct Hpl as (Hpl & Q2). apply andb_true_iff in Hpl. destruct Hpl as (Hpl & Q1). apply andb_true_iff in Hpl. destruct Hpl as (S1 & S2).
    rewrite forallb_forall in Q1, Q2. split; [apply sortedb_ok; exact S1|]. split; [apply sortedb_ok; exact S2|]. split; intros t Ht; apply existsb_in; auto. }
  assert (D : forall t, t < length (b_trans b) \/ tr_of b t = btrans0) by (intros t; destruct (Nat.lt_ge_cases t (length (b_trans b))); [left; assumption|right; apply Out; assumption]).
  constructor; try assumption.
  - apply sorted_nodup, sortedb_ok. exact H4.
  - apply sorted_nodup, sortedb_ok. exact H5.
  - intros t. destruct (D t) as [L|E]; [apply (T t L)|rewrite E; intros _; split; reflexivity].
  - intros t a Ha. destruct (D t) as [L|E]; [|rewrite E in Ha; destruct Ha]. destruct (T t L) as (_ & X & _). destruct (X a Ha) as (A & B & C & _). auto.
  - intros t a Ha. destruct (D t) as [L|E]; [|rewrite E in Ha; destruct Ha]. destruct (T t L) as (_ & _ & X & _). destruct (X a Ha) as (A & B & C & _). auto.
  - intros t. destruct (D t) as [L|E]; [apply (T t L)|rewrite E; exact I].
  - intros t. destruct (D t) as [L|E]; [apply (T t L)|rewrite E; exact I].
  - intros p. apply P.
  - intros p. apply P.
  - intros p t. split; [apply P|]. intros Hp. destruct (D t) as [L|E]; [|rewrite E in Hp; destruct Hp]. apply in_map_iff in Hp. destruct Hp as (a & <- & Ha). destruct (T t L) as (_ & X & _). apply (X a Ha).
  - intros p t. split; [apply P|]. intros Hp. destruct (D t) as [L|E]; [|rewrite E in Hp; destruct Hp]. apply in_map_iff in Hp. destruct Hp as (a & <- & Ha). destruct (T t L) as (_ & _ & X & _). apply (X a Ha).
Qed.

(** ** How to refute a rule *)
Definition enabledb (x : trans) (m : marking) : bool :=
  forallb (fun a => if arc_inhib a then (tokens m (arc_place a) <? arc_weight a)%N else (arc_weight a <=? tokens m (arc_place a))%N) (tr_pre x).
Definition fire_at (x : trans) (m : marking) : marking :=
  map (fun p => tokens m p - weight_at (tr_pre x) p + weight_at (tr_post x) p)%N (seq 0 (length m)).
Definition enoughb (x : trans) (m : marking) : bool := forallb (fun p => (weight_at (tr_pre x) p <=? tokens m p)%N) (seq 0 (length m)).
Fixpoint exec (n : pnet) (m : marking) (w : list nat) : option marking :=
  match w with
  | [] => Some m
  | i :: w' => match nth_error (pn_trans n) i with
               | Some x => if enabledb x m && enoughb x m then exec n (fire_at x m) w' else None
               | None => None
               end
  end.
Lemma enabledb_ok : forall x m, enabledb x m = true <-> enabled x m.
Proof.
  intros x m. unfold enabledb, enabled, arc_ok. rewrite forallb_forall. split; intros H a Ha; specialize (H a Ha); destruct (arc_inhib a); first [apply N.ltb_lt|apply N.leb_le]; exact H.
Qed.
Lemma fire_at_len : forall x m, length (fire_at x m) = length m.
Proof. intros x m. unfold fire_at. rewrite map_length, seq_length. reflexivity. Qed.
Lemma fire_at_tokens : forall x m p, p < length m -> tokens (fire_at x m) p = (tokens m p - weight_at (tr_pre x) p + weight_at (tr_post x) p)%N.
Proof.
  intros x m p Hp. unfold fire_at, tokens. set (f := fun p => (nth p m 0 - weight_at (tr_pre x) p + weight_at (tr_post x) p)%N).
  assert (Len : p < length (map f (seq 0 (length m)))) by (rewrite map_length, seq_length; exact Hp).
  rewrite (nth_indep _ 0%N (f 0) Len), map_nth, seq_nth by exact Hp. reflexivity.
Qed.
Lemma fire_at_only : forall x m m', fires x m m' -> m' = fire_at x m.
Proof.
  intros x m m' (_ & L & H). apply (nth_ext _ _ 0%N 0%N); [rewrite fire_at_len; exact L|]. intros p Hp. rewrite L in Hp. change (tokens m' p = tokens (fire_at x m) p). rewrite fire_at_tokens by exact Hp. apply H. exact Hp.
Qed.
Lemma exec_run : forall n w m m', exec n m w = Some m' -> run n m w m'.
Proof.
  intros n. induction w as [|i w IH]; intros m m' H; cbn [exec] in H; [injection H as <-; constructor|].
  destruct (nth_error (pn_trans n) i) as [x|] eqn:Ex; [|discriminate]. destruct (enabledb x m && enoughb x m) eqn:E; [|discriminate]. apply andb_true_iff in E. destruct E as (E1 & E2).
  apply run_cons with (m1 := fire_at x m); [|apply IH; exact H]. exists x. split; [exact Ex|]. split; [apply enabledb_ok; exact E1|]. split; [apply fire_at_len|]. intros p Hp. split; [|apply fire_at_tokens; exact Hp].
  unfold enoughb in E2. rewrite forallb_forall in E2. apply N.leb_le. apply E2. apply in_seq. lia.
Qed.
Definition mem_m (m : marking) (l : list marking) : bool := existsb (fun m' => if list_eq_dec N.eq_dec m m' then true else false) l.
Lemma mem_m_in : forall m l, mem_m m l = true <-> In m l.
Proof.
  intros m l. unfold mem_m. rewrite existsb_exists. split; [intros (x & Hx & E); destruct (list_eq_dec N.eq_dec m x); [subst; exact Hx|discriminate]|intros H; exists m; split; [exact H|]; destruct (list_eq_dec N.eq_dec m m); [reflexivity|contradiction]].
Qed.
(** a set of markings closed under firing contains the reachable ones *)
Definition closedb (n : pnet) (l : list marking) : bool :=
  forallb (fun m => forallb (fun x => negb (enabledb x m) || mem_m (fire_at x m) l) (pn_trans n)) l.
Lemma closed_run : forall n l, closedb n l = true -> forall m w m', run n m w m' -> In m l -> In m' l.
Proof.
  intros n l H m w m' R. induction R as [m|m i m1 w m2 (x & Hx & F) R IH]; intros Hm; [exact Hm|]. apply IH. unfold closedb in H. rewrite forallb_forall in H. specialize (H m Hm). rewrite forallb_forall in H. specialize (H x (nth_error_In _ _ Hx)).
  assert (En : enabledb x m = true) by (apply enabledb_ok; apply F). rewrite En in H. cbn in H. apply mem_m_in in H. rewrite (fire_at_only _ _ _ F). exact H.
Qed.
(** the protected place [p] gets [v] tokens in one net only *)
Lemma told_apart : forall inq b b' p v l w,
  inq p = true -> closedb (live_net b) l = true -> mem_m (b_init b) l = true -> forallb (fun m => negb (tokens m p =? v)%N) l = true ->
  match exec (live_net b') (b_init b') w with Some m => (tokens m p =? v)%N | None => false end = true -> ~ same_views inq b b' /\ ~ same_views inq b' b.
Proof.
  intros inq b b' p v l w Q C I V E. destruct (exec (live_net b') (b_init b') w) as [m|] eqn:X; [|discriminate]. apply N.eqb_eq in E. apply exec_run in X.
  assert (A : about inq (fun m => tokens m p = v)) by (intros m1 m2 H Hm; rewrite <- (H p Q); exact Hm).
  assert (Yes : exists m, reach b' m /\ tokens m p = v) by (exists m; split; [exists w; exact X|exact E]).
  assert (No : ~ exists m, reach b m /\ tokens m p = v).
  { intros (m1 & (w1 & R) & T). apply mem_m_in in I. pose proof (closed_run _ _ C _ _ _ R I) as Hin. rewrite forallb_forall in V. specialize (V m1 Hin). apply negb_true_iff, N.eqb_neq in V. contradiction. }
  split; intros S; apply No; [apply (S _ A)|apply (S _ A)]; exact Yes.
Qed.
(** ** Running a sequence of candidates *)
Definition all_weights (f : N -> bool) (b : builder) : bool := forallb (fun x => forallb (fun a => f (arc_weight a)) (bt_pre x ++ bt_post x)) (b_trans b).
Definition loops_growb (b : builder) : bool :=
  forallb (fun x => forallb (fun a => negb (arc_inhib a) ||
    forallb (fun t => match in_arc b (arc_place a) t, out_arc b t (arc_place a) with
      | Some i, Some o => arc_inhib i || negb (arc_weight a <=? arc_weight o)%N || (arc_weight i <=? arc_weight o)%N | _, _ => true end) (seq 0 (length (b_trans b)))) (bt_pre x)) (b_trans b).
Definition b_fairb (b : builder) (p : nat) : bool :=
  forallb (fun t => match in_arc b p t with
    | None => true
    | Some a =>
      if length (bt_pre (tr_of b t)) =? 1
      then (init_at b p mod arc_weight a =? 0)%N || forallb (fun u => match out_arc b u p with Some o => (arc_weight o mod arc_weight a =? 0)%N | None => true end) (seq 0 (length (b_trans b)))
      else forallb (fun u => match out_arc b u p with Some o => (arc_weight o <=? arc_weight a)%N && forallb (fun x => negb (bp_inhib (pl_of b (arc_place x)))) (bt_pre (tr_of b u)) | None => true end) (seq 0 (length (b_trans b)))
    end) (bp_cons (pl_of b p)).
Definition fairb (b : builder) (c : candidate) : bool :=
  match c with
  | TryG _ _ t => t <? length (b_trans b)
  | TryL t1 t2 => (t1 <? length (b_trans b)) && (t2 <? length (b_trans b))
  | TryJ _ => all_weights (fun w => w <? 4294967295)%N b
  | TryD _ loops _ _ _ => all_weights (fun w => w <? 65536)%N b && (negb loops || forallb (fun x => negb (bp_inhib x)) (b_places b))
  | TryC p1 _ => negb (bp_inhib (pl_of b p1))
  | TryI _ => loops_growb b
  | TryB _ _ p => b_fairb b p
  | _ => true
  end.
Lemma tr_in : forall b t a, In a (bt_pre (tr_of b t)) \/ In a (bt_post (tr_of b t)) -> In (tr_of b t) (b_trans b) /\ t < length (b_trans b).
Proof.
  intros b t a Ha. unfold tr_of in *. destruct (Nat.lt_ge_cases t (length (b_trans b))) as [L|L]; [split; [apply nth_In; exact L|exact L]|]. rewrite nth_overflow in Ha by exact L. cbn in Ha. tauto.
Qed.
Lemma all_weights_ok : forall f b, all_weights f b = true -> forall t a, In a (bt_pre (tr_of b t)) \/ In a (bt_post (tr_of b t)) -> f (arc_weight a) = true.
Proof. intros f b H t a Ha. unfold all_weights in H. rewrite forallb_forall in H. specialize (H _ (proj1 (tr_in b t a Ha))). rewrite forallb_forall in H. apply H. apply in_or_app. exact Ha. Qed.
Lemma loops_growb_ok : forall b, loops_growb b = true -> loops_grow b.
Proof.
  intros b H u a t i o Ha Ia Ei Eo Ii Le. unfold loops_growb in H. rewrite forallb_forall in H. specialize (H _ (proj1 (tr_in b u a (or_introl Ha)))). rewrite forallb_forall in H. specialize (H a Ha). rewrite Ia in H. cbn [negb orb] in H. rewrite forallb_forall in H.
  assert (Ht : t < length (b_trans b)). { unfold in_arc, tr_of in Ei. destruct (Nat.lt_ge_cases t (length (b_trans b))) as [L|L]; [exact L|]. rewrite nth_overflow in Ei by exact L. discriminate. }
  specialize (H t ltac:(apply in_seq; lia)). rewrite Ei, Eo, Ii in H. apply N.leb_le in Le. rewrite Le in H. cbn [negb orb] in H. apply N.leb_le. exact H.
Qed.
Lemma b_fairb_ok : forall b p, b_fairb b p = true -> b_fair b p.
Proof.
  intros b p H t a Hc Ea. unfold b_fairb in H. rewrite Hc in H. cbn [forallb] in H. rewrite andb_true_r, Ea in H.
  assert (Rg : forall u o, out_arc b u p = Some o -> In u (seq 0 (length (b_trans b)))).
  { intros u o Ho. apply in_seq. cbn. unfold out_arc, tr_of in Ho. destruct (Nat.lt_ge_cases u (length (b_trans b))) as [L|L]; [lia|]. rewrite nth_overflow in Ho by exact L. discriminate. }
  destruct (length (bt_pre (tr_of b t)) =? 1).
  - apply orb_true_iff in H. destruct H as [H|H]; [left; apply N.eqb_eq; exact H|right]. rewrite forallb_forall in H. intros u o Ho. specialize (H u (Rg u o Ho)). rewrite Ho in H. apply N.eqb_eq. exact H.
  - rewrite forallb_forall in H. intros u o Ho. specialize (H u (Rg u o Ho)). rewrite Ho in H. apply andb_true_iff in H. destruct H as (A & B). split; [apply N.leb_le; exact A|]. rewrite forallb_forall in B. intros x Hx. apply negb_true_iff. apply B. exact Hx.
Qed.
Lemma fairb_ok : forall b c, fairb b c = true -> fair b c.
Proof.
  intros b c H. destruct c; cbn [fairb fair] in *; try exact I.
  - apply Nat.ltb_lt. exact H.
  - intros t a Ha. apply N.ltb_lt. apply (all_weights_ok _ _ H t a Ha).
  - apply andb_true_iff in H. destruct H as (A & B). apply Nat.ltb_lt in A, B. auto.
  - apply andb_true_iff in H. destruct H as (A & B). split; [intros t a Ha; apply N.ltb_lt; apply (all_weights_ok _ _ A t a Ha)|]. intros El. subst loops. cbn [negb orb] in B. rewrite forallb_forall in B. intros q. unfold pl_of. destruct (Nat.lt_ge_cases q (length (b_places b))) as [L|L].
    + apply negb_true_iff. apply B. apply nth_In. exact L.
    + rewrite nth_overflow by exact L. reflexivity.
  - apply negb_true_iff. exact H.
  - apply loops_growb_ok. exact H.
  - apply b_fairb_ok. exact H.
Qed.
Fixpoint try_all (inq : nat -> bool) (l : list candidate) (b : builder) : res builder :=
  match l with
  | [] => Ok b
  | c :: l' => if fairb b c then b1 <- try_rule inq b c ;; try_all inq l' b1 else Throw
  end.
Lemma try_all_reduced : forall inq l b b', try_all inq l b = Ok b' -> reduced inq b b'.
Proof.
  intros inq. induction l as [|c l IH]; intros b b' H; cbn [try_all] in H; [injection H as <-; constructor|].
  destruct (fairb b c) eqn:F; [|discriminate]. destruct (try_rule inq b c) as [b1| | |] eqn:E; cbn [bind] in H; try discriminate. eapply rd_cons; [apply fairb_ok; exact F|exact E|apply IH; exact H].
Qed.
