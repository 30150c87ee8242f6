(** Synthesis: every step of the fixed-point computation keeps the invariant (C35). *)
From Verif Require Import Base BaseLemmas NetSpec NetModel SynModel SynTab SynInv.
From Coq Require Import Permutation.

Lemma remove_at_in : forall l i j, NoDup l -> i < length l -> (In j (remove_at i l) <-> In j l /\ j <> nth i l 0).
Proof.
  unfold remove_at. induction l as [|a l IH]; intros i j ND L; [cbn in L; lia|]. inversion ND; subst. destruct i as [|i].
  - cbn. split; [intros I; split; auto; intros ->; contradiction|intros [[<-|I] N]; [congruence|auto]].
  - cbn [firstn skipn nth app]. cbn in L. specialize (IH i j H2 ltac:(lia)). cbn [skipn] in IH. cbn [In]. rewrite IH. split.
    + intros [<-|[I N]]; [split; auto; intros E; apply H1; rewrite E; apply nth_In; lia|auto].
    + intros [[<-|I] N]; auto.
Qed.
Lemma remove_at_nodup : forall l i, NoDup l -> NoDup (remove_at i l).
Proof.
  unfold remove_at. induction l as [|a l IH]; intros i ND; [destruct i; constructor|]. inversion ND; subst. destruct i as [|i]; [exact H2|].
  cbn [firstn skipn app]. constructor; [|apply (IH i); auto]. intros I. apply H1. apply in_app_or in I.
  destruct I as [I|I]; [rewrite <- (firstn_skipn i l)|rewrite <- (firstn_skipn (S i) l)]; apply in_or_app; auto.
Qed.

Section Run.
Variable safety : bool.
Variable pred : list N -> bool.
Variable kbound : N.
Variable okm : list N -> Prop.
Variable E C : list N -> list N -> Prop.
Variable lost : list N -> Prop.
Variable envs ctrls : list N -> list (nat * list N) * res unit.
Variable pick : nat -> list nat -> nat.
Hypothesis L_env : forall m m', E m m' -> lost m' -> lost m.
Hypothesis L_ctrl : forall m, has C m -> (forall m', C m m' -> lost m') -> lost m.
Hypothesis L_bad : forall m, safety = true -> new_state safety pred kbound m = LOSING -> lost m.
Definition stream_ok (f : list N -> list (nat * list N) * res unit) (R : list N -> list N -> Prop) : Prop :=
  forall m, okm m -> (forall y, In y (fst (f m)) -> R m (snd y) /\ okm (snd y)) /\ (N.of_nat (length (fst (f m))) < 2 ^ 32)%N /\
    (snd (f m) = Ok tt /\ (forall m', R m m' -> In m' (map snd (fst (f m)))) \/ snd (f m) = Throw).
Hypothesis HE : stream_ok envs E.
Hypothesis HC : stream_ok ctrls C.

Notation new_state := (new_state safety pred kbound).
Notation base := (base okm).
Notation frame := (frame safety pred kbound).
Notation Inv := (Inv safety pred kbound okm E C lost).
Notation WJ := (WJ safety pred kbound E C).
Notation LJ := (LJ safety pred kbound okm E C lost).
Notation Open := (Open safety pred kbound E C).

Definition agree (skip : nat -> Prop) (s s' : syn) : Prop :=
  dom s' = dom s /\ map fst (y_tab s') = map fst (y_tab s) /\ y_queue s' = y_queue s /\ y_back s' = y_back s /\
  (forall i, st s' i = st s i) /\
  (forall i, ~ skip i -> c_wait (cf s' i) = c_wait (cf s i) /\ c_ec (cf s' i) = c_ec (cf s i) /\ c_cc (cf s' i) = c_cc (cf s i)).
Lemma agree_mk : forall skip s s' i, agree skip s s' -> mk s' i = mk s i.
Proof. intros skip s s' i (_ & A & _). rewrite !mk_map, A. auto. Qed.
Lemma agree_ext : forall skip s s', agree skip s s' -> ext s s'.
Proof. intros skip s s' A. split; [destruct A; lia|]. intros i I. split; [eapply agree_mk; eauto|]. intros _. destruct A as (_ & _ & _ & _ & A & _). auto. Qed.
Lemma Inv_agree : forall skip nxt s s' ed r, Inv skip nxt s ed r -> agree skip s s' -> (forall i, skip i -> ~ In i (y_queue s)) -> Inv skip nxt s' ed r.
Proof.
  intros skip nxt s s' ed r [A1 A2 A3 A4 A5 A6 A7 A8 A9 A10] AG NQ. pose proof (agree_ext _ _ _ AG) as EX.
  assert (MK := fun i => agree_mk _ _ _ i AG). destruct AG as (D & FT & Q & B & ST & OT). constructor.
  - destruct A1 as [B1 B2]. split; [rewrite FT; auto|]. intros i I. rewrite MK. apply B2. lia.
  - intros i I. rewrite MK, ST. apply A2. lia.
  - intros i I K. rewrite ST. intros W. eapply WJ_ext; [exact EX|lia|apply A3; auto; lia| |]; auto.
  - intros i I K. rewrite ST. intros W. eapply LJ_ext; [exact EX|lia|apply A4; auto; lia].
  - intros i I K. rewrite ST. intros O. destruct (OT i K) as (O1 & O2 & O3). destruct (A5 i) as [W OP]; auto; [lia|]. split; [congruence|]. eapply Open_ext; eauto. lia.
  - intros i I K. rewrite ST, Q. intros U. destruct (OT i K) as (O1 & O2 & O3). rewrite O1. apply A6; auto. lia.
  - rewrite Q. destruct A7 as [Q1 Q2]. split; auto. intros i I. destruct (Q2 i I) as (Q3 & Q4 & Q5). rewrite ST. split; [lia|]. split; auto.
    destruct (OT i) as (O1 & O2 & O3); [intros K; apply (NQ i K I)|]. congruence.
  - intros b x c I. rewrite !MK, !ST, B, D. apply A8; auto.
  - intros c. rewrite B, ST, D. apply A9.
  - rewrite ST, Q, D. exact A10.
Qed.

Lemma Inv_drop : forall skip nxt s b x c ed r, Inv skip nxt s (((b, x), c) :: ed) r -> det (st s x) = true -> Inv skip nxt s ed r.
Proof.
  intros skip nxt s b x c ed r [A1 A2 A3 A4 A5 A6 A7 A8 A9 A10] DX. constructor; auto.
  - intros i I K O. destruct (A5 i I K O) as [W OP]. split; auto.
    assert (N : i <> x) by (intros ->; destruct O as [O|O]; rewrite O in DX; discriminate).
    destruct OP as (H1 & H2 & H3 & H4 & H5 & H6 & H7 & H8). unfold Open.
    assert (CN : forall b0, cnt b0 i (((b, x), c) :: ed) = cnt b0 i ed) by (intros b0; rewrite cnt_cons; cbn; destruct (Nat.eqb_spec x i); [congruence|]; rewrite andb_false_r; auto).
    rewrite !CN in *. 
    assert (IN : forall b0 d, In ((b0, i), d) (((b, x), c) :: ed) -> In ((b0, i), d) ed) by (intros b0 d [Q|Q]; [inversion Q; congruence|auto]).
    split; auto. split; [|split; [|split; auto]].
    + intros m' HR. destruct (H2 m' HR) as (d & Q1 & Q2 & Q3). exists d. split; auto. split; auto. destruct Q3 as [Q|[Q|Q]]; auto.
    + intros HM. destruct (H3 HM) as [[d Hd] Q]. split; eauto.
    + intros HP. destruct (H4 HP) as (Q1 & [d Q2] & Q3). split; auto. split; [eauto|]. intros m' HR. destruct (Q3 m' HR) as (f & Q4 & Q5 & Q6). exists f. split; auto. split; auto. destruct Q6 as [Q|[Q|Q]]; auto.
  - intros i I K U. destruct (A6 i I K U) as [Q|[Q1 Q2]]; auto. right. split; auto. intros d HI. apply (Q2 d). right. auto.
  - intros b0 a d HI. apply A8. right. auto.
Qed.
Lemma Inv_drops : forall skip nxt s r c l ed, Inv skip nxt s (map (fun d => (d, c)) l ++ ed) r -> (forall d, In d l -> det (st s (snd d)) = true) -> Inv skip nxt s ed r.
Proof.
  induction l as [|[b x] l IH]; intros ed H D; auto. apply IH; [|intros; apply D; right; auto]. cbn in H. eapply Inv_drop; [exact H|]. apply (D (b, x)). left. auto.
Qed.

(** ** Informing all dependers *)
Definition keeps (s s' : syn) : Prop :=
  dom s' = dom s /\ (forall i, mk s' i = mk s i) /\ (forall i, c_dep (cf s' i) = c_dep (cf s i)) /\ y_queue s' = y_queue s /\
  (forall i, det (st s i) = true -> cf s' i = cf s i) /\ (forall i, st s i = UNKNOWN -> cf s' i = cf s i \/ st s' i <> UNKNOWN).
Lemma keeps_refl : forall s, keeps s s.
Proof. intros s. repeat (split; auto). Qed.
Lemma update_dep : forall stc b a, c_dep (update stc b a) = c_dep a.
Proof. intros stc b a. unfold update. destruct b; cbv zeta; match goal with |- context [if ?c then _ else _] => destruct c end; reflexivity. Qed.
Lemma depender_keeps : forall stc d s, snd d < dom s ->
  dom (depender stc d s) = dom s /\ (forall i, mk (depender stc d s) i = mk s i) /\ (forall i, c_dep (cf (depender stc d s) i) = c_dep (cf s i)) /\
  y_queue (depender stc d s) = y_queue s /\ (forall i, det (st s i) = true -> cf (depender stc d s) i = cf s i).
Proof.
  intros stc d s L. unfold depender. fold (st s (snd d)). destruct (det (st s (snd d))) eqn:D; [repeat (split; auto)|]. cbv zeta.
  assert (G : forall c, c_dep c = c_dep (cf s (snd d)) -> 
     dom (set_cf s (snd d) c) = dom s /\ (forall i, mk (set_cf s (snd d) c) i = mk s i) /\ (forall i, c_dep (cf (set_cf s (snd d) c) i) = c_dep (cf s i)) /\
     y_queue (set_cf s (snd d) c) = y_queue s /\ (forall i, det (st s i) = true -> cf (set_cf s (snd d) c) i = cf s i)).
  { intros c HC'. split; [apply dom_set|]. split; [intros; apply mk_set|]. split; [|split; auto].
    - intros i. destruct (Nat.eq_dec (snd d) i) as [<-|N]; [rewrite cf_set_eq; auto|rewrite cf_set_neq; auto].
    - intros i Di. apply cf_set_neq. intros Z. rewrite Z in D. congruence. }
  pose proof (update_dep stc (fst d) (cf s (snd d))) as UD. set (a1 := update stc (fst d) (cf s (snd d))) in *. destruct (det (c_st a1)).
  - destruct (c_wait a1 <? 2); [change (y_queue (push_back ?u ?v)) with (y_queue u)|]; apply (G (mkCf (c_st a1) 2 (c_cc a1) (c_ec a1) (c_dep a1))); auto.
  - apply G; auto.
Qed.

Lemma dependers_fold : forall l next s rest r, Inv never (is_x next) s (map (fun d => (d, next)) l ++ rest) r -> next < dom s -> det (st s next) = true ->
  let s' := fold_left (fun s d => depender (c_st (cf s next)) d s) l s in
  (exists r', Inv never (is_x next) s' rest r') /\ dom s' = dom s /\ (forall i, mk s' i = mk s i) /\ (forall i, c_dep (cf s' i) = c_dep (cf s i)) /\
  y_queue s' = y_queue s /\ (forall i, det (st s i) = true -> cf s' i = cf s i).
Proof.
  induction l as [|[b x] l IH]; intros next s rest r IV NX DN; cbn [fold_left]; cbv zeta.
  - split; [exists r; auto|]. repeat (split; auto).
  - cbn in IV. fold (st s next). destruct (depender_ok safety pred kbound okm E C lost L_env L_ctrl L_bad (is_x next) s b x next _ r (st s next) IV eq_refl DN) as [r1 IV1].
    assert (XL : x < dom s) by (apply (I_edge _ _ _ _ _ _ _ _ _ _ _ _ IV b x next); left; auto).
    destruct (depender_keeps (st s next) (b, x) s XL) as (K1 & K2 & K3 & K4 & K5).
    specialize (IH next (depender (st s next) (b, x) s) rest r1 IV1). destruct IH as (J0 & J1 & J2 & J3 & J4 & J5); [lia|unfold st; rewrite K5; auto|].
    split; auto. split; [congruence|]. split; [intros i; rewrite J2; auto|]. split; [intros i; rewrite J3; auto|]. split; [congruence|].
    intros i Di. rewrite J5; [apply K5; auto|]. unfold st. rewrite K5; auto.
Qed.

Lemma dependers_ok : forall next s r, Inv never (is_x next) s (edges s) r -> next < dom s -> det (st s next) = true ->
  exists r', Inv never never (dependers_to_waiting next s) (edges (dependers_to_waiting next s)) r' /\
    ext s (dependers_to_waiting next s) /\ y_queue (dependers_to_waiting next s) = y_queue s /\ dom (dependers_to_waiting next s) = dom s /\
    (forall i, mk (dependers_to_waiting next s) i = mk s i).
Proof.
  intros next s r IV NX DN. unfold dependers_to_waiting.
  set (rest := edges_of (fun j => if Nat.eqb j next then [] else c_dep (cf s j)) (dom s)).
  destruct (edges_set_dep s next (cf s next) NX) as [P _]. fold rest in P. apply (Inv_perm _ _ _ _ _ _ _ _ _ _ _ _ _ P) in IV.
  destruct (dependers_fold _ next s rest r IV NX DN) as ((r' & IV') & K1 & K2 & K3 & K4 & K5). set (s1 := fold_left _ _ s) in *. cbv zeta.
  set (s2 := set_cf s1 next _).
  assert (NX1 : next < dom s1) by lia.
  assert (AG : agree never s1 s2).
  { unfold s2. split; [apply dom_set|]. split; [apply fst_tab_set|]. split; auto. split; auto. split.
    - intros i. unfold st. destruct (Nat.eq_dec next i) as [<-|N]; [rewrite cf_set_eq|rewrite cf_set_neq]; auto.
    - intros i _. destruct (Nat.eq_dec next i) as [<-|N]; [rewrite cf_set_eq|rewrite cf_set_neq]; auto. }
  assert (ED : edges s2 = rest).
  { unfold edges, rest. destruct AG as [D _]. rewrite D, K1. apply edges_of_ext. intros i I. unfold s2. destruct (Nat.eqb_spec i next) as [->|N].
    - rewrite cf_set_eq; auto.
    - rewrite cf_set_neq; auto. }
  exists r'. split; [|split; [|split; [|split]]].
  - rewrite ED. pose proof (Inv_agree _ _ _ _ _ _ IV' AG (fun i f => False_ind _ f)) as [A1 A2 A3 A4 A5 A6 A7 A8 A9 A10]. constructor; auto.
    intros b x c I. destruct (A8 b x c I) as (Q1 & Q2 & Q3 & Q4 & Q5). repeat (split; auto). intros Dc. destruct (Q5 Dc) as [Q|Q]; auto. red in Q. subst c.
    exfalso. rewrite <- ED in I. apply in_edges in I. destruct I as [_ I]. unfold s2 in I. rewrite cf_set_eq in I; auto. 
  - eapply ext_trans; [|eapply agree_ext; exact AG]. split; [lia|]. intros i I. split; auto. intros Di. unfold st. rewrite K5; auto.
  - destruct AG as (_ & _ & Q & _). congruence.
  - destruct AG as (D & _). congruence.
  - intros i. rewrite (agree_mk _ _ _ i AG). auto.
Qed.

Definition Good (s : syn) : Prop := exists r, Inv never never s (edges s) r.

Lemma drain_ok : forall fuel s s', Good s -> drain fuel s = Ok s' -> Good s' /\ y_back s' = [] /\ y_queue s' = y_queue s /\ ext s s' /\ dom s' = dom s /\ (forall i, mk s' i = mk s i).
Proof.
  induction fuel as [|fuel IH]; intros s s' G H; cbn in H; [discriminate|]. destruct (y_back s) as [|next back] eqn:B.
  - inversion H; subst. repeat (split; auto).
  - destruct G as [r IV]. set (s0 := mkSyn (y_tab s) (y_queue s) back) in *.
    assert (IV0 : Inv never (is_x next) s0 (edges s0) r).
    { destruct IV as [A1 A2 A3 A4 A5 A6 A7 A8 A9 A10]. constructor; auto.
      - intros b x c I. destruct (A8 b x c I) as (Q1 & Q2 & Q3 & Q4 & Q5). repeat (split; auto). intros Dc. destruct (Q5 Dc) as [Q|[]]. rewrite B in Q. destruct Q as [Q|Q]; auto.
        right. symmetry. exact Q.
      - intros c I. apply A9. rewrite B. right. auto. }
    destruct (I_back _ _ _ _ _ _ _ _ _ _ _ _ IV next) as [NX DN]; [rewrite B; left; auto|].
    destruct (dependers_ok next s0 r IV0 NX DN) as (r' & IV' & EX & Q & D & M).
    destruct (IH _ s' (ex_intro _ r' IV') H) as (J1 & J2 & J3 & J4 & J5 & J6). split; auto. split; auto. split; [rewrite J3, Q; auto|]. split.
    + eapply ext_trans; [|exact J4]. exact EX.
    + split; [rewrite J5, D; auto|]. intros i. rewrite J6, M. auto.
Qed.

(** ** Processing one configuration *)
Lemma Inv_frame : forall x s s' ed r, Inv (is_x x) never s ed r -> x < dom s -> st s x = UNKNOWN -> frame x s s' -> base s' -> st s' x <> UNKNOWN ->
  ~ In x (y_queue s) -> Inv (is_x x) (is_x x) s' ed (bump r (dom s') x).
Proof.
  intros x s s' ed r [A1 A2 A3 A4 A5 A6 A7 A8 A9 A10] X UX F B' NU NQ. assert (DX : det (st s x) = false) by (rewrite UX; auto).
  pose proof (frame_ext _ _ _ _ _ _ F DX) as EX. pose proof (f_dom _ _ _ _ _ _ F) as D. assert (MK := f_mk _ _ _ _ _ _ F).
  assert (CF := f_cf _ _ _ _ _ _ F). assert (NW := f_new _ _ _ _ _ _ F).
  assert (ST : forall i, i < dom s -> i <> x -> st s' i = st s i) by (intros i I N; unfold st; rewrite CF; auto).
  assert (NST : forall i, dom s <= i -> i < dom s' -> st s' i = new_state (mk s' i)) by (intros i I J; unfold st; rewrite NW; auto).
  constructor; auto.
  - intros i I Dn. destruct (Nat.lt_ge_cases i (dom s)) as [L|G]; [|apply NST; auto]. rewrite MK in * by auto. pose proof (A2 i L Dn) as Q.
    destruct (Nat.eq_dec i x) as [->|N]; [rewrite <- Q, UX in Dn; discriminate|]. rewrite ST; auto.
  - intros i I K W. assert (N : i <> x) by auto. destruct (Nat.lt_ge_cases i (dom s)) as [L|G].
    + rewrite ST in W by auto. eapply WJ_ext; [exact EX|exact L|apply A3; auto| |apply bump_other; auto]. intros c Lc Wc. apply bump_other. intros ->. congruence.
    + rewrite NST in W by auto. unfold SynInv.WJ. destruct safety eqn:ES; [|left; auto]. exfalso. unfold SynModel.new_state in W. destruct (check_bound kbound (mk s' i)), (pred (mk s' i)); cbn in W; discriminate.
  - intros i I K W. assert (N : i <> x) by auto. destruct (Nat.lt_ge_cases i (dom s)) as [L|G].
    + rewrite ST in W by auto. eapply LJ_ext; [exact EX|exact L|apply A4; auto].
    + rewrite NST in W by auto. unfold SynInv.LJ. destruct safety eqn:ES; [|left; auto]. intros _. apply L_bad; auto.
  - intros i I K O. assert (N : i <> x) by auto. destruct (Nat.lt_ge_cases i (dom s)) as [L|G].
    + pose proof (ST i L N) as S. rewrite S in O. destruct (A5 i L K O) as [W OP]. rewrite (CF i L N). split; auto. eapply Open_ext; eauto; rewrite (CF i L N); auto.
    + rewrite NST in O by auto. exfalso. unfold SynModel.new_state in O. destruct (check_bound kbound (mk s' i)), (pred (mk s' i)), safety; destruct O as [O|O]; cbn in O; discriminate.
  - intros i I K U. assert (N : i <> x) by auto. rewrite (f_q _ _ _ _ _ _ F). destruct (Nat.lt_ge_cases i (dom s)) as [L|G].
    + rewrite ST in U by auto. rewrite CF by auto. apply A6; auto.
    + right. rewrite NW by auto. split; auto. intros [b a] HI. destruct (A8 b a i HI) as (_ & Q & _). lia.
  - rewrite (f_q _ _ _ _ _ _ F). destruct A7 as [Q1 Q2]. split; auto. intros i I. destruct (Q2 i I) as (Q3 & Q4 & Q5). assert (N : i <> x) by (intros ->; contradiction).
    rewrite ST, CF by auto. split; [lia|auto].
  - intros b a c I. destruct (A8 b a c I) as (Q1 & Q2 & Q3 & Q4 & Q5). rewrite !MK by auto. split; [lia|]. split; [lia|]. split.
    + destruct (Nat.eq_dec a x) as [->|N]; auto. rewrite ST; auto.
    + split; auto. intros Dc. destruct (Nat.eq_dec c x) as [->|N]; [right; red; auto|]. left. rewrite ST in Dc by auto. rewrite (f_b _ _ _ _ _ _ F). destruct (Q5 Dc) as [|[]]; auto.
  - intros c I. rewrite (f_b _ _ _ _ _ _ F) in I. destruct (A9 c I) as [Q1 Q2]. assert (N : c <> x) by (intros ->; congruence). rewrite ST by auto. split; [lia|auto].
  - destruct A10 as [Q1 Q2]. split; [lia|]. intros U K. rewrite (f_q _ _ _ _ _ _ F). assert (N : 0 <> x) by auto. rewrite ST in U by auto. auto.
Qed.

Lemma Inv_close_det : forall x s ed r, Inv (is_x x) (is_x x) s ed r -> x < dom s -> det (st s x) = true ->
  (st s x = WINNING -> WJ r s x) -> (st s x = LOSING -> LJ s x) -> Inv never never (push_back s x) ed r.
Proof.
  intros x s ed r [A1 A2 A3 A4 A5 A6 A7 A8 A9 A10] X DX HW HL. constructor; auto.
  - intros i I _ W. destruct (Nat.eq_dec i x) as [->|N]; [exact (HW W)|exact (A3 i I N W)].
  - intros i I _ W. destruct (Nat.eq_dec i x) as [->|N]; [exact (HL W)|exact (A4 i I N W)].
  - intros i I _ O. destruct (Nat.eq_dec i x) as [->|N]; [|exact (A5 i I N O)]. exfalso. change (is_open (st s x)) in O. destruct O as [O|O]; rewrite O in DX; discriminate.
  - intros i I _ U. destruct (Nat.eq_dec i x) as [->|N]; [|exact (A6 i I N U)]. exfalso. change (st s x = UNKNOWN) in U. rewrite U in DX. discriminate.
  - intros b a c I. destruct (A8 b a c I) as (Q1 & Q2 & Q3 & Q4 & Q5). repeat (split; auto). intros Dc. left. destruct (Q5 Dc) as [Q|Q]; [right; auto|left; auto].
  - intros c [<-|I]; [split; auto|apply A9; auto].
  - destruct A10 as [Q1 Q2]. split; auto. intros U _. apply Q2; auto. intros Z. change (st s 0 = UNKNOWN) in U. red in Z. rewrite Z in U. rewrite U in DX. discriminate.
Qed.
Lemma Inv_close_open : forall x s ed r, Inv (is_x x) (is_x x) s ed r -> x < dom s -> is_open (st s x) -> c_wait (cf s x) = 1 -> Open s ed x -> Inv never never s ed r.
Proof.
  intros x s ed r [A1 A2 A3 A4 A5 A6 A7 A8 A9 A10] X OX W OP. constructor; auto.
  - intros i I _ Wi. destruct (Nat.eq_dec i x) as [->|N]; auto. exfalso. destruct OX as [O|O]; congruence.
  - intros i I _ Wi. destruct (Nat.eq_dec i x) as [->|N]; auto. exfalso. destruct OX as [O|O]; congruence.
  - intros i I _ Wi. destruct (Nat.eq_dec i x) as [->|N]; auto.
  - intros i I _ Wi. destruct (Nat.eq_dec i x) as [->|N]; auto. exfalso. destruct OX as [O|O]; congruence.
  - intros b a c I. destruct (A8 b a c I) as (Q1 & Q2 & Q3 & Q4 & Q5). repeat (split; auto). intros Dc. destruct (Q5 Dc) as [Q|Q]; auto. red in Q. subst c. exfalso. destruct OX as [O|O]; rewrite O in Dc; discriminate.
  - destruct A10 as [Q1 Q2]. split; auto. intros U _. apply Q2; auto. intros Z. red in Z. subst x. destruct OX as [O|O]; congruence.
Qed.

Lemma Inv_queued : forall x (b : bool) succs s s' ed r, Inv (is_x x) (is_x x) s ed r -> x < dom s -> st s x <> UNKNOWN ->
  (forall c, In c succs -> c < dom s /\ c <> x /\ det (st s c) = false /\ (if b then C (mk s x) (mk s c) else E (mk s x) (mk s c))) ->
  queued succs b x s s' -> Inv (is_x x) (is_x x) s' (map (fun c => ((b, x), c)) succs ++ ed) r.
Proof.
  intros x b succs s s' ed r [A1 A2 A3 A4 A5 A6 A7 A8 A9 A10] X NU HS [T1 T2 T3 T4 T5 T6 T7 T8 T9 T10].
  assert (MK : forall i, mk s' i = mk s i) by (intros i; rewrite !mk_map, T3; auto).
  assert (EX : ext s s') by (split; [lia|]; intros i I; auto).
  constructor.
  - destruct A1 as [B1 B2]. split; [rewrite T3; auto|]. intros i I. rewrite MK. apply B2. lia.
  - intros i I. rewrite MK, T4. apply A2. lia.
  - intros i I K. rewrite T4. intros W. eapply WJ_ext; [exact EX|lia|apply A3; auto; lia| |]; auto.
  - intros i I K. rewrite T4. intros W. eapply LJ_ext; [exact EX|lia|apply A4; auto; lia].
  - intros i I K. rewrite T4. intros O. destruct (A5 i) as [W OP]; auto; [lia|]. split.
    + rewrite T7, W. cbn. destruct (in_dec Nat.eq_dec i succs); auto.
    + eapply Open_ext; eauto; [lia| |].
      * intros b0 c HI. apply in_or_app. auto.
      * intros b0. rewrite cnt_app, cnt_other; auto; intros Z; apply K; red; auto.
  - intros i I K. rewrite T4. intros U. destruct T9 as (new & N1 & N2 & N3). rewrite N1, T7. destruct (A6 i) as [[Q1 Q2]|[Q1 Q2]]; auto; [lia| |].
    + left. rewrite Q1. cbn. split; [destruct (in_dec Nat.eq_dec i succs); auto|apply in_or_app; auto].
    + rewrite Q1. cbn. destruct (in_dec Nat.eq_dec i succs) as [J|J].
      * left. split; auto. apply in_or_app. right. apply N3. auto.
      * right. split; auto. intros d HI. apply in_app_or in HI. destruct HI as [HI|HI]; [|apply (Q2 d HI)]. apply in_map_iff in HI. destruct HI as (c & Ec & HI). inversion Ec; subst. contradiction.
  - destruct T9 as (new & N1 & N2 & N3). rewrite N1. destruct A7 as [Q1 Q2]. split.
    + assert (DJ : forall i, In i (y_queue s) -> ~ In i new). { intros i I J. destruct (Q2 i I) as (_ & _ & Q). apply N3 in J. lia. }
      clear - Q1 N2 DJ. revert Q1 DJ. generalize (y_queue s) as q. induction q as [|a q IH]; intros Q1 DJ; cbn; auto. inversion Q1; subst. constructor.
      * intros I. apply in_app_or in I. destruct I as [I|I]; [contradiction|]. apply (DJ a); [left; auto|auto].
      * apply IH; auto. intros i I. apply DJ. right. auto.
    + intros i I. apply in_app_or in I. rewrite T4, T7. destruct I as [I|I].
      * destruct (Q2 i I) as (Q3 & Q4 & Q5). split; [lia|]. split; auto. rewrite Q5. cbn. destruct (in_dec Nat.eq_dec i succs); auto.
      * apply N3 in I. destruct I as [I1 I2]. destruct (HS i I1) as (H1 & H2 & H3 & _). split; [lia|]. rewrite I2. cbn. destruct (in_dec Nat.eq_dec i succs); [|contradiction]. split; auto.
        destruct (st s i) eqn:SI; try discriminate; auto; destruct (A5 i H1 H2) as [W _]; try (rewrite SI; red; auto); lia.
  - intros b0 a c HI. apply in_app_or in HI. rewrite !MK, !T4, T1, T2. destruct HI as [HI|HI]; [|apply A8; auto].
    apply in_map_iff in HI. destruct HI as (d & Ed & HI). inversion Ed; subst. destruct (HS c HI) as (H1 & H2 & H3 & H4). repeat (split; auto). intros Dc. congruence.
  - intros c. rewrite T2, T4, T1. apply A9.
  - destruct A10 as [Q1 Q2]. rewrite T4, T1. split; auto. intros U K. destruct T9 as (new & N1 & _). rewrite N1. apply in_or_app. auto.
Qed.

Lemma new_unknown : forall s i, (forall i, i < dom s -> det (new_state (mk s i)) = true -> st s i = new_state (mk s i)) -> i < dom s -> det (st s i) = false -> new_state (mk s i) = UNKNOWN.
Proof.
  intros s i H I D. specialize (H i I). destruct (new_state (mk s i)) eqn:N; auto; try (rewrite (H eq_refl) in D; discriminate);
    unfold SynModel.new_state in N; destruct (check_bound kbound (mk s i)), (pred (mk s i)), safety; cbn in N; discriminate.
Qed.
Lemma has_map : forall (R : list N -> list N -> Prop) m (l : list (nat * list N)), (forall y, In y l -> R m (snd y)) -> l <> [] -> has R m.
Proof. intros R m [|y l] H N; [congruence|]. exists (snd y). apply H. left. auto. Qed.

(** A winning configuration has a justification. *)
Lemma make_WJ : forall r s x, x < dom s -> new_state (mk s x) = UNKNOWN -> st s x = WINNING ->
  all_to E s x (fun c => (c <> x /\ st s c = WINNING) \/ (safety = true /\ c = x)) ->
  (has C (mk s x) -> some_to C s x (fun c => (c <> x /\ st s c = WINNING) \/ (safety = true /\ c = x))) ->
  (safety = true \/ has E (mk s x) \/ has C (mk s x)) -> WJ (bump r (dom s) x) s x.
Proof.
  intros r s x X NS W HA HS HM. unfold SynInv.WJ. destruct safety eqn:ES.
  - split; auto. split.
    + intros m' HR. destruct (HA m' HR) as (c & Q1 & Q2 & Q3). exists c. split; auto. split; auto. destruct Q3 as [[_ Q3]|[_ ->]]; auto.
    + intros H. destruct (HS H) as (c & Q1 & Q2 & Q3). exists c. split; auto. split; auto. destruct Q3 as [[_ Q3]|[_ ->]]; auto.
  - right. split; auto. split; [|split].
    + intros m' HR. destruct (HA m' HR) as (c & Q1 & Q2 & Q3). exists c. split; auto. split; auto. destruct Q3 as [[Q3 Q4]|[Q3 _]]; [|discriminate]. split; auto. apply bump_x; auto.
    + intros H. destruct (HS H) as (c & Q1 & Q2 & Q3). exists c. split; auto. split; auto. destruct Q3 as [[Q3 Q4]|[Q3 _]]; [|discriminate]. split; auto. apply bump_x; auto.
    + destruct HM as [HM|HM]; [discriminate|auto].
Qed.

(** How far one expansion can go. *)
Definition grow (x : nat) (s s' : syn) : Prop :=
  dom s <= dom s' /\ (forall i, i < dom s -> i <> x -> st s' i = st s i) /\ st s' x <> UNKNOWN /\
  length (y_queue s') <= length (y_queue s) + (length (fst (envs (mk s x))) + length (fst (ctrls (mk s x)))) /\
  length (y_back s') <= S (length (y_back s)).
Lemma frame_grow : forall x s s', frame x s s' -> st s' x <> UNKNOWN -> grow x s (push_back s' x).
Proof.
  intros x s s' F N. split; [apply (f_dom _ _ _ _ _ _ F)|]. split; [intros i I K; apply (frame_base_st _ _ _ _ _ _ _ F); auto|]. split; [exact N|]. cbn. rewrite (f_q _ _ _ _ _ _ F), (f_b _ _ _ _ _ _ F). lia.
Qed.
Lemma queued_length : forall succs b x s s', queued succs b x s s' -> length (y_queue s') <= length (y_queue s) + length succs.
Proof.
  intros succs b x s s' Q. destruct (t_q _ _ _ _ _ Q) as (new & -> & ND & N). rewrite app_length.
  assert (length new <= length succs); [|lia]. apply NoDup_incl_length; auto. intros i I. apply N. auto.
Qed.

Lemma expand_ok : forall x s r, Inv (is_x x) never s (edges s) r -> x < dom s -> st s x = UNKNOWN -> c_wait (cf s x) = 1 -> ~ In x (y_queue s) ->
  match expand safety pred kbound envs ctrls x s with
  | Ok s' => Good s' /\ mk s' 0 = mk s 0 /\ grow x s s'
  | Throw => exists m, okm m /\ (snd (envs m) = Throw \/ snd (ctrls m) = Throw)
  | UB => False
  | NoFuel => False
  end.
Proof.
  intros x s r IV X UX WX NQ. unfold expand. rewrite WX. cbn [Nat.eqb negb]. cbv zeta.
  assert (Z0 : 0 < dom s) by (apply (I_zero _ _ _ _ _ _ _ _ _ _ _ _ IV)).
  pose proof (I_base _ _ _ _ _ _ _ _ _ _ _ _ IV) as BS. assert (OKX : okm (mk s x)) by (apply (proj2 BS); auto).
  assert (NS : new_state (mk s x) = UNKNOWN) by (apply new_unknown; [apply (I_new _ _ _ _ _ _ _ _ _ _ _ _ IV)|auto|rewrite UX; auto]).
  destruct (HE _ OKX) as (E1 & E2 & E3). destruct (HC _ OKX) as (C1 & C2 & C3).
  set (s0 := set_st s x PROCESSED).
  assert (F0 : frame x s s0) by (apply frame_set_st; auto). assert (B0 : base s0) by (apply base_set_st; auto).
  assert (X0 : x < dom s0) by (unfold s0, set_st; rewrite dom_set; auto). assert (P0 : st s0 x = PROCESSED) by (apply st_set_st; auto).
  destruct (env_loop_res safety pred kbound (fst (envs (mk s x))) (snd (envs (mk s x))) x s0 false []) as [[[s1 [some_env env_buf]] R]|[[R1 R]|R]].
  2: { rewrite R. cbn. exists (mk s x). auto. }
  2: { exfalso. destruct E3 as [[E3 _]|E3]; rewrite E3 in R; destruct R; discriminate. }
  rewrite R. cbn [bind].
  destruct (env_loop_ok _ _ _ _ _ _ _ _ _ _ _ _ _ R X0 B0 (fun y I => proj2 (E1 y I)) P0 (fun c f => False_ind _ f)) as (F1 & B1 & RES).
  assert (F01 : frame x s s1) by (eapply frame_trans; eauto). pose proof (f_dom _ _ _ _ _ _ F01) as D1. assert (X1 : x < dom s1) by lia.
  assert (M1 : mk s1 x = mk s x) by (apply (f_mk _ _ _ _ _ _ F01); auto).
  assert (SETX : forall y, frame x s1 (set_st s1 x y) /\ base (set_st s1 x y)) by (intros y; split; [apply frame_set_st; auto|apply base_set_st; auto]).
  destruct RES as [(L1 & L2 & m & Im & c & Lc & Mc & Kc)|(P1 & EOK & BUF & _ & ALL & SOME & LEN)].
  - (* the environment wins at once *)
    fold (st s1 x). rewrite L1. cbn [det bind]. unfold fix_assignment. fold (st s1 x). rewrite L1. cbn [det].
    assert (DD : det (c_st (cf (set_st s1 x LOSING) x)) = true) by (change (c_st (cf (set_st s1 x LOSING) x)) with (st (set_st s1 x LOSING) x); rewrite st_set_st; auto).
    rewrite DD. set (s3 := set_st s1 x LOSING) in *.
    destruct (SETX LOSING) as [F2 B2]. fold s3 in F2, B2. assert (F3 : frame x s s3) by (eapply frame_trans; eauto).
    assert (S3 : st s3 x = LOSING) by (apply st_set_st; auto).
    assert (M3 : forall i, i < dom s1 -> mk s3 i = mk s1 i) by (apply (f_mk _ _ _ _ _ _ F2)).
    pose proof (f_dom _ _ _ _ _ _ F2) as D2.
    pose proof (Inv_frame x s s3 _ r IV X UX F3 B2 ltac:(congruence) NQ) as IV3.
    split; [|split; [exact (f_mk _ _ _ _ _ _ F3 0 Z0)|apply frame_grow; [exact F3|congruence]]]. exists (bump r (dom s3) x). change (edges (push_back s3 x)) with (edges s3). rewrite (edges_frame _ _ _ _ _ _ X F3).
    apply Inv_close_det; [exact IV3|lia|rewrite S3; auto|congruence|].
    intros _. assert (EC : E (mk s3 x) (mk s3 c)).
      { rewrite !M3 by auto. rewrite M1, Mc. apply in_map_iff in Im. destruct Im as (y & <- & Iy). apply E1. auto. }
      assert (SC : st s3 c = LOSING).
      { destruct Kc as [[-> _]|[N S]]; auto. rewrite (frame_base_st _ _ _ _ _ _ _ F2); auto. }
    unfold SynInv.LJ. destruct safety eqn:ES.
    + intros NSF. destruct Kc as [[_ Kc]|[N S]]; [discriminate|]. apply (L_env _ _ EC). assert (Lc3 : c < dom s3) by lia.
      pose proof (I_lose _ _ _ _ _ _ _ _ _ _ _ _ IV3 c Lc3 N SC) as LJc. unfold SynInv.LJ in LJc. cbn in LJc. auto.
    + right. rewrite M3, M1 by auto. split; auto. left. exists c. split; [lia|]. auto.
  - fold (st s1 x). rewrite P1. cbn [det]. set (ee := match env_buf with [] => true | _ => false end).
    destruct (ctrl_loop_res safety pred kbound (fst (ctrls (mk s x))) (snd (ctrls (mk s x))) x ee s1 false []) as [[[s2 [[some_ctrl w] ctrl_buf]] R2]|[[R1 R2]|R2]].
    2: { rewrite R2. cbn. exists (mk s x). auto. }
    2: { exfalso. destruct C3 as [[C3 _]|C3]; rewrite C3 in R2; destruct R2; discriminate. }
    rewrite R2. cbn [bind].
    destruct (ctrl_loop_ok _ _ _ _ _ _ _ _ _ _ _ _ _ _ _ R2 X1 B1 (fun y I => proj2 (C1 y I)) P1 (fun c f => False_ind _ f)) as (F2 & B2 & RES2).
    set (ce := match ctrl_buf with [] => true | _ => false end). set (fx := fix_assignment safety (c_st (cf s2 x)) some_ctrl w ce some_env ee).
    set (s3 := set_st s2 x fx). pose proof (f_dom _ _ _ _ _ _ F2) as D2. assert (X2 : x < dom s2) by lia.
    assert (F3' : frame x s2 s3) by (apply frame_set_st; auto). assert (B3 : base s3) by (apply base_set_st; auto).
    assert (F13 : frame x s1 s3) by (eapply frame_trans; eauto).
    assert (F3 : frame x s s3) by (eapply frame_trans; eauto).
    assert (S3 : st s3 x = fx) by (apply st_set_st; auto).
    pose proof (f_dom _ _ _ _ _ _ F3') as D3. assert (X3 : x < dom s3) by lia.
    assert (M3x : mk s3 x = mk s x) by (apply (f_mk _ _ _ _ _ _ F3); auto).
    assert (NS3 : new_state (mk s3 x) = UNKNOWN) by (rewrite M3x; auto).
    assert (ED3 : edges s3 = edges s) by (apply (edges_frame _ _ _ _ _ _ X F3)).
    (* environment successors seen from s3 *)
    destruct E3 as [[_ E3]|E3]; [|rewrite E3 in EOK; discriminate].
    assert (AE : all_to E s3 x (fun c => (c <> x /\ st s3 c = WINNING) \/ (safety = true /\ c = x) \/ In c env_buf)).
    { intros m' HR. rewrite M3x in HR. destruct (ALL m' (E3 m' HR)) as (c & Lc & Mc & Kc). exists c. split; [lia|]. split; [rewrite (f_mk _ _ _ _ _ _ F13); auto|].
      destruct Kc as [[N W]|Kc]; auto. left. split; auto. rewrite (frame_base_st _ _ _ _ _ _ _ F13); auto. }
    assert (HEs : has E (mk s x) -> some_env = true).
    { intros [m' HR]. apply E3 in HR. rewrite SOME. destruct (fst (envs (mk s x))); [destruct HR|auto]. }
    assert (HEs' : some_env = true -> has E (mk s x)).
    { intros HR. apply (has_map _ _ (fst (envs (mk s x)))); [intros y I; apply E1; auto|]. intros Z. rewrite Z in SOME. cbn in SOME. congruence. }
    assert (EBUF : forall c, In c env_buf -> c < dom s3 /\ c <> x /\ det (st s3 c) = false /\ E (mk s3 x) (mk s3 c)).
    { intros c I. destruct (BUF c I) as (Q1 & Q2 & Q3 & [[]|Q4]). split; [lia|]. split; auto. split; [rewrite (frame_base_st _ _ _ _ _ _ _ F13); auto|].
      rewrite M3x, (f_mk _ _ _ _ _ _ F13) by auto. apply in_map_iff in Q4. destruct Q4 as (y & <- & Iy). apply E1. auto. }
    assert (CIN : forall m', In m' (map snd (fst (ctrls (mk s x)))) -> C (mk s x) m').
    { intros m' I. apply in_map_iff in I. destruct I as (y & <- & Iy). apply C1. auto. }
    assert (EEN : ee = true -> env_buf = []) by (unfold ee; destruct env_buf; auto; discriminate).
    assert (EENf : ee = false -> exists c, In c env_buf) by (unfold ee; destruct env_buf as [|c l]; [discriminate|intros _; exists c; left; auto]).
    assert (AEW : ee = true -> all_to E s3 x (fun c => (c <> x /\ st s3 c = WINNING) \/ (safety = true /\ c = x))).
    { intros Z m' HR. destruct (AE m' HR) as (c & Q1 & Q2 & Q3). exists c. split; auto. split; auto. destruct Q3 as [Q|[Q|Q]]; auto. rewrite (EEN Z) in Q. destruct Q. }
    (* controllable successors seen from s3 *)
    assert (CASES :
      (fx = WINNING /\ WJ (bump r (dom s3) x) s3 x) \/
      (fx = LOSING /\ LJ s3 x) \/
      (is_open fx /\ length ctrl_buf <= length (fst (ctrls (mk s x))) /\
       (forall c, In c ctrl_buf -> c < dom s3 /\ c <> x /\ det (st s3 c) = false /\ C (mk s3 x) (mk s3 c)) /\
       (fx = MAYBE -> ee = false /\ ((~ has C (mk s3 x) /\ has E (mk s3 x)) \/ some_to C s3 x (fun c => st s3 c = WINNING))) /\
       (fx = PROCESSED -> has C (mk s3 x) /\ (exists c, In c ctrl_buf) /\ all_to C s3 x (fun c => st s3 c = LOSING \/ (safety = false /\ c = x) \/ In c ctrl_buf)))).
    { pose proof (Inv_frame x s s3 _ r IV X UX F3 B3) as IVF.
      destruct RES2 as [(K1 & -> & -> & -> & K5 & K6)|[(-> & -> & -> & K4 & c & K5 & K6 & K7 & K8)|(K1 & K2 & -> & K4 & _ & K6 & K7 & K8)]].
      - (* a controllable self-loop in a safety game *)
        assert (CS : C (mk s3 x) (mk s3 x)) by (rewrite M3x; rewrite (f_mk _ _ _ _ _ _ F2), M1 in K6 by auto; apply CIN; auto).
        unfold fx, fix_assignment. fold (st s2 x). rewrite K5. destruct ee eqn:EE; cbn [det].
        + left. split; auto. apply make_WJ; auto.
          * rewrite S3. unfold fx, fix_assignment. fold (st s2 x). rewrite K5. reflexivity.
          * intros _. exists x. split; auto.
        + right. left. cbn. split; auto. unfold SynInv.LJ. rewrite K1. intros NSF. exfalso. rewrite M3x in CS. apply (NSF (mk s x)); auto.
      - assert (CW : some_to C s3 x (fun c => c <> x /\ st s3 c = WINNING)).
        { exists c. split; [lia|]. split.
          - rewrite M3x, (f_mk _ _ _ _ _ _ F3') by auto. apply CIN. auto.
          - split; auto. rewrite (frame_base_st _ _ _ _ _ _ _ F3'); auto. }
        unfold fx, fix_assignment. fold (st s2 x). rewrite K4. destruct ee eqn:EE; cbn [det andb negb].
        + left. split; auto. apply make_WJ; auto.
          * rewrite S3. unfold fx, fix_assignment. fold (st s2 x). rewrite K4. reflexivity.
          * intros _. destruct CW as (d & Q1 & Q2 & Q3). exists d. auto.
          * right. right. destruct CW as (d & _ & Q2 & _). exists (mk s3 d). auto.
        + right. right. split; [right; auto|]. cbn [length]. split; [lia|]. split; [intros d []|]. split; [|intros Z; discriminate Z].
          intros _. split; auto. right. destruct CW as (d & Q1 & Q2 & _ & Q3). exists d. auto.
      - destruct C3 as [[_ C3]|C3]; [|rewrite C3 in K2; discriminate].
        assert (AC : all_to C s3 x (fun c => (c <> x /\ st s3 c = LOSING) \/ (safety = false /\ c = x) \/ In c ctrl_buf)).
        { intros m' HR. rewrite M3x in HR. destruct (K6 m' (C3 m' HR)) as (c & Lc & Mc & Kc). exists c. split; [lia|]. split; [rewrite (f_mk _ _ _ _ _ _ F3'); auto|].
          destruct Kc as [[N W]|Kc]; auto. left. split; auto. rewrite (frame_base_st _ _ _ _ _ _ _ F3'); auto. }
        assert (CBUF : forall c, In c ctrl_buf -> c < dom s3 /\ c <> x /\ det (st s3 c) = false /\ C (mk s3 x) (mk s3 c)).
        { intros c I. destruct (K4 c I) as (Q1 & Q2 & Q3 & [[]|Q4]). split; [lia|]. split; auto. split; [rewrite (frame_base_st _ _ _ _ _ _ _ F3'); auto|].
          rewrite M3x, (f_mk _ _ _ _ _ _ F3') by auto. apply CIN. auto. }
        assert (HCs : has C (mk s x) -> some_ctrl = true).
        { intros [m' HR]. apply C3 in HR. rewrite K7. destruct (fst (ctrls (mk s x))); [destruct HR|auto]. }
        assert (HCs' : some_ctrl = true -> has C (mk s x)).
        { intros HR. apply (has_map _ _ (fst (ctrls (mk s x)))); [intros y I; apply C1; auto|]. intros Z. rewrite Z in K7. cbn in K7. congruence. }
        assert (FX : fx = if some_ctrl then (if ce then LOSING else PROCESSED) else if some_env then (if ee then WINNING else MAYBE) else if safety then WINNING else LOSING).
        { unfold fx, fix_assignment. fold (st s2 x). rewrite K1. cbn [det]. destruct some_ctrl, ce, some_env, ee; reflexivity. }
        clearbody s3. clearbody fx. destruct some_ctrl.
        + destruct ce eqn:CE; cbn in FX; rewrite FX in S3 |- *.
          * right. left. split; auto. assert (CB : ctrl_buf = []) by (unfold ce in CE; destruct ctrl_buf; auto; discriminate).
            unfold SynInv.LJ. destruct safety eqn:ES.
            -- intros NSF. rewrite M3x. apply L_ctrl; auto. intros m' HR. rewrite <- M3x in HR. destruct (AC m' HR) as (c & Q1 & <- & [[Q2 Q3]|[[Q _]|Q]]); [|discriminate|rewrite CB in Q; destruct Q].
               pose proof (I_lose _ _ _ _ _ _ _ _ _ _ _ _ (IVF ltac:(congruence) NQ) c Q1 Q2 Q3) as LJc. unfold SynInv.LJ in LJc. cbn in LJc. auto.
            -- right. split; auto. right. left. split; [rewrite M3x; auto|]. intros m' HR. destruct (AC m' HR) as (c & Q1 & Q2 & Q3). exists c. split; auto. split; auto.
               destruct Q3 as [[_ Q]|[[_ ->]|Q]]; [auto|auto|rewrite CB in Q; destruct Q].
          * right. right. split; [left; auto|]. cbn [length] in K8. split; [lia|]. split; [exact CBUF|]. split; [intros Z; discriminate Z|]. intros _. rewrite M3x. split; auto. split.
            -- unfold ce in CE. destruct ctrl_buf as [|c l]; [discriminate|]. exists c. left. auto.
            -- intros m' HR. destruct (AC m' HR) as (c & Q1 & Q2 & Q3). exists c. split; auto. split; auto. destruct Q3 as [[_ Q]|Q]; auto.
        + assert (NC : ~ has C (mk s3 x)) by (rewrite M3x; intros H; apply HCs in H; discriminate). destruct some_env.
          * destruct ee eqn:EE; cbn in FX; rewrite FX in S3 |- *.
            -- left. split; auto. apply make_WJ; auto. intros H. contradiction. rewrite M3x. auto.
            -- right. right. split; [right; auto|]. cbn [length] in K8. split; [lia|]. split; [exact CBUF|]. split; [|intros Z; discriminate Z]. intros _. split; auto. left. split; auto. rewrite M3x. auto.
          * assert (NE : ~ has E (mk s3 x)) by (rewrite M3x; intros H; apply HEs in H; discriminate).
            pose proof (make_WJ r s3 x X3 NS3) as MW. destruct safety eqn:ES; cbn in FX; rewrite FX in S3 |- *.
            -- left. split; auto. apply MW; auto.
               ++ intros m' HR. exfalso. apply NE. exists m'. auto.
               ++ intros H. contradiction.
            -- right. left. split; auto. unfold SynInv.LJ. right. split; auto. }
    assert (NU3 : st s3 x <> UNKNOWN).
    { rewrite S3. destruct CASES as [[-> _]|[[-> _]|[[-> | ->] _]]]; discriminate. }
    pose proof (Inv_frame x s s3 _ r IV X UX F3 B3 NU3 NQ) as IV3.
    fold (st s3 x). rewrite S3. destruct CASES as [[FX W]|[[FX L]|(OP & LC & CBUF & HMB & HPR)]].
    + rewrite FX. cbn [det]. split; [|split; [exact (f_mk _ _ _ _ _ _ F3 0 Z0)|apply frame_grow; [exact F3|congruence]]]. exists (bump r (dom s3) x). change (edges (push_back s3 x)) with (edges s3). rewrite ED3. apply Inv_close_det; auto; rewrite S3, FX; auto. discriminate.
    + rewrite FX. cbn [det]. split; [|split; [exact (f_mk _ _ _ _ _ _ F3 0 Z0)|apply frame_grow; [exact F3|congruence]]]. exists (bump r (dom s3) x). change (edges (push_back s3 x)) with (edges s3). rewrite ED3. apply Inv_close_det; auto; rewrite S3, FX; auto. discriminate.
    + assert (DF : det fx = false) by (destruct OP as [-> | ->]; auto). rewrite DF.
      assert (QC : queued ctrl_buf true x s3 (to_queue ctrl_buf true x s3)) by (apply to_queue_ok; intros c I; apply CBUF; auto).
      set (s4a := to_queue ctrl_buf true x s3) in *.
      assert (IV4a := Inv_queued x true ctrl_buf s3 s4a _ _ IV3 X3 NU3 CBUF QC).
      assert (MA : forall i, mk s4a i = mk s3 i) by (intros i; rewrite !mk_map, (t_fst _ _ _ _ _ QC); auto).
      assert (DA := t_dom _ _ _ _ _ QC). assert (STA := t_st _ _ _ _ _ QC).
      assert (EBUFA : forall c, In c env_buf -> c < dom s4a /\ c <> x /\ det (st s4a c) = false /\ E (mk s4a x) (mk s4a c)).
      { intros c I. rewrite DA, STA, !MA. apply EBUF; auto. }
      assert (QE : queued env_buf false x s4a (to_queue env_buf false x s4a)) by (apply to_queue_ok; intros c I; apply EBUFA; auto).
      set (s4 := to_queue env_buf false x s4a) in *.
      assert (IV4 := Inv_queued x false env_buf s4a s4 _ _ IV4a ltac:(lia) ltac:(rewrite STA; auto) EBUFA QE).
      assert (M4 : forall i, mk s4 i = mk s3 i) by (intros i; rewrite !mk_map, (t_fst _ _ _ _ _ QE), (t_fst _ _ _ _ _ QC); auto).
      assert (D4 : dom s4 = dom s3) by (rewrite (t_dom _ _ _ _ _ QE); auto).
      assert (ST4 : forall i, st s4 i = st s3 i) by (intros i; rewrite (t_st _ _ _ _ _ QE); auto).
      set (ed4 := map (fun c => ((false, x), c)) env_buf ++ map (fun c => ((true, x), c)) ctrl_buf ++ edges s) in *.
      assert (P4 : Permutation (edges s4) ed4).
      { eapply perm_trans; [apply (t_ed _ _ _ _ _ QE)|]. apply Permutation_app_head. eapply perm_trans; [apply (t_ed _ _ _ _ _ QC)|]. rewrite ED3. apply Permutation_refl. }
      assert (CX4 : cf s4 x = cf s3 x).
      { rewrite (t_same _ _ _ _ _ QE); [apply (t_same _ _ _ _ _ QC)|]; intros I; [apply CBUF in I|apply EBUF in I]; tauto. }
      set (s5 := set_cf s4 x _).
      assert (AG : agree (is_x x) s4 s5).
      { unfold s5. split; [apply dom_set|]. split; [apply fst_tab_set|]. split; auto. split; auto. split.
        - intros i. unfold st. destruct (Nat.eq_dec x i) as [<-|N]; [rewrite cf_set_eq by lia; auto|rewrite cf_set_neq; auto].
        - intros i Hi. assert (N : x <> i) by (intros ->; apply Hi; red; auto). rewrite cf_set_neq; auto. }
      assert (CX5 : cf s5 x = mkCf fx 1 (N.of_nat (length ctrl_buf)) (N.of_nat (length env_buf)) (c_dep (cf s3 x))).
      { unfold s5. rewrite cf_set_eq by lia. rewrite CX4. cbn [length] in LEN.
        rewrite !N.mod_small by (change (2 ^ 32)%N with 4294967296%N in *; lia). f_equal; [exact S3|].
        pose proof (f_x _ _ _ _ _ _ F3) as FX3. rewrite FX3. cbn. auto. }
      assert (NQ4 : ~ In x (y_queue s4)).
      { intros I. destruct (t_q _ _ _ _ _ QE) as (n1 & N1 & _ & N3). rewrite N1 in I. apply in_app_or in I. destruct I as [I|I].
        - destruct (t_q _ _ _ _ _ QC) as (n2 & N4 & _ & N6). rewrite N4 in I. apply in_app_or in I. destruct I as [I|I].
          + rewrite (f_q _ _ _ _ _ _ F3) in I. contradiction.
          + apply N6 in I. destruct I as [I _]. apply CBUF in I. tauto.
        - apply N3 in I. destruct I as [I _]. apply EBUF in I. tauto. }
      assert (IV5 := Inv_agree _ _ _ _ _ _ IV4 AG (fun i (Hi : is_x x i) => eq_ind_r (fun j => ~ In j (y_queue s4)) NQ4 Hi)).
      split; [|split; [rewrite (agree_mk _ _ _ 0 AG), M4; apply (f_mk _ _ _ _ _ _ F3 0 Z0)|]].
      2: { pose proof (queued_length _ _ _ _ _ QE) as LQ1. pose proof (queued_length _ _ _ _ _ QC) as LQ2. cbn [length] in LEN.
        destruct AG as (G1 & _ & G2 & G3 & G4 & _). pose proof (f_dom _ _ _ _ _ _ F3) as G5. split; [lia|]. split; [|split; [|split]].
        - intros i I N. rewrite G4, ST4. apply (frame_base_st _ _ _ _ _ _ _ F3); auto.
        - rewrite G4, ST4. exact NU3.
        - rewrite G2. rewrite (f_q _ _ _ _ _ _ F3) in LQ2. lia.
        - rewrite G3, (t_back _ _ _ _ _ QE), (t_back _ _ _ _ _ QC), (f_b _ _ _ _ _ _ F3). lia. } exists (bump r (dom s3) x). assert (P5 : Permutation ed4 (edges s5)).
      { unfold s5. rewrite edges_set; [apply Permutation_sym; exact P4|lia|reflexivity]. }
      eapply Inv_perm; [exact P5|].
      assert (M5 : forall i, mk s5 i = mk s3 i) by (intros i; rewrite (agree_mk _ _ _ i AG); auto).
      assert (ST5 : forall i, st s5 i = st s3 i) by (intros i; destruct AG as (_ & _ & _ & _ & A & _); rewrite A; auto).
      assert (D5 : dom s5 = dom s3) by (destruct AG as (A & _); lia).
      assert (EX5 : ext s3 s5) by (split; [lia|]; intros i I; auto).
      assert (ANC : forall b, cnt b x (edges s) = 0).
      { intros b. destruct (cnt b x (edges s)) eqn:Z; auto. exfalso. destruct (cnt_pos b x (edges s)) as [c Hc]; [lia|]. apply (I_edge _ _ _ _ _ _ _ _ _ _ _ _ IV) in Hc. tauto. }
      apply (Inv_close_open x s5 ed4 _ IV5); [lia| rewrite ST5, S3; auto | rewrite CX5; auto|].
      unfold SynInv.Open. rewrite M5, ST5, S3, CX5. cbn [c_ec c_cc]. unfold ed4. rewrite !cnt_app, !cnt_same, !ANC. cbn [Bool.eqb plus].
      split; [auto|]. split; [|split; [|split; [|split; [|split; [|split]]]]].
      * eapply all_to_ext; [exact EX5|exact X3|exact AE|]. cbn. intros c L [[N W]|[Q|Q]]; [left; rewrite ST5; auto|auto|]. right. right. apply in_or_app. left. apply in_map_iff. exists c. auto.
      * intros HM. destruct (HMB HM) as [Z K]. split.
        -- destruct (EENf Z) as [c Hc]. exists c. apply in_or_app. left. apply in_map_iff. exists c. auto.
        -- destruct K as [K|K]; auto. right. eapply some_to_ext; [exact EX5|exact X3|exact K|]. cbn. intros c L W. rewrite ST5. auto.
      * intros HP. destruct (HPR HP) as (Q1 & [c Q2] & Q3). split; auto. split.
        -- exists c. apply in_or_app. right. apply in_or_app. left. apply in_map_iff. exists c. auto.
        -- eapply all_to_ext; [exact EX5|exact X3|exact Q3|]. cbn. intros d L [W|[Q|Q]]; [left; rewrite ST5; auto|auto|]. right. right. apply in_or_app. right. apply in_or_app. left. apply in_map_iff. exists d. auto.
      * f_equal. lia.
      * f_equal. lia.
      * cbn [length] in LEN. lia.
      * lia.
Qed.

(** ** The main loop *)
Definition finished (s : syn) : Prop := det (st s 0) = true \/ (y_queue s = [] /\ y_back s = []).

Lemma pop_ok : forall s r i, Inv never never s (edges s) r -> i < length (y_queue s) ->
  let x := nth i (y_queue s) 0 in let s2 := mkSyn (y_tab s) (remove_at i (y_queue s)) (y_back s) in
  Inv (is_x x) never s2 (edges s2) r /\ x < dom s2 /\ st s2 x = UNKNOWN /\ c_wait (cf s2 x) = 1 /\ ~ In x (y_queue s2).
Proof.
  intros s r i IV L x s2. pose proof IV as [A1 A2 A3 A4 A5 A6 A7 A8 A9 A10]. destruct A7 as [ND Q]. assert (IX : In x (y_queue s)) by (apply nth_In; auto).
  destruct (Q x IX) as (Q1 & Q2 & Q3). split; [|split; [exact Q1|split; [exact Q2|split; [exact Q3|]]]].
  - constructor; auto.
    + intros j J K W. exact (A3 j J (fun f => f) W).
    + intros j J K W. exact (A4 j J (fun f => f) W).
    + intros j J K W. exact (A5 j J (fun f => f) W).
    + intros j J K U. destruct (A6 j J (fun f => f) U) as [[K1 K2]|K2]; auto. left. split; auto. cbn. apply remove_at_in; auto.
    + split; [apply remove_at_nodup; auto|]. intros j J. cbn in J. apply remove_at_in in J; auto. apply Q. tauto.
    + destruct A10 as [Z1 Z2]. split; auto. intros U K. cbn. apply remove_at_in; auto.
  - cbn. intros J. apply remove_at_in in J; auto. tauto.
Qed.

Lemma ext_init : forall s s', ext s s' -> 0 < dom s -> mk s' 0 = mk s 0.
Proof. intros s s' [_ X] L. apply X; auto. Qed.

Lemma drop_ok : forall s2 r x, Inv (is_x x) never s2 (edges s2) r -> x < dom s2 -> st s2 x = UNKNOWN -> ~ In x (y_queue s2) ->
  forallb (fun d => det (c_st (cf s2 (snd d)))) (c_dep (cf s2 x)) = true -> x <> 0 -> Good (set_cf s2 x (mkCf UNKNOWN 0 (c_cc (cf s2 x)) (c_ec (cf s2 x)) [])).
Proof.
  intros s2 r x IV2 X UX NQ FB NZ. rewrite forallb_forall in FB.
    set (s3 := set_cf s2 x _). destruct (edges_set_dep s2 x (mkCf UNKNOWN 0 (c_cc (cf s2 x)) (c_ec (cf s2 x)) []) X) as [P1 P2]. fold s3 in P2.
    apply (Inv_perm _ _ _ _ _ _ _ _ _ _ _ _ _ P1) in IV2. apply Inv_drops in IV2; [|intros d Hd; apply FB; auto]. cbn [map app c_dep] in P2.
    apply (Inv_perm _ _ _ _ _ _ _ _ _ _ _ _ _ (Permutation_sym P2)) in IV2.
    assert (AG : agree (is_x x) s2 s3).
    { unfold s3. split; [apply dom_set|]. split; [apply fst_tab_set|]. split; auto. split; auto. split.
      - intros j. unfold st. destruct (Nat.eq_dec x j) as [<-|N]; [rewrite cf_set_eq by lia; auto|rewrite cf_set_neq; auto].
      - intros j Hj. assert (N : x <> j) by (intros ->; apply Hj; red; auto). rewrite cf_set_neq; auto. }
    assert (IV3 := Inv_agree _ _ _ _ _ _ IV2 AG (fun j (Hj : is_x x j) => eq_ind_r (fun k => ~ In k (y_queue s2)) NQ Hj)).
    exists r. destruct AG as (D & _ & _ & _ & ST & _). assert (U3 : st s3 x = UNKNOWN) by (rewrite ST; auto).
    assert (CX : cf s3 x = mkCf UNKNOWN 0 (c_cc (cf s2 x)) (c_ec (cf s2 x)) []) by (unfold s3; rewrite cf_set_eq by auto; f_equal; exact UX).
    destruct IV3 as [A1 A2 A3 A4 A5 A6 A7 A8 A9 A10]. constructor; auto.
    + intros j J _ W. apply A3; auto. intros Z. red in Z. congruence.
    + intros j J _ W. apply A4; auto. intros Z. red in Z. congruence.
    + intros j J _ W. apply A5; auto. intros Z. red in Z. subst j. destruct W; congruence.
    + intros j J _ W. destruct (Nat.eq_dec j x) as [->|N]; [|apply A6; auto]. right. rewrite CX. split; auto. intros d HI. apply in_edges in HI. rewrite CX in HI. destruct HI as [_ []].
    + destruct A10 as [Z1 Z2]. split; auto.
Qed.

Lemma main_loop_ok : forall fuel turn s, Good s ->
  match main_loop safety pred kbound envs ctrls pick fuel turn s with
  | Ok s' => Good s' /\ mk s' 0 = mk s 0 /\ finished s'
  | Throw => exists m, okm m /\ (snd (envs m) = Throw \/ snd (ctrls m) = Throw)
  | UB => False
  | NoFuel => True
  end.
Proof.
  induction fuel as [|fuel IH]; intros turn s G; [exact I|]. cbn [main_loop]. fold (st s 0). destruct (det (st s 0)) eqn:D0; [split; auto; split; auto; left; auto|].
  destruct (drain (S fuel) s) as [s1| | |] eqn:DR; cbn [bind]; auto.
  2,3: exfalso; clear - DR; revert s DR; generalize (S fuel) as f; induction f as [|f IHf]; intros s DR; cbn in DR; [discriminate|]; destruct (y_back s); [discriminate|]; eapply IHf; exact DR.
  destruct (drain_ok _ _ _ G DR) as (G1 & BK & QE & EX & _ & M1). destruct (y_queue s1) as [|a q] eqn:Q; [split; auto; split; auto; right; auto|].
  rewrite <- Q. set (i := pick turn (y_queue s1) mod length (y_queue s1)). destruct G1 as [r IV].
  assert (LI : i < length (y_queue s1)) by (apply Nat.mod_upper_bound; rewrite Q; discriminate).
  destruct (pop_ok s1 r i IV LI) as (IV2 & X & UX & WX & NQ). set (x := nth i (y_queue s1) 0) in *. set (s2 := mkSyn (y_tab s1) (remove_at i (y_queue s1)) (y_back s1)) in *. cbv zeta.
  fold (st s2 x). rewrite UX. cbn [det].
  destruct (forallb (fun d => det (c_st (cf s2 (snd d)))) (c_dep (cf s2 x)) && negb (x =? 0)) eqn:FB.
  - match goal with |- context [main_loop _ _ _ _ _ _ _ _ ?S3] => assert (G3 : Good S3 /\ mk S3 0 = mk s 0) end.
    2: { destruct G3 as [G3 M3]. specialize (IH (S turn) _ G3). rewrite M3 in IH. exact IH. }
    split; [|rewrite mk_set; exact (M1 0)].
    apply andb_true_iff in FB. destruct FB as [FB NZ]. apply negb_true_iff, Nat.eqb_neq in NZ. eapply drop_ok; eauto.
  - pose proof (expand_ok x s2 r IV2 X UX WX NQ) as EK. destruct (expand safety pred kbound envs ctrls x s2) as [s3| | |]; cbn [bind]; auto.
    destruct EK as (G3 & M3 & _). specialize (IH (S turn) s3 G3). rewrite M3 in IH. change (mk s2 0) with (mk s1 0) in IH. rewrite M1 in IH. exact IH.
Qed.
End Run.
