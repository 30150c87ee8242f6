(** The removal of what is irrelevant from coloured nets keeps the tokens that can be on the
    places of the query (C49). *)
From Verif Require Import Base BaseLemmas BuilderModel BuilderSpec CtlFrag ColSyntax ColSpec ColModel ColRadix ColEval ColGen ColUnfold ColMain ColRedModel ColRedSpec ColRedProofs ColRedMain ColRedTotal ColRdpModel ColRdpSpec ColRdpProofs ColPreSpec ColRelModel ColRelSpec.

Lemma memb_in : forall x l, memb x l = true <-> In x l.
Proof. intros x l. unfold memb. rewrite existsb_exists. split; [intros (y & I & E); apply Nat.eqb_eq in E; subst; exact I|intros I; exists x; split; [exact I|apply Nat.eqb_refl]]. Qed.

(** ** Marking *)
Definition ext (s s' : rst) : Prop := incl (rs_t s) (rs_t s') /\ incl (rs_p s) (rs_p s') /\ incl (rs_w s) (rs_w s') /\ forall t, In t (rs_t s') -> In t (rs_t s) \/ In t (rs_w s').
Lemma ext_refl : forall s, ext s s.
Proof. intros s. split; [apply incl_refl|]. split; [apply incl_refl|]. split; [apply incl_refl|]. auto. Qed.
Lemma ext_trans : forall a b c, ext a b -> ext b c -> ext a c.
Proof.
  intros a b c (A1 & A2 & A3 & A4) (B1 & B2 & B3 & B4). split; [eapply incl_tran; eauto|]. split; [eapply incl_tran; eauto|]. split; [eapply incl_tran; eauto|].
  intros t I. destruct (B4 t I) as [K|K]; [|auto]. destruct (A4 t K) as [L|L]; auto.
Qed.
Lemma mark_ext : forall s t, ext s (mark s t).
Proof.
  intros s t. unfold mark. destruct (memb t (rs_t s)); [apply ext_refl|]. split; [intros x I; right; exact I|]. split; [apply incl_refl|]. split; [intros x I; right; exact I|]. intros u [->|I]; [right; left; reflexivity|left; exact I].
Qed.
Lemma mark_in : forall s t, In t (rs_t (mark s t)).
Proof. intros s t. unfold mark. destruct (memb t (rs_t s)) eqn:E; [apply memb_in; exact E|left; reflexivity]. Qed.
Lemma flag_ext : forall s p, ext s (flag_place s p).
Proof. intros s p. split; [apply incl_refl|]. split; [intros x I; right; exact I|]. split; [apply incl_refl|]. auto. Qed.
Lemma fold_ext : forall (A : Type) (f : rst -> A -> rst) l s, (forall s x, ext s (f s x)) -> ext s (fold_left f l s).
Proof. intros A f l. induction l as [|x l IH]; intros s H; [apply ext_refl|]. cbn [fold_left]. eapply ext_trans; [apply H|apply IH; exact H]. Qed.
Lemma fold_mark_in : forall us s u, In u us -> In u (rs_t (fold_left mark us s)).
Proof.
  induction us as [|x us IH]; intros s u I; [destruct I|]. destruct I as [->|I]; cbn [fold_left]; [|apply IH; exact I]. apply (fold_ext _ mark us (mark s u) mark_ext). apply mark_in.
Qed.

Section Net.
Variable used_t used_p : nat -> bool.
Variable n : cpn.
Lemma mark_place_ext : forall s p, ext s (mark_place n s p).
Proof. intros s p. unfold mark_place. eapply ext_trans; [apply flag_ext|]. eapply ext_trans; apply fold_ext; apply mark_ext. Qed.
Definition all_marked (s : rst) (p : nat) : Prop := In p (rs_p s) /\ (forall u, In u (consumers n p) -> In u (rs_t s)) /\ forall u, In u (producers n p) -> In u (rs_t s).
Lemma mark_place_all : forall s p, all_marked (mark_place n s p) p.
Proof.
  intros s p. unfold mark_place. set (s1 := fold_left mark (consumers n p) (flag_place s p)). pose proof (fold_ext _ mark (consumers n p) (flag_place s p) mark_ext) as (_ & E1 & _). fold s1 in E1.
  pose proof (fold_ext _ mark (producers n p) s1 mark_ext) as (E2 & E3 & _). split; [apply E3, E1; left; reflexivity|]. split; [intros u I; apply E2; apply fold_mark_in; exact I|intros u I; apply fold_mark_in; exact I].
Qed.
Lemma all_ext : forall s s' p, all_marked s p -> ext s s' -> all_marked s' p.
Proof. intros s s' p (A & B & C) (E1 & E2 & _). split; [auto|]. split; auto. Qed.
Lemma mark_places_ext : forall s, ext s (mark_places used_p n s).
Proof. intros s. apply fold_ext. intros s1 p. destruct (used_p p); [apply mark_place_ext|apply ext_refl]. Qed.
Lemma mark_places_all : forall s p, p < length (cn_pls n) -> used_p p = true -> all_marked (mark_places used_p n s) p.
Proof.
  intros s p L U. unfold mark_places. assert (I : In p (seq 0 (length (cn_pls n)))) by (apply in_seq; lia). revert s I. generalize (seq 0 (length (cn_pls n))) as l. induction l as [|x l IH]; intros s I; [destruct I|].
  cbn [fold_left]. destruct I as [->|I]; [|apply IH; exact I]. rewrite U. eapply all_ext; [apply mark_place_all|]. apply fold_ext. intros s1 q. destruct (used_p q); [apply mark_place_ext|apply ext_refl].
Qed.
Lemma mark_transitions_ext : forall s, ext s (mark_transitions used_t n s).
Proof. intros s. apply fold_ext. intros s1 t. destruct (negb _ && used_t t); [|apply ext_refl]. eapply ext_trans; [apply mark_ext|]. apply fold_ext. intros; apply mark_place_ext. Qed.

Definition fed (s : rst) (q : nat) : Prop := In q (rs_p s) /\ forall u, In u (producers n q) -> In u (rs_t s) \/ neutral n u q = Ok true.
Definition done (s : rst) (t : nat) : Prop := forall q, In q (map fst (ct_in (tr_of n t))) -> fed s q.
Lemma fed_ext : forall s s' q, fed s q -> ext s s' -> fed s' q.
Proof. intros s s' q (A & B) (E1 & E2 & _). split; [auto|]. intros u I. destruct (B u I); auto. Qed.
Lemma mark_pre_ext : forall q us s s', mark_pre n q s us = Ok s' -> ext s s' /\ forall u, In u us -> In u (rs_t s') \/ neutral n u q = Ok true.
Proof.
  intros q. induction us as [|u us IH]; intros s s' H; cbn [mark_pre] in H; [injection H as <-; split; [apply ext_refl|intros u []]|]. destruct (memb u (rs_t s)) eqn:M.
  - destruct (IH _ _ H) as [A B]. split; [exact A|]. intros x [->|I]; [left; apply A; apply memb_in; exact M|auto].
  - apply bindR in H. destruct H as (b & E & H). destruct (IH _ _ H) as [A B]. destruct b.
    + split; [exact A|]. intros x [->|I]; auto.
    + split; [eapply ext_trans; [apply mark_ext|exact A]|]. intros x [->|I]; [left; apply A; apply mark_in|auto].
Qed.
Lemma mark_inputs_ext : forall arcs s s', mark_inputs n s arcs = Ok s' -> ext s s' /\ forall q, In q (map fst arcs) -> fed s' q.
Proof.
  induction arcs as [|x arcs IH]; intros s s' H; cbn [mark_inputs] in H; [injection H as <-; split; [apply ext_refl|intros u []]|]. apply bindR in H. destruct H as (s1 & E & H).
  destruct (mark_pre_ext _ _ _ _ E) as [A B]. destruct (IH _ _ H) as [C D]. split; [eapply ext_trans; [apply flag_ext|eapply ext_trans; eauto]|].
  intros q [<-|I]; [|auto]. apply (fed_ext s1); [|exact C]. split; [apply A; left; reflexivity|exact B].
Qed.
Lemma mark_inhibitors_ext : forall t s, ext s (mark_inhibitors n t s).
Proof.
  intros t s. apply fold_ext. intros s1 x. destruct (Nat.eqb _ t); [|apply ext_refl]. unfold mark_post. eapply ext_trans; [apply flag_ext|]. apply fold_ext. intros s2 u. destruct (harmless _ _ _ u); [apply ext_refl|apply mark_ext].
Qed.
Definition good_work (s : rst) : Prop := forall t, In t (rs_t s) -> In t (rs_w s) \/ done s t.
Lemma work_ext : forall s s', good_work s -> ext s s' -> good_work s'.
Proof.
  intros s s' G E t I. pose proof E as (_ & _ & E3 & E4). destruct (E4 t I) as [K|K]; [|auto]. destruct (G t K) as [L|L]; [auto|]. right. intros q Q. eapply fed_ext; eauto.
Qed.
Lemma loop_done : forall fuel s s', rel_loop fuel n s = Ok s' -> good_work s -> incl (rs_t s) (rs_t s') /\ incl (rs_p s) (rs_p s') /\ forall t, In t (rs_t s') -> done s' t.
Proof.
  induction fuel as [|f IH]; intros s s' H G; cbn [rel_loop] in H; destruct (rs_w s) as [|t w] eqn:EW.
  1, 3: injection H as <-; split; [apply incl_refl|]; split; [apply incl_refl|]; intros t I; destruct (G t I) as [K|K]; [rewrite EW in K; destruct K|exact K].
  - discriminate H.
  - apply bindR in H. destruct H as (s1 & E & H). destruct (mark_inputs_ext _ _ _ E) as [A B]. pose proof (mark_inhibitors_ext t s1) as C.
    assert (G1 : good_work s1).
    { intros u I. pose proof A as (_ & _ & A3 & A4). destruct (A4 u I) as [K|K]; [|auto]. cbn [rs_t rs_w] in *. destruct (G u K) as [L|L].
      - rewrite EW in L. destruct L as [<-|L]; [right; exact B|left; apply A3; exact L].
      - right. intros q Q. destruct (L q Q) as [L1 L2]. destruct A as (A1 & A2 & _). split; [apply A2; exact L1|]. intros x X. destruct (L2 x X) as [Y|Y]; [left; apply A1; exact Y|right; exact Y]. }
    destruct (IH _ _ H (work_ext _ _ G1 C)) as (I1 & I2 & I3). destruct A as (A1 & A2 & _). destruct C as (C1 & C2 & _). split; [intros x X; apply I1, C1, A1; exact X|]. split; [intros x X; apply I2, C2, A2; exact X|exact I3].
Qed.
End Net.

(** ** Removing *)
Lemma fold_place : forall ps r, let r' := fold_left skip_place ps r in
  cn_types (r_net r') = cn_types (r_net r) /\ cn_vars (r_net r') = cn_vars (r_net r) /\ cn_pls (r_net r') = cn_pls (r_net r) /\ r_trs r' = r_trs r /\ (cn_inh (r_net r) = [] -> cn_inh (r_net r') = []) /\
  forall u, match nth_error (cn_trs (r_net r)) u, nth_error (cn_trs (r_net r')) u with
    | Some tr, Some tr' => ct_guard tr' = ct_guard tr /\ forall b q v, moved (r_net r) b (ct_in tr') q v = (if memb q ps then 0%N else moved (r_net r) b (ct_in tr) q v) /\
        moved (r_net r) b (ct_out tr') q v = (if memb q ps then 0%N else moved (r_net r) b (ct_out tr) q v)
    | None, None => True | _, _ => False end.
Proof.
  induction ps as [|p ps IH]; intros r; cbn [fold_left].
  - repeat (split; [reflexivity || auto|]). intros u. destruct (nth_error (cn_trs (r_net r)) u); auto.
  - destruct (IH (skip_place r p)) as (A1 & A2 & A3 & A4 & A5 & A6). split; [exact A1|]. split; [exact A2|]. split; [exact A3|]. split; [exact A4|]. split; [intros E; apply A5; cbn; rewrite E; reflexivity|].
    intros u. specialize (A6 u). rewrite place_nth in A6. destruct (nth_error (cn_trs (r_net r)) u) as [tr|]; [|exact A6]. destruct (nth_error _ u) as [tr'|]; [|exact A6]. destruct A6 as [G M]. split; [exact G|]. intros b q v. destruct (M b q v) as [M1 M2].
    change (moved (r_net (skip_place r p)) b) with (moved (r_net r) b) in M1, M2. cbn [drop_tr ct_in ct_out] in M1, M2. rewrite drop_moved in M1, M2. rewrite M1, M2. unfold memb. cbn [existsb]. destruct (Nat.eqb q p), (existsb (Nat.eqb q) ps); auto.
Qed.
Lemma fold_trans : forall ts r, let r' := fold_left skip_transition ts r in
  cn_types (r_net r') = cn_types (r_net r) /\ cn_vars (r_net r') = cn_vars (r_net r) /\ cn_pls (r_net r') = cn_pls (r_net r) /\ (forall t, In t (r_trs r') <-> In t (r_trs r) \/ In t ts) /\ (cn_inh (r_net r) = [] -> cn_inh (r_net r') = []) /\
  forall u, ~ In u ts -> nth_error (cn_trs (r_net r')) u = nth_error (cn_trs (r_net r)) u.
Proof.
  induction ts as [|t ts IH]; intros r; cbn [fold_left].
  - split; [reflexivity|]. split; [reflexivity|]. split; [reflexivity|]. split; [intros t; cbn; tauto|]. split; auto.
  - destruct (IH (skip_transition r t)) as (A1 & A2 & A3 & A4 & A5 & A6). split; [exact A1|]. split; [exact A2|]. split; [exact A3|]. split; [intros u; rewrite A4; cbn; tauto|]. split; [intros E; apply A5; cbn; rewrite E; reflexivity|].
    intros u N. rewrite A6 by (intros K; apply N; right; exact K). cbn [skip_transition r_net cn_trs]. apply nth_error_upd_neq. intros K. apply N. left. auto.
Qed.

(** The places all of whose transitions are flagged have the same tokens; a flagged transition
    that takes from such places only can fire in both nets or in none. *)
Definition view (n : cpn) (s : rst) (r' : rnet) (M M' : cmark) : Prop :=
  (forall q v, all_marked n s q -> M' q v = M q v) /\
  forall t, In t (rs_t s) -> (forall tr q, nth_error (cn_trs n) t = Some tr -> In q (map fst (ct_in tr)) -> all_marked n s q) -> (fireable (mkR n [] []) M t <-> fireable r' M' t).
Lemma relevance_core : forall used_t used_p n r', cpn_ok n -> arcs_once n -> cn_inh n = [] -> relevance used_t used_p (mkR n [] []) = Ok r' ->
  exists s, let s1 := mark_transitions used_t n (mark_places used_p n (mkRS [] [] [])) in incl (rs_t s1) (rs_t s) /\ incl (rs_p s1) (rs_p s) /\
    (forall M, rreach (mkR n [] []) M -> exists M', rreach r' M' /\ view n s r' M M') /\
    (forall M', rreach r' M' -> exists M, rreach (mkR n [] []) M /\ view n s r' M M').
Proof.
  intros used_t used_p n r' OK ON NI H. unfold relevance in H. cbn [r_net r_pls r_trs] in H. apply bindR in H. destruct H as (s & HS & H). injection H as <-.
  set (s0 := mark_places used_p n (mkRS [] [] [])) in *. set (s1 := mark_transitions used_t n s0) in *.
  pose proof (mark_places_ext used_p n (mkRS [] [] [])) as X0. fold s0 in X0. pose proof (mark_transitions_ext used_t n s0) as X1. fold s1 in X1.
  destruct (loop_done n _ _ _ HS) as (L1 & L2 & L3). { apply (work_ext n (mkRS [] [] [])); [intros t []|]. eapply ext_trans; eauto. }
  exists s. cbv zeta. split; [exact L1|]. split; [exact L2|].
  clear HS X0 X1 L1 L2. set (ps := filter _ (rev (seq 0 (length (cn_pls n))))). set (ts := filter _ (rev (seq 0 (length (cn_trs n))))).
  destruct (fold_place ps (mkR n [] [])) as (P1 & P2 & P3 & P4 & P5 & P6). set (r1 := fold_left skip_place ps (mkR n [] [])) in *.
  destruct (fold_trans ts r1) as (T1 & T2 & T3 & T4 & T5 & T6). set (r2 := fold_left skip_transition ts r1) in *. cbn [r_net r_trs] in *.
  assert (PS : forall p, In p (rs_p s) -> memb p ps = false).
  { intros p I. destruct (memb p ps) eqn:E; [|reflexivity]. apply memb_in in E. unfold ps in E. apply filter_In in E. destruct E as [_ E]. rewrite (proj2 (memb_in p (rs_p s)) I) in E. discriminate E. }
  assert (TS : forall t, t < length (cn_trs n) -> (In t ts <-> ~ In t (rs_t s))).
  { intros t L. unfold ts. rewrite filter_In, <- in_rev, in_seq. destruct (memb t (rs_t s)) eqn:E; cbn; [apply memb_in in E; split; [intros [_ K]; discriminate K|contradiction]|]. split; [intros _ K; apply memb_in in K; congruence|intros _; split; [lia|reflexivity]]. }
  set (r' := add_dummy r2) in *.
  assert (D1 : cn_types (r_net r') = cn_types n) by (unfold r', add_dummy; destruct (forallb _ _); cbn; congruence).
  assert (D2 : cn_vars (r_net r') = cn_vars n) by (unfold r', add_dummy; destruct (forallb _ _); cbn; congruence).
  assert (D3 : cn_trs (r_net r') = cn_trs (r_net r2)) by (unfold r', add_dummy; destruct (forallb _ _); reflexivity).
  assert (D4 : cn_inh (r_net r') = []) by (unfold r', add_dummy; destruct (forallb _ _); cbn; auto).
  assert (D5 : r_trs r' = r_trs r2) by (unfold r', add_dummy; destruct (forallb _ _); reflexivity).
  assert (D6 : forall p v, cinit (r_net r') p v = cinit n p v).
  { intros p v. assert (E2 : cn_pls (r_net r2) = cn_pls n) by congruence. unfold cinit. rewrite D1, D2. unfold r', add_dummy. destruct (forallb _ _); cbn [r_net cn_pls]; rewrite E2; [|reflexivity].
    destruct (Nat.lt_ge_cases p (length (cn_pls n))) as [L|L]; [rewrite nth_error_app1 by exact L; reflexivity|]. rewrite nth_error_app2 by exact L. rewrite (proj2 (nth_error_None (cn_pls n) p) L). destruct (p - length (cn_pls n)) as [|k]; [reflexivity|destruct k; reflexivity]. }
  assert (MV : forall b l q v, moved (r_net r') b l q v = moved n b l q v) by (intros; unfold moved; rewrite D1, D2; reflexivity).
  assert (BE : forall b, binds (r_net r') b <-> binds n b) by (intros b; unfold binds; rewrite D1, D2; reflexivity).
  assert (TR : forall u, In u (rs_t s) -> match nth_error (cn_trs n) u, nth_error (cn_trs (r_net r')) u with
    | Some tr, Some tr' => ct_guard tr' = ct_guard tr /\ forall b q v, moved n b (ct_in tr') q v = (if memb q ps then 0%N else moved n b (ct_in tr) q v) /\ moved n b (ct_out tr') q v = (if memb q ps then 0%N else moved n b (ct_out tr) q v)
    | None, None => True | _, _ => False end).
  { intros u I. rewrite D3, T6; [apply P6|]. intros K. destruct (Nat.lt_ge_cases u (length (cn_trs n))) as [L|L]; [apply (TS u L) in K; contradiction|]. unfold ts in K. apply filter_In in K. destruct K as [K _]. apply in_rev in K. apply in_seq in K. lia. }
  assert (RT : forall u, u < length (cn_trs n) -> (~ In u (r_trs r') <-> In u (rs_t s))).
  { intros u L. rewrite D5, T4, P4. rewrite (TS u L). cbn. destruct (in_dec Nat.eq_dec u (rs_t s)); tauto. }
  assert (LEN : length (cn_trs (r_net r')) = length (cn_trs n)).
  { rewrite D3. clear -P6. unfold r2, r1. assert (A : forall l r, length (cn_trs (r_net (fold_left skip_transition l r))) = length (cn_trs (r_net r))) by (induction l as [|x l IH]; intros r; [reflexivity|]; cbn [fold_left]; rewrite IH; cbn; apply upd_length).
    assert (B : forall l r, length (cn_trs (r_net (fold_left skip_place l r))) = length (cn_trs (r_net r))) by (induction l as [|x l IH]; intros r; [reflexivity|]; cbn [fold_left]; rewrite IH; cbn; apply map_length). rewrite A, B. reflexivity. }
  (* the places that matter *)
  set (S := fun q => all_marked n s q \/ exists t tr, In t (rs_t s) /\ nth_error (cn_trs n) t = Some tr /\ In q (map fst (ct_in tr))).
  assert (SP : forall q, S q -> memb q ps = false).
  { intros q [U|(t & tr & I & E & Q)]; apply PS; [destruct U; assumption|]. rewrite <- (tr_of_some n t tr E) in Q. apply (L3 t I q Q). }
  assert (OUT : forall u tru b q v, nth_error (cn_trs n) u = Some tru -> ~ In u (rs_t s) -> S q -> (moved n b (ct_out tru) q v <= moved n b (ct_in tru) q v)%N /\ (all_marked n s q -> moved n b (ct_in tru) q v = 0%N /\ moved n b (ct_out tru) q v = 0%N)).
  { intros u tru b q v EU NU SQ. pose proof (tr_of_some n u tru EU) as ETR.
    assert (PR : forall o, find_arc q (ct_out tru) = Some o -> In u (producers n q)) by (intros o F; unfold producers; apply filter_In; split; [apply in_seq; pose proof (nth_error_lt _ _ EU); lia|rewrite ETR, F; reflexivity]).
    assert (CO : forall i, find_arc q (ct_in tru) = Some i -> In u (consumers n q)) by (intros i F; unfold consumers; apply filter_In; split; [apply in_seq; pose proof (nth_error_lt _ _ EU); lia|rewrite ETR, F; reflexivity]).
    assert (ZERO : all_marked n s q -> moved n b (ct_in tru) q v = 0%N /\ moved n b (ct_out tru) q v = 0%N).
    { intros (_ & B & C). split; apply moved_none; apply find_arc_none.
      - destruct (find_arc q (ct_in tru)) as [i|] eqn:F; [|reflexivity]. destruct NU. apply B. exact (CO i eq_refl).
      - destruct (find_arc q (ct_out tru)) as [o|] eqn:F; [|reflexivity]. destruct NU. apply C. exact (PR o eq_refl). }
    split; [|exact ZERO]. destruct SQ as [U|(t & tr & I & E & Q)]; [destruct (ZERO U); lia|]. rewrite <- (tr_of_some n t tr E) in Q. destruct (L3 t I q Q) as [_ FE].
    destruct (find_arc q (ct_out tru)) as [o|] eqn:FO; [|rewrite (moved_none n b (ct_out tru)) by (apply find_arc_none; exact FO); lia].
    destruct (FE u (PR o eq_refl)) as [K|K]; [contradiction|]. unfold neutral in K. rewrite ETR, FO in K. destruct (find_arc q (ct_in tru)) as [i|] eqn:FI; [|discriminate K].
    apply bindR in K. destruct K as (x & EX & K). destruct x as [x|]; [|discriminate K]. apply bindR in K. destruct K as (y & EY & K). destruct y as [y|]; [|discriminate K]. apply bindR in K. destruct K as (c1 & _ & K). apply bindR in K. destruct K as (c2 & E2 & K). injection K as K. apply andb_prop in K. destruct K as [_ ->].
    destruct (ON u tru EU) as [O1 O2]. rewrite (moved_one n b _ q v i O1 FI), (moved_one n b _ q v o O2 FO). pose proof OK as (T & _ & _ & TRS & _). destruct (TRS u tru EU) as (_ & A & B). rewrite Forall_forall in A, B.
    destruct (A _ (find_arc_in _ _ _ FI)) as (pl & Z1 & Z2 & Z3). destruct (B _ (find_arc_in _ _ _ FO)) as (pl' & W1 & W2 & W3). cbn [fst snd] in *. rewrite Z1 in W1. injection W1 as <-.
    exact (extract_below n (cp_type pl) o i y x T W2 Z2 W3 Z3 EY EX E2 b v). }
  assert (FV : forall M M', (forall q v, all_marked n s q -> M' q v = M q v) -> view n s r' M M').
  { intros M M' EQ. split; [exact EQ|]. intros t IT AL. pose proof (TR t IT) as K. split.
    - intros (M1 & _ & (tru & b & EU & (B1 & B2 & B3 & B4) & F)). cbn [r_net] in *. rewrite EU in K. destruct (nth_error (cn_trs (r_net r')) t) as [tr'|] eqn:EU'; [|contradiction]. destruct K as [KG KM].
      eexists. split; [apply RT; [exact (nth_error_lt _ _ EU)|exact IT]|]. exists tr', b. split; [exact EU'|]. split; [|reflexivity]. split; [apply BE; exact B1|]. split; [rewrite KG, D1, D2; exact B2|]. split; [|rewrite D4; intros q w []].
      intros q v. rewrite MV. destruct (KM b q v) as [-> _]. destruct (memb q ps); [lia|]. destruct (in_dec Nat.eq_dec q (map fst (ct_in tru))) as [J|J]; [|rewrite moved_none by exact J; lia]. rewrite (EQ q v (AL tru q EU J)). apply B3.
    - intros (M1 & _ & (tr' & b & EU' & (B1 & B2 & B3 & B4) & F)). rewrite EU' in K. destruct (nth_error (cn_trs n) t) as [tru|] eqn:EU; [|contradiction]. destruct K as [KG KM].
      eexists. split; [intros []|]. exists tru, b. split; [exact EU|]. split; [|reflexivity]. split; [apply BE; exact B1|]. split; [rewrite KG, D1, D2 in B2; exact B2|]. split; [|cbn [r_net]; rewrite NI; intros q w []].
      intros q v. cbn [r_net]. destruct (in_dec Nat.eq_dec q (map fst (ct_in tru))) as [J|J]; [|rewrite moved_none by exact J; lia]. pose proof (AL tru q eq_refl J) as AQ. specialize (B3 q v). rewrite MV in B3. destruct (KM b q v) as [KI _]. rewrite (SP q (or_introl AQ)) in KI. rewrite KI, (EQ q v AQ) in B3. exact B3. }
  split.
  - intros M R. assert (G : exists M', rreach r' M' /\ (forall q v, S q -> (M q v <= M' q v)%N) /\ forall q v, all_marked n s q -> M' q v = M q v).
    { induction R as [M E|M u M1 R (M' & R' & A & B) [_ (tru & b & EU & (B1 & B2 & B3 & B4) & F)]].
      - exists (cinit (r_net r')). split; [apply reach_init; reflexivity|]. split; intros q v; intros; rewrite D6, E; cbn [r_net]; [lia|reflexivity].
      - cbn [r_net] in *. destruct (in_dec Nat.eq_dec u (rs_t s)) as [IU|NU].
        + pose proof (TR u IU) as K. rewrite EU in K. destruct (nth_error (cn_trs (r_net r')) u) as [tr'|] eqn:EU'; [|contradiction]. destruct K as [KG KM].
          exists (fun q v => (M' q v - moved n b (ct_in tr') q v + moved n b (ct_out tr') q v)%N). split; [|split].
          * apply (@reach_step _ M' u); [exact R'|]. split; [apply RT; [exact (nth_error_lt _ _ EU)|exact IU]|]. exists tr', b. split; [exact EU'|]. split; [|intros; rewrite !MV; reflexivity].
            split; [apply BE; exact B1|]. split; [rewrite KG, D1, D2; exact B2|]. split; [|rewrite D4; intros q w []].
            intros q v. rewrite MV. destruct (KM b q v) as [-> _]. destruct (memb q ps); [lia|]. destruct (in_dec Nat.eq_dec q (map fst (ct_in tru))) as [J|J]; [|rewrite moved_none by exact J; lia].
            assert (SQ : S q) by (right; exists u, tru; auto). specialize (A q v SQ). specialize (B3 q v). lia.
          * intros q v SQ. destruct (KM b q v) as [-> ->]. rewrite (SP q SQ), F. specialize (A q v SQ). specialize (B3 q v). lia.
          * intros q v U. destruct (KM b q v) as [-> ->]. rewrite (SP q (or_introl U)), F, (B q v U). reflexivity.
        + exists M'. split; [exact R'|]. split.
          * intros q v SQ. destruct (OUT u tru b q v EU NU SQ) as [K _]. rewrite F. specialize (A q v SQ). specialize (B3 q v). lia.
          * intros q v U. destruct (OUT u tru b q v EU NU (or_introl U)) as [_ K]. destruct (K U) as [K1 K2]. rewrite F, K1, K2, (B q v U). lia. }
    destruct G as (M' & R' & _ & B). exists M'. auto.
  - intros M' R. assert (G : exists M, rreach (mkR n [] []) M /\ forall q v, S q -> M' q v = M q v).
    { induction R as [M' E|M' u M1' R (M & RM & A) [NR (tr' & b & EU' & (B1 & B2 & B3 & B4) & F)]].
      - exists (cinit n). split; [apply reach_init; reflexivity|]. intros q v _. rewrite E. apply D6.
      - assert (LU : u < length (cn_trs n)) by (rewrite <- LEN; exact (nth_error_lt _ _ EU')). pose proof (proj1 (RT u LU) NR) as IU. pose proof (TR u IU) as K. rewrite EU' in K.
        destruct (nth_error (cn_trs n) u) as [tru|] eqn:EU; [|contradiction]. destruct K as [KG KM].
        exists (fun q v => (M q v - moved n b (ct_in tru) q v + moved n b (ct_out tru) q v)%N). split.
        + apply (@reach_step _ M u); [exact RM|]. split; [intros []|]. exists tru, b. split; [exact EU|]. split; [|reflexivity].
          split; [apply BE; exact B1|]. split; [rewrite KG, D1, D2 in B2; exact B2|]. split; [|cbn [r_net]; rewrite NI; intros q w []].
          intros q v. cbn [r_net]. destruct (in_dec Nat.eq_dec q (map fst (ct_in tru))) as [J|J]; [|rewrite moved_none by exact J; lia].
          assert (SQ : S q) by (right; exists u, tru; auto). specialize (B3 q v). rewrite MV in B3. destruct (KM b q v) as [KI _]. rewrite (SP q SQ) in KI. rewrite <- (A q v SQ), <- KI. exact B3.
        + intros q v SQ. rewrite F, !MV. destruct (KM b q v) as [-> ->]. rewrite (SP q SQ), (A q v SQ). reflexivity. }
    destruct G as (M & RM & A). exists M. split; [exact RM|]. apply FV. intros q v U. apply A. left. exact U.
Qed.

Lemma used_marked : forall used_t used_p n s, let s1 := mark_transitions used_t n (mark_places used_p n (mkRS [] [] [])) in incl (rs_t s1) (rs_t s) -> incl (rs_p s1) (rs_p s) ->
  forall p, p < length (cn_pls n) -> used_p p = true -> all_marked n s p.
Proof.
  intros ut up n s s1 L1 L2 p L U. destruct (mark_places_all up n (mkRS [] [] []) p L U) as (A & B & C). destruct (mark_transitions_ext ut n (mark_places up n (mkRS [] [] []))) as (Y1 & Y2 & _). fold s1 in Y1, Y2. split; [auto|]. split; intros u I; auto.
Qed.
Theorem relevance_tokens : forall used_t used_p n r', cpn_ok n -> arcs_once n -> cn_inh n = [] -> relevance used_t used_p (mkR n [] []) = Ok r' -> same_tokens used_p n r'.
Proof.
  intros ut up n r' OK ON NI H. destruct (relevance_core ut up n r' OK ON NI H) as (s & L1 & L2 & A & B). pose proof (used_marked ut up n s L1 L2) as UM.
  split; [intros M R; destruct (A M R) as (M' & R' & V & _); exists M'|intros M' R; destruct (B M' R) as (M & R' & V & _); exists M]; split; auto.
Qed.

(** ** Transitions of the query *)
Lemma con_near : forall n q u, In u (consumers n q) -> near n u q.
Proof.
  intros n q u I. unfold consumers in I. apply filter_In in I. destruct I as [I F]. apply in_seq in I. exists (tr_of n u). split; [apply tr_of_in; lia|]. left. destruct (find_arc q (ct_in (tr_of n u))) as [a|] eqn:E; [|discriminate F]. apply find_arc_in in E. apply in_map_iff. exists (q, a). auto.
Qed.
Lemma pro_near : forall n q u, In u (producers n q) -> near n u q.
Proof.
  intros n q u I. unfold producers in I. apply filter_In in I. destruct I as [I F]. apply in_seq in I. exists (tr_of n u). split; [apply tr_of_in; lia|]. right. destruct (find_arc q (ct_out (tr_of n u))) as [a|] eqn:E; [|discriminate F]. apply find_arc_in in E. apply in_map_iff. exists (q, a). auto.
Qed.
Lemma mark_from : forall s t u, In u (rs_t (mark s t)) -> In u (rs_t s) \/ u = t.
Proof. intros s t u. unfold mark. destruct (memb t (rs_t s)); [auto|]. intros [->|I]; auto. Qed.
Lemma fold_mark_from : forall us s u, In u (rs_t (fold_left mark us s)) -> In u (rs_t s) \/ In u us.
Proof. induction us as [|x us IH]; intros s u I; [auto|]. cbn [fold_left] in I. destruct (IH _ _ I) as [K|K]; [|right; right; exact K]. destruct (mark_from _ _ _ K) as [L| ->]; [auto|right; left; reflexivity]. Qed.
Lemma mark_place_from : forall n s p u, In u (rs_t (mark_place n s p)) -> In u (rs_t s) \/ near n u p.
Proof.
  intros n s p u I. unfold mark_place in I. apply fold_mark_from in I. destruct I as [I|I]; [|right; apply pro_near; exact I]. apply fold_mark_from in I. destruct I as [I|I]; [left; exact I|right; apply con_near; exact I].
Qed.
Section Apart.
Variable used_t used_p : nat -> bool.
Variable n : cpn.
Hypothesis AP : apart used_t used_p n.
(** Where the flags come from. *)
Definition origin (k : nat) (s : rst) : Prop := forall u, In u (rs_t s) -> (exists q, used_p q = true /\ near n u q) \/
  exists t, t < k /\ used_t t = true /\ (u = t \/ exists tr q, nth_error (cn_trs n) t = Some tr /\ In q (map fst (ct_in tr)) /\ near n u q).
Lemma places_origin : origin 0 (mark_places used_p n (mkRS [] [] [])).
Proof.
  unfold mark_places. assert (G : forall l s, origin 0 s -> origin 0 (fold_left (fun s p => if used_p p then mark_place n s p else s) l s)).
  { induction l as [|p l IH]; intros s O; [exact O|]. cbn [fold_left]. apply IH. destruct (used_p p) eqn:U; [|exact O]. intros u I. apply mark_place_from in I. destruct I as [I|I]; [exact (O u I)|left; exists p; auto]. }
  apply G. intros u [].
Qed.
Definition inputs_marked (s : rst) (t : nat) : Prop := In t (rs_t s) /\ forall q, In q (map fst (ct_in (tr_of n t))) -> all_marked n s q.
Lemma inputs_ext : forall s s' t, inputs_marked s t -> ext s s' -> inputs_marked s' t.
Proof. intros s s' t [A B] E. split; [apply E; exact A|]. intros q Q. eapply all_ext; eauto. Qed.
Lemma arcs_marked : forall arcs s, let s' := fold_left (fun s (x : nat * aexp) => mark_place n s (fst x)) arcs s in (forall q, In q (map fst arcs) -> all_marked n s' q) /\ forall u, In u (rs_t s') -> In u (rs_t s) \/ exists q, In q (map fst arcs) /\ near n u q.
Proof.
  induction arcs as [|x arcs IH]; intros s; cbn [fold_left map]; [split; [intros q []|auto]|]. destruct (IH (mark_place n s (fst x))) as [A B]. split.
  - intros q [<-|I]; [|auto]. eapply all_ext; [apply mark_place_all|]. apply fold_ext. intros; apply mark_place_ext.
  - intros u I. destruct (B u I) as [K|(q & Q1 & Q2)]; [|right; exists q; split; [right; exact Q1|exact Q2]]. apply mark_place_from in K. destruct K as [K|K]; [auto|right; exists (fst x); split; [left; reflexivity|exact K]].
Qed.
Lemma transitions_marked : forall m, m <= length (cn_trs n) -> let s := fold_left (fun s t => if negb (memb t (rs_t s)) && used_t t
    then fold_left (fun s x => mark_place n s (fst x)) (ct_in (tr_of n t)) (mark s t) else s) (seq 0 m) (mark_places used_p n (mkRS [] [] [])) in
  origin m s /\ forall t, t < m -> used_t t = true -> inputs_marked s t.
Proof.
  induction m as [|m IH]; intros L; [split; [exact places_origin|intros; lia]|]. cbv zeta. rewrite seq_S, fold_left_app. cbn [fold_left plus]. destruct (IH ltac:(lia)) as [O A]. set (s := fold_left _ (seq 0 m) _) in *. clearbody s.
  assert (OM : origin (S m) s) by (intros u I; destruct (O u I) as [K|(t & T1 & T2)]; [left; exact K|right; exists t; split; [lia|exact T2]]).
  destruct (used_t m) eqn:U; [|rewrite andb_false_r; split; [exact OM|]; intros t T UT; apply A; [destruct (Nat.eq_dec t m) as [->|]; [congruence|lia]|exact UT]].
  assert (NF : memb m (rs_t s) = false).
  { destruct (memb m (rs_t s)) eqn:E; [|reflexivity]. exfalso. apply memb_in in E. destruct (AP m U) as [P1 P2]. destruct (O m E) as [(q & Q1 & Q2)|(t & T1 & T2 & [T3|(tr & q & Q1 & Q2 & Q3)])]; [exact (P1 q Q1 Q2)|lia|exact (P2 t tr q T2 ltac:(lia) Q1 Q2 Q3)]. }
  rewrite NF. cbn [negb andb]. pose proof (tr_of_in n m ltac:(lia)) as ET. destruct (arcs_marked (ct_in (tr_of n m)) (mark s m)) as [B C]. set (s' := fold_left _ (ct_in (tr_of n m)) (mark s m)) in *.
  assert (EX : ext (mark s m) s') by (apply fold_ext; intros; apply mark_place_ext). split.
  - intros u I. destruct (C u I) as [K|(q & Q1 & Q2)].
    + destruct (mark_from _ _ _ K) as [K1| ->]; [exact (OM u K1)|right; exists m; split; [lia|auto]].
    + right. exists m. split; [lia|]. split; [exact U|]. right. exists (tr_of n m), q. auto.
  - intros t T UT. destruct (Nat.eq_dec t m) as [->|NE]; [split; [apply EX; apply mark_in|exact B]|]. apply (inputs_ext s); [apply A; [lia|exact UT]|]. eapply ext_trans; [apply mark_ext|exact EX].
Qed.
End Apart.
Theorem relevance_answers : forall used_t used_p n r', cpn_ok n -> arcs_once n -> cn_inh n = [] -> apart used_t used_p n ->
  (forall p, used_p p = true -> p < length (cn_pls n)) -> (forall t, used_t t = true -> t < length (cn_trs n)) ->
  relevance used_t used_p (mkR n [] []) = Ok r' -> same_answers used_t used_p (mkR n [] []) r'.
Proof.
  intros ut up n r' OK ON NI AP UP UT H. destruct (relevance_core ut up n r' OK ON NI H) as (s & L1 & L2 & A & B). pose proof (used_marked ut up n s L1 L2) as UM. destruct (transitions_marked ut up n AP (length (cn_trs n)) (le_n _)) as [_ TM].
  assert (V : forall M M', view n s r' M M' -> same_view ut up (mkR n [] []) r' M M').
  { intros M M' [V1 V2]. split; [intros p v U; apply V1; apply UM; auto|]. intros t U. destruct (TM t (UT t U) U) as [T1 T2]. apply V2; [apply L1; exact T1|]. intros tr q E Q. rewrite <- (tr_of_some n t tr E) in Q. destruct (T2 q Q) as (X1 & X2 & X3). split; [apply L2; exact X1|]. split; intros u I; apply L1; auto. }
  split; [intros M R; destruct (A M R) as (M' & R' & W); exists M'|intros M' R; destruct (B M' R) as (M & R' & W); exists M]; auto.
Qed.
