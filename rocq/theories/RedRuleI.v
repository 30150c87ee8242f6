(** Rule I: what is irrelevant to the query. *)
From Verif Require Import Base NetSpec NetModel BuilderModel RedTheory RedSpec RedModel RedCand RedProofs RedNet RedRules RedOps RedRuleFNO RedRuleE RedRuleC.
From Coq Require Import Lia.
Set Implicit Arguments.

(** ** The worklist *)
Definition todo_count (b : builder) (s : rel) : nat := length (r_todo s) + length (filter (fun t => negb (r_seen s t)) (seq 0 (length (b_trans b)))).
Definition more (b : builder) (s s' : rel) : Prop :=
  (forall t, r_seen s t = true -> r_seen s' t = true) /\ (forall p, r_places s p = true -> r_places s' p = true) /\
  (forall t, In t (r_todo s) -> In t (r_todo s')) /\ (forall t, r_seen s' t = true -> r_seen s t = true \/ In t (r_todo s')) /\ todo_count b s' = todo_count b s.
Lemma more_refl : forall b s, more b s s.
Proof. intros b s. split; [auto|]. split; [auto|]. split; [auto|]. split; [auto|reflexivity]. Qed.
Lemma more_trans : forall b s s1 s2, more b s s1 -> more b s1 s2 -> more b s s2.
Proof.
  intros b s s1 s2 (A1 & B1 & C1 & D1 & E1) (A2 & B2 & C2 & D2 & E2). split; [auto|]. split; [auto|]. split; [auto|]. split; [|congruence].
  intros t H. destruct (D2 t H) as [X|X]; [|auto]. destruct (D1 t X) as [Y|Y]; auto.
Qed.
Lemma count_fset : forall f t l, NoDup l -> f t = false ->
  length (filter (fun x => negb (f x)) l) = length (filter (fun x => negb (fset f t true x)) l) + (if existsb (Nat.eqb t) l then 1 else 0).
Proof.
  intros f t. induction l as [|x l IH]; intros N Ht; [reflexivity|]. inversion N as [|? ? N1 N2]; subst. specialize (IH N2 Ht). cbn [filter existsb]. unfold fset at 1. rewrite (Nat.eqb_sym t x). destruct (Nat.eqb_spec x t) as [Ex|Ex].
  - subst x. rewrite Ht. cbn [negb orb length]. assert (F : existsb (Nat.eqb t) l = false). { destruct (existsb (Nat.eqb t) l) eqn:F; [|reflexivity]. apply existsb_in in F. contradiction. } rewrite F in IH. lia.
  - cbn [orb]. destruct (f x); cbn [negb length]; lia.
Qed.
Lemma mark_ok : forall b s t, t < length (b_trans b) -> more b s (r_mark s t) /\ r_seen (r_mark s t) t = true.
Proof.
  intros b s t Ht. unfold r_mark. destruct (r_seen s t) eqn:E; [split; [apply more_refl|exact E]|]. split; [|cbn [r_seen]; unfold fset; rewrite Nat.eqb_refl; reflexivity].
  split; [|split; [|split; [|split]]]; cbn [r_seen r_places r_todo].
  - intros u Hu. unfold fset. destruct (Nat.eqb u t); [reflexivity|exact Hu].
  - auto.
  - intros u Hu. right. exact Hu.
  - intros u Hu. unfold fset in Hu. destruct (Nat.eqb_spec u t) as [Eu|Eu]; [right; left; auto|left; exact Hu].
  - unfold todo_count. cbn [r_todo r_seen length]. rewrite (@count_fset (r_seen s) t (seq 0 (length (b_trans b))) (seq_NoDup _ _) E). assert (X : existsb (Nat.eqb t) (seq 0 (length (b_trans b))) = true) by (apply existsb_in, in_seq; lia). rewrite X. lia.
Qed.
Lemma marks_ok : forall b (f : nat -> bool) l s, (forall t, In t l -> t < length (b_trans b)) ->
  more b s (fold_left (fun s t => if f t then s else r_mark s t) l s) /\ (forall t, In t l -> f t = false -> r_seen (fold_left (fun s t => if f t then s else r_mark s t) l s) t = true).
Proof.
  intros b f. induction l as [|x l IH]; intros s Hl; cbn [fold_left]; [split; [apply more_refl|intros t []]|].
  assert (M : more b s (if f x then s else r_mark s x) /\ (f x = false -> r_seen (if f x then s else r_mark s x) x = true)).
  { destruct (f x); [split; [apply more_refl|discriminate]|]. destruct (@mark_ok b s x (Hl x (or_introl eq_refl))) as (A & B). split; [exact A|intros _; exact B]. }
  destruct M as (M1 & M2). set (s1 := if f x then s else r_mark s x) in *. destruct (IH s1) as (A & B); [intros t Ht; apply Hl; right; exact Ht|]. split; [eapply more_trans; eassumption|].
  intros t [E|Ht] Hf; [subst t; apply A, M2, Hf|apply B; assumption].
Qed.
Lemma cons_range : forall b p t, good b -> In t (bp_cons (pl_of b p)) -> live b t = true /\ t < length (b_trans b).
Proof. intros b p t G H. destruct (cons_arc p t G H) as (a & _ & Ha & _). assert (L : live b t = true) by (apply (@arc_live b t a G); auto). split; [exact L|]. apply live_spec in L. apply L. Qed.
Lemma prod_range : forall b p t, good b -> In t (bp_prod (pl_of b p)) -> live b t = true /\ t < length (b_trans b).
Proof. intros b p t G H. destruct (prod_arc p t G H) as (a & _ & Ha & _). assert (L : live b t = true) by (apply (@arc_live b t a G); auto). split; [exact L|]. apply live_spec in L. apply L. Qed.

(** ** What is kept is closed *)
Definition arc_done (b : builder) (s : rel) (a : arc) : Prop :=
  r_places s (arc_place a) = true /\
  (arc_inhib a = true -> forall t, In t (bp_cons (pl_of b (arc_place a))) -> r_skip_inh b a t = false -> r_seen s t = true) /\
  (arc_inhib a = false -> forall t, In t (bp_prod (pl_of b (arc_place a))) -> r_skip_prod b a t = false -> r_seen s t = true).
Definition t_done (b : builder) (s : rel) (t : nat) : Prop := forall a, In a (bt_pre (tr_of b t)) -> arc_done b s a.
Definition query_done (b : builder) (s : rel) (p : nat) : Prop := forall t, In t (bp_cons (pl_of b p)) \/ In t (bp_prod (pl_of b p)) -> r_seen s t = true.
Lemma arc_done_more : forall b s s' a, more b s s' -> arc_done b s a -> arc_done b s' a.
Proof. intros b s s' a (M1 & M2 & _) (A & B & C). split; [auto|]. split; intros; apply M1; auto. Qed.
Lemma r_arc_ok : forall inq rc b s a, good b -> more b s (r_arc inq rc b s a) /\ arc_done b (r_arc inq rc b s a) a.
Proof.
  intros inq rc b s a G. unfold r_arc.
  assert (X : forall s1, more b s s1 -> (arc_inhib a = true -> forall t, In t (bp_cons (pl_of b (arc_place a))) -> r_skip_inh b a t = false -> r_seen s1 t = true) ->
    (arc_inhib a = false -> forall t, In t (bp_prod (pl_of b (arc_place a))) -> r_skip_prod b a t = false -> r_seen s1 t = true) ->
    more b s (mkRel (r_seen s1) (r_todo s1) (fset (r_places s1) (arc_place a) true)) /\ arc_done b (mkRel (r_seen s1) (r_todo s1) (fset (r_places s1) (arc_place a) true)) a).
  { intros s1 (M1 & M2 & M3 & M4 & M5) A B. split; [|split; [cbn [r_places]; unfold fset; rewrite Nat.eqb_refl; reflexivity|split; assumption]].
    split; [exact M1|]. split; [|split; [exact M3|split; [exact M4|exact M5]]]. intros p Hp. cbn [r_places]. unfold fset. destruct (Nat.eqb p (arc_place a)); [reflexivity|apply M2; exact Hp]. }
  destruct (arc_inhib a) eqn:I.
  - destruct (@marks_ok b (r_skip_inh b a) (bp_cons (pl_of b (arc_place a))) s) as (A & B); [intros t Ht; apply (cons_range (arc_place a) t G Ht)|]. apply X; [exact A|intros _; exact B|discriminate].
  - destruct (@marks_ok b (r_skip_prod b a) (bp_prod (pl_of b (arc_place a))) s) as (A & B); [intros t Ht; apply (prod_range (arc_place a) t G Ht)|].
    set (s' := fold_left (fun s t => if r_skip_prod b a t then s else r_mark s t) (bp_prod (pl_of b (arc_place a))) s) in *.
    destruct (negb rc || inq (arc_place a)); [|apply X; [exact A|discriminate|intros _; exact B]].
    destruct (@marks_ok b (fun _ => false) (bp_cons (pl_of b (arc_place a))) s') as (A' & _); [intros t Ht; apply (cons_range (arc_place a) t G Ht)|].
    apply X; [eapply more_trans; [exact A|exact A']|discriminate|intros _ t Ht Hs; apply A'; apply B; assumption].
Qed.
Lemma r_arcs_ok : forall inq rc b l s, good b -> more b s (fold_left (r_arc inq rc b) l s) /\ (forall a, In a l -> arc_done b (fold_left (r_arc inq rc b) l s) a).
Proof.
  intros inq rc b. induction l as [|x l IH]; intros s G; cbn [fold_left]; [split; [apply more_refl|intros a []]|].
  destruct (r_arc_ok inq rc s x G) as (A & B). destruct (IH (r_arc inq rc b s x) G) as (C & D). split; [eapply more_trans; eassumption|]. intros a [E|Ha]; [subst a; eapply arc_done_more; eassumption|apply D; exact Ha].
Qed.
Lemma r_loop_ok : forall inq rc b fuel s, good b -> todo_count b s < fuel -> (forall t, r_seen s t = true -> In t (r_todo s) \/ t_done b s t) ->
  exists s', r_loop inq rc b fuel s = Ok s' /\ (forall t, r_seen s t = true -> r_seen s' t = true) /\ (forall t, r_seen s' t = true -> t_done b s' t).
Proof.
  intros inq rc b. induction fuel as [|f IH]; intros s G F I; [lia|]. cbn [r_loop]. destruct (r_todo s) as [|x l] eqn:E; [exists s; split; [reflexivity|]; split; [auto|]; intros t Ht; destruct (I t Ht) as [[]|X]; exact X|].
  set (s0 := mkRel (r_seen s) l (r_places s)). destruct (r_arcs_ok inq rc (bt_pre (tr_of b x)) s0 G) as (M & D). set (s1 := fold_left (r_arc inq rc b) (bt_pre (tr_of b x)) s0) in *.
  destruct (IH s1 G) as (s' & E' & A & B).
  - destruct M as (_ & _ & _ & _ & M5). rewrite M5. unfold todo_count in *. unfold s0. cbn [r_todo r_seen]. rewrite E in F. cbn [length] in F. lia.
  - intros t Ht. destruct M as (M1 & M2 & M3 & M4 & M5). destruct (M4 t Ht) as [Hs|Hs]; [|left; exact Hs]. unfold s0 in Hs. cbn [r_seen] in Hs. destruct (I t Hs) as [[Hx|Hl]|Hd].
    + subst t. right. exact D.
    + left. apply M3. exact Hl.
    + right. intros a Ha. apply (@arc_done_more b s0 s1 a (conj M1 (conj M2 (conj M3 (conj M4 M5))))). exact (Hd a Ha).
  - exists s'. split; [exact E'|]. split; [|exact B]. intros t Ht. apply A. apply M. exact Ht.
Qed.
Lemma r_queries_ok : forall inq b l s, good b -> more b s (fold_left (r_query inq b) l s) /\ (forall p, In p l -> inq p = true -> query_done b (fold_left (r_query inq b) l s) p).
Proof.
  intros inq b. induction l as [|x l IH]; intros s G; cbn [fold_left]; [split; [apply more_refl|intros p []]|].
  assert (M : more b s (r_query inq b s x) /\ (inq x = true -> query_done b (r_query inq b s x) x)).
  { unfold r_query. destruct (inq x); [|split; [apply more_refl|discriminate]].
    destruct (@marks_ok b (fun _ => false) (bp_cons (pl_of b x)) s) as (A & B); [intros t Ht; apply (cons_range x t G Ht)|]. change (fun s0 t => if (fun _ : nat => false) t then s0 else r_mark s0 t) with r_mark in A, B. set (s1 := fold_left r_mark (bp_cons (pl_of b x)) s) in *.
    destruct (@marks_ok b (fun _ => false) (bp_prod (pl_of b x)) s1) as (A' & B'); [intros t Ht; apply (prod_range x t G Ht)|]. change (fun s0 t => if (fun _ : nat => false) t then s0 else r_mark s0 t) with r_mark in A', B'.
    split; [eapply more_trans; [exact A|exact A']|]. intros _ t [Ht|Ht]; [apply A'; apply B; [exact Ht|reflexivity]|apply B'; [exact Ht|reflexivity]]. }
  destruct M as (M1 & M2). destruct (IH (r_query inq b s x) G) as (A & B). split; [eapply more_trans; eassumption|]. intros p [E|Hp] Hq; [subst x; intros t Ht; apply A; apply (M2 Hq); exact Ht|apply B; assumption].
Qed.
Lemma relevant_ok : forall inq rc b, good b -> exists s, relevant inq rc b = Ok s /\ (forall t, r_seen s t = true -> t_done b s t) /\
  (forall p, p < length (b_places b) -> inq p = true -> query_done b s p).
Proof.
  intros inq rc b G. unfold relevant. set (s0 := mkRel (fun _ => false) [] (fun _ => false)). destruct (r_queries_ok inq (seq 0 (length (b_places b))) s0 G) as (M & Q). set (s1 := fold_left (r_query inq b) (seq 0 (length (b_places b))) s0) in *.
  destruct (@r_loop_ok inq rc b (S (length (b_trans b))) s1 G) as (s & E & A & B).
  - destruct M as (_ & _ & _ & _ & M5). rewrite M5. unfold todo_count, s0. cbn [r_todo r_seen length negb]. assert (X : forall l : list nat, length (filter (fun _ => true) l) = length l) by (intros l; induction l; cbn [filter length]; congruence). rewrite X, seq_length. lia.
  - intros t Ht. destruct M as (_ & _ & _ & M4 & _). destruct (M4 t Ht) as [X|X]; [discriminate X|left; exact X].
  - exists s. split; [exact E|]. split; [exact B|]. intros p Hp Hq t Ht. apply A. apply (Q p); [apply in_seq; lia|exact Hq|exact Ht].
Qed.

(** ** Irrelevant transitions do not matter *)
Lemma drop_irrelevant : forall Q N N' (U D : nat -> Prop), ext (an_init N) (an_init N') -> (forall i t, an_tr N' i = Some t -> an_tr N i = Some t) ->
  (forall i t p, an_tr N' i = Some t -> (a_in t p <> 0%N -> U p) /\ (a_inh t p <> None -> D p)) ->
  (forall i t p, an_tr N i = Some t -> an_tr N' i = None -> (U p -> (a_out t p <= a_in t p)%N) /\ (D p -> (a_in t p <= a_out t p)%N) /\ (Q p = true -> a_in t p = a_out t p)) -> same Q N N'.
Proof.
  intros Q N N' U D Ei Sub HL HD. split.
  - apply sim_rel with (R := fun m m' => forall p, (U p -> (m p <= m' p)%N) /\ (D p -> (m' p <= m p)%N) /\ (Q p = true -> m p = m' p)).
    + intros m Em. exists (an_init N'). split; [apply areach_init|]. intros p. rewrite (Em p), (Ei p). split; [lia|]. split; [lia|reflexivity].
    + intros m m' i t m1 R R' A Ht En X. destruct (an_tr N' i) as [t'|] eqn:Ht'.
      * pose proof (Sub i t' Ht') as Y. assert (Et : t' = t) by congruence. subst t'.
        assert (En' : aen t m').
        { intros p. destruct (HL i t p Ht') as (L1 & L2). destruct (A p) as (A1 & A2 & _). destruct (En p) as (E1 & E2). split.
          - destruct (N.eq_dec (a_in t p) 0) as [Z|Z]; [lia|]. specialize (A1 (L1 Z)). lia.
          - intros w Hw. specialize (E2 w Hw). specialize (A2 (L2 ltac:(congruence))). lia. }
        exists (afire t m'). split; [apply arun_one with (i := i) (t := t); [exact Ht'|exact En'|apply ext_refl]|]. intros p. rewrite (X p). unfold afire. destruct (A p) as (A1 & A2 & A3). destruct (En p) as (E1 & _). destruct (En' p) as (E1' & _).
        split; [intros Up; specialize (A1 Up); lia|]. split; [intros Dp; specialize (A2 Dp); lia|intros Qp; specialize (A3 Qp); lia].
      * exists m'. split; [apply ar_nil, ext_refl|]. intros p. rewrite (X p). unfold afire. destruct (A p) as (A1 & A2 & A3). destruct (HD i t p Ht Ht') as (D1 & D2 & D3). destruct (En p) as (E1 & _).
        split; [intros Up; specialize (A1 Up); specialize (D1 Up); lia|]. split; [intros Dp; specialize (A2 Dp); specialize (D2 Dp); lia|intros Qp; specialize (A3 Qp); specialize (D3 Qp); lia].
    + intros m m' A p Hp. apply A. exact Hp.
  - apply sim_rel with (R := fun m m' => ext m m').
    + intros m Em. exists (an_init N). split; [apply areach_init|]. eapply ext_trans; [exact Em|apply ext_sym; exact Ei].
    + intros m m' i t m1 R R' A Ht Hen X. exists m1. split; [|apply ext_refl]. eapply arun_one; [apply Sub; exact Ht|eapply aen_ext; eauto|].
      eapply ext_trans; [exact X|apply afire_ext; exact A].
    + intros m m' A p _. apply A.
Qed.
Theorem rule_i_ok : forall inq rc b, good b -> loops_grow b -> sound_result inq b (rule_i inq rc b).
Proof.
  intros inq rc b G LG. unfold rule_i. destruct (relevant_ok inq rc G) as (s & E & Cl & Qd). rewrite E. cbn [bind].
  destruct (@drop_unless_ok (r_seen s) (seq 0 (length (b_trans b))) b G) as (b1 & E1 & G1 & F1 & I1 & _ & T1); [intros t Ht; apply in_seq in Ht; lia|]. rewrite E1. cbn [bind].
  set (c := fun p => negb (r_places s p) && negb (inq p)). destruct (@place_ifs_ok c (seq 0 (length (b_places b))) b1 G1) as (b2 & E2 & G2 & F2 & I2 & S2 & T2). rewrite E2.
  pose proof (@lives b b b1 (r_seen s) (frame_refl b) F1 (fun _ => eq_refl) T1) as L. apply result_same; [exact G|exact G2|]. apply same_trans with (B := anet_of b1).
  - apply (@drop_irrelevant inq (anet_of b) (anet_of b1) (fun p => exists u a, r_seen s u = true /\ In a (bt_pre (tr_of b u)) /\ arc_place a = p /\ arc_inhib a = false) (fun p => exists u a, r_seen s u = true /\ In a (bt_pre (tr_of b u)) /\ arc_place a = p /\ arc_inhib a = true)).
    + intros p. cbn [anet_of an_init]. unfold init_at. rewrite I1. reflexivity.
    + intros i t Ht. apply live_tr in Ht. destruct Ht as (-> & Li). destruct (L i) as (L1 & L2). rewrite (L2 Li). rewrite L1 in Li. apply andb_true_iff in Li. apply tr_live. apply Li.
    + intros i t p Ht. apply live_tr in Ht. destruct Ht as (-> & Li). destruct (L i) as (L1 & L2). rewrite (L2 Li). rewrite L1 in Li. apply andb_true_iff in Li. destruct Li as (_ & Si). unfold atr_of, wt, ih. cbn [a_in a_inh].
      destruct (get_arc (bt_pre (tr_of b i)) p) as [a|] eqn:Ea; [|split; congruence]. apply get_arc_in in Ea. destruct Ea as (Ha & Hp). destruct (arc_inhib a) eqn:Ia; (split; [try congruence|try congruence]); intros _; exists i, a; auto.
    + intros i t p Ht Hn. apply live_tr in Ht. destruct Ht as (-> & Li). assert (Si : r_seen s i = false). { destruct (r_seen s i) eqn:Si; [|reflexivity]. rewrite (tr_live b1 i) in Hn; [discriminate|]. rewrite (proj1 (L i)), Li, Si. reflexivity. }
      rewrite a_in_of, (a_out_of i p G). split; [|split].
      * intros (u & a & Su & Ha & Hp & Ia). destruct (Cl u Su a Ha) as (_ & _ & K). specialize (K Ia i). rewrite Hp in K. unfold r_skip_prod in K. rewrite Hp in K. destruct (out_arc b i p) as [o|] eqn:Eo; [|lia]. destruct (arc_prod p i G Eo) as (Po & _). specialize (K Po).
        destruct (in_arc b p i) as [x|] eqn:Ex; [|specialize (K eq_refl); congruence]. destruct (arc_inhib x) eqn:Ix; cbn [negb andb] in K; [specialize (K eq_refl); congruence|]. destruct (N.leb_spec (arc_weight o) (arc_weight x)); [lia|specialize (K eq_refl); congruence].
      * intros (u & a & Su & Ha & Hp & Ia). destruct (Cl u Su a Ha) as (_ & K & _). specialize (K Ia i). rewrite Hp in K. unfold r_skip_inh in K. rewrite Hp in K. destruct (in_arc b p i) as [x|] eqn:Ex; [|lia]. destruct (arc_cons p i G Ex) as (Px & _). specialize (K Px).
        destruct (out_arc b i p) as [o|] eqn:Eo; [|specialize (K eq_refl); congruence]. destruct (arc_inhib x) eqn:Ix; [lia|]. cbn [orb] in K. destruct (N.leb_spec (arc_weight x) (arc_weight o)) as [Le|Le]; [lia|]. rewrite orb_false_r in K.
        destruct (N.leb_spec (arc_weight a) (arc_weight o)) as [Le2|Le2]; [|specialize (K eq_refl); congruence]. rewrite <- Hp in Ex, Eo. pose proof (LG u a i x o Ha Ia Ex Eo Ix Le2). lia.
      * intros Qp. assert (Nc : in_arc b p i = None). { destruct (in_arc b p i) as [x|] eqn:Ex; [|reflexivity]. destruct (arc_cons p i G Ex) as (Px & Hx & Hp). assert (Rx : p < length (b_places b)) by (destruct (Nat.lt_ge_cases p (length (b_places b))) as [X|X]; [exact X|unfold pl_of in Px; rewrite nth_overflow in Px by exact X; destruct Px]). rewrite (Qd p Rx Qp i (or_introl Px)) in Si. discriminate. }
        assert (No : out_arc b i p = None). { destruct (out_arc b i p) as [x|] eqn:Ex; [|reflexivity]. destruct (arc_prod p i G Ex) as (Px & Hx & Hp). assert (Rx : p < length (b_places b)) by (destruct (Nat.lt_ge_cases p (length (b_places b))) as [X|X]; [exact X|unfold pl_of in Px; rewrite nth_overflow in Px by exact X; destruct Px]). rewrite (Qd p Rx Qp i (or_intror Px)) in Si. discriminate. }
        rewrite Nc, No. reflexivity.
  - set (P := fun q => existsb (Nat.eqb q) (seq 0 (length (b_places b))) && c q) in *. apply (@project inq (anet_of b1) (anet_of b2) P).
    + intros p Hp. unfold P, c in Hp. apply andb_true_iff in Hp. destruct Hp as (_ & Hp). apply andb_true_iff in Hp. destruct Hp as (_ & Hp). apply negb_true_iff in Hp. exact Hp.
    + intros p _. cbn [anet_of an_init]. unfold init_at. rewrite I2. reflexivity.
    + intros i t' Ht. apply live_tr in Ht. destruct Ht as (-> & Li). exists (atr_of (tr_of b1 i)). split; [apply tr_live|apply T2]. apply live_spec. apply live_spec in Li. rewrite (f_nt F2), S2 in Li. exact Li.
    + intros m i t R Ht En. apply live_tr in Ht. destruct Ht as (_ & Li). exists (atr_of (tr_of b2 i)). apply tr_live. apply live_spec. apply live_spec in Li. rewrite (f_nt F2), S2. exact Li.
    + intros m i t t' R Ht Ht' En p. apply live_tr in Ht. destruct Ht as (-> & Li). specialize (En p). cbn [withouts a_in a_inh] in En. destruct (P p) eqn:Hp; [|exact En]. unfold P, c in Hp. apply andb_true_iff in Hp. destruct Hp as (_ & Hp). apply andb_true_iff in Hp. destruct Hp as (Hp & _). apply negb_true_iff in Hp.
      destruct (L i) as (L1 & L2). rewrite (L2 Li). rewrite L1 in Li. apply andb_true_iff in Li. destruct Li as (_ & Si). unfold atr_of, wt, ih. cbn [a_in a_inh]. destruct (get_arc (bt_pre (tr_of b i)) p) as [a|] eqn:Ea; [|split; [lia|discriminate]].
      apply get_arc_in in Ea. destruct Ea as (Ha & Hq). destruct (Cl i Si a Ha) as (K & _). rewrite Hq in K. congruence.
Qed.
