(** The removal of redundant places from coloured nets changes no run (C47). *)
From Verif Require Import Base BaseLemmas BuilderModel BuilderSpec CtlFrag ColSyntax ColSpec ColModel ColRadix ColEval ColGen ColUnfold ColMain ColRedModel ColRedSpec ColRedProofs ColRedMain ColRedTotal ColRdpModel ColRdpSpec ColRdpProofs.

Section Rule.
Variable used_p : nat -> bool.
Variable vs : nat -> list nat.
Variable timeout : nat -> bool.
Definition fine (n : cpn) : Prop := cpn_ok n /\ arcs_once n /\ vars_ok n vs.
Lemma same_none : forall n, same_ok n (fun _ _ => false).
Proof. intros n x y H. discriminate H. Qed.
Lemma skip_fine : forall r p, fine (r_net r) -> fine (r_net (skip_place r p)).
Proof.
  intros r p (A & B & C). destruct (ColRedTotal.place_fine (fun _ => true) (fun _ => true) (fun _ _ => false) vs (fun _ => true) r p (ColRedTotal.fine_of (fun _ _ => false) vs _ A B C (same_none _))) as (A' & B' & C' & _). exact (conj A' (conj B' C')).
Qed.

(** ** Every binding is enabled *)
Lemma sub_false : forall n ty m o f g v, cpn_ok n -> mrep n ty m f -> mrep n ty o g -> sub_or_eq n m o = Ok true -> vtyped (cn_types n) ty v -> (f v <= g v)%N.
Proof.
  intros n ty m o f g v (T & _) M O H V. destruct (msub_ok n ty m o f g M O) as (d & E & [Dt Dn Di Dv] & _). unfold sub_or_eq in H. rewrite E in H. cbn [bind] in H. injection H as H. rewrite forallb_forall in H.
  specialize (Dv v V). assert (K : forall l i, (forall x, In x l -> N.eqb (snd x) 0 = true) -> mlook l i = 0%N).
  { clear. induction l as [|[j x] l IH]; intros i H; auto. cbn [mlook]. destruct (Nat.eqb j i); [apply N.eqb_eq; apply (H (j, x)); left; reflexivity|apply IH; intros y I; apply H; right; exact I]. }
  rewrite K in Dv by exact H. lia.
Qed.
Lemma always_loop_all : forall n a mk bs, always_loop n a mk bs = Ok true -> forall b, In b bs -> exists m, evaluate (cn_types n) (cn_map n) (cn_vars n) b a = Ok m /\ sub_or_eq n m mk = Ok true.
Proof.
  intros n a mk. induction bs as [|x bs IH]; intros H b I; [destruct I|]. cbn [always_loop] in H. apply bindR in H. destruct H as (m & H1 & H). apply bindR in H. destruct H as (e & H2 & H). destruct e; [|discriminate H].
  destruct I as [<-|I]; [exists m; auto|auto].
Qed.
Lemma always_right : forall n t tr p pl i mk b, fine n -> nth_error (cn_trs n) t = Some tr -> find_arc p (ct_in tr) = Some i -> nth_error (cn_pls n) p = Some pl -> marking n pl = Ok mk ->
  always vs n i mk t = Ok true -> binds n b -> (forall g, ct_guard tr = Some g -> gval (cn_types n) (cn_vars n) b g = true) ->
  forall v, vtyped (cn_types n) (cp_type pl) v -> (mval (cn_types n) (cn_vars n) b i v <= cinit n p v)%N.
Proof.
  intros n t tr p pl i mk b (OK & _ & VS) HT HI HP HM HE HB HG v VT. pose proof OK as (T & TV & _ & TR & _). destruct (VS _ _ HT) as [V1 V2]. destruct (TR _ _ HT) as (G & AI & _).
  unfold always in HE. apply bindR in HE. destruct HE as (bs & E1 & E2). rewrite (tr_of_some n _ _ HT) in E1.
  assert (GI : forall g, ct_guard tr = Some g -> gtyped n g /\ incl (gvars g) (vs t)).
  { intros g K. split; [auto|]. intros w I. apply V1. unfold tvars. rewrite K. apply in_or_app. auto. }
  destruct (naive_bindings_ok n T TV (vs t) V2 (ct_guard tr) GI) as (bs' & B1 & _ & B2). rewrite E1 in B1. injection B1 as <-.
  destruct (B2 b HB HG) as (bm & I & R). pose proof (find_arc_in _ _ _ HI) as IA. rewrite Forall_forall in AI. destruct (AI _ IA) as (pl' & P1 & P2 & P3). cbn [fst snd] in *. rewrite HP in P1. injection P1 as <-.
  assert (R' : brel n bm b (avars i)).
  { eapply brel_incl; [exact R|]. intros w K. apply V1. unfold tvars. apply in_or_app. right. apply in_or_app. left. apply in_flat_map. exists (p, i). auto. }
  destruct (evaluate_ok n T i (cp_type pl) bm b P2 R' P3) as (m & M1 & M2 & _).
  destruct (marking_ok n OK p pl HP) as (mk' & K1 & K2 & _). rewrite HM in K1. injection K1 as <-. assert (PT : ptype n p = cp_type pl) by (unfold ptype; rewrite HP; reflexivity). rewrite PT in K2.
  destruct (always_loop_all _ _ _ _ E2 bm I) as (m' & E3 & E4). rewrite M1 in E3. injection E3 as <-. eapply sub_false; eauto.
Qed.

(** ** A place that never blocks *)
Definition never_blocks (n : cpn) (p : nat) : Prop := forall t tr b, nth_error (cn_trs n) t = Some tr -> binds n b -> (forall g, ct_guard tr = Some g -> gval (cn_types n) (cn_vars n) b g = true) ->
  forall v, (moved n b (ct_in tr) p v <= cinit n p v)%N /\ (moved n b (ct_in tr) p v <= moved n b (ct_out tr) p v)%N.
Lemma always_all : forall n t tr p pl i mk b, fine n -> nth_error (cn_trs n) t = Some tr -> find_arc p (ct_in tr) = Some i -> nth_error (cn_pls n) p = Some pl -> marking n pl = Ok mk ->
  always vs n i mk t = Ok true -> binds n b -> (forall g, ct_guard tr = Some g -> gval (cn_types n) (cn_vars n) b g = true) ->
  forall v, (mval (cn_types n) (cn_vars n) b i v <= cinit n p v)%N.
Proof.
  intros n t tr p pl i mk b G HT HI HP HM HE HB HG v. destruct (N.eq_dec (mval (cn_types n) (cn_vars n) b i v) 0) as [E|E]; [lia|]. eapply always_right; eauto.
  pose proof G as (OK & _ & VS). pose proof OK as (_ & _ & _ & TR & _). destruct (TR _ _ HT) as (_ & AI & _). pose proof (find_arc_in _ _ _ HI) as IA. rewrite Forall_forall in AI. destruct (AI _ IA) as (pl' & P1 & P2 & _). cbn [fst snd] in *. rewrite HP in P1. injection P1 as <-.
  apply (mval_typed n OK i (cp_type pl) b v P2); [|lia]. intros x I. destruct (VS _ _ HT) as [V1 V2].
  assert (L : x < length (cn_vars n)). { apply V2, V1. unfold tvars. apply in_or_app. right. apply in_or_app. left. apply in_flat_map. exists (p, i). auto. }
  apply HB. apply nth_error_nth'. exact L.
Qed.
Lemma harmless_each : forall n p mk cs, harmless_all vs n p mk cs = Ok true -> forall t, In t cs -> exists i o x y, find_arc p (ct_in (tr_of n t)) = Some i /\ find_arc p (ct_out (tr_of n t)) = Some o /\
  always vs n i mk t = Ok true /\ extract (cn_vars n) i = Ok (Some x) /\ extract (cn_vars n) o = Ok (Some y) /\ vsub_eq x y = Ok true.
Proof.
  intros n p mk. induction cs as [|u cs IH]; intros H t I; [destruct I|]. cbn [harmless_all] in H. destruct (_ <? _)%N; [discriminate H|]. destruct (find_arc p (ct_out (tr_of n u))) as [o|] eqn:FO; [|discriminate H].
  destruct (find_arc p (ct_in (tr_of n u))) as [i|] eqn:FI; [|discriminate H]. apply bindR in H. destruct H as (e & E & H). destruct e; [|discriminate H].
  apply bindR in H. destruct H as (x & EX & H). apply bindR in H. destruct H as (y & EY & H). destruct x as [x|]; [|discriminate H]. destruct y as [y|]; [|discriminate H]. apply bindR in H. destruct H as (s & ES & H). destruct s; [|discriminate H].
  destruct I as [<-|I]; [exists i, o, x, y; auto 10|auto].
Qed.
Lemma harmless_never : forall n p pl mk, fine n -> nth_error (cn_pls n) p = Some pl -> marking n pl = Ok mk -> harmless_all vs n p mk (consumers n p) = Ok true -> never_blocks n p.
Proof.
  intros n p pl mk G HP HM H t tr b HT HB HG v. pose proof G as (OK & ON & VS). destruct (find_arc p (ct_in tr)) as [i|] eqn:FI.
  - assert (IC : In t (consumers n p)) by (apply filter_In; split; [apply in_seq; pose proof (nth_error_lt _ _ HT); lia|rewrite (tr_of_some n _ _ HT), FI; reflexivity]).
    destruct (harmless_each _ _ _ _ H t IC) as (i' & o & x & y & F1 & F2 & A & EX & EY & S). rewrite (tr_of_some n _ _ HT) in F1, F2. rewrite FI in F1. injection F1 as <-.
    destruct (ON _ _ HT) as [O1 O2]. rewrite (moved_one n b _ p v i O1 FI), (moved_one n b _ p v o O2 F2). split; [eapply always_all; eauto|].
    pose proof OK as (T & _ & _ & TR & _). destruct (TR _ _ HT) as (_ & AI & AO). rewrite Forall_forall in AI, AO. destruct (AI _ (find_arc_in _ _ _ FI)) as (pl1 & P1 & P2 & P3). destruct (AO _ (find_arc_in _ _ _ F2)) as (pl2 & Q1 & Q2 & Q3).
    cbn [fst snd] in *. rewrite HP in P1, Q1. injection P1 as <-. injection Q1 as <-. eapply extract_below; eauto.
  - apply find_arc_none in FI. rewrite (moved_none n b _ p v FI). lia.
Qed.
Lemma place_back : forall r p ts M', never_blocks (r_net r) p -> inhibiting (r_net r) p = false -> rrun (skip_place r p) ts M' ->
  exists M, rrun r ts M /\ (forall q v, q <> p -> M' q v = M q v) /\ forall v, (cinit (r_net r) p v <= M p v)%N.
Proof.
  intros r p ts M' NB INH H. induction H as [M K|ts M t M1 R (N & R1 & A & Z) [NI (tr & b & ET & (B1 & B2 & B3 & B4) & F)]].
  - exists M. split; [apply run_init; exact K|]. split; [auto|]. intros v. rewrite K. cbn [skip_place r_net]. apply N.le_refl.
  - rewrite place_nth in ET. destruct (nth_error (cn_trs (r_net r)) t) as [tr0|] eqn:E0; [|discriminate ET]. injection ET as <-. cbn [drop_tr ct_guard ct_in ct_out] in *.
    change (moved (r_net (skip_place r p)) b) with (moved (r_net r) b) in *. pose proof (NB t tr0 b E0 B1 B2) as NB'.
    exists (fun q v => N q v - moved (r_net r) b (ct_in tr0) q v + moved (r_net r) b (ct_out tr0) q v)%N. split; [|split].
    + eapply run_step; [exact R1|]. split; [exact NI|]. exists tr0, b. split; [exact E0|]. split; [|reflexivity]. split; [exact B1|]. split; [exact B2|]. split.
      * intros q v. destruct (Nat.eq_dec q p) as [->|E]; [pose proof (proj1 (NB' v)); specialize (Z v); lia|]. specialize (B3 q v). rewrite drop_moved in B3. destruct (Nat.eqb_spec q p); [contradiction|]. rewrite <- A by exact E. exact B3.
      * intros q w I. destruct (Nat.eq_dec q p) as [->|E].
        { exfalso. unfold inhibiting in INH. assert (X : existsb (fun x => Nat.eqb (fst (fst x)) p) (cn_inh (r_net r)) = true) by (apply existsb_exists; exists (p, t, w); split; [exact I|apply Nat.eqb_refl]). congruence. }
        assert (J : In (q, t, w) (cn_inh (r_net (skip_place r p)))) by (cbn [skip_place r_net cn_inh]; apply filter_In; split; [exact I|]; cbn [fst]; destruct (Nat.eqb_spec q p); [contradiction|reflexivity]).
        specialize (B4 q w J). unfold total in *. change (ptype (r_net (skip_place r p)) q) with (ptype (r_net r) q) in B4. change (cn_types (r_net (skip_place r p))) with (cn_types (r_net r)) in B4.
        erewrite sum_ext; [exact B4|]. intros v _. symmetry. apply A. exact E.
    + intros q v E. rewrite F, !drop_moved. destruct (Nat.eqb_spec q p); [contradiction|]. rewrite A by exact E. reflexivity.
    + intros v. pose proof (NB' v). specialize (Z v). lia.
Qed.
Lemma sbr_refl : forall r, same_but_removed r r.
Proof. intros r. split; intros ts M R; exists M; auto. Qed.
Lemma sbr_trans : forall a b c, same_but_removed a b -> same_but_removed b c -> incl (r_pls b) (r_pls c) -> same_but_removed a c.
Proof.
  intros a b c [A1 A2] [B1 B2] I. split; [eapply covers_trans; eauto|]. intros ts M R. destruct (B2 ts M R) as (M1 & R1 & E1). destruct (A2 ts M1 R1) as (M2 & R2 & E2). exists M2. split; [exact R2|].
  intros p v N. rewrite E1 by exact N. apply E2. intros J. apply N, I, J.
Qed.
Lemma redundant_place_same : forall r p r', redundant_place used_p vs r p = Ok r' -> fine (r_net r) ->
  same_but_removed r r' /\ fine (r_net r') /\ incl (r_pls r) (r_pls r') /\ length (cn_pls (r_net r')) = length (cn_pls (r_net r)) /\ r_trs r' = r_trs r /\
  (forall q, In q (r_pls r') -> In q (r_pls r) \/ used_p q = false).
Proof.
  intros r p r' H G. assert (TRIV : Ok r = Ok r' -> same_but_removed r r' /\ fine (r_net r') /\ incl (r_pls r) (r_pls r') /\ length (cn_pls (r_net r')) = length (cn_pls (r_net r)) /\ r_trs r' = r_trs r /\
    (forall q, In q (r_pls r') -> In q (r_pls r) \/ used_p q = false)).
  { intros K. injection K as <-. split; [apply sbr_refl|]. split; [exact G|]. split; [apply incl_refl|auto]. }
  unfold redundant_place in H. destruct (existsb _ (r_pls r)); auto. destruct (inhibiting _ p) eqn:INH; auto. destruct (_ <? _); auto. destruct (used_p p) eqn:U; auto.
  apply bindR in H. destruct H as (mk & HM & H). destruct (nth_error (cn_pls (r_net r)) p) as [pl|] eqn:HP; [|discriminate HM]. apply bindR in H. destruct H as (ok & HA & H). destruct ok; auto. injection H as <-.
  pose proof (harmless_never _ p pl mk G HP HM HA) as NB. split; [|split; [apply skip_fine; exact G|split; [intros x I; right; exact I|split; [reflexivity|split; [reflexivity|intros q [<-|I]; auto]]]]].
  split; intros ts M R.
  - destruct (place_covers r p ts M R) as (M' & R' & E). exists M'. split; [exact R'|]. intros q v N. apply E. intros ->. apply N. left. reflexivity.
  - destruct (place_back r p ts M NB INH R) as (M' & R' & E & _). exists M'. split; [exact R'|]. intros q v N. apply E. intros ->. apply N. left. reflexivity.
Qed.
Lemma redundant_loop_same : forall ps r r', redundant_loop used_p vs timeout r ps = Ok r' -> fine (r_net r) ->
  same_but_removed r r' /\ incl (r_pls r) (r_pls r') /\ r_trs r' = r_trs r /\ (forall q, In q (r_pls r') -> In q (r_pls r) \/ used_p q = false).
Proof.
  assert (TRIV : forall r r', Ok r = Ok r' -> same_but_removed r r' /\ incl (r_pls r) (r_pls r') /\ r_trs r' = r_trs r /\ (forall q, In q (r_pls r') -> In q (r_pls r) \/ used_p q = false)).
  { intros r r' K. injection K as <-. split; [apply sbr_refl|]. split; [apply incl_refl|auto]. }
  induction ps as [|p ps IH]; intros r r' H G; cbn [redundant_loop] in H; auto. destruct (_ <=? 1); auto. destruct (timeout p); auto. apply bindR in H. destruct H as (r1 & H1 & H2).
  destruct (redundant_place_same _ _ _ H1 G) as (A1 & A2 & A3 & A4 & A5 & A6). destruct (IH _ _ H2 A2) as (B1 & B2 & B3 & B4).
  split; [eapply sbr_trans; eauto|]. split; [eapply incl_tran; eauto|]. split; [congruence|]. intros q I. destruct (B4 q I); auto.
Qed.

(** ** No error, if no variable has tuples as values *)
Definition tys (n : cpn) (ty : nat) : list nat := match nth_error (cn_types n) ty with Some (TProd cs) => cs | _ => [ty] end.
Definition tyok (n : cpn) (ty : nat) (m : vmset) : Prop := fst m = [] \/ fst m = tys n ty.
Lemma leqb_refl : forall l, leqb l l = true.
Proof. intros l. destruct (leqb_spec l l); auto. Qed.
Lemma vplus_total : forall n ty m o, tyok n ty m -> tyok n ty o -> (fst o = [] -> tys n ty = [] \/ fst m = []) -> exists r, vplus m o = Ok r /\ tyok n ty r /\ (fst o <> [] -> fst r <> []).
Proof.
  intros n ty [tm lm] [to lo] M O K. unfold vplus, tyok in *. cbn [fst snd] in *. destruct tm as [|x tm].
  - rewrite leqb_refl. eexists. split; [reflexivity|]. cbn [fst]. auto.
  - destruct M as [M|M]; [discriminate M|]. destruct O as [->|O].
    + destruct (K eq_refl) as [K1|K1]; [congruence|discriminate K1].
    + rewrite M, <- O. rewrite leqb_refl. eexists. split; [reflexivity|]. cbn [fst]. auto.
Qed.
Lemma vminus_total : forall n ty m o, tyok n ty m -> tyok n ty o -> exists s, vsub_eq m o = Ok s.
Proof.
  intros n ty [tm lm] [to lo] M O. unfold vsub_eq, vminus, tyok in *. cbn [fst snd] in *. destruct to as [|y to]; [eexists; reflexivity|]. destruct O as [O|O]; [discriminate O|].
  destruct tm as [|x tm]; [rewrite leqb_refl; eexists; reflexivity|]. destruct M as [M|M]; [discriminate M|]. rewrite M, O, leqb_refl. eexists. reflexivity.
Qed.
Lemma tup_total : forall n ty0 cs0, tab_ok n -> nth_error (cn_types n) ty0 = Some (TProd cs0) -> forall es cs, incl cs cs0 -> length es = length cs ->
  (fix go (es : list cexp) (cs : list nat) : Prop := match es, cs with e' :: es', c :: cs' => ctyped n e' c /\ go es' cs' | _, _ => True end) es cs ->
  exists x, tup_vars es = Ok x /\ forall l, x = Some l -> map (fun v => nth v (cn_vars n) 0) l = cs.
Proof.
  intros n ty0 cs0 T E0. induction es as [|e es IH]; intros cs I L H; destruct cs as [|c cs]; try discriminate L; [eexists; split; [reflexivity|]; intros l K; injection K as <-; reflexivity|].
  destruct H as [H1 H2]. destruct (IH cs ltac:(intros z Z; apply I; right; exact Z) ltac:(cbn in L; lia) H2) as (x & E & X). cbn [tup_vars].
  destruct e as [|v| | | |es']; try (eexists; split; [reflexivity|]; intros l K; discriminate K).
  - rewrite E. cbn [bind]. eexists. split; [reflexivity|]. intros l K. destruct x as [l'|]; [|discriminate K]. injection K as <-. cbn [map]. rewrite (X l' eq_refl). cbn [ctyped] in H1. rewrite (nth_error_nth _ _ _ H1). reflexivity.
  - exfalso. destruct H1 as (cs' & F & _). destruct T as (_ & _ & T3 & _). pose proof (T3 ty0 cs0 c E0 (I c (or_introl eq_refl))) as K. unfold esize in K. rewrite F in K. lia.
Qed.
Lemma col_total : forall n ty e, tab_ok n -> plain_vars n -> ctyped n e ty -> exists x, col_vars e = Ok x /\ forall l, x = Some l -> map (fun v => nth v (cn_vars n) 0) l = tys n ty.
Proof.
  intros n ty e T PV H. destruct e as [|v| | | |es]; try (eexists; split; [reflexivity|]; intros l K; discriminate K).
  - eexists. split; [reflexivity|]. intros l K. injection K as <-. cbn [map]. cbn [ctyped] in H. rewrite (nth_error_nth _ _ _ H). unfold tys. pose proof (PV v ty H) as P. unfold esize in P. destruct (nth_error (cn_types n) ty) as [[k|cs]|]; try reflexivity. lia.
  - cbn [ctyped] in H. destruct H as (cs & E & L & H). cbn [col_vars]. destruct (tup_total n ty cs T E es cs (incl_refl _) L H) as (x & X1 & X2). exists x. split; [exact X1|]. unfold tys. rewrite E. exact X2.
Qed.
Lemma num_total : forall n ty k, tab_ok n -> plain_vars n -> forall es m, Forall (fun e => ctyped n e ty) es -> tyok n ty m -> exists x, num_loop (cn_vars n) es k m = Ok x /\ forall r, x = Some r -> tyok n ty r /\ ((es <> [] \/ fst m <> []) -> fst r = [] -> tys n ty = []).
Proof.
  intros n ty k T PV. induction es as [|e es IH]; intros m F M; cbn [num_loop].
  - eexists. split; [reflexivity|]. intros r K. injection K as <-. split; [exact M|]. intros [A|A] B; [exfalso; apply A; reflexivity|contradiction].
  - inversion F as [|? ? F1 F2]; subst. destruct (col_total n ty e T PV F1) as (x & E & X). rewrite E. cbn [bind]. destruct x as [vt|]; [|eexists; split; [reflexivity|]; intros r K; discriminate K].
    assert (O : fst (vone (cn_vars n) vt k) = tys n ty) by (exact (X vt eq_refl)).
    destruct (vplus_total n ty m (vone (cn_vars n) vt k) M (or_intror O)) as (m' & E' & M' & NE); [intros K; left; congruence|]. rewrite E'. cbn [bind].
    destruct (IH m' F2 M') as (x & EX & HX). exists x. split; [exact EX|]. intros r K. destruct (HX r K) as [K1 K2]. split; [exact K1|]. intros _ Z.
    destruct (tys n ty) as [|z zs] eqn:TZ; auto. exfalso. assert (Q : z :: zs = []) by (apply K2; [right; apply NE; congruence|exact Z]). discriminate Q.
Qed.
Lemma extract_total : forall n ty a, tab_ok n -> plain_vars n -> atyped n a ty -> exists x, extract (cn_vars n) a = Ok x /\ forall r, x = Some r -> tyok n ty r /\ (fst r = [] -> tys n ty = []).
Proof.
  intros n ty a T PV. induction a as [es k|es IHs|l r _ _|e k IHe] using aexp_ind'; intros TY.
  - destruct TY as [NE TY]. cbn [extract]. destruct (num_total n ty k T PV es vempty TY (or_introl eq_refl)) as (x & E & X). exists x. split; [exact E|]. intros r K. destruct (X r K) as [K1 K2]. split; [exact K1|]. apply K2. left. exact NE.
  - cbn [extract]. cbn [atyped] in TY. destruct TY as [NE TY].
    assert (G : forall es m, Forall (fun a => atyped n a ty -> exists x, extract (cn_vars n) a = Ok x /\ forall r, x = Some r -> tyok n ty r /\ (fst r = [] -> tys n ty = [])) es ->
      (fix go (es : list aexp) : Prop := match es with [] => True | e :: es' => atyped n e ty /\ go es' end) es -> tyok n ty m ->
      exists x, (fix go (es : list aexp) (m : vmset) : res (option vmset) :=
       match es with
       | [] => Ok (Some m)
       | e :: es' => x <- extract (cn_vars n) e ;; match x with None => Ok None | Some o => m' <- vplus m o ;; go es' m' end
       end) es m = Ok x /\ forall r, x = Some r -> tyok n ty r /\ ((es <> [] \/ fst m <> []) -> fst r = [] -> tys n ty = [])).
    { clear - T PV. induction es as [|e es IH]; intros m F TY M.
      - eexists. split; [reflexivity|]. intros r K. injection K as <-. split; [exact M|]. intros [A|A] B; [exfalso; apply A; reflexivity|contradiction].
      - inversion F as [|? ? F1 F2]; subst. destruct TY as [Y1 Y2]. destruct (F1 Y1) as (x & E & X). rewrite E. cbn [bind]. destruct x as [o|]; [|eexists; split; [reflexivity|]; intros r K; discriminate K].
        destruct (X o eq_refl) as [O1 O2]. destruct (vplus_total n ty m o M O1) as (m' & E' & M' & NE); [intros K; left; auto|]. rewrite E'. cbn [bind].
        destruct (IH m' F2 Y2 M') as (x & EX & HX). exists x. split; [exact EX|]. intros r K. destruct (HX r K) as [K1 K2]. split; [exact K1|]. intros _ Z.
        destruct (fst o) as [|z zs] eqn:FO; [auto|]. apply K2; [right; apply NE; congruence|exact Z]. }
    destruct (G es vempty IHs TY (or_introl eq_refl)) as (x & E & X). exists x. split; [exact E|]. intros r K. destruct (X r K) as [K1 K2]. split; [exact K1|]. apply K2. left. exact NE.
  - eexists. split; [reflexivity|]. intros r' K. discriminate K.
  - cbn [extract]. destruct (IHe TY) as (x & E & X). rewrite E. cbn [bind]. eexists. split; [reflexivity|]. intros r K. destruct x as [m|]; [|discriminate K]. injection K as <-. exact (X m eq_refl).
Qed.
Lemma always_total : forall n t tr p pl i mk, fine n -> nth_error (cn_trs n) t = Some tr -> find_arc p (ct_in tr) = Some i -> nth_error (cn_pls n) p = Some pl -> marking n pl = Ok mk ->
  exists e, always vs n i mk t = Ok e.
Proof.
  intros n t tr p pl i mk (OK & _ & VS) HT HI HP HM. pose proof OK as (T & TV & _ & TR & _). destruct (VS _ _ HT) as [V1 V2]. destruct (TR _ _ HT) as (G & AI & _).
  unfold always. rewrite (tr_of_some n _ _ HT).
  assert (GI : forall g, ct_guard tr = Some g -> gtyped n g /\ incl (gvars g) (vs t)).
  { intros g K. split; [auto|]. intros v I. apply V1. unfold tvars. rewrite K. apply in_or_app. auto. }
  destruct (naive_bindings_ok n T TV (vs t) V2 (ct_guard tr) GI) as (bs & B1 & B2 & _). rewrite B1. cbn [bind].
  pose proof (find_arc_in _ _ _ HI) as IA. rewrite Forall_forall in AI. destruct (AI _ IA) as (pl' & P1 & P2 & P3). cbn [fst snd] in *. rewrite HP in P1. injection P1 as <-.
  destruct (marking_ok n OK p pl HP) as (mk' & K1 & K2 & _). rewrite HM in K1. injection K1 as <-. assert (PT : ptype n p = cp_type pl) by (unfold ptype; rewrite HP; reflexivity). rewrite PT in K2.
  clear B1. induction bs as [|bm bs IH]; [eexists; reflexivity|]. cbn [always_loop]. destruct (B2 bm (or_introl eq_refl)) as (b & _ & R & _).
  assert (R' : brel n bm b (avars i)).
  { eapply brel_incl; [exact R|]. intros v K. apply V1. unfold tvars. apply in_or_app. right. apply in_or_app. left. apply in_flat_map. exists (p, i). auto. }
  destruct (evaluate_ok n T i (cp_type pl) bm b P2 R' P3) as (m & M1 & M2 & _). rewrite M1. cbn [bind]. destruct (msub_ok n _ m mk _ _ M2 K2) as (d & E & _). unfold sub_or_eq. rewrite E. cbn [bind].
  destruct (forallb _ (snd d)); [|eexists; reflexivity]. apply IH. intros x I. apply B2. right. exact I.
Qed.
Lemma harmless_total : forall n p pl mk, fine n -> plain_vars n -> nth_error (cn_pls n) p = Some pl -> marking n pl = Ok mk -> forall cs, incl cs (consumers n p) -> exists x, harmless_all vs n p mk cs = Ok x.
Proof.
  intros n p pl mk G PV HP HM. induction cs as [|t cs IH]; intros I; [eexists; reflexivity|]. cbn [harmless_all]. pose proof (I t (or_introl eq_refl)) as IT. apply filter_In in IT. destruct IT as [IT1 IT2]. apply in_seq in IT1.
  destruct (find_arc p (ct_in (tr_of n t))) as [i|] eqn:FI; [|discriminate IT2]. destruct (_ <? _)%N; [eexists; reflexivity|]. destruct (find_arc p (ct_out (tr_of n t))) as [o|] eqn:FO; [|eexists; reflexivity].
  pose proof (tr_of_in n t ltac:(lia)) as HT. destruct (always_total n t _ p pl i mk G HT FI HP HM) as (e & E). rewrite E. cbn [bind]. destruct e; [|eexists; reflexivity].
  pose proof G as (OK & _ & _). pose proof OK as (T & _ & _ & TR & _). destruct (TR _ _ HT) as (_ & AI & AO). rewrite Forall_forall in AI, AO. destruct (AI _ (find_arc_in _ _ _ FI)) as (pl1 & P1 & P2 & P3). destruct (AO _ (find_arc_in _ _ _ FO)) as (pl2 & Q1 & Q2 & Q3).
  cbn [fst snd] in *. rewrite HP in P1, Q1. injection P1 as <-. injection Q1 as <-. destruct (extract_total n _ i T PV P2) as (x & EX & HX). destruct (extract_total n _ o T PV Q2) as (y & EY & HY). rewrite EX, EY. cbn [bind].
  destruct x as [x|]; [|eexists; reflexivity]. destruct y as [y|]; [|eexists; reflexivity]. destruct (vminus_total n (cp_type pl) x y (proj1 (HX x eq_refl)) (proj1 (HY y eq_refl))) as (s & S). rewrite S. cbn [bind]. destruct s; [|eexists; reflexivity].
  apply IH. intros z Z. apply I. right. exact Z.
Qed.
Lemma redundant_loop_total : forall ps r, fine (r_net r) -> plain_vars (r_net r) -> (forall p, In p ps -> p < length (cn_pls (r_net r))) -> exists r', redundant_loop used_p vs timeout r ps = Ok r'.
Proof.
  induction ps as [|p ps IH]; intros r G PV L; cbn [redundant_loop]; [eexists; reflexivity|]. destruct (_ <=? 1); [eexists; reflexivity|]. destruct (timeout p); [eexists; reflexivity|].
  assert (H : exists r1, redundant_place used_p vs r p = Ok r1 /\ (r1 = r \/ r1 = skip_place r p)).
  { unfold redundant_place. destruct (existsb _ (r_pls r)); [eexists; split; [reflexivity|auto]|]. destruct (inhibiting _ p); [eexists; split; [reflexivity|auto]|]. destruct (_ <? _); [eexists; split; [reflexivity|auto]|]. destruct (used_p p); [eexists; split; [reflexivity|auto]|].
    pose proof (L p (or_introl eq_refl)) as LP. destruct (nth_error (cn_pls (r_net r)) p) as [pl|] eqn:HP; [|apply nth_error_None in HP; lia]. destruct (marking_ok _ (proj1 G) p pl HP) as (mk & K & _). rewrite K. cbn [bind].
    destruct (harmless_total _ p pl mk G PV HP K (consumers (r_net r) p) (incl_refl _)) as (ok & E). rewrite E. cbn [bind]. destruct ok; eexists; (split; [reflexivity|auto]). }
  destruct H as (r1 & H1 & [->| ->]); rewrite H1; cbn [bind]; apply IH; auto; try (intros q I; apply L; right; exact I). apply skip_fine. exact G.
Qed.
End Rule.

Theorem redundant_same : forall used_p vs timeout n r', cpn_ok n -> arcs_once n -> vars_ok n vs ->
  redundant_places used_p vs timeout (mkR n [] []) = Ok r' ->
  same_but_removed (mkR n [] []) r' /\ r_trs r' = [] /\ forall p, In p (r_pls r') -> used_p p = false.
Proof.
  intros used_p vs timeout n r' OK ON VS H. destruct (redundant_loop_same used_p vs timeout _ _ _ H (conj OK (conj ON VS))) as (A & _ & B & C). split; [exact A|]. split; [exact B|]. intros p I. destruct (C p I) as [[]|]; auto.
Qed.
Theorem redundant_total : forall used_p vs timeout n, cpn_ok n -> arcs_once n -> vars_ok n vs -> plain_vars n -> exists r', redundant_places used_p vs timeout (mkR n [] []) = Ok r'.
Proof.
  intros used_p vs timeout n OK ON VS PV. apply redundant_loop_total; auto; [exact (conj OK (conj ON VS))|]. intros p I. apply in_seq in I. cbn [r_net] in *. lia.
Qed.
