(** The compiled net simulates the coloured net (C37). *)
From Verif Require Import Base BaseLemmas ColSyntax ColSpec ColModel ColRadix ColEval ColTuple ColUnfold ColFinal ExpSyntax ExpSpec ExpModel ExpSet ExpCodec ExpArc ExpComp ExpGen.

Lemma map_fst_combine : forall {A B} (l : list A) (m : list B), length l = length m -> map fst (combine l m) = l.
Proof. induction l; destruct m; cbn; intros; try discriminate; f_equal; auto. Qed.
Lemma map_snd_combine' : forall {A B} (l : list A) (m : list B), length l = length m -> map snd (combine l m) = m.
Proof. induction l; destruct m; cbn; intros; try discriminate; f_equal; auto. Qed.

(** ** Moving tokens in the compiled net *)

Definition at_place (b : binding) (l : list karc) (p : nat) (c : nat) : Z :=
  sumZ (map (fun a => if Nat.eqb (ka_place a) p then den b (ka_expr a) c else 0%Z) l).

Lemma at_place_cons : forall b a l p c, at_place b (a :: l) p c =
  ((if Nat.eqb (ka_place a) p then den b (ka_expr a) c else 0) + at_place b l p c)%Z.
Proof. intros. unfold at_place, sumZ. reflexivity. Qed.
Lemma at_place_not : forall b l p c, ~ In p (map ka_place l) -> at_place b l p c = 0%Z.
Proof.
  induction l as [|a l IH]; intros p c N; [reflexivity|]. rewrite at_place_cons, IH by (intros I; apply N; right; auto).
  destruct (Nat.eqb_spec (ka_place a) p); [exfalso; apply N; left; auto|lia].
Qed.
Lemma at_place_one : forall b l a c, NoDup (map ka_place l) -> In a l -> at_place b l (ka_place a) c = den b (ka_expr a) c.
Proof.
  induction l as [|x l IH]; intros a c ND I; [contradiction|]. cbn in ND. inversion ND; subst. rewrite at_place_cons.
  destruct I as [->|I].
  - rewrite Nat.eqb_refl, at_place_not by auto. lia.
  - rewrite (IH a c) by auto. destruct (Nat.eqb_spec (ka_place x) (ka_place a)) as [E|]; [|lia].
    exfalso. apply H1. rewrite E. apply in_map. auto.
Qed.

Lemma same_on_sym : forall vs b b', same_on vs b b' -> same_on vs b' b.
Proof. intros vs b b' H v I. symmetry. auto. Qed.
Lemma at_place_ext : forall b b' l vs p c, same_on vs b b' -> (forall a, In a l -> incl (arc_vars (ka_expr a)) vs) ->
  at_place b l p c = at_place b' l p c.
Proof.
  induction l as [|a l IH]; intros vs p c S I; [reflexivity|]. rewrite !at_place_cons.
  rewrite (IH vs p c S) by (intros; apply I; right; auto). rewrite (den_ext (ka_expr a) b b'); [reflexivity|].
  eapply same_incl; [exact S|]. apply I. left. auto.
Qed.

Section Move.
Variable net : knet.
Hypothesis PP : Forall (Forall (fun s => 0 < s)) (kn_places net).

Lemma mgood_upd : forall M p m sizes, mgood net M -> nth_error (kn_places net) p = Some sizes -> wf (prod sizes) m -> small m ->
  mgood net (upd M p m).
Proof.
  intros M p m sizes [L G] E W S. split; [rewrite upd_length; auto|]. intros q x sz E1 E2. destruct (Nat.eq_dec q p) as [->|NE].
  - rewrite nth_error_upd_eq in E1; [|rewrite L; eapply nth_error_lt; eauto]. inversion E1; subst. assert (sz = sizes) by congruence. subst. auto.
  - rewrite nth_error_upd_neq in E1 by auto. eauto.
Qed.

Lemma produce_ok : forall b l M M', mgood net M -> Forall (arc_good net) l -> move_tokens Produce b M l = Ok M' ->
  mgood net M' /\ forall p m m', nth_error M p = Some m -> nth_error M' p = Some m' -> forall c, ms_get m' c = (ms_get m c + at_place b l p c)%Z.
Proof.
  induction l as [|a l IH]; intros M M' MG F H; cbn [move_tokens] in H.
  - inversion H; subst. split; auto. intros p m m' E1 E2 c. assert (m = m') by congruence. subst. cbn. lia.
  - inversion F as [|? ? (sizes & PS & K) F2]; subst. binv H m0 E0. apply rd_ok_inv in E0. binv H m1 E1.
    destruct (proj2 MG _ _ _ E0 PS) as [W0 S0].
    destruct (ev_ok sizes (place_pos net PP _ _ PS) b _ _ _ _ K W0 E1) as (W1 & G1 & S1).
    destruct (IH _ _ (mgood_upd _ _ _ _ MG PS W1 (S1 S0)) F2 H) as [MG' Q]. split; auto.
    intros p m m' EM EM' c. rewrite at_place_cons. destruct (Nat.eqb_spec (ka_place a) p) as [<-|NE].
    + rewrite (Q (ka_place a) m1 m'); auto; [|apply nth_error_upd_eq; eapply nth_error_lt; eauto].
      assert (m = m0) by congruence. subst. rewrite G1. lia.
    + rewrite (Q p m m') by first [exact EM'|rewrite nth_error_upd_neq; auto]. lia.
Qed.

Lemma consume_loop_ok : forall b l M M', mgood net M -> Forall (arc_good net) l -> NoDup (map ka_place l) -> covers M b l ->
  move_tokens Consume b M l = Ok M' ->
  mgood net M' /\ forall p m m', nth_error M p = Some m -> nth_error M' p = Some m' -> forall c, ms_get m' c = (ms_get m c - at_place b l p c)%Z.
Proof.
  induction l as [|a l IH]; intros M M' MG F ND C H; cbn [move_tokens] in H.
  - inversion H; subst. split; auto. intros p m m' E1 E2 c. assert (m = m') by congruence. subst. cbn. lia.
  - inversion F as [|? ? (sizes & PS & K) F2]; subst. binv H m0 E0. apply rd_ok_inv in E0. binv H m1 E1.
    cbn in ND. inversion ND as [|? ? NI ND2]; subst.
    destruct (proj2 MG _ _ _ E0 PS) as [W0 S0].
    destruct (ev_ok sizes (place_pos net PP _ _ PS) b _ _ _ _ K W0 E1) as (W1 & G1 & S1).
    assert (C2 : covers (upd M (ka_place a) m1) b l).
    { intros a' m' I E'. rewrite nth_error_upd_neq in E'.
      - apply (C a' m'); auto. right. auto.
      - intros Q. apply NI. rewrite Q. apply in_map. auto. }
    destruct (IH _ _ (mgood_upd _ _ _ _ MG PS W1 (S1 S0)) F2 ND2 C2 H) as [MG' Q]. split; auto.
    intros p m m' EM EM' c. rewrite at_place_cons. destruct (Nat.eqb_spec (ka_place a) p) as [<-|NE].
    + rewrite (Q (ka_place a) m1 m'); auto; [|apply nth_error_upd_eq; eapply nth_error_lt; eauto].
      assert (m = m0) by congruence. subst. rewrite G1. pose proof (C a m0 (or_introl eq_refl) E0 c). lia.
    + rewrite (Q p m m') by first [exact EM'|rewrite nth_error_upd_neq; auto]. lia.
Qed.

Lemma kfire_ok : forall M t b M', mgood net M -> tgood net t -> kenabled M t b -> kfire M t b = Ok M' ->
  mgood net M' /\ forall p m m', nth_error M p = Some m -> nth_error M' p = Some m' ->
    forall c, ms_get m' c = (ms_get m c - at_place b (kt_in t) p c + at_place b (kt_out t) p c)%Z.
Proof.
  intros M t b M' MG TG (_ & _ & C) H. unfold kfire in H. binv H M1 E1.
  destruct (consume_loop_ok _ _ _ _ MG (tg_in _ _ TG) (tg_nodup _ _ TG) C E1) as [MG1 Q1].
  destruct (produce_ok _ _ _ _ MG1 (tg_out _ _ TG) H) as [MG2 Q2]. split; auto.
  intros p m m' EM EM' c.
  assert (L1 : p < length M1).
  { rewrite (proj1 MG1), <- (proj1 MG). eapply nth_error_lt; eauto. }
  destruct (@nth_error_ex _ _ _ L1) as [m1 EM1].
  rewrite (Q2 _ _ _ EM1 EM'), (Q1 _ _ _ EM EM1). lia.
Qed.

(** Nothing outside the colours of the place. *)
Lemma den_out : forall sizes b e c, Forall (fun s => 0 < s) sizes -> kok sizes e -> prod sizes <= c -> den b e c = 0%Z.
Proof.
  intros sizes b e c SP. induction e as [l IHl r IHr|l IHl r IHr|m|sz s k]; intros K L; cbn [kok den] in *.
  - rewrite IHl, IHr by tauto. lia.
  - rewrite IHl, IHr by tauto. lia.
  - destruct K as [[(A & B & _) _] _]. unfold ms_get. eapply get_high; eauto.
  - destruct K as [-> LE]. pose proof (pseq_lt b sizes s SP LE). destruct (Nat.eqb_spec (pseq_num b sizes s) c); [lia|auto].
Qed.

Lemma shrink_good : forall M, mgood net M -> mgood net (map ms_shrink M).
Proof.
  intros M [L G]. split; [rewrite map_length; auto|]. intros p m sizes E1 E2. rewrite nth_error_map in E1.
  destruct (nth_error M p) as [m0|] eqn:EM; [|discriminate]. cbn in E1. inversion E1; subst.
  destruct (G _ _ _ EM E2) as [W S]. destruct (shrink_ok _ _ W) as (W' & _ & S'). auto.
Qed.
End Move.

(** ** The net that is built *)

Section Net.
Variable n : cpn.
Notation tab := (cn_types n).
Notation vars := (cn_vars n).
Hypothesis OK : cpn_ok n.
Hypothesis EO : exp_ok n.
Variable net : knet.
Hypothesis BUILD : build n = Ok net.

Lemma T : tab_ok n. Proof. exact (proj1 OK). Qed.
Lemma EV : forall v ty, nth_error vars v = Some ty -> 0 < esize tab ty. Proof. exact (proj1 EO). Qed.

Lemma build_inv : init_places n (cn_pls n) = Ok (kn_init net) /\ build_transitions n 0 (cn_trs n) = Ok (kn_trans net) /\
  kn_places net = map (fun pl => basic_sizes n (cp_type pl)) (cn_pls n) /\ kn_vars net = map (fun ty => csize tab ty) vars.
Proof. pose proof BUILD as H. unfold build in H. binv H i E1. binv H ts E2. inversion H; subst. cbn. auto. Qed.

Lemma place_type : forall p pl, nth_error (cn_pls n) p = Some pl -> exists d, nth_error tab (cp_type pl) = Some d.
Proof. intros p pl E. pose proof OK as OK1; destruct OK1 as (_ & _ & P & _). apply (P _ _ E). Qed.

Lemma place_sizes : forall p sizes, nth_error (kn_places net) p = Some sizes ->
  exists pl, nth_error (cn_pls n) p = Some pl /\ sizes = basic_sizes n (cp_type pl).
Proof.
  intros p sizes E. destruct build_inv as (_ & _ & BP & _). rewrite BP, nth_error_map in E.
  destruct (nth_error (cn_pls n) p) as [pl|] eqn:EP; [|discriminate]. cbn in E. inversion E. eauto.
Qed.
Lemma sizes_place : forall p pl, nth_error (cn_pls n) p = Some pl -> nth_error (kn_places net) p = Some (basic_sizes n (cp_type pl)).
Proof. intros p pl E. destruct build_inv as (_ & _ & BP & _). rewrite BP, nth_error_map, E. reflexivity. Qed.
Lemma prod_sizes : forall p pl, nth_error (cn_pls n) p = Some pl -> prod (basic_sizes n (cp_type pl)) = csize tab (cp_type pl).
Proof. intros p pl E. destruct (place_type _ _ E) as [d D]. rewrite <- total_prod. eapply basic_total; eauto. Qed.

Lemma PP : Forall (Forall (fun s => 0 < s)) (kn_places net).
Proof.
  apply Forall_forall. intros sizes I. apply In_nth_error in I. destruct I as [p E]. destruct (place_sizes _ _ E) as (pl & EP & ->).
  destruct (place_type _ _ EP) as [d D]. eapply (basic_pos n T); eauto.
Qed.
Lemma var_size : forall v ty, nth_error vars v = Some ty -> nth_error (kn_vars net) v = Some (esize tab ty).
Proof.
  intros v ty E. destruct build_inv as (_ & _ & _ & BV). rewrite BV, nth_error_map, E. cbn. f_equal. apply (esize_csize n). eapply EV; eauto.
Qed.
Lemma size_var : forall v z, nth_error (kn_vars net) v = Some z -> exists ty, nth_error vars v = Some ty /\ z = esize tab ty.
Proof.
  intros v z E. destruct (nth_error vars v) as [ty|] eqn:EV'.
  - exists ty. split; auto. rewrite (var_size _ _ EV') in E. congruence.
  - destruct build_inv as (_ & _ & _ & BV). rewrite BV, nth_error_map, EV' in E. discriminate.
Qed.
Lemma VP : Forall (fun s => 0 < s) (kn_vars net).
Proof.
  apply Forall_forall. intros z I. apply In_nth_error in I. destruct I as [v E]. destruct (size_var _ _ E) as (ty & E1 & ->). eapply EV; eauto.
Qed.

Lemma trans_nth : forall l k ks, build_transitions n k l = Ok ks -> length ks = length l /\
  forall i tr, nth_error l i = Some tr -> exists kt, nth_error ks i = Some kt /\ build_trans n (k + i) tr = Ok kt.
Proof.
  induction l as [|x l IH]; intros k ks H; cbn [build_transitions] in H.
  - inversion H. split; auto. intros [|]; discriminate.
  - binv H kt E. binv H r E2. inversion H; subst. destruct (IH _ _ E2) as [L Q]. split; [cbn; auto|].
    intros [|i] tr EI; cbn in EI.
    + inversion EI; subst. exists kt. rewrite Nat.add_0_r. auto.
    + destruct (Q _ _ EI) as (kt' & A & B). exists kt'. split; auto. rewrite <- B. f_equal. lia.
Qed.
Lemma trans_of : forall t tr, nth_error (cn_trs n) t = Some tr -> exists kt, nth_error (kn_trans net) t = Some kt /\ build_trans n t tr = Ok kt.
Proof. intros t tr E. destruct build_inv as (_ & BT & _). destruct (trans_nth _ _ _ BT) as [_ Q]. apply (Q _ _ E). Qed.
Lemma of_trans : forall t kt, nth_error (kn_trans net) t = Some kt -> exists tr, nth_error (cn_trs n) t = Some tr /\ build_trans n t tr = Ok kt.
Proof.
  intros t kt E. destruct build_inv as (_ & BT & _). destruct (trans_nth _ _ _ BT) as [L _].
  assert (LT : t < length (cn_trs n)) by (rewrite <- L; eapply nth_error_lt; eauto).
  destruct (@nth_error_ex _ _ _ LT) as [tr ET]. exists tr. split; auto. destruct (trans_of _ _ ET) as (kt' & A & B). congruence.
Qed.

(** *** Arcs *)

Lemma visit_size : forall e x s, color_visit tab vars e = Ok (x, s) ->
  match x with PV v _ => exists ty, nth_error vars v = Some ty /\ s = csize tab ty | PC _ _ => True end.
Proof.
  induction e as [|v|uty ui|e IHe|e IHe|es IHs] using cexp_ind'; intros x s H; cbn [color_visit] in H; try discriminate.
  - inversion H; exact Logic.I.
  - binv H ty E. apply rd_ok_inv in E. inversion H; subst. eauto.
  - inversion H; exact Logic.I.
  - apply bind_inv in H. destruct H as ([y z] & E & H). cbn in H. inversion H; subst. specialize (IHe _ _ E). destruct y; exact IHe.
  - apply bind_inv in H. destruct H as ([y z] & E & H). cbn in H. inversion H; subst. specialize (IHe _ _ E). destruct y; exact IHe.
Qed.
Lemma visits_size : forall es l, color_visits tab vars es = Ok l -> forall i v off z, nth_error l i = Some (PV v off, z) ->
  exists ty, nth_error vars v = Some ty /\ z = csize tab ty.
Proof.
  induction es as [|e es IH]; intros l H i v off z E; cbn [color_visits] in H.
  - inversion H; subst. destruct i; discriminate.
  - binv H x E1. binv H l' E2. inversion H; subst. destruct i; cbn in E; [|eauto]. inversion E; subst. apply (visit_size _ _ _ E1).
Qed.
Lemma csize_var : forall v ty, nth_error vars v = Some ty -> nth_error (kn_vars net) v = Some (csize tab ty).
Proof. intros v ty E. destruct build_inv as (_ & _ & _ & BV). rewrite BV, nth_error_map, E. reflexivity. Qed.

Lemma compile_color_sz : forall e k a, compile_color tab vars e k = Ok a -> ksz net a.
Proof.
  assert (one : forall e k a, (x <- color_visit tab vars e;; Ok (KColl [snd x] [fst x] k)) = Ok a -> ksz net a).
  { intros e k a H. apply bind_inv in H. destruct H as ([x z] & E & H). cbn in H. inversion H; subst. cbn [ksz]. intros i v off EI.
    destruct i as [|[|]]; cbn in EI; try discriminate. inversion EI; subst. pose proof (visit_size _ _ _ E) as (ty & E1 & ->).
    exists (csize tab ty). split; auto. apply csize_var. auto. }
  intros e k a H. destruct e; cbn [compile_color] in H; try (eapply one; exact H).
  binv H l E. inversion H; subst. cbn [ksz]. intros i v off EI. rewrite nth_error_map in EI.
  destruct (nth_error l i) as [[x z]|] eqn:EL; [|discriminate]. cbn in EI. inversion EI; subst.
  destruct (visits_size _ _ E _ _ _ _ EL) as (ty & E1 & ->). exists (csize tab ty). rewrite nth_error_map, EL. split; auto. apply csize_var. auto.
Qed.
Lemma compile_arc_sz : forall a k e, compile_arc tab vars a k = Ok e -> ksz net e.
Proof.
  induction a as [es c|es IHs|l r IHl IHr|e0 c IHe] using aexp_ind'; intros k e H.
  - destruct es as [|x [|]]; cbn [compile_arc] in H; try discriminate. eapply compile_color_sz; eauto.
  - destruct es as [|x es]; [discriminate|]. cbn [compile_arc] in H. inversion IHs as [|? ? I1 I2]; subst. binv H top E. pose proof (I1 _ _ E) as KT.
    clear E I1 IHs. revert top KT H. induction es as [|y es IH]; intros top KT H.
    + inversion H; subst. auto.
    + inversion I2; subst. binv H z EZ. eapply IH; [auto| |exact H]. cbn [ksz]. split; eauto.
  - cbn [compile_arc] in H. binv H x E1. binv H y E2. inversion H; subst. cbn [ksz]. eauto.
  - cbn [compile_arc] in H. eauto.
Qed.
Lemma compile_sz : forall a e, compile tab vars a = Ok e -> ksz net e.
Proof.
  intros a e H. unfold compile in H. binv H e0 E. pose proof (compile_arc_sz _ _ _ E) as K.
  destruct e0 as [| | |sz s k]; cbn [replace_constants] in H; try (inversion H; subst; exact K).
  destruct (existsb is_var s); [inversion H; subst; exact K|]. binv H z E1. binv H m E2. destruct (0 <? ms_card m)%Z; [|discriminate].
  inversion H; subst. exact Logic.I.
Qed.

(** A compiled arc and the arc it comes from. *)
Definition carc_of (x : nat * aexp) (a : karc) : Prop :=
  ka_place a = fst x /\ exists pl, nth_error (cn_pls n) (fst x) = Some pl /\ atyped n (snd x) (cp_type pl) /\
  kok (basic_sizes n (cp_type pl)) (ka_expr a) /\
  (forall v, In v (arc_vars (ka_expr a)) <-> In v (avars (snd x))) /\
  (forall s b v, agree n b s (avars (snd x)) -> vtyped tab (cp_type pl) v ->
     den b (ka_expr a) (enc n (cp_type pl) v) = Z.of_N (mval tab vars s (snd x) v)) /\
  (apos (snd x) -> kpos (ka_expr a)) /\ (apos (snd x) -> sub_ok n (snd x) -> subok (ka_expr a)) /\
  ksz net (ka_expr a) /\ exists vc, min_marking (ka_expr a) = Ok (ka_min a, vc).

Lemma build_arcs_ok : forall l ks, Forall (arc_ok n) l -> Forall (fun x => const_ok n (snd x)) l ->
  build_arcs n l = Ok ks -> Forall2 carc_of l ks.
Proof.
  induction l as [|[p a] l IH]; intros ks F C H; cbn [build_arcs] in H.
  - inversion H. constructor.
  - inversion F as [|? ? (pl & EP & AT & _) F2]; subst. inversion C as [|? ? C1 C2]; subst. cbn [fst snd] in *.
    binv H e E1. binv H m E2. binv H r E3. inversion H; subst. constructor; [|auto]. destruct (place_type _ _ EP) as [d D].
    destruct (compile_ok n T EV a _ d e D AT C1 E1) as (Q1 & Q2 & Q3 & Q4 & Q5).
    split; [reflexivity|]. exists pl. cbn [fst snd ka_expr ka_min]. repeat (split; [assumption|]). split; [eapply compile_sz; eauto|].
    destruct m as [mm vc]. exists vc. exact E2.
Qed.

Lemma mul_sizes_ok : forall vs t r, mul_sizes n vs t = Ok r ->
  Forall (fun v => exists ty, nth_error vars v = Some ty) vs /\ r = t * prod (map (fun v => nth v (kn_vars net) 0) vs).
Proof.
  induction vs as [|v vs IH]; intros t r H; cbn [mul_sizes] in H.
  - inversion H. split; auto. cbn. lia.
  - binv H ty E. apply rd_ok_inv in E. destruct (_ <? _)%N; [discriminate|]. destruct (IH _ _ H) as [F ->]. split; [constructor; eauto|].
    cbn [map prod]. rewrite (nth_error_nth _ _ 0 (csize_var _ _ E)). lia.
Qed.

Lemma find_cons_map : forall (f : nat -> list vcon) vs v l, find_cons (map (fun v => (v, f v)) vs) v = Some l -> l = f v.
Proof. induction vs as [|u vs IH]; cbn; intros v l H; [discriminate|]. destruct (Nat.eqb_spec u v); [subst; congruence|eauto]. Qed.
Lemma cons_of_in : forall arcs v x, In x (cons_of arcs v) -> exists a, In a arcs /\ In x (var_cons (ka_expr a) v (ka_place a)).
Proof.
  intros arcs v x. unfold cons_of.
  assert (G : forall arcs acc, In x (fold_left (fun acc a => if existsb (Nat.eqb v) (arc_vars (ka_expr a)) then var_cons (ka_expr a) v (ka_place a) ++ acc else acc) arcs acc) ->
     In x acc \/ exists a, In a arcs /\ In x (var_cons (ka_expr a) v (ka_place a))).
  { clear arcs. induction arcs as [|a arcs IH]; intros acc H; cbn [fold_left] in H; auto.
    apply IH in H. destruct H as [H|(a' & I & H)]; [|right; exists a'; split; auto; right; auto].
    destruct (existsb _ _); auto. apply in_app_iff in H. destruct H as [H|H]; auto. right. exists a. split; auto. left. auto. }
  intros H. destruct (G _ _ H) as [[]|Q]. auto.
Qed.

(** A compiled transition and the transition it comes from. *)
Record ctrans_of (t : nat) (tr : ctrans) (kt : ktrans) : Prop := mkCT {
  ct_arcs_in : Forall2 carc_of (ct_in tr) (kt_in kt);
  ct_arcs_out : Forall2 carc_of (ct_out tr) (kt_out kt);
  ct_g : match ct_guard tr with
         | None => kt_guard kt = None
         | Some g => exists k, kt_guard kt = Some k /\ gtyped n g /\ (forall v, In v (kguard_vars k) <-> In v (gvars g)) /\
                     forall s b, agree n b s (gvars g) -> guard_eval b k = gval tab vars s g
         end;
  ct_inhs : forall p w, In (p, w) (kt_inh kt) <-> In (p, t, w) (cn_inh n);
  ct_vs : forall v, In v (kt_vars kt) <-> In v (tvars tr) }.

Lemma arcs_vars_in : forall l ks, Forall2 carc_of l ks -> forall v, In v (arcs_vars ks) <-> In v (flat_map (fun x => avars (snd x)) l).
Proof.
  induction 1 as [|x a l ks H F IH]; intros v; [reflexivity|]. unfold arcs_vars in *. cbn [flat_map]. rewrite !in_app_iff, IH.
  destruct H as (_ & pl & _ & _ & _ & V & _). rewrite V. reflexivity.
Qed.

Lemma carc_in : forall l ks a, Forall2 carc_of l ks -> In a ks -> exists x, In x l /\ carc_of x a.
Proof.
  induction 1 as [|x a' l ks H F IH]; intros I; [contradiction|]. destruct I as [->|I].
  - exists x. split; auto. left. auto.
  - destruct (IH I) as (x' & I' & H'). exists x'. split; auto. right. auto.
Qed.
Lemma carc_of_in : forall l ks x, Forall2 carc_of l ks -> In x l -> exists a, In a ks /\ carc_of x a.
Proof.
  induction 1 as [|x' a' l ks H F IH]; intros I; [contradiction|]. destruct I as [->|I].
  - exists a'. split; auto. left. auto.
  - destruct (IH I) as (a & I' & H'). exists a. split; auto. right. auto.
Qed.
Lemma carc_good : forall l ks, Forall2 carc_of l ks -> Forall (arc_good net) ks.
Proof.
  intros l ks F. apply Forall_forall. intros a I. destruct (carc_in _ _ _ F I) as (x & _ & E & pl & EP & _ & K & _).
  exists (basic_sizes n (cp_type pl)). rewrite E. split; auto. apply sizes_place. auto.
Qed.
Lemma carc_places : forall l ks, Forall2 carc_of l ks -> map ka_place ks = map fst l.
Proof. induction 1 as [|x a l ks H F IH]; cbn; auto. f_equal; auto. apply H. Qed.

Lemma build_trans_ok : forall t tr kt, nth_error (cn_trs n) t = Some tr -> build_trans n t tr = Ok kt ->
  ctrans_of t tr kt /\ tgood net kt.
Proof.
  intros t tr kt ET H. pose proof OK as OK1; destruct OK1 as (_ & _ & _ & TR & INH). destruct (TR _ _ ET) as (TG & TI & TO).
  pose proof EO as EO1; destruct EO1 as (_ & _ & ET'). destruct (ET' _ _ ET) as (ND & FI & FO). unfold build_trans in H.
  binv H g E1. binv H ins E2. binv H outs E3. binv H tot E4. inversion H; subst. clear H.
  assert (FI' : Forall (fun x => const_ok n (snd x)) (ct_in tr)) by (eapply Forall_impl; [|exact FI]; cbn; intros; tauto).
  pose proof (build_arcs_ok _ _ TI FI' E2) as AI. pose proof (build_arcs_ok _ _ TO FO E3) as AO.
  assert (GG : match ct_guard tr with
         | None => g = None
         | Some g0 => exists k, g = Some k /\ gtyped n g0 /\ (forall v, In v (kguard_vars k) <-> In v (gvars g0)) /\
                     forall s b, agree n b s (gvars g0) -> guard_eval b k = gval tab vars s g0
         end).
  { destruct (ct_guard tr) as [g0|]; [|inversion E1; auto]. binv E1 k EK. inversion E1; subst. exists k. split; auto.
    pose proof (TG _ eq_refl) as GT. split; auto. apply (compile_guard_ok n T EV g0 k GT EK). }
  set (vs := set_of _) in *.
  assert (VS : forall v, In v vs <-> In v (tvars tr)).
  { intros v. unfold vs, tvars. rewrite set_of_in, !in_app_iff, (arcs_vars_in _ _ AI), (arcs_vars_in _ _ AO).
    destruct (ct_guard tr) as [g0|]; [destruct GG as (k & -> & _ & V & _); rewrite V; reflexivity|subst g; reflexivity]. }
  assert (VR : forall v, In v vs -> exists ty, nth_error vars v = Some ty).
  { intros v I. apply VS in I. apply (@nth_error_ex _ _ _ (tvars_range n t tr v OK ET I)). }
  split; constructor; cbn [kt_in kt_out kt_guard kt_inh kt_vars kt_total kt_cons]; auto.
  - intros p w. rewrite in_map_iff. split.
    + intros ([[p' t'] w'] & E & I). apply filter_In in I. cbn in *. inversion E; subst. destruct I as [I Q]. apply Nat.eqb_eq in Q. subst. auto.
    + intros I. exists (p, t, w). split; auto. apply filter_In. split; auto. cbn. apply Nat.eqb_refl.
  - eapply carc_good; eauto.
  - eapply carc_good; eauto.
  - apply Forall_forall. intros a I. destruct (carc_in _ _ _ AI I) as (x & IX & _ & pl & _ & _ & _ & _ & _ & P & S & Z & M).
    rewrite Forall_forall in FI. destruct (FI _ IX) as (A1 & A2 & _). auto.
  - rewrite (carc_places _ _ AI). auto.
  - apply set_of_incr.
  - apply Forall_forall. intros v I. destruct (VR v I) as [ty E]. eexists. apply csize_var. eauto.
  - intros a I v V. unfold vs. rewrite set_of_in, !in_app_iff. right. left. unfold arcs_vars. apply in_flat_map. eauto.
  - intros a I v V. unfold vs. rewrite set_of_in, !in_app_iff. right. right. unfold arcs_vars. apply in_flat_map. eauto.
  - intros k EK v V. unfold vs. rewrite set_of_in, !in_app_iff. left. subst g. auto.
  - unfold total_bindings in E4. destruct vs as [|v0 vs0]; [congruence|]. destruct (mul_sizes_ok _ _ _ E4) as [_ ->]. lia.
  - intros v l x F I. apply find_cons_map in F. subst l. apply cons_of_in. auto.
Qed.

Lemma trans_good : forall i t, nth_error (kn_trans net) i = Some t -> tgood net t.
Proof. intros i t E. destruct (of_trans _ _ E) as (tr & E1 & E2). eapply build_trans_ok; eauto. Qed.

(** *** Markings *)

Definition krep (M : kmark) (Mc : cmark) : Prop :=
  mgood net M /\ forall p pl m v, nth_error (cn_pls n) p = Some pl -> nth_error M p = Some m -> vtyped tab (cp_type pl) v ->
    ms_get m (enc n (cp_type pl) v) = Z.of_N (Mc p v).

Lemma krep_place : forall M Mc p pl, krep M Mc -> nth_error (cn_pls n) p = Some pl -> exists m, nth_error M p = Some m /\
  wf (csize tab (cp_type pl)) m /\ small m.
Proof.
  intros M Mc p pl [[L G] _] E. assert (LT : p < length M).
  { rewrite L. destruct build_inv as (_ & _ & BP & _). rewrite BP, map_length. eapply nth_error_lt; eauto. }
  destruct (@nth_error_ex _ _ _ LT) as [m EM]. exists m. split; auto. rewrite <- (prod_sizes _ _ E).
  eapply G; eauto. apply sizes_place. auto.
Qed.

Lemma sumZ_sumN : forall (l : list value) (f : value -> N), sumZ (map (fun v => Z.of_N (f v)) l) = Z.of_N (sumN (map f l)).
Proof. unfold sumZ, sumN. induction l as [|x l IH]; intros f; [reflexivity|]. cbn in *. rewrite IH. lia. Qed.

Lemma krep_total : forall M Mc p pl m, krep M Mc -> nth_error (cn_pls n) p = Some pl -> nth_error M p = Some m ->
  ms_card m = Z.of_N (total n Mc p).
Proof.
  intros M Mc p pl m R E EM. destruct (krep_place _ _ _ _ R E) as (m' & EM' & W & _). assert (m' = m) by congruence. subst m'.
  rewrite (pre_card _ _ (proj1 W)). destruct (place_type _ _ E) as [d D]. rewrite (sum_values n T _ d _ D).
  unfold total, ptype. rewrite E. rewrite <- sumZ_sumN. f_equal. apply map_ext_in. intros v I. apply (values_spec n T) in I.
  destruct R as [_ R]. eapply R; eauto.
Qed.

(** *** Enabled bindings *)

Lemma mval_out : forall a ty s v, atyped n a ty -> binds n s -> ~ vtyped tab ty v -> mval tab vars s a v = 0%N.
Proof.
  intros a ty s v AT B NV. revert AT. induction a as [es k|es IHs|l r IHl IHr|e k IHe] using aexp_ind'; intros AT; cbn [mval atyped] in *.
  - destruct AT as [_ F]. induction F as [|e es H F IH]; [reflexivity|]. cbn [map]. unfold sumN in *. cbn [fold_right] in *. rewrite IH.
    assert (V : vtyped tab ty (cval tab vars s e)).
    { apply (cval_typed n T); auto. intros u I. pose proof (ctyped_range n e ty u H I) as L. destruct (@nth_error_ex _ _ _ L) as [uty EU].
      rewrite (nth_error_nth _ _ 0 EU). apply B. auto. }
    destruct (value_eqb (cval tab vars s e) v) eqn:EQ; [|lia]. exfalso. apply NV. apply value_eqb_eq in EQ. subst. auto.
  - destruct AT as [_ AT]. induction IHs as [|e es H F IH]; [reflexivity|]. cbn [map]. destruct AT as [A1 A2].
    unfold sumN in *. cbn [fold_right] in *. rewrite IH by auto. rewrite H by auto. lia.
  - destruct AT. rewrite IHl by auto. lia.
  - rewrite IHe by auto. lia.
Qed.

Lemma moved_cons : forall s x l p v, moved n s (x :: l) p v =
  ((if Nat.eqb (fst x) p then mval tab vars s (snd x) v else 0) + moved n s l p v)%N.
Proof. intros. unfold moved, sumN. reflexivity. Qed.

Lemma moved_at : forall l ks b s p pl v, Forall2 carc_of l ks -> agree n b s (flat_map (fun x => avars (snd x)) l) ->
  nth_error (cn_pls n) p = Some pl -> vtyped tab (cp_type pl) v ->
  at_place b ks p (enc n (cp_type pl) v) = Z.of_N (moved n s l p v).
Proof.
  intros l ks b s p pl v F A EP V. induction F as [|x a l ks H F IH]; [reflexivity|]. rewrite at_place_cons, moved_cons.
  cbn [flat_map] in A. rewrite IH by (eapply agree_incl; [exact A|apply incl_appr, incl_refl]).
  destruct H as (E & pl' & EP' & _ & _ & _ & D & _). rewrite E. destruct (Nat.eqb_spec (fst x) p) as [Q|]; [|lia].
  subst p. assert (pl' = pl) by congruence. subst pl'. rewrite (D s b v); [lia| |auto]. eapply agree_incl; [exact A|apply incl_appl, incl_refl].
Qed.
Lemma moved_out : forall l ks s p v, Forall2 carc_of l ks -> binds n s ->
  (forall pl, nth_error (cn_pls n) p = Some pl -> ~ vtyped tab (cp_type pl) v) -> moved n s l p v = 0%N.
Proof.
  intros l ks s p v F B V. induction F as [|x a l ks H F IH]; [reflexivity|]. rewrite moved_cons, IH.
  destruct H as (_ & pl' & EP' & AT & _). destruct (Nat.eqb_spec (fst x) p) as [Q|]; [|lia]. subst p.
  rewrite (mval_out _ _ _ _ AT B (V _ EP')). lia.
Qed.

Lemma agree_tvars : forall tr s b, agree n b s (tvars tr) ->
  (forall g, ct_guard tr = Some g -> agree n b s (gvars g)) /\
  agree n b s (flat_map (fun x => avars (snd x)) (ct_in tr)) /\ agree n b s (flat_map (fun x => avars (snd x)) (ct_out tr)).
Proof.
  intros tr s b A. unfold tvars in A. split; [|split].
  - intros g E. rewrite E in A. eapply agree_incl; [exact A|]. apply incl_appl, incl_refl.
  - eapply agree_incl; [exact A|]. apply incl_appr, incl_appl, incl_refl.
  - eapply agree_incl; [exact A|]. apply incl_appr, incl_appr, incl_refl.
Qed.

Lemma vtyped_dec : forall ty v, vtyped tab ty v \/ ~ vtyped tab ty v.
Proof.
  intros ty v. assert (DE : forall a b : value, {a = b} + {a <> b}) by (decide equality; [apply Nat.eq_dec|apply (list_eq_dec Nat.eq_dec)]).
  destruct (in_dec DE v (values tab ty)) as [I|I].
  - left. apply (values_spec n T). auto.
  - right. intros V. apply I. apply (values_spec n T). auto.
Qed.

Lemma enabled_iff : forall M Mc t tr kt s b, krep M Mc -> ctrans_of t tr kt -> tgood net kt -> binds n s -> agree n b s (tvars tr) ->
  (kenabled M kt b <-> cenabled n Mc t tr s).
Proof.
  intros M Mc t tr kt s b R CT TG B A. destruct (agree_tvars _ _ _ A) as (AG & AI & AO). unfold kenabled, cenabled.
  pose proof (ct_arcs_in _ _ _ CT) as FI.
  assert (G : guard_ok kt b <-> forall g, ct_guard tr = Some g -> gval tab vars s g = true).
  { pose proof (ct_g _ _ _ CT) as Q. unfold guard_ok. destruct (ct_guard tr) as [g|].
    - destruct Q as (k & -> & _ & _ & E). specialize (AG _ eq_refl). specialize (E s b AG). split; intros H x EX; inversion EX; subst.
      + rewrite <- E. auto.
      + rewrite E. auto.
    - rewrite Q. split; intros; discriminate. }
  assert (C : covers M b (kt_in kt) <-> forall p v, (moved n s (ct_in tr) p v <= Mc p v)%N).
  { split.
    - intros H p v. destruct (nth_error (cn_pls n) p) as [pl|] eqn:EP.
      + destruct (vtyped_dec (cp_type pl) v) as [V|NV].
        * destruct (in_dec Nat.eq_dec p (map ka_place (kt_in kt))) as [I|NI].
          -- apply in_map_iff in I. destruct I as (a & Ea & I). destruct (krep_place _ _ _ _ R EP) as (m & EM & _).
             pose proof (proj2 R _ _ _ _ EP EM V) as RM. pose proof (moved_at _ _ _ _ _ _ _ FI AI EP V) as Q.
             rewrite <- Ea in Q at 1. rewrite (at_place_one _ _ _ _ (tg_nodup _ _ TG) I) in Q. rewrite <- Ea in EM.
             specialize (H a m I EM (enc n (cp_type pl) v)). lia.
          -- pose proof (moved_at _ _ _ _ _ _ _ FI AI EP V) as Q. rewrite at_place_not in Q by auto. lia.
        * rewrite (moved_out _ _ _ _ _ FI B); [lia|]. intros pl' E'. assert (pl' = pl) by congruence. subst. auto.
      + rewrite (moved_out _ _ _ _ _ FI B); [lia|]. intros pl' E'. congruence.
    - intros H a m I EM c. destruct (carc_in _ _ _ FI I) as (x & _ & Ea & pl & EP & _ & K & _).
      rewrite <- Ea in EP. destruct (krep_place _ _ _ _ R EP) as (m' & EM' & W & _). assert (m' = m) by congruence. subst m'.
      destruct (Nat.lt_ge_cases c (csize tab (cp_type pl))) as [L|L].
      + destruct (enc_surj n T _ _ L) as (v & V & <-). rewrite (proj2 R _ _ _ _ EP EM V).
        rewrite <- (at_place_one b _ _ _ (tg_nodup _ _ TG) I). rewrite (moved_at _ _ _ _ _ _ _ FI AI EP V). specialize (H (ka_place a) v). lia.
      + destruct (place_type _ _ EP) as [d D].
        rewrite (den_out (basic_sizes n (cp_type pl)) b _ c (basic_pos n T _ d D) K); [eapply wf_get; eauto|]. rewrite (prod_sizes _ _ EP). auto. }
  assert (I : inhib_ok M kt <-> forall p w, In (p, t, w) (cn_inh n) -> (total n Mc p < w)%N).
  { unfold inhib_ok. split.
    - intros H p w I. pose proof OK as OK1; destruct OK1 as (_ & _ & _ & _ & INH). destruct (INH _ _ _ I) as [L _]. destruct (@nth_error_ex _ _ _ L) as [pl EP].
      destruct (krep_place _ _ _ _ R EP) as (m & EM & _). apply (ct_inhs _ _ _ CT) in I. specialize (H _ _ _ I EM).
      rewrite (krep_total _ _ _ _ _ R EP EM) in H. lia.
    - intros H p w m I EM. apply (ct_inhs _ _ _ CT) in I. pose proof OK as OK1; destruct OK1 as (_ & _ & _ & _ & INH). destruct (INH _ _ _ I) as [L _].
      destruct (@nth_error_ex _ _ _ L) as [pl EP]. rewrite (krep_total _ _ _ _ _ R EP EM). specialize (H _ _ I). lia. }
  rewrite G, C, I. tauto.
Qed.

(** *** Bindings and assignments *)

Definition assign_of (vs : list nat) (b : binding) : assignment :=
  fun v => if in_dec Nat.eq_dec v vs then VE (bget b v) else VE 0.

Lemma assign_ok : forall t tr kt b, ctrans_of t tr kt -> bgood net kt b ->
  binds n (assign_of (kt_vars kt) b) /\ agree n b (assign_of (kt_vars kt) b) (tvars tr).
Proof.
  intros t tr kt b CT BG. split.
  - intros v ty E. pose proof (EV _ _ E) as P. unfold assign_of. unfold vtyped. pose proof P as P'. unfold esize in P'.
    destruct (nth_error tab ty) as [[k|cs]|] eqn:ET; try lia. destruct (in_dec Nat.eq_dec v (kt_vars kt)) as [I|]; [|auto].
    pose proof (BG v _ I (var_size _ _ E)) as L. unfold esize in L. rewrite ET in L. auto.
  - intros v ty I E. apply (ct_vs _ _ _ CT) in I. unfold assign_of. destruct (in_dec Nat.eq_dec v (kt_vars kt)) as [_|NI]; [|contradiction].
    split; auto. apply (BG v _ I (var_size _ _ E)).
Qed.

Definition binding_of (vs : list nat) (s : assignment) : binding :=
  map (fun v => (v, match s v with VE i => i | VT _ => 0 end)) vs.
Lemma binding_get : forall vs s v, In v vs -> bget (binding_of vs s) v = match s v with VE i => i | VT _ => 0 end.
Proof.
  induction vs as [|u vs IH]; intros s v I; [contradiction|]. cbn. destruct (Nat.eqb_spec u v) as [->|]; auto.
  destruct I as [->|I]; [contradiction|]. apply IH. auto.
Qed.
Lemma binding_ok : forall t tr kt s, ctrans_of t tr kt -> binds n s ->
  bgood net kt (binding_of (kt_vars kt) s) /\ agree n (binding_of (kt_vars kt) s) s (tvars tr).
Proof.
  intros t tr kt s CT B.
  assert (X : forall v ty, In v (kt_vars kt) -> nth_error vars v = Some ty ->
     s v = VE (bget (binding_of (kt_vars kt) s) v) /\ bget (binding_of (kt_vars kt) s) v < esize tab ty).
  { intros v ty I E. rewrite binding_get by auto. pose proof (B _ _ E) as V. pose proof (EV _ _ E) as P. unfold vtyped, esize in *.
    destruct (nth_error tab ty) as [[k|cs]|]; try lia. destruct (s v) as [i|l]; [auto|contradiction]. }
  split.
  - intros v z I E. destruct (size_var _ _ E) as (ty & E1 & ->). apply X; auto.
  - intros v ty I E. apply X; auto. apply (ct_vs _ _ _ CT). auto.
Qed.

Lemma agree_same : forall t tr kt s b b', ctrans_of t tr kt -> agree n b s (tvars tr) -> same_on (kt_vars kt) b b' -> agree n b' s (tvars tr).
Proof.
  intros t tr kt s b b' CT A S v ty I E. rewrite <- (S v) by (apply (ct_vs _ _ _ CT); auto). apply A; auto.
Qed.

(** *** The simulation *)

Definition fired (Mc : cmark) (tr : ctrans) (s : assignment) : cmark :=
  fun p v => (Mc p v - moved n s (ct_in tr) p v + moved n s (ct_out tr) p v)%N.

Lemma fired_rep : forall M Mc t tr kt s b M' Mc', krep M Mc -> ctrans_of t tr kt -> tgood net kt -> agree n b s (tvars tr) ->
  cenabled n Mc t tr s -> kenabled M kt b -> kfire M kt b = Ok M' -> (forall p v, Mc' p v = fired Mc tr s p v) -> krep M' Mc'.
Proof.
  intros M Mc t tr kt s b M' Mc' R CT TG A CE KE H EQ. destruct (kfire_ok net PP _ _ _ _ (proj1 R) TG KE H) as [MG Q].
  destruct (agree_tvars _ _ _ A) as (AG & AI & AO).
  split; auto. intros p pl m' v EP EM' V. destruct (krep_place _ _ _ _ R EP) as (m & EM & _).
  rewrite (Q _ _ _ EM EM'). rewrite (moved_at _ _ _ _ _ _ _ (ct_arcs_in _ _ _ CT) AI EP V), (moved_at _ _ _ _ _ _ _ (ct_arcs_out _ _ _ CT) AO EP V).
  rewrite (proj2 R _ _ _ _ EP EM V), EQ. unfold fired. destruct CE as (_ & _ & C & _). specialize (C p v). lia.
Qed.

(** A step of the compiled net is a step of the coloured net. *)
Lemma step_sound : forall M Mc t kt k b M', krep M Mc -> nth_error (kn_trans net) t = Some kt -> valid net M kt k b -> kfire M kt b = Ok M' ->
  exists Mc', cstep n Mc t Mc' /\ krep M' Mc'.
Proof.
  intros M Mc t kt k b M' R ET (BG & KE & _) H. destruct (of_trans _ _ ET) as (tr & E1 & E2). destruct (build_trans_ok _ _ _ E1 E2) as [CT TG].
  destruct (assign_ok _ _ _ _ CT BG) as [B A]. set (s := assign_of (kt_vars kt) b) in *.
  assert (CE : cenabled n Mc t tr s) by (eapply enabled_iff; eauto).
  exists (fired Mc tr s). split.
  - exists tr, s. split; auto.
  - eapply fired_rep; eauto.
Qed.

(** A step of the coloured net is an enabled binding of the compiled net; firing it, or any
    binding with the same colours, leads to the same marking. *)
Lemma step_complete : forall M Mc t Mc', krep M Mc -> cstep n Mc t Mc' ->
  exists kt b, nth_error (kn_trans net) t = Some kt /\ bgood net kt b /\ kenabled M kt b /\
    forall b' M', same_on (kt_vars kt) b b' -> kfire M kt b' = Ok M' -> krep M' Mc'.
Proof.
  intros M Mc t Mc' R (tr & s & E1 & CE & EQ). destruct (trans_of _ _ E1) as (kt & ET & E2). destruct (build_trans_ok _ _ _ E1 E2) as [CT TG].
  destruct (binding_ok _ _ _ _ CT (proj1 CE)) as [BG A]. set (b := binding_of (kt_vars kt) s) in *.
  assert (KE : kenabled M kt b) by (eapply enabled_iff; eauto; apply CE).
  exists kt, b. split; auto. split; auto. split; auto. intros b' M' S H. eapply fired_rep; try exact H; eauto.
  - eapply agree_same; eauto.
  - eapply kenabled_same; eauto.
Qed.

(** *** The initial marking *)

Lemma add_tokens_ok : forall pl d mty l m m', nth_error tab (cp_type pl) = Some d -> (l = [] \/ mty = Some (cp_type pl)) ->
  NoDup (map fst l) -> Forall (fun i => i < csize tab (cp_type pl)) (map fst l) ->
  wf (csize tab (cp_type pl)) m -> small m -> add_tokens n (cp_type pl) mty l m = Ok m' ->
  wf (csize tab (cp_type pl)) m' /\ small m' /\
  forall v, vtyped tab (cp_type pl) v -> ms_get m' (enc n (cp_type pl) v) =
    if in_dec Nat.eq_dec (vnum tab (cp_type pl) v) (map fst l) then Z.of_N (mlook l (vnum tab (cp_type pl) v)) else ms_get m (enc n (cp_type pl) v).
Proof.
  intros pl d mty l. set (ty := cp_type pl) in *. induction l as [|[i k] l IH]; intros m m' D MT ND F W S H; cbn [add_tokens] in H.
  - inversion H; subst. split; auto.
  - destruct MT as [|MT]; [discriminate|]. subst mty. cbn [map fst] in ND, F. inversion ND as [|? ? NI ND2]; subst. inversion F as [|? ? FI F2]; subst.
    cbn [mcolor] in H. unfold color_at in H. destruct (Nat.ltb_spec i (csize tab ty)); [|lia]. cbn [bind] in H. binv H m1 E1.
    pose proof (val_typed n T ty i FI) as V. pose proof (num_val n T ty i FI) as NV. set (w := val_of n ty i) in *.
    assert (EQ : seq_num (basic_sizes n ty) (if is_tuple tab (ty, i) then map snd (tuple_colors tab (ty, i)) else [snd (ty, i)]) = enc n ty w).
    { unfold vtyped in V. unfold vnum in NV. unfold w, val_of in *. destruct d as [z|cs]; rewrite D in *.
      - unfold is_tuple, tuple_colors. cbn [fst snd]. rewrite D. cbn [length Nat.ltb Nat.leb enc]. unfold basic_sizes. rewrite D.
        unfold seq_num, total_size. cbn [fold_left seq_loop]. rewrite Nat.mul_1_l. unfold csize in *. rewrite D in *.
        rewrite Nat.div_same by lia. lia.
      - destruct (tuple_numbering n T ty cs _ D V) as [_ TC]. unfold vnum in TC. rewrite D in TC. 
        set (l0 := digits (ColEval.sizes n cs) i) in *. rewrite NV in TC.
        assert (LL : length cs = length l0) by (clear - V; induction V; cbn; auto).
        assert (TL : length (tuple_colors tab (ty, i)) = length cs).
        { rewrite TC. etransitivity; [apply combine_length|]. rewrite <- LL. apply Nat.min_id. }
        unfold is_tuple. rewrite TL, TC. cbn [enc]. destruct (Nat.ltb_spec 1 (length cs)) as [L1|L1].
        + f_equal. apply map_snd_combine'. auto.
        + destruct cs as [|c [|]]; cbn in L1; try lia; destruct l0 as [|x [|]]; try discriminate.
          * unfold basic_sizes. rewrite D. reflexivity.
          * cbn [snd]. cbn [tuple_num map] in NV. f_equal. f_equal. lia. }
    rewrite EQ in E1. pose proof (enc_lt n ty w V) as LE.
    destruct (set_count_ok _ _ _ _ _ (proj1 W) LE E1) as (P1 & G1 & N1 & S1).
    assert (W1 : wf (csize tab ty) m1) by (split; auto; apply N1; [apply W|lia]).
    destruct (IH m1 m' D (or_intror eq_refl) ND2 F2 W1 (S1 W) H) as (W' & S' & Q). split; auto. split; auto.
    intros v VV. rewrite (Q v VV), G1. cbn [map fst mlook].
    assert (IE : Nat.eqb (enc n ty w) (enc n ty v) = Nat.eqb i (vnum tab ty v)).
    { destruct (Nat.eqb_spec i (vnum tab ty v)) as [E|NE].
      - assert (v = w) by (apply (vnum_inj n ty); auto; congruence). subst v. apply Nat.eqb_refl.
      - apply Nat.eqb_neq. intros E. apply NE. rewrite <- (enc_inj n _ _ _ V VV E). auto. }
    rewrite IE. destruct (in_dec Nat.eq_dec (vnum tab ty v) (map fst l)) as [I|NI'];
      destruct (in_dec Nat.eq_dec (vnum tab ty v) (i :: map fst l)) as [I'|NI2].
    + destruct (Nat.eqb_spec i (vnum tab ty v)) as [E|]; auto. exfalso. apply NI. rewrite E. auto.
    + exfalso. apply NI2. right. auto.
    + destruct I' as [E|I']; [|contradiction]. rewrite <- E, Nat.eqb_refl. reflexivity.
    + destruct (Nat.eqb_spec i (vnum tab ty v)); auto. exfalso. apply NI2. left. auto.
Qed.

Lemma init_nth : forall l ms, init_places n l = Ok ms -> length ms = length l /\
  forall i pl m, nth_error l i = Some pl -> nth_error ms i = Some m -> init_place n pl = Ok m.
Proof.
  induction l as [|x l IH]; intros ms H; cbn [init_places] in H.
  - inversion H. split; auto. intros [|]; discriminate.
  - binv H m E. binv H r E2. inversion H; subst. destruct (IH _ E2) as [L Q]. split; [cbn; auto|].
    intros [|i] pl m0 EI EM; cbn in *; [congruence|eauto].
Qed.

Lemma init_rep : krep (kn_init net) (cinit n).
Proof.
  destruct build_inv as (BI & _ & BP & _). destruct (init_nth _ _ BI) as [L Q].
  assert (X : forall p pl m, nth_error (cn_pls n) p = Some pl -> nth_error (kn_init net) p = Some m ->
    wf (csize tab (cp_type pl)) m /\ small m /\ forall v, vtyped tab (cp_type pl) v -> ms_get m (enc n (cp_type pl) v) = Z.of_N (cinit n p v)).
  { intros p pl m EP EM. pose proof (Q _ _ _ EP EM) as H. unfold init_place in H. binv H mm E1.
    destruct (marking_ok n OK p pl EP) as (mm' & E1' & R & _). assert (mm' = mm) by congruence. subst mm'. destruct (place_type _ _ EP) as [d D].
    assert (PT : ptype n p = cp_type pl) by (unfold ptype; rewrite EP; auto). rewrite PT in R.
    destruct (add_tokens_ok pl d (fst mm) (snd mm) ms0 m D) as (W & S & G); auto.
    - destruct (mr_type _ _ _ _ R) as [A|[_ A]]; auto.
    - apply (mr_nodup _ _ _ _ R).
    - apply (mr_ids _ _ _ _ R).
    - apply wf0.
    - unfold small, ms0, i32max. cbn. lia.
    - split; auto. split; auto. intros v V. rewrite (G v V). pose proof (mr_val _ _ _ _ R v V) as MV.
      destruct (in_dec Nat.eq_dec (vnum tab (cp_type pl) v) (map fst (snd mm))) as [I|NI]; [congruence|].
      rewrite mlook_in in MV by auto. rewrite <- MV. reflexivity. }
  split.
  - split; [rewrite BP, map_length; auto|]. intros p m sizes EM ES. destruct (place_sizes _ _ ES) as (pl & EP & ->).
    rewrite (prod_sizes _ _ EP). destruct (X _ _ _ EP EM) as (A & B & _). auto.
  - intros p pl m v EP EM V. apply (X _ _ _ EP EM). auto.
Qed.

Lemma krep_shrink : forall M Mc, krep M Mc -> krep (map ms_shrink M) Mc.
Proof.
  intros M Mc R. pose proof R as [MG Q]. split; [apply shrink_good; auto|]. intros p pl m v EP EM V. rewrite nth_error_map in EM.
  destruct (nth_error M p) as [m0|] eqn:EM0; [|discriminate]. cbn in EM. inversion EM; subst.
  destruct (krep_place _ _ _ _ R EP) as (m1 & EM1 & W & _). assert (m1 = m0) by congruence. subst m1.
  destruct (shrink_ok _ _ W) as (_ & G & _). rewrite G. eapply Q; eauto.
Qed.

Lemma krep_same : forall M M1 Mc, krep M Mc -> mgood net M1 ->
  (forall p m m1, nth_error M p = Some m -> nth_error M1 p = Some m1 -> forall c, ms_get m1 c = ms_get m c) -> krep M1 Mc.
Proof.
  intros M M1 Mc R MG H. split; auto. intros p pl m v EP EM V. destruct (krep_place _ _ _ _ R EP) as (m0 & EM0 & _).
  rewrite (H _ _ _ EM0 EM). eapply (proj2 R); eauto.
Qed.

End Net.
