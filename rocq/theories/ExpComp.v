(** The compiled arc expressions and guards mean what the expressions of the net mean (C37). *)
From Verif Require Import Base BaseLemmas ColSyntax ColSpec ColModel ColRadix ColEval ColFinal ExpSyntax ExpSpec ExpModel ExpSet ExpCodec ExpArc.

Section Comp.
Variable n : cpn.
Notation tab := (cn_types n).
Notation vars := (cn_vars n).
Hypothesis T : tab_ok n.
Hypothesis EV : forall v ty, nth_error vars v = Some ty -> 0 < esize tab ty.

(** The binding of the engine and the assignment give the same colours to [vs]. *)
Definition agree (b : binding) (a : assignment) (vs : list nat) : Prop :=
  forall v ty, In v vs -> nth_error vars v = Some ty -> a v = VE (bget b v) /\ bget b v < esize tab ty.

Lemma agree_incl : forall b a vs ws, agree b a vs -> incl ws vs -> agree b a ws.
Proof. intros b a vs ws H I v ty V E. apply H; auto. Qed.

Lemma agree_typed : forall e ty a b, ctyped n e ty -> agree b a (cvars e) -> vtyped tab ty (cval tab vars a e).
Proof.
  intros e ty a b H A. apply (cval_typed n T); auto. intros v I. pose proof (ctyped_range n e ty v H I) as L.
  destruct (@nth_error_ex _ _ _ L) as [ty' E]. destruct (A v ty' I E) as [A1 A2]. rewrite (nth_error_nth _ _ 0 E), A1.
  unfold vtyped. rewrite (esize_enum n _ (EV _ _ E)). auto.
Qed.

Definition pvars (x : pcol) : list nat := match x with PV v _ => [v] | PC _ _ => [] end.

Lemma offset_0 : forall i s, i < s -> color_offset i 0 s = i.
Proof. intros. unfold color_offset. rewrite Z.add_0_r, Z.mod_small by lia. apply Nat2Z.id. Qed.

Lemma offset_shift : forall i off d s, 0 < s -> color_offset i (off + d) s = color_offset (color_offset i off s) d s.
Proof.
  intros i off d s P. unfold color_offset. pose proof (Z.mod_pos_bound (Z.of_nat i + off) (Z.of_nat s) ltac:(lia)).
  rewrite Z2Nat.id by lia. rewrite Z.add_mod_idemp_l by lia. f_equal. f_equal. lia.
Qed.
Lemma offset_succ : forall i s, 0 < s -> color_offset i 1 s = (i + 1) mod s.
Proof.
  intros i s P. unfold color_offset. replace (Z.of_nat i + 1)%Z with (Z.of_nat (i + 1)) by lia.
  rewrite <- Nat2Z.inj_mod. apply Nat2Z.id.
Qed.
Lemma offset_pred : forall i s, 0 < s -> color_offset i (-1) s = (i + (s - 1)) mod s.
Proof.
  intros i s P. unfold color_offset.
  rewrite <- (Z.mod_add (Z.of_nat i + -1) 1) by lia. replace (Z.of_nat i + -1 + 1 * Z.of_nat s)%Z with (Z.of_nat (i + (s - 1))) by lia.
  rewrite <- Nat2Z.inj_mod. apply Nat2Z.id.
Qed.

Lemma pshift_val : forall b d x s, 0 < s -> pcol_val b (pshift d x) s = color_offset (pcol_val b x s) d s.
Proof. intros b d [v o|c o] s P; cbn; apply offset_shift; auto. Qed.
Lemma pshift_vars : forall d x, pvars (pshift d x) = pvars x.
Proof. destruct x; reflexivity. Qed.
Lemma pshift_var : forall d x, is_var (pshift d x) = is_var x.
Proof. destruct x; reflexivity. Qed.

Lemma color_visit_ok : forall e ty x s, ctyped n e ty -> color_visit tab vars e = Ok (x, s) ->
  0 < esize tab ty /\ s = esize tab ty /\ pvars x = cvars e /\ is_var x = hasv e /\
  forall a b, agree b a (cvars e) -> cval tab vars a e = VE (pcol_val b x s).
Proof.
  induction e as [|v|uty ui|e IHe|e IHe|es IHs] using cexp_ind'; intros ty x s H E; cbn [color_visit ctyped] in *.
  - inversion E; subst. destruct T as (T0 & _).
    assert (Z : esize tab 0 = 1) by (unfold esize; rewrite T0; reflexivity). rewrite Z. repeat split; auto.
  - unfold rd in E. rewrite H in E. cbn [bind] in E. inversion E; subst. pose proof (EV _ _ H) as P.
    rewrite (esize_csize n _ P). repeat split; auto. intros a b A. destruct (A v ty ltac:(cbn; auto) H) as [A1 A2].
    cbn [cval pcol_val]. rewrite A1, offset_0 by auto. reflexivity.
  - destruct H as [-> H]. inversion E; subst. assert (P : 0 < esize tab uty) by lia. rewrite (esize_csize n _ P). repeat split; try lia; auto.
    intros a b _. cbn [cval pcol_val]. rewrite offset_0 by auto. reflexivity.
  - destruct H as [H P]. apply bind_inv in E. destruct E as ([y z] & E1 & E). cbn in E. inversion E; subst.
    destruct (IHe _ _ _ H E1) as (_ & -> & V & IV & S). rewrite pshift_vars, pshift_var. repeat split; auto.
    intros a b A. cbn [cval]. rewrite (S a b A). rewrite (ctyped_ctype n e ty) by auto. rewrite pshift_val, offset_succ by auto. reflexivity.
  - destruct H as [H P]. apply bind_inv in E. destruct E as ([y z] & E1 & E). cbn in E. inversion E; subst.
    destruct (IHe _ _ _ H E1) as (_ & -> & V & IV & S). rewrite pshift_vars, pshift_var. repeat split; auto.
    intros a b A. cbn [cval]. rewrite (S a b A). rewrite (ctyped_ctype n e ty) by auto. rewrite pshift_val, offset_pred by auto. reflexivity.
  - discriminate.
Qed.

Definition tup_typed := (fix go (es : list cexp) (cs : list nat) : Prop :=
         match es, cs with
         | e' :: es', c :: cs' => ctyped n e' c /\ go es' cs'
         | _, _ => True
         end).

Lemma color_visits_ok : forall es cs l, length es = length cs -> tup_typed es cs -> color_visits tab vars es = Ok l ->
  map snd l = map (esize tab) cs /\ length l = length cs /\ Forall (fun c => 0 < esize tab c) cs /\
  flat_map pvars (map fst l) = flat_map cvars es /\ existsb is_var (map fst l) = existsb hasv es /\
  (forall a b, agree b a (flat_map cvars es) ->
     map (fun e' => match cval tab vars a e' with VE i => i | VT _ => 0 end) es =
     map (fun xs => pcol_val b (fst xs) (snd xs)) (combine (map fst l) (map snd l))).
Proof.
  induction es as [|e es IH]; intros [|c cs] l L H E; cbn [length color_visits] in *; try discriminate.
  - inversion E; subst. repeat split; auto.
  - destruct H as [H1 H2]. apply bind_inv in E. destruct E as ([x s] & E1 & E). binv E m E2. inversion E; subst.
    destruct (color_visit_ok _ _ _ _ H1 E1) as (P & -> & V & IV & S).
    destruct (IH cs m ltac:(lia) H2 E2) as (A1 & A2 & A3 & A4 & A5 & A6).
    cbn [map fst snd length flat_map existsb combine]. repeat split; auto; try congruence.
    intros a b A. rewrite (S a b) by (eapply agree_incl; [exact A|]; apply incl_appl, incl_refl).
    rewrite (A6 a b) by (eapply agree_incl; [exact A|]; apply incl_appr, incl_refl). reflexivity.
Qed.

(** A single colour or tuple. *)
Lemma compile_color_ok : forall e ty k r, ctyped n e ty -> compile_color tab vars e k = Ok r ->
  exists s, r = KColl (basic_sizes n ty) s k /\ length s = length (basic_sizes n ty) /\
    flat_map pvars s = cvars e /\ existsb is_var s = hasv e /\
    forall a b, agree b a (cvars e) ->
      vtyped tab ty (cval tab vars a e) /\ pseq_num b (basic_sizes n ty) s = enc n ty (cval tab vars a e).
Proof.
  intros e ty k r H E.
  assert (G : (exists x s, color_visit tab vars e = Ok (x, s) /\ r = KColl [s] [x] k) \/
              (exists es l, e = ETup es /\ color_visits tab vars es = Ok l /\ r = KColl (map snd l) (map fst l) k)).
  { destruct e; cbn [compile_color] in E;
      try (left; apply bind_inv in E; destruct E as ([x s] & E1 & E); cbn in E; inversion E; subst; eauto; fail).
    right. binv E l E1. inversion E; subst. eauto. }
  destruct G as [(x & s & E1 & ->)|(es & l & -> & E1 & ->)].
  - destruct (color_visit_ok _ _ _ _ H E1) as (P & -> & V & IV & S). pose proof (esize_enum n _ P) as EN.
    exists [x].
    assert (BS : basic_sizes n ty = [esize tab ty]) by (unfold basic_sizes; rewrite EN; rewrite (esize_csize n _ P); reflexivity).
    rewrite BS. split; [reflexivity|]. split; [reflexivity|]. split; [cbn; rewrite app_nil_r; auto|].
    split; [cbn; rewrite orb_false_r; auto|]. intros a b A. rewrite (S a b A).
    assert (LT : pcol_val b x (esize tab ty) < esize tab ty) by (destruct x; cbn; apply color_offset_lt; auto).
    split; [unfold vtyped; rewrite EN; exact LT|]. cbn [enc]. unfold pseq_num. cbn [combine map fst snd].
    rewrite seq_cons_eq by auto. cbn. lia.
  - cbn [ctyped] in H. destruct H as (cs & TP & L & H). change ((fix go (es : list cexp) (cs : list nat) : Prop :=
         match es, cs with
         | e' :: es', c :: cs' => ctyped n e' c /\ go es' cs'
         | _, _ => True
         end) es cs) with (tup_typed es cs) in H.
    destruct (color_visits_ok es cs l L H E1) as (A1 & A2 & A3 & A4 & A5 & A6).
    assert (BS : basic_sizes n ty = map (esize tab) cs) by (unfold basic_sizes; rewrite TP; reflexivity).
    exists (map fst l). rewrite BS, A1. split; [reflexivity|]. split; [rewrite !map_length; auto|]. split; [exact A4|].
    split; [exact A5|]. intros a b A. cbn [cvars] in A. specialize (A6 a b A). cbn [cval]. split.
    + unfold vtyped. rewrite TP. rewrite A6. apply (proj2 (Forall2_map_r (fun i s => i < s) _ _ _)). rewrite A1.
      apply pseq_fits; [|rewrite !map_length; auto]. apply Forall_forall. intros z I. apply in_map_iff in I.
      destruct I as (c & <- & I). rewrite Forall_forall in A3. auto.
    + unfold pseq_num. cbn [enc]. rewrite BS, A6, A1. reflexivity.
Qed.

(** What is known about a compiled expression, in terms of what it was compiled from. *)
Record ag (ty : nat) (k : N) (e : carc) (vs : list nat) (mv : assignment -> value -> N) (pl : Prop) (gm : value -> N)
    (vm : N) (av ap sb : Prop) : Prop := mkAg {
  g_ok : kok (basic_sizes n ty) e;
  g_in : forall v, In v (arc_vars e) <-> In v vs;
  g_den : forall s b v, agree b s vs -> vtyped tab ty v -> den b e (enc n ty v) = Z.of_N (k * mv s v);
  g_plain : pl -> nosub e;
  g_high : forall c, prod (basic_sizes n ty) <= c -> gpart e c = 0%Z;
  g_part : forall v, vtyped tab ty v -> gpart e (enc n ty v) = Z.of_N (k * gm v);
  g_vc : vcount e = (k * vm)%N;
  g_free : av -> gfree e;
  g_pos : k <> 0%N -> ap -> kpos e;
  g_sub : k <> 0%N -> sb -> subok e }.

Lemma ag_add : forall ty k e1 e2 vs1 vs2 mv1 mv2 (p1 p2 : Prop) g1 g2 v1 v2 (a1 a2 q1 q2 s1 s2 : Prop),
  ag ty k e1 vs1 mv1 p1 g1 v1 a1 q1 s1 -> ag ty k e2 vs2 mv2 p2 g2 v2 a2 q2 s2 ->
  ag ty k (KAdd e1 e2) (vs1 ++ vs2) (fun s v => mv1 s v + mv2 s v)%N (p1 /\ p2) (fun v => g1 v + g2 v)%N (v1 + v2)%N
     (a1 /\ a2) (q1 /\ q2) (s1 /\ s2).
Proof.
  intros ty k e1 e2 vs1 vs2 mv1 mv2 p1 p2 g1 g2 v1 v2 a1 a2 q1 q2 s1 s2 G1 G2.
  constructor; cbn [kok arc_vars den nosub gpart vcount gfree kpos subok].
  - split; [apply G1|apply G2].
  - intros v. rewrite !in_app_iff, (g_in _ _ _ _ _ _ _ _ _ _ _ G1), (g_in _ _ _ _ _ _ _ _ _ _ _ G2). tauto.
  - intros s b v A V.
    rewrite (g_den _ _ _ _ _ _ _ _ _ _ _ G1 s b v) by first [exact V|eapply agree_incl; [exact A|apply incl_appl, incl_refl]].
    rewrite (g_den _ _ _ _ _ _ _ _ _ _ _ G2 s b v) by first [exact V|eapply agree_incl; [exact A|apply incl_appr, incl_refl]]. lia.
  - intros [A B]. split; [apply G1|apply G2]; auto.
  - intros c L. rewrite (g_high _ _ _ _ _ _ _ _ _ _ _ G1), (g_high _ _ _ _ _ _ _ _ _ _ _ G2) by auto. reflexivity.
  - intros v V. rewrite (g_part _ _ _ _ _ _ _ _ _ _ _ G1), (g_part _ _ _ _ _ _ _ _ _ _ _ G2) by auto. lia.
  - rewrite (g_vc _ _ _ _ _ _ _ _ _ _ _ G1), (g_vc _ _ _ _ _ _ _ _ _ _ _ G2). lia.
  - intros [A B]. split; [apply G1|apply G2]; auto.
  - intros K [A B]. split; [apply G1|apply G2]; auto.
  - intros K [A B]. split; [apply G1|apply G2]; auto.
Qed.

Lemma ag_sub : forall ty d k e1 e2 vs1 vs2 mv1 mv2 (p1 p2 : Prop) g1 g2 v1 v2 (a1 a2 q1 q2 s1 s2 : Prop),
  nth_error tab ty = Some d ->
  ag ty k e1 vs1 mv1 p1 g1 v1 a1 q1 s1 -> ag ty k e2 vs2 mv2 p2 g2 v2 a2 q2 s2 ->
  ag ty k (KSub e1 e2) (vs1 ++ vs2) (fun s v => mv1 s v - mv2 s v)%N False g1 v1 a1 (q1 /\ q2)
     (s1 /\ p2 /\ (v2 <> 0%N \/ a1 \/ (p1 /\ forall v, (g2 v <= g1 v)%N))).
Proof.
  intros ty d k e1 e2 vs1 vs2 mv1 mv2 p1 p2 g1 g2 v1 v2 a1 a2 q1 q2 s1 s2 TY G1 G2.
  constructor; cbn [kok arc_vars den nosub gpart vcount gfree kpos subok].
  - split; [apply G1|apply G2].
  - intros v. rewrite !in_app_iff, (g_in _ _ _ _ _ _ _ _ _ _ _ G1), (g_in _ _ _ _ _ _ _ _ _ _ _ G2). tauto.
  - intros s b v A V.
    rewrite (g_den _ _ _ _ _ _ _ _ _ _ _ G1 s b v) by first [exact V|eapply agree_incl; [exact A|apply incl_appl, incl_refl]].
    rewrite (g_den _ _ _ _ _ _ _ _ _ _ _ G2 s b v) by first [exact V|eapply agree_incl; [exact A|apply incl_appr, incl_refl]].
    rewrite N.mul_sub_distr_l. lia.
  - intros [].
  - apply G1.
  - apply G1.
  - apply G1.
  - apply G1.
  - auto.
  - intros K (A & B & C). split; [apply G1; auto|]. split; [apply G2; auto|]. destruct C as [C|[C|[C D]]].
    + left. rewrite (g_vc _ _ _ _ _ _ _ _ _ _ _ G2). nia.
    + right. left. apply G1. auto.
    + right. right. split; [apply G1; auto|]. intros c. destruct (le_lt_dec (prod (basic_sizes n ty)) c) as [L|L].
      * rewrite (g_high _ _ _ _ _ _ _ _ _ _ _ G1), (g_high _ _ _ _ _ _ _ _ _ _ _ G2) by auto. lia.
      * rewrite <- total_prod, (basic_total n _ _ TY) in L. destruct (enc_surj n T ty c L) as (v & V & <-).
        rewrite (g_part _ _ _ _ _ _ _ _ _ _ _ G1), (g_part _ _ _ _ _ _ _ _ _ _ _ G2) by auto. specialize (D v). nia.
Qed.

Lemma ag_ext : forall ty k e vs mv (p : Prop) g v0 (a q s : Prop) k' vs' mv' (p' : Prop) g' v' (a' q' s' : Prop),
  ag ty k e vs mv p g v0 a q s -> (forall v, In v vs' <-> In v vs) -> (forall s v, k' * mv' s v = k * mv s v)%N -> (p' -> p) ->
  (forall v, k' * g' v = k * g v)%N -> (k' * v' = k * v0)%N -> (a' -> a) ->
  (k' <> 0%N -> q' -> k <> 0%N /\ q) -> (k' <> 0%N -> q' -> s' -> k <> 0%N /\ s) ->
  ag ty k' e vs' mv' p' g' v' a' q' (q' /\ s').
Proof.
  intros ty k e vs mv p g v0 a q s k' vs' mv' p' g' v' a' q' s' G V M P GM VM A Q S.
  constructor.
  - apply G.
  - intros v. rewrite V. apply G.
  - intros s0 b v AG VT. rewrite M. apply G; auto. intros w ty0 W. apply AG. apply V. auto.
  - intros X. apply G. auto.
  - apply G.
  - intros v VT. rewrite GM. apply G. auto.
  - rewrite VM. apply G.
  - intros X. apply G. auto.
  - intros K X. destruct (Q K X). apply G; auto.
  - intros K [X Y]. destruct (S K X Y). apply G; auto.
Qed.

Lemma flat_pvars_nil : forall s, existsb is_var s = false -> flat_map pvars s = [].
Proof. induction s as [|[v o|c o] s IH]; cbn; intros H; auto. discriminate. Qed.

Lemma ag_color : forall e ty d k k' r, nth_error tab ty = Some d -> ctyped n e ty -> compile_color tab vars e (k * k') = Ok r ->
  ag ty k r (cvars e) (fun s v => if value_eqb (cval tab vars s e) v then k' else 0%N) True
     (fun v => if hasv e then 0%N else if value_eqb (cval tab vars (fun _ => VE 0) e) v then k' else 0%N)
     (if hasv e then k' else 0%N) (hasv e = true) (k' <> 0%N) True.
Proof.
  intros e ty d k k' r TY H E. destruct (compile_color_ok e ty _ _ H E) as (s & -> & L & PV' & IV & S).
  assert (AV : arc_vars (KColl (basic_sizes n ty) s (k * k')) = cvars e) by (cbn; rewrite <- PV'; reflexivity).
  assert (X : forall b v i, (if Nat.eqb (pseq_num b (basic_sizes n ty) s) i then Z.of_N (k * k') else 0%Z) =
     Z.of_N (k * (if value_eqb v v then (if Nat.eqb (pseq_num b (basic_sizes n ty) s) i then k' else 0%N) else 0%N))).
  { intros b v i. assert (R : value_eqb v v = true) by (apply value_eqb_eq; auto). rewrite R. destruct (_ =? i); lia. }
  constructor; cbn [kok arc_vars den nosub gpart vcount gfree kpos subok]; auto.
  - intros v. cbn in AV. rewrite AV. tauto.
  - intros a b v A V. destruct (S a b A) as [VT PS]. rewrite PS, (enc_eqb n) by auto. destruct (value_eqb _ _); lia.
  - intros c LC. destruct (existsb is_var s) eqn:IS; auto.
    pose proof (pseq_lt [] (basic_sizes n ty) s (basic_pos n T _ _ TY) L). destruct (Nat.eqb_spec (pseq_num [] (basic_sizes n ty) s) c); [lia|auto].
  - intros v V. rewrite <- IV. destruct (existsb is_var s) eqn:IS; [lia|].
    assert (CV : cvars e = []) by (rewrite <- PV'; apply flat_pvars_nil; auto).
    destruct (S (fun _ => VE 0) []) as [VT PS]; [intros w ty0 W; rewrite CV in W; contradiction|].
    rewrite PS, (enc_eqb n) by auto. destruct (value_eqb _ _); lia.
  - rewrite <- IV. destruct (existsb is_var s); lia.
  - intros F. rewrite IV. auto.
  - intros K K'. nia.
Qed.

Definition agood (ty : nat) (k : N) (a : aexp) (e : carc) : Prop :=
  ag ty k e (avars a) (fun s v => mval tab vars s a v) (plain a) (gmul n a) (vmul a) (allv a) (apos a) (apos a /\ sub_ok n a).

Lemma compile_arc_ok : forall a ty d k e, nth_error tab ty = Some d -> atyped n a ty -> compile_arc tab vars a k = Ok e -> agood ty k a e.
Proof.
  intros a. induction a as [es m|es IHs|l r IHl IHr|a m IHa] using aexp_ind'; intros ty d k e TY H E.
  - cbn [compile_arc] in E. destruct es as [|x [|y es]]; try discriminate. cbn [atyped] in H. destruct H as [_ H].
    inversion H; subst. pose proof (ag_color x ty d k m e TY ltac:(auto) E) as G. unfold agood.
    eapply ag_ext; [exact G| | | | | | | |]; cbn [avars mval plain gmul vmul allv apos sub_ok flat_map map sumN]; intros; try lia; auto.
    + rewrite app_nil_r. tauto.
    + inversion H0; auto.
  - cbn [atyped] in H. destruct H as [NE H]. destruct es as [|x es]; [congruence|]. destruct H as [H1 H2].
    inversion IHs as [|? ? Q1 Q2]; subst. cbn [compile_arc] in E. binv E top E1. pose proof (Q1 _ _ _ _ TY H1 E1) as G1. clear IHs Q1 NE.
    assert (X : forall es top e vs mv (p : Prop) gm v0 (a q s : Prop), Forall (fun a => forall ty d k e, nth_error tab ty = Some d -> atyped n a ty -> compile_arc tab vars a k = Ok e -> agood ty k a e) es ->
      (fix go (es : list aexp) : Prop := match es with [] => True | e :: es' => atyped n e ty /\ go es' end) es ->
      (fix go (es : list aexp) (top : carc) : res carc :=
         match es with
         | [] => Ok top
         | e' :: es'' => x <- compile_arc tab vars e' k ;; go es'' (KAdd top x)
         end) es top = Ok e ->
      ag ty k top vs mv p gm v0 a q (q /\ s) ->
      ag ty k e (vs ++ flat_map avars es) (fun s v => mv s v + sumN (map (fun e => mval tab vars s e v) es))%N
        (p /\ plain (AAdd es)) (fun v => gm v + sumN (map (fun e => gmul n e v) es))%N (v0 + sumN (map vmul es))%N
        (a /\ allv (AAdd es)) (q /\ apos (AAdd es)) ((q /\ apos (AAdd es)) /\ (s /\ sub_ok n (AAdd es)))).
    { clear - TY. induction es as [|y es IH]; intros top e vs mv p gm v0 a q s F H E G.
      - inversion E; subst. eapply ag_ext; [exact G| | | | | | | |]; cbn; intros; try lia; try tauto.
        rewrite app_nil_r. tauto.
      - inversion F as [|? ? F1 F2]; subst. destruct H as [H1 H2]. binv E x E1.
        pose proof (F1 _ _ _ _ TY H1 E1) as G2. pose proof (ag_add _ _ _ _ _ _ _ _ _ _ _ _ _ _ _ _ _ _ _ _ G G2) as G3.
        assert (G4 : ag ty k (KAdd top x) (vs ++ avars y) (fun s v => mv s v + mval tab vars s y v)%N (p /\ plain y)
          (fun v => gm v + gmul n y v)%N (v0 + vmul y)%N (a /\ allv y) (q /\ apos y) ((q /\ apos y) /\ (s /\ sub_ok n y))).
        { eapply ag_ext; [exact G3| | | | | | | |]; intros; try lia; try tauto. }
        pose proof (IH _ _ _ _ _ _ _ _ _ _ F2 H2 E G4) as G5.
        eapply ag_ext; [exact G5| | | | | | | |]; cbn [flat_map map sumN plain allv apos sub_ok]; intros; try lia; try tauto.
        rewrite !in_app_iff. tauto. }
    pose proof (X _ _ _ _ _ _ _ _ _ _ _ Q2 H2 E G1) as G5. unfold agood.
    eapply ag_ext; [exact G5| | | | | | | |]; cbn [avars mval plain gmul vmul allv apos sub_ok flat_map map sumN]; intros; try lia; try tauto.
  - cbn [atyped] in H. destruct H as [H1 H2]. cbn [compile_arc] in E. binv E x E1. binv E y E2. inversion E; subst.
    pose proof (IHl _ _ _ _ TY H1 E1) as G1. pose proof (IHr _ _ _ _ TY H2 E2) as G2.
    pose proof (ag_sub _ _ _ _ _ _ _ _ _ _ _ _ _ _ _ _ _ _ _ _ _ TY G1 G2) as G3. unfold agood.
    eapply ag_ext; [exact G3| | | | | | | |]; cbn [avars mval plain gmul vmul allv apos sub_ok]; intros; try lia; try tauto.
  - cbn [atyped] in H. cbn [compile_arc] in E. pose proof (IHa _ _ _ _ TY H E) as G. unfold agood.
    eapply ag_ext; [exact G| | | | | | | |]; cbn [avars mval plain gmul vmul allv apos sub_ok]; intros; try lia; try tauto.
    + split; [|tauto]. destruct H1. nia.
    + split; [|tauto]. destruct H1. nia.
Qed.

(** ** Constants *)

Lemma const_vals : forall es cs l, length es = length cs -> tup_typed es cs -> color_visits tab vars es = Ok l ->
  existsb is_var (map fst l) = false -> forall z, (forall e, In e es -> esize tab (ctype vars e) = z) ->
  map (const_val z) (map fst l) = map (fun xs => pcol_val [] (fst xs) (snd xs)) (combine (map fst l) (map snd l)).
Proof.
  induction es as [|e es IH]; intros [|c cs] l L H E V z Z; cbn [length color_visits] in *; try discriminate.
  - inversion E; subst. reflexivity.
  - destruct H as [H1 H2]. apply bind_inv in E. destruct E as ([x s] & E1 & E). binv E m E2. inversion E; subst.
    destruct (color_visit_ok _ _ _ _ H1 E1) as (P & -> & _). cbn [map fst snd combine existsb] in *.
    apply orb_false_elim in V. destruct V as [V1 V2]. f_equal.
    + destruct x; [discriminate|]. cbn. rewrite <- (Z e) by (left; auto). rewrite (ctyped_ctype n e c) by auto. reflexivity.
    + apply (IH cs); auto; try lia. intros. apply Z. right. auto.
Qed.

Lemma const_seq : forall a ty d k sz s m, nth_error tab ty = Some d -> atyped n a ty -> const_ok n a ->
  compile_arc tab vars a k = Ok (KColl sz s m) -> existsb is_var s = false ->
  seq_num sz (map (const_val (hd 0 sz)) s) = pseq_num [] sz s.
Proof.
  intros a. induction a as [es j|es IHs|l r IHl IHr|a j IHa] using aexp_ind'; intros ty d k sz s m TY H C E V.
  - cbn [compile_arc] in E. destruct es as [|x [|y es]]; try discriminate. cbn [atyped] in H. destruct H as [_ H].
    inversion H; subst. unfold pseq_num. f_equal. destruct x as [|v|uty ui|e|e|es].
    1-5: cbn [compile_color] in E; apply bind_inv in E; destruct E as ([x z] & E1 & E); cbn in E; inversion E; subst;
         cbn [map hd combine]; destruct x; [discriminate|reflexivity].
    cbn [compile_color] in E. binv E l E1. inversion E; subst. cbn [ctyped] in H2. destruct H2 as (cs & TP & L & H2).
    destruct (color_visits_ok es cs l L H2 E1) as (A1 & A2 & A3 & A4 & A5 & A6).
    apply (const_vals es cs); auto. intros e I. rewrite A5 in V.
    specialize (C es eq_refl V). destruct es as [|e0 es]; [contradiction|]. rewrite (C e e0) by (auto; left; auto).
    destruct cs as [|c0 cs]; [discriminate|]. rewrite A1. cbn [map hd]. destruct H2 as [H2 _]. inversion A3; subst.
    rewrite (ctyped_ctype n e0 c0) by auto. reflexivity.
  - cbn [atyped] in H. destruct H as [NE H]. destruct es as [|x es]; [congruence|]. destruct H as [H1 H2].
    inversion IHs as [|? ? Q1 Q2]; subst. cbn [compile_arc] in E. binv E top E1. destruct es as [|y es].
    + inversion E; subst. eapply Q1; eauto.
    + exfalso. binv E z E2. clear - E. revert E. generalize top z. clear. induction es as [|y es IH]; intros top z E; [discriminate|].
      binv E w E2. eapply IH; eauto.
  - cbn [compile_arc] in E. binv E x E1. binv E y E2. discriminate.
  - cbn [compile_arc atyped] in *. eapply IHa; eauto.
Qed.

Lemma compile_ok : forall a ty d e, nth_error tab ty = Some d -> atyped n a ty -> const_ok n a -> compile tab vars a = Ok e ->
  kok (basic_sizes n ty) e /\ (forall v, In v (arc_vars e) <-> In v (avars a)) /\
  (forall s b v, agree b s (avars a) -> vtyped tab ty v -> den b e (enc n ty v) = Z.of_N (mval tab vars s a v)) /\
  (apos a -> kpos e) /\ (apos a -> sub_ok n a -> subok e).
Proof.
  intros a ty d e TY H C E. unfold compile in E. binv E e0 E0. pose proof (compile_arc_ok a ty d 1%N e0 TY H E0) as G.
  assert (X : kok (basic_sizes n ty) e0 /\ (forall v, In v (arc_vars e0) <-> In v (avars a)) /\
    (forall s b v, agree b s (avars a) -> vtyped tab ty v -> den b e0 (enc n ty v) = Z.of_N (mval tab vars s a v)) /\
    (apos a -> kpos e0) /\ (apos a -> sub_ok n a -> subok e0)).
  { split; [apply G|]. split; [apply G|]. split; [|split; intros; apply G; auto; lia].
    intros s b v A V. rewrite (g_den _ _ _ _ _ _ _ _ _ _ _ G s b v A V). f_equal. lia. }
  clear G. destruct e0 as [l r|l r|m|sz s k]; cbn [replace_constants] in E; try (inversion E; subst; exact X).
  destruct (existsb is_var s) eqn:V; [inversion E; subst; exact X|].
  binv E z EZ. apply signed_ok in EZ. subst z. binv E m EM. destruct (0 <? ms_card m)%Z; inversion E; subst. clear E.
  destruct X as ((-> & L) & X2 & X3 & X4 & X5).
  rewrite (const_seq a ty d 1%N _ _ _ TY H C E0 V) in EM.
  pose proof (basic_pos n T _ _ TY) as SP.
  destruct (add_count_ok _ _ _ _ _ (proj1 (wf0 _)) (pseq_lt [] _ s SP L) EM) as (P & GE & NN & SM).
  split; [|split; [|split; [|split; cbn; auto]]].
  - cbn. split; [split; [exact P|apply NN; [constructor|lia]]|]. apply SM. unfold small, i32max. cbn. lia.
  - intros v. rewrite <- X2. cbn [arc_vars]. change (flat_map (fun x => match x with PV v0 _ => [v0] | PC _ _ => [] end) s) with (flat_map pvars s).
    rewrite flat_pvars_nil by auto. tauto.
  - intros a' b v A VT. rewrite <- (X3 a' b v A VT). cbn [den]. rewrite GE. cbn.
    rewrite (pseq_ground b [] _ s V). reflexivity.
Qed.

(** ** Guards *)

Lemma guard_color_visit : forall e x, guard_color tab vars e = Ok x -> color_visit tab vars e = Ok x.
Proof.
  induction e; intros x E; cbn [guard_color color_visit] in *; try discriminate; auto;
    binv E y E1; rewrite (IHe _ E1); exact E.
Qed.

Lemma guard_value_ok : forall e ty g, ctyped n e ty -> guard_value tab vars e = Ok g ->
  0 < esize tab ty /\ gval_vars g = cvars e /\ forall a b, agree b a (cvars e) -> cval tab vars a e = VE (gval_of b g).
Proof.
  intros e ty g H E. unfold guard_value in E. apply bind_inv in E. destruct E as ([x s] & E1 & E). inversion E; subst. clear E.
  apply guard_color_visit in E1. destruct (color_visit_ok _ _ _ _ H E1) as (P & -> & V & IV & S). cbn [fst snd].
  split; [auto|]. split.
  - rewrite <- V. destruct x; reflexivity.
  - intros a b A. rewrite (S a b A). destruct x; reflexivity.
Qed.

Lemma guard_values_ok : forall es cs l, length es = length cs -> tup_typed es cs -> guard_values tab vars es = Ok l ->
  flat_map gval_vars l = flat_map cvars es /\
  forall a b, agree b a (flat_map cvars es) ->
    map (fun e' => match cval tab vars a e' with VE i => i | VT _ => 0 end) es = map (gval_of b) l.
Proof.
  induction es as [|e es IH]; intros [|c cs] l L H E; cbn [length guard_values] in *; try discriminate.
  - inversion E; subst. split; auto.
  - destruct H as [H1 H2]. binv E x E1. binv E m E2. inversion E; subst.
    destruct (guard_value_ok _ _ _ H1 E1) as (_ & V & S). destruct (IH cs m ltac:(lia) H2 E2) as [A1 A2].
    cbn [flat_map map]. split; [congruence|]. intros a b A.
    rewrite (S a b) by (eapply agree_incl; [exact A|apply incl_appl, incl_refl]).
    rewrite (A2 a b) by (eapply agree_incl; [exact A|apply incl_appr, incl_refl]). reflexivity.
Qed.

Lemma parse_sequence_ok : forall e ty l, ctyped n e ty -> parse_sequence tab vars e = Ok l ->
  flat_map gval_vars l = cvars e /\
  forall a b, agree b a (cvars e) -> vtyped tab ty (cval tab vars a e) /\
    match cval tab vars a e with VE i => map (gval_of b) l = [i] | VT is => map (gval_of b) l = is end.
Proof.
  intros e ty l H E.
  assert (G : (exists x, guard_value tab vars e = Ok x /\ l = [x]) \/ (exists es, e = ETup es /\ guard_values tab vars es = Ok l)).
  { destruct e; cbn [parse_sequence] in E; try (left; binv E x E1; inversion E; subst; eauto; fail). right. eauto. }
  destruct G as [(x & E1 & ->)|(es & -> & E1)].
  - destruct (guard_value_ok _ _ _ H E1) as (P & V & S). split; [cbn; rewrite app_nil_r; auto|]. intros a b A.
    split; [|rewrite (S a b A); reflexivity].
    eapply agree_typed; eauto.
  - pose proof H as H'. cbn [ctyped] in H'. destruct H' as (cs & TP & L & H2).
    destruct (guard_values_ok es cs l L H2 E1) as [A1 A2]. split; [exact A1|]. intros a b A. cbn [cvars] in A.
    split; [|cbn [cval]; symmetry; auto].
    eapply agree_typed; eauto.
Qed.

Lemma pairs_eq_ok : forall b l r, length l = length r -> (pairs_eq b l r = true <-> map (gval_of b) l = map (gval_of b) r).
Proof.
  induction l as [|x l IH]; intros [|y r] L; cbn in *; try discriminate; [tauto|].
  destruct (Nat.eqb_spec (gval_of b x) (gval_of b y)) as [E|E].
  - rewrite (IH r) by lia. split; [congruence|]. intros Q. inversion Q. auto.
  - split; [discriminate|]. intros Q. inversion Q. congruence.
Qed.

Lemma sequence_eq : forall l r ty x y a b, ctyped n l ty -> ctyped n r ty ->
  parse_sequence tab vars l = Ok x -> parse_sequence tab vars r = Ok y -> length x = length y ->
  agree b a (cvars l ++ cvars r) -> pairs_eq b x y = value_eqb (cval tab vars a l) (cval tab vars a r).
Proof.
  intros l r ty x y a b H1 H2 E1 E2 L A.
  destruct (parse_sequence_ok _ _ _ H1 E1) as [V1 S1]. destruct (parse_sequence_ok _ _ _ H2 E2) as [V2 S2].
  destruct (S1 a b) as [T1 M1]; [eapply agree_incl; [exact A|apply incl_appl, incl_refl]|].
  destruct (S2 a b) as [T2 M2]; [eapply agree_incl; [exact A|apply incl_appr, incl_refl]|].
  apply Bool.eq_true_iff_eq. rewrite pairs_eq_ok by auto. rewrite value_eqb_eq. clear - T1 T2 M1 M2.
  unfold vtyped in T1, T2. destruct (cval tab vars a l), (cval tab vars a r); destruct (nth_error tab ty) as [[k|cs]|]; try contradiction;
    rewrite M1, M2; split; congruence.
Qed.

Lemma compile_guard_ok : forall g k, gtyped n g -> compile_guard tab vars g = Ok k ->
  (forall v, In v (kguard_vars k) <-> In v (gvars g)) /\
  forall a b, agree b a (gvars g) -> guard_eval b k = gval tab vars a g.
Proof.
  induction g as [l r|l r|l r|l r|l IHl r IHr|l IHl r IHr]; intros k H E; cbn [gtyped compile_guard gvars] in *;
    binv E x E1; binv E y E2.
  - inversion E; subst. destruct H as (ty & _ & H1 & H2). destruct (guard_value_ok _ _ _ H1 E1) as (_ & V1 & S1).
    destruct (guard_value_ok _ _ _ H2 E2) as (_ & V2 & S2). cbn [kguard_vars guard_eval gval]. rewrite V1, V2. split; [tauto|].
    intros a b A. rewrite (S1 a b), (S2 a b); [reflexivity| |];
      (eapply agree_incl; [exact A|]; auto using incl_appl, incl_appr, incl_refl).
  - inversion E; subst. destruct H as (ty & _ & H1 & H2). destruct (guard_value_ok _ _ _ H1 E1) as (_ & V1 & S1).
    destruct (guard_value_ok _ _ _ H2 E2) as (_ & V2 & S2). cbn [kguard_vars guard_eval gval]. rewrite V1, V2. split; [tauto|].
    intros a b A. rewrite (S1 a b), (S2 a b); [reflexivity| |];
      (eapply agree_incl; [exact A|]; auto using incl_appl, incl_appr, incl_refl).
  - destruct (Nat.eqb_spec (length x) (length y)) as [L|]; [|discriminate]. inversion E; subst. destruct H as (ty & H1 & H2).
    cbn [kguard_vars guard_eval gval]. rewrite (proj1 (parse_sequence_ok _ _ _ H1 E1)), (proj1 (parse_sequence_ok _ _ _ H2 E2)).
    split; [tauto|]. intros a b A. eapply sequence_eq; eauto.
  - destruct (Nat.eqb_spec (length x) (length y)) as [L|]; [|discriminate]. inversion E; subst. destruct H as (ty & H1 & H2).
    cbn [kguard_vars guard_eval gval]. rewrite (proj1 (parse_sequence_ok _ _ _ H1 E1)), (proj1 (parse_sequence_ok _ _ _ H2 E2)).
    split; [tauto|]. intros a b A. f_equal. eapply sequence_eq; eauto.
  - inversion E; subst. destruct H as [H1 H2]. destruct (IHl _ H1 E1) as [V1 S1]. destruct (IHr _ H2 E2) as [V2 S2].
    cbn [kguard_vars guard_eval gval]. split; [intros v; rewrite !in_app_iff, V1, V2; tauto|].
    intros a b A. rewrite (S1 a b), (S2 a b); [reflexivity| |];
      (eapply agree_incl; [exact A|]; auto using incl_appl, incl_appr, incl_refl).
  - inversion E; subst. destruct H as [H1 H2]. destruct (IHl _ H1 E1) as [V1 S1]. destruct (IHr _ H2 E2) as [V2 S2].
    cbn [kguard_vars guard_eval gval]. split; [intros v; rewrite !in_app_iff, V1, V2; tauto|].
    intros a b A. rewrite (S1 a b), (S2 a b); [reflexivity| |];
      (eapply agree_incl; [exact A|]; auto using incl_appl, incl_appr, incl_refl).
Qed.

End Comp.
