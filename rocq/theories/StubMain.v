(** The stubborn transitions suffice to reach a goal. *)
From Verif Require Import Base BaseLemmas NetSpec NetModel NetProofs PqlSyntax PqlSpec PqlModel PqlProofs PqlRuns StubSpec StubModel StubTheory StubProofs.

(** ** Formulas in a marking *)
Definition hm (net : pnet) (m : marking) (c : cond) : Prop := holds net (fun _ => m) c.
Lemma holds_head : forall net c, atomic c = true -> forall pi, holds net pi c <-> hm net (pi 0) c.
Proof.
  intros net c. unfold hm. induction c using cond_ind'; cbn [atomic holds]; intros Ha pi; try discriminate Ha; try tauto.
  - rewrite (IHc Ha pi). tauto.
  - rewrite forallb_forall in Ha. rewrite Forall_forall in H. rewrite !fr_and. split; intros G x Hx; apply (H x Hx (Ha x Hx) pi); auto.
  - rewrite forallb_forall in Ha. rewrite Forall_forall in H. induction l as [|c l IH]; cbn [map fold_right]; [tauto|].
    rewrite (H c (or_introl eq_refl) (Ha c (or_introl eq_refl)) pi). rewrite IH; [tauto| |]; intros; [apply H|apply Ha]; auto; right; assumption.
Qed.
Lemma sat_hm : forall net m c, wf_pnet net -> atomic c = true -> (sat net m c <-> hm net m c).
Proof.
  intros net m c Hw Ha. unfold sat. split.
  - intros H. destruct (runs_exist net m Hw) as (pi & M & E). specialize (H pi M E). apply (holds_head _ _ Ha) in H. rewrite E in H. exact H.
  - intros H pi _ E. apply (holds_head _ _ Ha). rewrite E. exact H.
Qed.
Lemma fr_or : forall A (f : A -> Prop) l, fold_right or False (map f l) <-> exists x, In x l /\ f x.
Proof.
  intros A f. induction l as [|x l IH]; cbn [map fold_right]; [split; [tauto|intros (x & [] & _)]|]. rewrite IH. split.
  - intros [H|(y & Hy & H)]; [exists x; split; [left; reflexivity|exact H]|exists y; split; [right; exact Hy|exact H]].
  - intros (y & [<-|Hy] & H); [left; exact H|right; exists y; auto].
Qed.
Lemma constant_den : forall m m' e, constant e = true -> den m e = den m' e.
Proof.
  intros m m'. assert (M : forall es, Forall (fun e => constant e = true -> den m e = den m' e) es -> forallb constant es = true -> map (den m) es = map (den m') es).
  { intros es H Hc. apply map_ext_in. intros e He. rewrite Forall_forall in H. rewrite forallb_forall in Hc. auto. }
  induction e using expr_ind'; cbn [constant den]; intros Hc; try discriminate Hc; auto.
  - rewrite IHe by exact Hc. reflexivity.
  - apply andb_true_iff in Hc. destruct Hc as (A & B). rewrite (IHe A), (M _ H B). reflexivity.
  - destruct ids; [|discriminate]. rewrite (M _ H Hc). reflexivity.
  - destruct ids; [|discriminate]. rewrite (M _ H Hc). reflexivity.
Qed.
Lemma weight_at_arc : forall l p, (0 < weight_at l p)%N -> exists a, In a l /\ arc_place a = p /\ arc_inhib a = false.
Proof.
  induction l as [|a l IH]; intros p H; [rewrite weight_at_nil in H; lia|]. rewrite weight_at_cons in H.
  destruct (Nat.eqb (arc_place a) p && negb (arc_inhib a)) eqn:E.
  - apply andb_true_iff in E. destruct E as (A & B). exists a. split; [left; reflexivity|]. split; [apply Nat.eqb_eq; exact A|apply negb_true_iff; exact B].
  - destruct (IH p) as (b & A & B); [lia|]. exists b. split; [right; exact A|exact B].
Qed.

Section Net.
  Variable net : cnet.
  Hypothesis L : layout net.
  Hypothesis D : dirs_ok net.
  Notation P := (to_pnet net).
  Notation n := (cn_ntrans net).
  Lemma ntrans_len : length (pn_trans P) = n.
  Proof. unfold to_pnet; cbn [pn_trans]. rewrite map_length, seq_length. reflexivity. Qed.
  Lemma trn_net : forall t, t < n -> trn P t = net_trans net t.
  Proof. intros t Ht. unfold trn. apply nth_error_nth. apply net_trans_in. exact Ht. Qed.
  Lemma pre_slice : forall t, tr_pre (net_trans net t) = map inv_arc (in_slice net t).
  Proof. reflexivity. Qed.
  Lemma post_slice : forall t, tr_post (net_trans net t) = map out_arc_of (out_slice net t).
  Proof. reflexivity. Qed.
  Lemma dir_effect : forall t iv, t < n -> In iv (in_slice net t) \/ In iv (out_slice net t) -> iv_dir iv = Z.sgn (effect P t (iv_place iv)).
  Proof. intros t iv Ht H. unfold effect. rewrite (trn_net t Ht). apply D; [exact Ht|exact H]. Qed.
  Lemma up_arc : forall t p, t < n -> (0 < effect P t p)%Z -> exists iv, In iv (out_slice net t) /\ iv_place iv = p /\ (0 < iv_dir iv)%Z.
  Proof.
    intros t p Ht H. assert (W : (0 < weight_at (tr_post (net_trans net t)) p)%N) by (unfold effect in H; rewrite (trn_net t Ht) in H; lia).
    apply weight_at_arc in W. destruct W as (a & Ia & Ep & _). rewrite post_slice in Ia. apply in_map_iff in Ia. destruct Ia as (iv & <- & Ii).
    exists iv. split; [exact Ii|]. split; [exact Ep|]. rewrite (dir_effect t iv Ht (or_intror Ii)). cbn in Ep. rewrite Ep. lia.
  Qed.
  Lemma down_arc : forall t p, t < n -> (effect P t p < 0)%Z -> exists iv, In iv (in_slice net t) /\ iv_place iv = p /\ iv_inhib iv = false /\ (iv_dir iv < 0)%Z.
  Proof.
    intros t p Ht H. assert (W : (0 < weight_at (tr_pre (net_trans net t)) p)%N) by (unfold effect in H; rewrite (trn_net t Ht) in H; lia).
    apply weight_at_arc in W. destruct W as (a & Ia & Ep & Ei). rewrite pre_slice in Ia. apply in_map_iff in Ia. destruct Ia as (iv & <- & Ii).
    exists iv. split; [exact Ii|]. split; [exact Ep|]. split; [exact Ei|]. rewrite (dir_effect t iv Ht (or_introl Ii)). cbn in Ep. rewrite Ep. lia.
  Qed.
  Lemma ups_only : forall S p, ups net S p -> only_up P S p.
  Proof.
    intros S p U u Hu He. rewrite ntrans_len in Hu. destruct (up_arc u p Hu He) as (iv & A & B & C). apply U. apply pre_of_in. split; [exact Hu|]. exists iv. auto.
  Qed.
  Lemma downs_only : forall S p, downs net S p -> only_down P S p.
  Proof.
    intros S p U u Hu He. rewrite ntrans_len in Hu. destruct (down_arc u p Hu He) as (iv & A & B & C & E).
    apply (U u (iv_dir iv)); [|exact E]. apply post_of_in. split; [exact Hu|]. exists iv. auto.
  Qed.

  Variable m : marking.
  Hypothesis Hm : length m = cn_places net.
  Variable en : nat -> bool.
  Hypothesis Hen : forall t, en t = true <-> t < n /\ enabled (net_trans net t) m.
  Lemma fails_arc : forall iv, fails m iv = true <-> ~ arc_ok m (inv_arc iv).
  Proof.
    intros iv. unfold fails, arc_ok, inv_arc, tok; cbn [arc_inhib arc_place arc_weight]. fold (tokens m (iv_place iv)).
    destruct (iv_inhib iv); [rewrite N.leb_le; lia|rewrite N.ltb_lt; lia].
  Qed.
  Lemma en_fails : forall t, t < n -> en t = false -> exists iv, In iv (in_slice net t) /\ fails m iv = true.
  Proof.
    intros t Ht E. destruct (existsb (fails m) (in_slice net t)) eqn:X; [apply existsb_exists in X; exact X|].
    exfalso. assert (Y : en t = true); [|congruence]. apply Hen. split; [exact Ht|]. intros a Ia. rewrite pre_slice in Ia. apply in_map_iff in Ia. destruct Ia as (iv & <- & Ii).
    destruct (arc_okb m (inv_arc iv)) eqn:Z; [apply arc_okb_spec; exact Z|].
    assert (F : existsb (fails m) (in_slice net t) = true); [|congruence]. apply existsb_exists. exists iv. split; [exact Ii|].
    apply fails_arc. rewrite <- arc_okb_spec. congruence.
  Qed.
  Lemma closed_c_at : forall S t, t < n -> closed_c net m en S t -> closed_at P S m t.
  Proof.
    intros S t Ht (A & B). split; rewrite (trn_net t Ht).
    - intros E. destruct (A (proj2 (Hen t) (conj Ht E))) as (A1 & A2). intros u a Hu Su Ia. rewrite ntrans_len in Hu. rewrite (trn_net u Hu) in Ia.
      rewrite pre_slice in Ia. apply in_map_iff in Ia. destruct Ia as (iv & <- & Ii). cbn [inv_arc arc_inhib arc_place].
      destruct (iv_inhib iv) eqn:Ei.
      + destruct (Z.lt_ge_cases 0 (effect P t (iv_place iv))) as [G|G]; [exfalso|exact G].
        destruct (up_arc t _ Ht G) as (iv2 & I2 & E2 & D2). specialize (A2 iv2 I2 D2 u). rewrite A2 in Su; [discriminate|].
        apply inhib_of_in. split; [exact Hu|]. exists iv. rewrite E2. auto.
      + destruct (Z.lt_ge_cases (effect P t (iv_place iv)) 0) as [G|G]; [exfalso|exact G].
        destruct (down_arc t _ Ht G) as (iv2 & I2 & E2 & _ & D2). specialize (A1 iv2 u (iv_dir iv) I2 D2). rewrite A1 in Su; [discriminate|].
        apply post_of_in. split; [exact Hu|]. exists iv. rewrite E2. auto.
    - intros E. destruct B as (iv & Ii & F & K).
      { destruct (en t) eqn:X; [|reflexivity]. apply Hen in X. tauto. }
      exists (inv_arc iv). rewrite (trn_net t Ht), pre_slice. split; [apply in_map; exact Ii|]. split; [apply fails_arc; exact F|].
      cbn [inv_arc arc_inhib arc_place]. destruct (iv_inhib iv); [apply downs_only|apply ups_only]; exact K.
  Qed.

  (** ** Expressions along runs outside the set *)
  Lemma moved_tokens : forall S w m1 p up, moved net up p S -> nsrun P S m w m1 -> if up : bool then (tokens m1 p <= tokens m p)%N else (tokens m p <= tokens m1 p)%N.
  Proof.
    intros S w m1 p up H R. destruct up.
    - eapply not_up; [|exact R]. apply ups_only. exact H.
    - eapply not_down; [|exact R]. apply downs_only. exact H.
  Qed.
  Definition cmpz (up : bool) (x y : Z) : Prop := if up then (y <= x)%Z else (x <= y)%Z.
  Lemma cmpz_refl : forall up x, cmpz up x x. Proof. intros [|] x; cbn; lia. Qed.
  Lemma sum_cmpz : forall A (f g : A -> Z) up l, (forall x, In x l -> cmpz up (f x) (g x)) -> cmpz up (fold_right Z.add 0%Z (map f l)) (fold_right Z.add 0%Z (map g l)).
  Proof.
    intros A f g up. induction l as [|x l IH]; intros H; cbn [map fold_right]; [apply cmpz_refl|].
    pose proof (H x (or_introl eq_refl)) as Hx. specialize (IH (fun y Hy => H y (or_intror Hy))). unfold cmpz in *. destruct up; lia.
  Qed.
  Lemma cmpz_both : forall x y, cmpz true x y -> cmpz false x y -> x = y. Proof. unfold cmpz. intros; lia. Qed.
  Lemma moved_cmpz : forall S w m1 p up, moved net up p S -> nsrun P S m w m1 -> cmpz up (Z.of_N (tokens m p)) (Z.of_N (tokens m1 p)).
  Proof. intros S w m1 p up H R. pose proof (moved_tokens _ _ _ _ _ H R) as G. unfold cmpz. destruct up; lia. Qed.
  Lemma eok_den : forall S w m1, nsrun P S m w m1 -> forall e up, por_expr e = true -> eok net S up e -> cmpz up (den m e) (den m1 e).
  Proof.
    intros S w m1 R. induction e using expr_ind'; intros up Hp He; cbn [por_expr eok den] in *.
    - apply cmpz_refl.
    - eapply moved_cmpz; eauto.
    - apply IHe; assumption.
    - rewrite (constant_den m m1 e Hp). apply cmpz_refl.
    - apply andb_true_iff in Hp. destruct Hp as (Hp1 & Hp2). destruct He as (He1 & He2). rewrite fr_and in He2. rewrite forallb_forall in Hp2. rewrite Forall_forall in H.
      specialize (IHe up Hp1 He1). pose proof (sum_cmpz _ (den m) (den m1) (negb up) es) as Sm. unfold cmpz in *. destruct up; cbn [negb] in *; lapply Sm; try lia; intros x Hx; exact (H x Hx _ (Hp2 x Hx) (He2 x Hx)).
    - destruct He as (He1 & He2). rewrite fr_and in He2. rewrite forallb_forall in Hp. rewrite Forall_forall in H.
      pose proof (sum_cmpz _ (den m) (den m1) up es (fun x Hx => H x Hx up (Hp x Hx) (He2 x Hx))) as S1.
      pose proof (sum_cmpz _ (fun p => Z.of_N (tokens m p)) (fun p => Z.of_N (tokens m1 p)) up ids (fun x Hx => moved_cmpz _ _ _ _ _ (He1 x Hx) R)) as S2.
      unfold cmpz in *. destruct up; lia.
    - apply andb_true_iff in Hp. destruct Hp as (Hc & Hp). rewrite forallb_forall in Hp. rewrite Forall_forall in H.
      destruct (Nat.eqb (length ids + length es) 1) eqn:E1.
      + apply Nat.eqb_eq in E1. cbn [negb orb] in Hc. apply Z.leb_le in Hc. destruct He as (He1 & He2). rewrite fr_and in He2.
        destruct ids as [|p [|q ids]]; cbn [length] in E1; try lia.
        * destruct es as [|e [|e2 es]]; cbn [length] in E1; try lia. cbn [map fold_right].
          pose proof (H e (or_introl eq_refl) up (Hp e (or_introl eq_refl)) (He2 e (or_introl eq_refl))) as G. unfold cmpz in *. destruct up; nia.
        * destruct es as [|e es]; cbn [length] in E1; try lia. cbn [map fold_right].
          pose proof (moved_cmpz _ _ _ _ _ (He1 p (or_introl eq_refl)) R) as G. unfold cmpz in *. destruct up; nia.
      + destruct He as (He1 & He2 & He3). rewrite fr_and in He2, He3.
        rewrite (map_ext_in (den m) (den m1) es). 2: { intros x Hx. apply cmpz_both; apply H; auto. }
        rewrite (map_ext_in (fun p => Z.of_N (tokens m p)) (fun p => Z.of_N (tokens m1 p)) ids). 2: { intros x Hx. destruct (He1 x Hx) as (U1 & U2). apply cmpz_both; eapply moved_cmpz; eauto. }
        apply cmpz_refl.
  Qed.

  (** ** Conditions *)
  Hypothesis Hfit : fits m.
  Variable mk : bool.
  Variable deadb : list N -> bool.
  Hypothesis Hdead : deadb m = true <-> dead P m.
  Hypothesis Hnd : exists t, en t = true.
  Definition frozen (neg : bool) (c : cond) (S : nat -> bool) : Prop :=
    (if neg then hm P m c else ~ hm P m c) -> forall w m1, nsrun P S m w m1 -> if neg then hm P m1 c else ~ hm P m1 c.
  Lemma nsrun_sub : forall S S' w m1, sub S S' -> nsrun P S' m w m1 -> nsrun P S m w m1.
  Proof.
    intros S S' w m1 Sb (R & F). split; [exact R|]. eapply Forall_impl; [|exact F]. cbv beta. intros t Ht. destruct (S t) eqn:E; [|reflexivity]. rewrite (Sb t E) in Ht. discriminate.
  Qed.
  Lemma frozen_mono : forall neg c, mono (frozen neg c).
  Proof. intros neg c S S' Sb H H0 w m1 R. apply (H H0 w). eapply nsrun_sub; eauto. Qed.
  Lemma satisfied_hm : forall c, atomic c = true -> (satisfied m deadb c = true <-> hm P m c).
  Proof.
    intros c Ha. pose proof (ly_wf L) as Hw. assert (Hs : stf c = true).
    { clear Hw. induction c using cond_ind'; cbn [atomic stf] in *; try discriminate Ha; auto.
      - rewrite forallb_forall in *. rewrite Forall_forall in H. auto.
      - rewrite forallb_forall in *. rewrite Forall_forall in H. auto. }
    destruct (evaluate_sat P deadb m c Hw Hfit Hdead Hs) as (A & B & C). specialize (C Ha). unfold satisfied.
    rewrite <- (sat_hm P m c Hw Ha). destruct (evaluate deadb m c); split; intros; auto; try discriminate; try congruence; exfalso; apply B; auto.
  Qed.
  Notation vc := (visit_cond net m en mk deadb).
  Notation opk := (opok net m en).
  Lemma least_ok : exists t, least_dependent net en = Some t /\ en t = true.
  Proof.
    unfold least_dependent.
    assert (G : forall l b, (forall t, b = Some t -> en t = true) -> (b <> None \/ exists t, In t l /\ en t = true) ->
      exists t, fold_left (fun b t => if en t then match b with None => Some t | Some u => if dependency_of net t <? dependency_of net u then Some t else Some u end else b) l b = Some t /\ en t = true).
    { induction l as [|t l IH]; intros b Hb He; cbn [fold_left].
      - destruct b as [t|]; [exists t; auto|]. destruct He as [He|(t & [] & _)]. congruence.
      - apply IH.
        + intros u. destruct (en t) eqn:E; [|apply Hb]. destruct b as [v|]; [destruct (_ <? _)|]; intros X; injection X as <-; auto.
        + destruct (en t) eqn:E; [left; destruct b; [destruct (_ <? _)|]; discriminate|].
          destruct He as [He|(u & [<-|Hu] & Eu)]; [left; exact He|congruence|right; exists u; auto]. }
    apply G; [discriminate|]. right. destruct Hnd as (t & Et). exists t. split; [|exact Et]. apply Hen in Et. apply in_seq. lia.
  Qed.
  Lemma dead_run : forall w m1, dead P m -> run P m w m1 -> m1 = m.
  Proof.
    intros w m1 Hd R. inversion R as [|? t ma ? ? St Ra]; subst; [reflexivity|]. exfalso. destruct St as (tr & Et & En & _). exact (Hd t tr Et En).
  Qed.
  Let HenF := en_fails.
  Lemma post_preset_ok : forall t s, inv net s -> pending net m en s ->
    opk s (post_preset_of net m en mk s t) (fun S => forall iv, In iv (in_slice net t) -> if iv_inhib iv then ups net S (iv_place iv) else downs net S (iv_place iv)).
  Proof.
    intros t s I Pe. unfold post_preset_of.
    apply (@opok_fold net m en _ _ (fun iv S => if iv_inhib iv then ups net S (iv_place iv) else downs net S (iv_place iv))); auto.
    - intros iv S S' Sb. destruct (iv_inhib iv); [apply ups_sub|apply downs_sub]; exact Sb.
    - intros iv s1 _ I1 P1. destruct (iv_inhib iv); [apply preset_of_ok|apply postset_of_ok]; auto.
  Qed.
  Lemma opk_weak : forall s r Q, opk s r Q -> opk s r (fun _ => True).
  Proof. intros s r Q H. eapply opok_imp; [exact H|]. auto. Qed.
  Lemma visit_cmp_total : forall neg o x y s, inv net s -> pending net m en s -> opk s (visit_cmp net m en mk neg o x y s) (fun _ => True).
  Proof.
    intros neg o x y s I Pe.
    assert (E : forall up e s, inv net s -> pending net m en s -> opk s (visit_expr net m en mk up e s) (fun _ => True)).
    { intros up e s0 I0 P0. eapply opk_weak. apply visit_expr_ok; auto. }
    assert (E2 : forall u1 e1 u2 e2 s, inv net s -> pending net m en s -> opk s (s <- visit_expr net m en mk u1 e1 s ;; visit_expr net m en mk u2 e2 s) (fun _ => True)).
    { intros. eapply opok_bind; [apply E; auto|]. intros; apply E; auto. }
    assert (R : opk s (Ok s) (fun _ => True)) by (apply opok_ret; auto).
    unfold visit_cmp, want_differ, want_equal, closer, apart.
    assert (A : opk s (s0 <- visit_expr net m en mk true x s;; s1 <- visit_expr net m en mk false x s0;; s2 <- visit_expr net m en mk true y s1;; visit_expr net m en mk false y s2) (fun _ => True)).
    { eapply opok_bind; [apply E; auto|]. intros s1 I1 P1 _. eapply opok_bind; [apply E; auto|]. intros; apply E2; auto. }
    destruct o, neg; repeat match goal with |- context [if ?b then _ else _] => destruct b end; auto.
  Qed.
  Lemma wrap32_id : forall z, int32 z -> wrap32 z = z.
  Proof. intros z H. unfold wrap32, int32 in *. rewrite Z.mod_small by lia. lia. Qed.
  Lemma visit_cmp_ok : forall neg o x y s, inv net s -> pending net m en s -> por_expr x = true -> por_expr y = true -> int32 (den m x) -> int32 (den m y) ->
    opk s (visit_cmp net m en mk neg o x y s) (frozen neg (CCmp o x y)).
  Proof.
    intros neg o x y s I Pe Px Py Sx Sy.
    assert (Gx : get_eval m x = den m x) by (unfold get_eval; rewrite eval_den; apply wrap32_id; exact Sx).
    assert (Gy : get_eval m y = den m y) by (unfold get_eval; rewrite eval_den; apply wrap32_id; exact Sy).
    (* lowering x and raising y are in the set *)
    assert (Cl : opk s (closer net m en mk x y s) (fun S => forall w m1, nsrun P S m w m1 -> (den m x <= den m1 x)%Z /\ (den m1 y <= den m y)%Z)).
    { eapply opok_imp; [eapply opok_seq; [apply (eok_mono net x false)|apply visit_expr_ok; auto|]|].
      - intros s1 I1 P1. apply visit_expr_ok; auto.
      - cbv beta. intros S (A & B) w m1 R. split; [exact (eok_den S w m1 R x false Px A)|exact (eok_den S w m1 R y true Py B)]. }
    assert (Op : opk s (s0 <- visit_expr net m en mk true x s ;; visit_expr net m en mk false y s0) (fun S => forall w m1, nsrun P S m w m1 -> (den m1 x <= den m x)%Z /\ (den m y <= den m1 y)%Z)).
    { eapply opok_imp; [eapply opok_seq; [apply (eok_mono net x true)|apply visit_expr_ok; auto|]|].
      - intros s1 I1 P1. apply visit_expr_ok; auto.
      - cbv beta. intros S (A & B) w m1 R. split; [exact (eok_den S w m1 R x true Px A)|exact (eok_den S w m1 R y false Py B)]. }
    assert (Ap : opk s (apart net m en mk x y s) (fun S => forall w m1, nsrun P S m w m1 -> den m1 x = den m x /\ den m1 y = den m y)).
    { unfold apart. eapply opok_imp; [eapply opok_seq; [apply (eok_mono net x true)|apply visit_expr_ok; auto|]|].
      - intros s1 I1 P1. eapply opok_seq; [apply (eok_mono net x false)|apply visit_expr_ok; auto|].
        intros s2 I2 P2. eapply opok_seq; [apply (eok_mono net y true)|apply visit_expr_ok; auto|]. intros s3 I3 P3. apply (visit_expr_ok net m en HenF mk y false); auto.
      - cbv beta. intros S (A & B & C & E) w m1 R.
        pose proof (eok_den S w m1 R x true Px A) as X1. pose proof (eok_den S w m1 R x false Px B) as X2.
        pose proof (eok_den S w m1 R y true Py C) as Y1. pose proof (eok_den S w m1 R y false Py E) as Y2. unfold cmpz in *. lia. }
    assert (Tr : forall Q, (forall S, Q S : Prop) -> opk s (Ok s) Q) by (intros Q HQ; apply opok_ret; auto).
    assert (Fz : forall r Q, opk s r Q -> (forall S, Q S -> frozen neg (CCmp o x y) S) -> opk s r (frozen neg (CCmp o x y))) by (intros r Q H; apply opok_imp; exact H).
    unfold visit_cmp, want_differ, want_equal. rewrite Gx, Gy. unfold frozen, hm in *; cbn [holds] in *.
    destruct o, neg; cbn [cmp_holds] in *;
    repeat match goal with |- context [if ?b then _ else _] => match b with context [Z.eqb] => destruct b eqn:? | context [Z.ltb] => destruct b eqn:? | context [Z.leb] => destruct b eqn:? end end;
    first [apply Tr; intros S H0 w m1 R; lia | (eapply Fz; [first [exact Ap|exact Cl|exact Op]|]; cbv beta; intros S HS H0 w m1 R; specialize (HS w m1 R); lia)].
  Qed.
  Lemma conj_dec : forall m0 cs, Forall (cons_holds m0) cs \/ ~ Forall (cons_holds m0) cs.
  Proof.
    intros m0. assert (C : forall c, cons_holds m0 c \/ ~ cons_holds m0 c) by (intros c; unfold cons_holds; lia).
    induction cs as [|c cs IH]; [left; constructor|]. destruct (C c) as [Hc|Hc]; [|right; intros X; inversion X; auto].
    destruct IH as [IH|IH]; [left; constructor; auto|right; intros X; inversion X; auto].
  Qed.
  Lemma tok_fit : forall p, (tok m p <= u32max)%N.
  Proof. intros p. exact (Hfit p). Qed.
  Lemma visit_conj_ok : forall neg k cs s, inv net s -> pending net m en s -> opk s (visit_conj net m en mk (xorb neg k) cs None s) (frozen neg (CConj k cs)).
  Proof.
    intros neg k cs s I Pe. destruct (xorb neg k) eqn:X.
    - eapply opok_imp; [apply visit_conj_neg; auto; exact tok_fit|]. cbv beta. intros S HS H0 w m1 R.
      assert (A : Forall (cons_holds m) cs).
      { destruct neg, k; try discriminate X; unfold hm in H0; cbn [holds] in H0; [exact H0|]. destruct (conj_dec m cs) as [C|C]; [exact C|contradiction]. }
      assert (B : Forall (cons_holds m1) cs).
      { rewrite Forall_forall in *. intros c Hc. destruct (A c Hc) as (A1 & A2). destruct (HS c Hc (conj A1 A2)) as (K1 & K2). split.
        - destruct (N.eq_dec (c_lower c) 0) as [Z|Z]; [lia|]. pose proof (not_down P S (c_place c) m w m1 (downs_only S _ (K1 Z)) R). lia.
        - destruct A2 as [A2|A2]; [left; exact A2|]. destruct (N.eq_dec (c_upper c) u32max) as [Z|Z]; [left; exact Z|].
          pose proof (not_up P S (c_place c) m w m1 (ups_only S _ (K2 Z)) R). right; lia. }
      destruct neg, k; try discriminate X; unfold hm; cbn [holds]; [exact B|tauto].
    - eapply opok_imp; [apply visit_conj_pos; auto; exact tok_fit|]. cbv beta. intros S HS H0 w m1 R.
      assert (A : ~ Forall (cons_holds m) cs) by (destruct neg, k; try discriminate X; unfold hm in H0; cbn [holds] in H0; exact H0).
      assert (B : ~ Forall (cons_holds m1) cs).
      { destruct HS as [(c & Hc & K)|(_ & Hall)].
        - intros F. rewrite Forall_forall in F. destruct (F c Hc) as (F1 & F2). destruct K as [(K1 & K2)|(K1 & K2 & K3)].
          + pose proof (not_up P S (c_place c) m w m1 (ups_only S _ K2) R). unfold tok in K1. fold (tokens m (c_place c)) in K1. lia.
          + pose proof (not_down P S (c_place c) m w m1 (downs_only S _ K3) R). unfold tok in K1. fold (tokens m (c_place c)) in K1. destruct F2; [contradiction|lia].
        - exfalso. apply A. apply Forall_forall. intros c Hc. exact (Hall eq_refl c Hc). }
      destruct neg, k; try discriminate X; unfold hm; cbn [holds]; exact B.
  Qed.
  Lemma visit_total : forall c neg s, inv net s -> pending net m en s -> opk s (vc neg c s) (fun _ => True).
  Proof.
    induction c using cond_ind'; intros neg s I Pe; cbn [visit_cond]; try (apply IHc; assumption).
    - apply opok_ret; auto.
    - destruct (satisfied m deadb CDead); [apply opok_ret; auto|]. destruct least_ok as (t & -> & _). eapply opk_weak. apply post_preset_ok; auto.
    - rewrite Forall_forall in H. destruct neg.
      + eapply opk_weak. apply (@opok_fold net m en _ _ (fun _ _ => True)); auto; intros x S S' _ _; exact Logic.I.
      + induction l as [|c l IH]; [apply opok_ret; auto|]. destruct (satisfied m deadb c); [apply IH; intros; apply H; auto; right; assumption|apply H; auto; left; reflexivity].
    - rewrite Forall_forall in H. destruct neg.
      + induction l as [|c l IH]; [apply opok_ret; auto|]. destruct (satisfied m deadb c); [apply H; auto; left; reflexivity|apply IH; intros; apply H; auto; right; assumption].
      + eapply opk_weak. apply (@opok_fold net m en _ _ (fun _ _ => True)); auto; intros x S S' _ _; exact Logic.I.
    - apply visit_cmp_total; auto.
    - eapply opk_weak. apply visit_conj_ok; auto.
    - eapply opok_bind; [apply IHc1; auto|]. intros s1 I1 P1 _. eapply opok_bind; [apply IHc1; auto|]. intros s2 I2 P2 _. apply IHc2; auto.
    - eapply opok_bind; [apply IHc1; auto|]. intros s1 I1 P1 _. eapply opok_bind; [apply IHc1; auto|]. intros s2 I2 P2 _. apply IHc2; auto.
    - eapply opok_bind; [apply IHc1; auto|]. intros s1 I1 P1 _. eapply opok_bind; [apply IHc1; auto|]. intros s2 I2 P2 _. apply IHc2; auto.
  Qed.
  Lemma visit_cond_ok : forall c, atomic c = true -> por_cond c = true -> small m c -> forall neg s, inv net s -> pending net m en s -> opk s (vc neg c s) (frozen neg c).
  Proof.
    induction c using cond_ind'; cbn [atomic por_cond small]; intros Ha Hp Hs neg s I Pe; try discriminate Ha; cbn [visit_cond].
    - apply opok_ret; auto. intros H w m1 R. exact H.
    - assert (Sd : satisfied m deadb CDead = true <-> dead P m) by (unfold satisfied; cbn [evaluate]; unfold tvb; destruct (deadb m); split; intros; try discriminate; try tauto; apply Hdead; auto).
      destruct (satisfied m deadb CDead) eqn:E.
      + apply opok_ret; auto. assert (Dm : dead P m) by (apply Sd; reflexivity). intros H w m1 (R & _). rewrite (dead_run w m1 Dm R). exact H.
      + destruct least_ok as (t & -> & Et). eapply opok_imp; [apply post_preset_ok; auto|]. cbv beta. intros S HS H w m1 R.
        assert (Nd : ~ dead P m) by (rewrite <- Sd; discriminate). destruct neg; [contradiction|].
        apply Hen in Et. destruct Et as (Lt & En). intros Dm1. apply (Dm1 t (net_trans net t)); [apply net_trans_in; exact Lt|].
        intros a Ia. specialize (En a Ia). rewrite pre_slice in Ia. apply in_map_iff in Ia. destruct Ia as (iv & <- & Ii). specialize (HS iv Ii).
        unfold arc_ok in *; cbn [inv_arc arc_inhib arc_place arc_weight] in *. destruct (iv_inhib iv).
        * pose proof (not_up P S (iv_place iv) m w m1 (ups_only S _ HS) R). lia.
        * pose proof (not_down P S (iv_place iv) m w m1 (downs_only S _ HS) R). lia.
    - eapply opok_imp; [apply (IHc Ha Hp Hs (negb neg) s I Pe)|]. intros S HS H w m1 R. specialize (HS).
      unfold frozen, hm in *; cbn [holds] in *. destruct neg; cbn [negb] in HS.
      + exact (HS H w m1 R).
      + intros X. apply X. apply (HS) with w; [|exact R].
        destruct (satisfied m deadb c) eqn:E; [apply satisfied_hm; auto|]. exfalso. apply H. intros Y. apply (satisfied_hm c Ha) in Y. congruence.
    - rewrite forallb_forall in Ha, Hp. rewrite fr_and in Hs. rewrite Forall_forall in H. destruct neg.
      + eapply opok_imp; [apply (@opok_fold net m en _ _ (fun x => frozen true x)); auto; intros x; apply frozen_mono|].
        cbv beta. intros S HS H0 w m1 R. unfold hm in *; cbn [holds] in *. rewrite fr_and in *. intros x Hx. exact (HS x Hx (H0 x Hx) w m1 R).
      + assert (G : forall l', incl l' l -> opk s ((fix first (l : list cond) : res stub :=
              match l with [] => Ok s | c :: l' => if satisfied m deadb c then first l' else vc false c s end) l')
              (fun S => (forall x, In x l' -> hm P m x) \/ exists x, In x l' /\ ~ hm P m x /\ frozen false x S)).
        { induction l' as [|c l' IH]; intros Il; [apply opok_ret; auto; left; intros x []|].
          assert (Ic : In c l) by (apply Il; left; reflexivity).
          destruct (satisfied m deadb c) eqn:E.
          - eapply opok_imp; [apply IH; intros x Hx; apply Il; right; exact Hx|]. cbv beta. intros S [A|(x & A & B)].
            + left. intros x [<-|Hx]; [apply satisfied_hm; auto|auto].
            + right. exists x. split; [right; exact A|exact B].
          - eapply opok_imp; [apply (H c Ic (Ha c Ic) (Hp c Ic) (Hs c Ic) false s I Pe)|]. cbv beta. intros S HS. right. exists c. split; [left; reflexivity|].
            split; [|exact HS]. intros Y. apply (satisfied_hm c (Ha c Ic)) in Y. congruence. }
        eapply opok_imp; [apply (G l (incl_refl _))|]. cbv beta. intros S HS H0 w m1 R X. unfold hm in H0, X; cbn [holds] in H0, X. rewrite fr_and in H0, X.
        destruct HS as [A|(x & A & B & C)]; [apply H0; exact A|]. exact (C B w m1 R (X x A)).
    - rewrite forallb_forall in Ha, Hp. rewrite fr_and in Hs. rewrite Forall_forall in H. destruct neg.
      + assert (G : forall l', incl l' l -> opk s ((fix first (l : list cond) : res stub :=
              match l with [] => Ok s | c :: l' => if satisfied m deadb c then vc true c s else first l' end) l')
              (fun S => (forall x, In x l' -> ~ hm P m x) \/ exists x, In x l' /\ hm P m x /\ frozen true x S)).
        { induction l' as [|c l' IH]; intros Il; [apply opok_ret; auto; left; intros x []|].
          assert (Ic : In c l) by (apply Il; left; reflexivity).
          destruct (satisfied m deadb c) eqn:E.
          - eapply opok_imp; [apply (H c Ic (Ha c Ic) (Hp c Ic) (Hs c Ic) true s I Pe)|]. cbv beta. intros S HS. right. exists c. split; [left; reflexivity|].
            split; [apply satisfied_hm; auto|exact HS].
          - eapply opok_imp; [apply IH; intros x Hx; apply Il; right; exact Hx|]. cbv beta. intros S [A|(x & A & B)].
            + left. intros x [<-|Hx]; [intros Y; apply (satisfied_hm c (Ha c Ic)) in Y; congruence|auto].
            + right. exists x. split; [right; exact A|exact B]. }
        eapply opok_imp; [apply (G l (incl_refl _))|]. cbv beta. intros S HS H0 w m1 R. unfold hm in H0 |- *; cbn [holds] in *. rewrite fr_or in *.
        destruct HS as [A|(x & A & B & C)]; [destruct H0 as (x & X1 & X2); exfalso; exact (A x X1 X2)|]. exists x. split; [exact A|]. exact (C B w m1 R).
      + eapply opok_imp; [apply (@opok_fold net m en _ _ (fun x => frozen false x)); auto; intros x; apply frozen_mono|].
        cbv beta. intros S HS H0 w m1 R X. unfold hm in *; cbn [holds] in *. rewrite fr_or in *. destruct X as (x & Hx & X).
        refine (HS x Hx _ w m1 R X). intros Y. apply H0. exists x. auto.
    - apply andb_true_iff in Hp. destruct Hp as (Px & Py), Hs as (Sx & Sy). apply visit_cmp_ok; auto.
    - apply visit_conj_ok; auto.
  Qed.
End Net.
