(** Proofs about evaluation and about makeAnd / makeOr. *)
From Verif Require Import Base NetSpec PqlSyntax PqlSpec PqlModel.
From Coq Require Import Classical_Prop Permutation.
Set Implicit Arguments.

(** * Expressions *)
Lemma fold_sub : forall (f : expr -> Z) l a,
  fold_left (fun r x => r - f x)%Z l a = (a - fold_right Z.add 0 (map f l))%Z.
Proof. induction l; intros; cbn [fold_left fold_right map]; [lia|]. rewrite IHl. lia. Qed.
Lemma fold_add : forall (A : Type) (f : A -> Z) l a,
  fold_left (fun r x => r + f x)%Z l a = (a + fold_right Z.add 0 (map f l))%Z.
Proof. induction l; intros; cbn [fold_left fold_right map]; [lia|]. rewrite IHl. lia. Qed.
Lemma fold_mul : forall (A : Type) (f : A -> Z) l a,
  fold_left (fun r x => r * f x)%Z l a = (a * fold_right Z.mul 1 (map f l))%Z.
Proof. induction l; intros; cbn [fold_left fold_right map]; [lia|]. rewrite IHl. ring. Qed.

Lemma eval_den : forall m e, eval m e = den m e.
Proof.
  intros m. induction e using expr_ind'; cbn [eval den]; auto.
  - now rewrite IHe.
  - rewrite fold_sub, IHe. f_equal. f_equal. apply map_ext_Forall, H.
  - rewrite !fold_add. f_equal. f_equal. apply map_ext_Forall, H.
  - rewrite !fold_mul. f_equal. f_equal. apply map_ext_Forall, H.
Qed.

Lemma i64_ok : forall z v, i64 z = Ok v -> v = z.
Proof. unfold i64. intros z v. destruct (_ && _); congruence. Qed.
Lemma foldM_eval : forall (op : Z -> Z -> Z) m es a v,
  Forall (fun e => forall v, eval64 m e = Ok v -> v = eval m e) es ->
  foldM (fun r x => w <- eval64 m x ;; i64 (op r w)) es a = Ok v ->
  v = fold_left (fun r x => op r (eval m x)) es a.
Proof.
  intros op m. induction es as [|e es IH]; intros a v HF; cbn [foldM fold_left].
  - congruence.
  - inversion HF as [|? ? H1 H2]; subst. destruct (eval64 m e) as [w| | |] eqn:E; cbn [bind]; try discriminate.
    destruct (i64 (op a w)) as [x| | |] eqn:E2; cbn [bind]; try discriminate. intros H.
    apply i64_ok in E2. subst x. rewrite (H1 _ eq_refl) in H. apply (IH _ _ H2 H).
Qed.
Lemma foldM_ids : forall (op : Z -> Z -> Z) m ids a v,
  foldM (fun r p => i64 (op r (tokz m p))) ids a = Ok v ->
  v = fold_left (fun r p => op r (tokz m p)) ids a.
Proof.
  intros op m. induction ids as [|p ids IH]; intros a v; cbn [foldM fold_left]; [congruence|].
  destruct (i64 _) as [x| | |] eqn:E; cbn [bind]; try discriminate. apply i64_ok in E. subst x. apply IH.
Qed.
Lemma eval64_eval : forall m e v, eval64 m e = Ok v -> v = eval m e.
Proof.
  intros m. induction e using expr_ind'; cbn [eval64 eval]; intros v Hv; try congruence; auto.
  - destruct (eval64 m e) as [w| | |]; cbn [bind] in Hv; try discriminate. apply i64_ok in Hv. now rewrite Hv, (IHe _ eq_refl).
  - destruct (eval64 m e) as [w| | |]; cbn [bind] in Hv; try discriminate.
    rewrite (IHe _ eq_refl) in Hv. now apply (@foldM_eval Z.sub) in Hv.
  - destruct (foldM _ ids c) as [w| | |] eqn:E; cbn [bind] in Hv; try discriminate.
    apply (@foldM_ids Z.add) in E. subst w. now apply (@foldM_eval Z.add) in Hv.
  - destruct (foldM _ ids c) as [w| | |] eqn:E; cbn [bind] in Hv; try discriminate.
    apply (@foldM_ids Z.mul) in E. subst w. now apply (@foldM_eval Z.mul) in Hv.
Qed.
(** All exact intermediate results (of subexpressions, in the order of evaluation) fit. *)
Lemma eval64_cases : forall m e, (exists v, eval64 m e = Ok v) \/ eval64 m e = UB.
Proof.
  assert (F : forall A (f : Z -> A -> res Z) l a, (forall r x, In x l -> (exists v, f r x = Ok v) \/ f r x = UB) ->
     (exists v, foldM f l a = Ok v) \/ foldM f l a = UB).
  { intros A f. induction l as [|x l IH]; intros a H; cbn [foldM]; [eauto|].
    destruct (H a x (or_introl eq_refl)) as [(v & ->)| ->]; cbn [bind]; [|auto]. apply IH. intros; apply H; right; auto. }
  assert (I : forall z, (exists v, i64 z = Ok v) \/ i64 z = UB) by (intros z; unfold i64; destruct (_ && _); eauto).
  intros m. induction e using expr_ind'; cbn [eval64]; eauto.
  - destruct IHe as [(v & ->)| ->]; cbn [bind]; auto.
  - destruct IHe as [(v & ->)| ->]; cbn [bind]; auto. apply F. intros r x Hx. rewrite Forall_forall in H.
    destruct (H x Hx) as [(w & ->)| ->]; cbn [bind]; auto.
  - destruct (@F nat (fun r p => i64 (r + tokz m p)%Z) ids c) as [(w & ->)| ->]; auto; cbn [bind]; auto.
    apply F. intros r x Hx. rewrite Forall_forall in H. destruct (H x Hx) as [(w' & ->)| ->]; cbn [bind]; auto.
  - destruct (@F nat (fun r p => i64 (r * tokz m p)%Z) ids c) as [(w & ->)| ->]; auto; cbn [bind]; auto.
    apply F. intros r x Hx. rewrite Forall_forall in H. destruct (H x Hx) as [(w' & ->)| ->]; cbn [bind]; auto.
Qed.

Lemma constant_place_free : forall e, constant e = place_free e.
Proof. induction e using expr_ind'; cbn [constant place_free]; auto. Qed.
Lemma place_free_den : forall m m' e, place_free e = true -> den m e = den m' e.
Proof.
  assert (M : forall m m' es, Forall (fun e => place_free e = true -> den m e = den m' e) es ->
     forallb place_free es = true -> map (den m) es = map (den m') es).
  { intros m m' es H Hf. rewrite forallb_forall in Hf. rewrite Forall_forall in H. apply map_ext_in; auto. }
  intros m m'. induction e using expr_ind'; cbn [place_free den]; intros Hp; auto; try discriminate.
  - now rewrite IHe.
  - apply andb_true_iff in Hp. destruct Hp. rewrite IHe; auto. now rewrite (M m m').
  - destruct ids; [|discriminate]. now rewrite (M m m').
  - destruct ids; [|discriminate]. now rewrite (M m m').
Qed.

(** Construction of sums and products. *)
Definition tokd (m : marking) (p : nat) : Z := Z.of_N (tokens m p).
Definition cval (mul : bool) (m : marking) (s : comm) : Z :=
  let '(c, ids, es) := s in
  if mul then (c * fold_right Z.mul 1 (map (tokd m) ids) * fold_right Z.mul 1 (map (den m) es))%Z
  else (c + fold_right Z.add 0 (map (tokd m) ids) + fold_right Z.add 0 (map (den m) es))%Z.
Lemma sum_app : forall l1 l2, fold_right Z.add 0%Z (l1 ++ l2) = (fold_right Z.add 0 l1 + fold_right Z.add 0 l2)%Z.
Proof. induction l1; intros; cbn [app fold_right]; [lia|]. rewrite IHl1. lia. Qed.
Lemma prod_app : forall l1 l2, fold_right Z.mul 1%Z (l1 ++ l2) = (fold_right Z.mul 1 l1 * fold_right Z.mul 1 l2)%Z.
Proof. induction l1; intros; cbn [app fold_right]; [lia|]. rewrite IHl1. ring. Qed.
Lemma apply_den : forall mul c m e ids es, place_free e = true ->
  cval mul m (apply mul c (eval [] e), ids, es) = apply mul (cval mul m (c, ids, es)) (den m e).
Proof.
  intros mul c m e ids es H. rewrite eval_den, (place_free_den [] m e H). unfold cval, apply. destruct mul; [ring|lia].
Qed.
Lemma snoc_den : forall mul m c ids es e,
  cval mul m (c, ids, es ++ [e]) = apply mul (cval mul m (c, ids, es)) (den m e).
Proof.
  intros mul m c ids es e. unfold cval, apply. destruct mul; rewrite map_app, ?sum_app, ?prod_app; cbn [map fold_right]; [ring|lia].
Qed.
Lemma handle_den : forall mul m e s, cval mul m (handle mul e s) = apply mul (cval mul m s) (den m e).
Proof.
  intros mul m. induction e using expr_ind'; intros [[c0 i0] e0]; cbn [handle];
    (destruct (place_free _) eqn:Hp; [apply apply_den, Hp|]); auto using snoc_den.
  - unfold cval, apply. destruct mul; rewrite map_app, ?sum_app, ?prod_app; cbn [map fold_right den]; fold (tokd m p); [ring|lia].
  - destruct ids as [|i ids]; [destruct es as [|e es]|].
    + cbn in Hp. discriminate.
    + destruct mul; [apply snoc_den|]. unfold cval, apply. rewrite !map_app, !sum_app. cbn [den]. fold (tokd m). lia.
    + destruct mul; [apply snoc_den|]. unfold cval, apply. rewrite !map_app, !sum_app. cbn [den]. fold (tokd m). lia.
  - destruct ids as [|i ids]; [destruct es as [|e es]|].
    + cbn in Hp. discriminate.
    + destruct mul; [|apply snoc_den]. unfold cval, apply. rewrite !map_app, !prod_app. cbn [den]. fold (tokd m). ring.
    + destruct mul; [|apply snoc_den]. unfold cval, apply. rewrite !map_app, !prod_app. cbn [den]. fold (tokd m). ring.
Qed.
Lemma insert_id_perm : forall p l, Permutation (insert_id p l) (p :: l).
Proof.
  induction l as [|q l IH]; cbn; auto. destruct (p <=? q); auto.
  rewrite IH. apply perm_swap.
Qed.
Lemma sort_ids_perm : forall l, Permutation (sort_ids l) l.
Proof. induction l; cbn; auto. rewrite insert_id_perm. now constructor. Qed.
Lemma sum_perm : forall l l', Permutation l l' -> fold_right Z.add 0%Z l = fold_right Z.add 0%Z l'.
Proof. induction 1; cbn [fold_right]; lia. Qed.
Lemma prod_perm : forall l l', Permutation l l' -> fold_right Z.mul 1%Z l = fold_right Z.mul 1%Z l'.
Proof. induction 1; cbn [fold_right]; try congruence; ring. Qed.
Lemma init_fold : forall mul m l s,
  cval mul m (fold_left (fun s e => handle mul e s) l s) =
  apply mul (cval mul m s) (if mul then fold_right Z.mul 1%Z (map (den m) l) else fold_right Z.add 0%Z (map (den m) l)).
Proof.
  intros mul m. induction l as [|e l IH]; intros s; cbn [fold_left map fold_right].
  - unfold apply. destruct mul; [ring|lia].
  - rewrite IH, handle_den. unfold apply. destruct mul; [ring|lia].
Qed.
Lemma mk_plus_den : forall m l, den m (mk_plus l) = fold_right Z.add 0%Z (map (den m) l).
Proof.
  intros m l. unfold mk_plus, init_comm.
  pose proof (init_fold false m l (0%Z, [], [])) as H.
  destruct (fold_left _ l _) as [[c ids] es]. unfold cval, apply in H. cbn [den map fold_right] in *.
  fold (tokd m). rewrite (sum_perm (Permutation_map (tokd m) (sort_ids_perm ids))). lia.
Qed.
Lemma mk_mul_den : forall m l, den m (mk_mul l) = fold_right Z.mul 1%Z (map (den m) l).
Proof.
  intros m l. unfold mk_mul, init_comm.
  pose proof (init_fold true m l (1%Z, [], [])) as H.
  destruct (fold_left _ l _) as [[c ids] es]. unfold cval, apply in H. cbn [den map fold_right] in *.
  fold (tokd m). rewrite (prod_perm (Permutation_map (tokd m) (sort_ids_perm ids))). rewrite H. ring.
Qed.

(** * Meaning of formulas: basic facts *)
Lemma holds_and : forall net pi l, holds net pi (CAnd l) <-> forall c, In c l -> holds net pi c.
Proof.
  intros net pi l. cbn [holds]. induction l as [|x l IH]; cbn [map fold_right].
  - split; auto. intros _ c [].
  - rewrite IH. split; [intros (A & B) c [<-|Hc]; auto|]. intros H; split; auto using in_eq, in_cons.
Qed.
Lemma holds_or : forall net pi l, holds net pi (COr l) <-> exists c, In c l /\ holds net pi c.
Proof.
  intros net pi l. cbn [holds]. induction l as [|x l IH]; cbn [map fold_right].
  - split; [tauto|]. intros (c & [] & _).
  - rewrite IH. split.
    + intros [A|(c & B & C)]; [exists x|exists c]; auto using in_eq, in_cons.
    + intros (c & [<-|B] & C); [auto|right; eauto].
Qed.
Lemma shift0 : forall pi i, shift 0 pi i = pi i. Proof. reflexivity. Qed.

Lemma maximal_shift : forall net pi i, maximal net pi -> maximal net (shift i pi).
Proof. intros net pi i H j. unfold shift. replace (i + S j) with (S (i + j)) by lia. apply H. Qed.
Lemma from_refl : forall net pi, maximal net pi -> from net pi pi.
Proof. split; auto. Qed.

(** Formulas do not distinguish runs with the same markings. *)
Lemma maximal_ext : forall net (pi rho : path), (forall i, pi i = rho i) -> maximal net pi -> maximal net rho.
Proof. intros net pi rho H M i. rewrite <- !H. apply M. Qed.
Lemma from_ext : forall net pi rho sg, pi 0 = rho 0 -> from net pi sg <-> from net rho sg.
Proof. intros. unfold from. rewrite H. tauto. Qed.
Lemma holds_ext : forall net c pi rho, (forall i, pi i = rho i) -> holds net pi c <-> holds net rho c.
Proof.
  intros net. induction c using cond_ind'; intros pi rho He.
  all: try (cbn [holds]; rewrite (He 0); tauto).
  all: try (cbn [holds]; unfold from; rewrite (He 0); tauto).
  - cbn [holds]; tauto.
  - cbn [holds]. rewrite (IHc pi rho He). tauto.
  - rewrite !holds_and. rewrite Forall_forall in H. split; intros A c Hc; apply (H c Hc pi rho He), A, Hc.
  - rewrite !holds_or. rewrite Forall_forall in H. split; intros (c & Hc & A); exists c; split; auto; apply (H c Hc pi rho He), A.
  - cbn [holds]. split; intros (i & A); exists i; eapply IHc; [|exact A| |exact A]; intros j; unfold shift; auto.
  - cbn [holds]. split; intros A i; eapply IHc; [|exact (A i)| |exact (A i)]; intros j; unfold shift; auto.
  - cbn [holds]. apply IHc. intros j; unfold shift; auto.
  - cbn [holds]. split; intros (i & A & B); exists i; split.
    1,3: eapply IHc2; [|exact A]; intros; unfold shift; auto.
    all: intros j Hj; eapply IHc1; [|exact (B j Hj)]; intros; unfold shift; auto.
Qed.
Lemma holds_shift0 : forall net c pi, holds net (shift 0 pi) c <-> holds net pi c.
Proof. intros. apply holds_ext. intros; apply shift0. Qed.

(** State formulas depend on the first marking only. *)
Lemma stf_state : forall net c, stf c = true -> forall pi rho, pi 0 = rho 0 -> holds net pi c <-> holds net rho c.
Proof.
  intros net. induction c using cond_ind'; intros Hs pi rho He; cbn [stf] in Hs; try discriminate.
  all: try (cbn [holds]; unfold from; rewrite He; tauto).
  - cbn [holds]; tauto.
  - cbn [holds]. rewrite (IHc Hs pi rho He). tauto.
  - rewrite forallb_forall in Hs. rewrite Forall_forall in H. rewrite !holds_and. split; intros A c Hc; apply (H c Hc (Hs c Hc) pi rho He), A, Hc.
  - rewrite forallb_forall in Hs. rewrite Forall_forall in H. rewrite !holds_or. split; intros (c & Hc & A); exists c; split; auto; apply (H c Hc (Hs c Hc) pi rho He), A.
Qed.

(** * Evaluation of conditions *)
Definition fits (m : marking) : Prop := forall p, (tokens m p <= u32max)%N.
Lemma compare_spec : forall o x y, compare o x y = true <-> cmp_holds o x y.
Proof.
  intros o x y. destruct o; cbn [compare cmp_holds].
  - apply Z.eqb_eq.
  - rewrite negb_true_iff. apply Z.eqb_neq.
  - apply Z.ltb_lt.
  - apply Z.leb_le.
Qed.
Lemma cons_ok_spec : forall m c, fits m -> cons_ok m c = true <-> cons_holds m c.
Proof.
  intros m c Hf. unfold cons_ok, cons_holds. rewrite andb_true_iff, !N.leb_le. fold (tokens m (c_place c)).
  specialize (Hf (c_place c)). split; [intros (A & B); auto|]. intros (A & [B|B]); split; auto. rewrite B. exact Hf.
Qed.
Lemma forallb_Forall_iff : forall (A : Type) (f : A -> bool) (P : A -> Prop) l,
  (forall x, f x = true <-> P x) -> forallb f l = true <-> Forall P l.
Proof. intros A f P l H. rewrite forallb_forall, Forall_forall. split; intros G x Hx; apply H, G, Hx. Qed.

Section Eval.
  Variable net : pnet.
  Variable deadb : list N -> bool.
  Variable m : marking.
  Hypothesis Hfits : fits m.
  Hypothesis Hdead : deadb m = true <-> dead net m.

  Definition tv_sound (v : tv) (P : Prop) : Prop :=
    match v with RTrue => P | RFalse => ~ P | RUnknown => True end.
  Lemma tvb_sound : forall b P, (b = true <-> P) -> tv_sound (tvb b) P.
  Proof. intros [|] P H; cbn; rewrite <- H; auto. Qed.

  Lemma evaluate_sound : forall c pi, maximal net pi -> pi 0 = m ->
    tv_sound (evaluate deadb m c) (holds net pi c).
  Proof.
    induction c using cond_ind'; intros pi Hm H0.
    - apply tvb_sound. cbn. tauto.
    - apply tvb_sound. cbn [holds]. rewrite H0. exact Hdead.
    - specialize (IHc pi Hm H0). cbn [evaluate holds]. destruct (evaluate deadb m c); cbn in *; tauto.
    - rewrite Forall_forall in H.
      assert (G : forall l' r, (forall c, In c l' -> In c l) -> r <> RFalse ->
        let v := (fix go (l : list cond) (r : tv) : tv :=
         match l with
         | [] => r
         | c :: l' => match evaluate deadb m c with
                      | RFalse => RFalse | RUnknown => go l' RUnknown | RTrue => go l' r
                      end
         end) l' r in
        match v with RTrue => r = RTrue /\ forall c, In c l' -> holds net pi c
                   | RFalse => ~ forall c, In c l' -> holds net pi c | RUnknown => True end).
      { induction l' as [|c l' IH]; intros r Hi Hr; cbn zeta.
        - destruct r; try congruence; auto. split; auto. intros c [].
        - pose proof (H c (Hi c (or_introl eq_refl)) pi Hm H0) as Hc.
          destruct (evaluate deadb m c); cbn in Hc.
          + specialize (IH r (fun x Hx => Hi x (or_intror Hx)) Hr). cbn zeta in IH.
            destruct (_ l' r); auto.
            * destruct IH as (A & B). split; auto. intros x [<-|Hx]; auto.
            * intros A. apply IH. intros x Hx. apply A. now right.
          + intros A. apply Hc, A. now left.
          + specialize (IH RUnknown (fun x Hx => Hi x (or_intror Hx))). cbn zeta in IH.
            destruct (_ l' RUnknown); auto.
            * destruct IH as (A & B); congruence.
            * assert (RUnknown <> RFalse) by discriminate. intros A. apply IH; auto. intros x Hx. apply A. now right. }
      specialize (G l RTrue (fun c h => h)). cbn zeta in G. cbn [evaluate].
      destruct (_ l RTrue); cbn [tv_sound]; auto; rewrite holds_and.
      + apply G. discriminate.
      + apply G. discriminate.
    - rewrite Forall_forall in H.
      assert (G : forall l' r, (forall c, In c l' -> In c l) -> r <> RTrue ->
        let v := (fix go (l : list cond) (r : tv) : tv :=
         match l with
         | [] => r
         | c :: l' => match evaluate deadb m c with
                      | RTrue => RTrue | RUnknown => go l' RUnknown | RFalse => go l' r
                      end
         end) l' r in
        match v with RFalse => r = RFalse /\ forall c, In c l' -> ~ holds net pi c
                   | RTrue => exists c, In c l' /\ holds net pi c | RUnknown => True end).
      { induction l' as [|c l' IH]; intros r Hi Hr; cbn zeta.
        - destruct r; try congruence; auto.
        - pose proof (H c (Hi c (or_introl eq_refl)) pi Hm H0) as Hc.
          destruct (evaluate deadb m c); cbn in Hc.
          + exists c. split; auto. now left.
          + specialize (IH r (fun x Hx => Hi x (or_intror Hx)) Hr). cbn zeta in IH.
            destruct (_ l' r); auto.
            * destruct IH as (x & A & B). exists x. split; auto. now right.
            * destruct IH as (A & B). split; auto. intros x [<-|Hx]; auto.
          + assert (RUnknown <> RTrue) by discriminate.
            specialize (IH RUnknown (fun x Hx => Hi x (or_intror Hx)) H1). cbn zeta in IH.
            destruct (_ l' RUnknown); auto.
            * destruct IH as (x & A & B). exists x. split; auto. now right.
            * destruct IH as (A & B); congruence. }
      specialize (G l RFalse (fun c h => h)). cbn zeta in G. cbn [evaluate].
      destruct (_ l RFalse); cbn [tv_sound]; auto; rewrite holds_or.
      + apply G. discriminate.
      + intros (c & A & B). apply G in A; [contradiction|discriminate].
    - apply tvb_sound. cbn [holds]. rewrite H0, compare_spec, !eval_den. tauto.
    - cbn [evaluate holds]. apply tvb_sound. rewrite H0.
      assert (F : forallb (cons_ok m) cs = true <-> Forall (cons_holds m) cs).
      { apply forallb_Forall_iff. intros; apply cons_ok_spec, Hfits. }
      destruct n; cbn [xorb].
      + rewrite <- F. destruct (forallb _ cs); cbn; split; congruence.
      + rewrite <- F. destruct (forallb _ cs); cbn; tauto.
    - exact I.
    - exact I.
    - pose proof (IHc (shift 0 pi) (maximal_shift 0 Hm) H0) as G. cbn [evaluate].
      destruct (evaluate deadb m c); cbn in *; auto. exists pi. split; [apply from_refl; auto|]. exists 0. exact G.
    - cbn [evaluate]. destruct (evaluate deadb m c) eqn:E; cbn [only_true tv_sound]; auto. cbn [holds]. intros rho (A & B).
      exists 0. apply (IHc (shift 0 rho) (maximal_shift 0 A)). unfold shift; cbn. congruence.
    - cbn [evaluate]. destruct (evaluate deadb m c) eqn:E; cbn [only_false tv_sound]; auto. cbn [holds]. intros (rho & (A & B) & C).
      refine (IHc (shift 0 rho) (maximal_shift 0 A) _ (C 0)). unfold shift; cbn. congruence.
    - pose proof (IHc (shift 0 pi) (maximal_shift 0 Hm) H0) as G. cbn [evaluate].
      destruct (evaluate deadb m c); cbn in *; auto. intros A. apply G, (A pi (from_refl Hm) 0).
    - cbn [evaluate]. unfold until_tv. destruct (evaluate deadb m c2) eqn:E2; cbn [tv_sound]; auto.
      + cbn [holds]. exists pi. split; [apply from_refl; auto|]. exists 0. split; [|intros; lia].
        apply (IHc2 (shift 0 pi) (maximal_shift 0 Hm) H0).
      + destruct (evaluate deadb m c1) eqn:E1; cbn [tv_sound]; auto. cbn [holds]. intros (rho & (A & B) & i & C & D).
        assert (S0 : shift 0 rho 0 = m) by (unfold shift; cbn; congruence).
        destruct i as [|i]; [exact (IHc2 (shift 0 rho) (maximal_shift 0 A) S0 C)|].
        exact (IHc1 (shift 0 rho) (maximal_shift 0 A) S0 (D 0 (Nat.lt_0_succ i))).
    - cbn [evaluate]. unfold until_tv. destruct (evaluate deadb m c2) eqn:E2; cbn [tv_sound]; auto.
      + cbn [holds]. intros rho (A & B). exists 0. split; [|intros; lia].
        apply (IHc2 (shift 0 rho) (maximal_shift 0 A)). unfold shift; cbn. congruence.
      + destruct (evaluate deadb m c1) eqn:E1; cbn [tv_sound]; auto. cbn [holds]. intros C.
        destruct (C pi (from_refl Hm)) as (i & C1 & D).
        destruct i as [|i]; [exact (IHc2 (shift 0 pi) (maximal_shift 0 Hm) H0 C1)|].
        exact (IHc1 (shift 0 pi) (maximal_shift 0 Hm) H0 (D 0 (Nat.lt_0_succ i))).
    - pose proof (IHc pi Hm H0) as G. cbn [evaluate].
      destruct (evaluate deadb m c); cbn in *; auto. exists pi. split; auto. apply from_refl; auto.
    - pose proof (IHc pi Hm H0) as G. cbn [evaluate].
      destruct (evaluate deadb m c); cbn in *; auto. intros A. apply G, A, from_refl; auto.
    - pose proof (IHc (shift 0 pi) (maximal_shift 0 Hm) H0) as G. cbn [evaluate].
      destruct (evaluate deadb m c); cbn in *; auto. exists 0. exact G.
    - pose proof (IHc (shift 0 pi) (maximal_shift 0 Hm) H0) as G. cbn [evaluate].
      destruct (evaluate deadb m c); cbn in *; auto.
    - exact I.
    - cbn [evaluate]. unfold until_tv. destruct (evaluate deadb m c2) eqn:E2; cbn [tv_sound]; auto.
      + cbn [holds]. exists 0. split; [|intros; lia]. apply (IHc2 (shift 0 pi) (maximal_shift 0 Hm) H0).
      + destruct (evaluate deadb m c1) eqn:E1; cbn [tv_sound]; auto. cbn [holds]. intros (i & C1 & D).
        destruct i as [|i]; [exact (IHc2 (shift 0 pi) (maximal_shift 0 Hm) H0 C1)|].
        exact (IHc1 (shift 0 pi) (maximal_shift 0 Hm) H0 (D 0 (Nat.lt_0_succ i))).
  Qed.

  Lemma evaluate_known : forall c, atomic c = true -> evaluate deadb m c <> RUnknown.
  Proof.
    induction c using cond_ind'; cbn [atomic evaluate]; intros Ha; try discriminate Ha.
    - destruct b; discriminate.
    - destruct (deadb m); discriminate.
    - specialize (IHc Ha). destruct (evaluate deadb m c); congruence.
    - rewrite forallb_forall in Ha. assert (G : RTrue <> RUnknown) by discriminate. revert G. generalize RTrue.
      induction l as [|c l IH]; intros r Hr; auto. inversion H as [|? ? H1 H2]; subst.
      pose proof (H1 (Ha c (or_introl eq_refl))) as Hc. destruct (evaluate deadb m c); try congruence.
      apply IH; auto. intros x Hx; apply Ha; now right.
    - rewrite forallb_forall in Ha. assert (G : RFalse <> RUnknown) by discriminate. revert G. generalize RFalse.
      induction l as [|c l IH]; intros r Hr; auto. inversion H as [|? ? H1 H2]; subst.
      pose proof (H1 (Ha c (or_introl eq_refl))) as Hc. destruct (evaluate deadb m c); try congruence.
      apply IH; auto. intros x Hx; apply Ha; now right.
    - destruct (compare _ _ _); discriminate.
    - destruct (xorb _ _); discriminate.
  Qed.
End Eval.
