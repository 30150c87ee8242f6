(** Simplification of comparisons and of conjunctions of intervals. *)
From Verif Require Import Base BaseLemmas NetSpec PqlSyntax PqlSpec PqlModel PqlProofs PqlPush PushProofs NetModel LpSpec SimpSpec MemberModel MemberProofs LpModel LpProofs LpSat LpBase SimpModel SimpProofs.
From Coq Require Import Classical_Prop.

Lemma lin_occ_nil : forall v i, lin i v (occ []) = 0%Z.
Proof. induction v as [|z v IH]; intros i; [reflexivity|]. cbn [lin]. rewrite IH. unfold occ. cbn. lia. Qed.
Lemma int_sub_ok : forall x y, (- 2 ^ 31 <= x - y < 2 ^ 31)%Z -> int_sub x y = Ok (x - y)%Z.
Proof. intros x y H. unfold int_sub. destruct (Z.leb_spec (- 2 ^ 31) (x - y)); [|lia]. destruct (Z.ltb_spec (x - y) (2 ^ 31)); [reflexivity|lia]. Qed.
Lemma int32_spec : forall z, int32 z = true <-> (- 2 ^ 31 <= z < 2 ^ 31)%Z.
Proof. intros z. unfold int32. rewrite andb_true_iff, Z.leb_le, Z.ltb_lt. tauto. Qed.
Lemma single_sem : forall a b o x, msem (single (mb_sub a b) (mb_const b - mb_const a) o) x <-> lop_holds o (mval a x) (mval b x).
Proof.
  intros a b o x. unfold single. cbn [msem]. rewrite new_prog_sem. unfold mb_sub, mval. cbn [mb_vars]. rewrite lin_sub. destruct o; cbn [lop_holds]; lia.
Qed.
Lemma single_wf : forall B m c o, wf B (single m c o).
Proof. intros. cbn. split; [exact I|]. destruct o; reflexivity. Qed.

Section Simp.
  Variable addr : lrow -> N.
  Hypothesis addr_inj : forall r s, addr r = addr s -> r = s.
  Variable clock : nat -> bool.
  Hypothesis clock_mono : forall n, clock n = true -> clock (S n) = true.
  Variables simplex intopt : nat -> lp -> glp_ret * glp_status.
  Hypothesis simplex_sound : sound_solver simplex.
  Hypothesis intopt_sound : sound_solver intopt.
  Variable net : cnet.
  Variable m0 : list N.
  Variable B : lp.
  Hypothesis HB : base_lp net m0 = Ok B.
  Hypothesis HBs : forall w m, run (to_pnet net) m0 w m -> solution B (occ w).
  Variable k : bool.
  Notation inv := (LpSat.inv clock B).
  Notation sat := (sat_coll addr clock simplex intopt net m0).
  Notation pn := (to_pnet net).
  Notation at_ := (at_ net m0).
  Notation RP := (RP net m0).
  Notation rok := (rok clock net m0 B k).
  Notation target := (target net).

  Lemma decide_ok : forall nf f lps neglps (Q : path -> Prop) s, rok s Q (mkRv f lps neglps) ->
    mpost (decide addr clock simplex intopt net m0 nf f lps neglps) s (fun r s' => s <= s' /\ rok s' Q r).
  Proof.
    intros nf f lps neglps Q s (I1 & I2 & C & H). cbn [rv_f rv_lps rv_neg] in *.
    pose proof (guarded_ok addr addr_inj clock clock_mono simplex intopt simplex_sound intopt_sound net m0 B HB HBs) as G.
    unfold decide. destruct nf.
    - eapply mpost_bind; [apply tick_ok with (P := fun _ s' => s' = S s); reflexivity|]. intros t s' ->.
      eapply mpost_bind; [apply G; eapply inv_le; [exact clock_mono| |exact I2]; lia|]. intros [x b] s1 (S1 & X1 & X2 & X3). cbn [fst snd] in *. destruct b; cbn [negb].
      2:{ apply mpost_ret. split; [lia|]. apply bool_ok. intros pi (w & P). destruct (H w pi P) as (E & _ & N). split; [|reflexivity]. intros _. apply E. apply NNPP. intros K. apply (X2 eq_refl w (pi 0)); [apply P|auto]. }
      eapply mpost_bind; [apply tick_ok with (P := fun _ s' => s' = S s1); reflexivity|]. intros t' s' ->.
      eapply mpost_bind; [apply G; eapply inv_le; [exact clock_mono| |exact I1]; lia|]. intros [y b] s2 (S2 & Y1 & Y2 & Y3). cbn [fst snd] in *. destruct b; cbn [negb].
      2:{ apply mpost_ret. split; [lia|]. apply bool_ok. intros pi (w & P). destruct (H w pi P) as (E & N & _). split; [discriminate|]. intros K. exfalso. apply E in K. apply (Y2 eq_refl w (pi 0)); [apply P|auto]. }
      apply mpost_ret. split; [lia|]. split; [apply Y1; reflexivity|]. split; [eapply inv_le; [exact clock_mono| |apply X1; reflexivity]; lia|]. split; [exact C|]. cbn [rv_f rv_lps rv_neg].
      intros w pi P. destruct (H w pi P) as (E & E1 & E2). split; [exact E|]. split; intros K; [apply (Y3 w (pi 0))|apply (X3 w (pi 0))]; try apply P; auto.
    - eapply mpost_bind; [apply tick_ok with (P := fun _ s' => s' = S s); reflexivity|]. intros t s' ->.
      eapply mpost_bind; [apply G; eapply inv_le; [exact clock_mono| |exact I1]; lia|]. intros [x b] s1 (S1 & X1 & X2 & X3). cbn [fst snd] in *. destruct b; cbn [negb].
      2:{ apply mpost_ret. split; [lia|]. apply bool_ok. intros pi (w & P). destruct (H w pi P) as (E & N & _). split; [discriminate|]. intros K. exfalso. apply E in K. apply (X2 eq_refl w (pi 0)); [apply P|auto]. }
      eapply mpost_bind; [apply tick_ok with (P := fun _ s' => s' = S s1); reflexivity|]. intros t' s' ->.
      eapply mpost_bind; [apply G; eapply inv_le; [exact clock_mono| |exact I2]; lia|]. intros [y b] s2 (S2 & Y1 & Y2 & Y3). cbn [fst snd] in *. destruct b; cbn [negb].
      2:{ apply mpost_ret. split; [lia|]. apply bool_ok. intros pi (w & P). destruct (H w pi P) as (E & _ & N). split; [|reflexivity]. intros _. apply E. apply NNPP. intros K. apply (Y2 eq_refl w (pi 0)); [apply P|auto]. }
      apply mpost_ret. split; [lia|]. split; [eapply inv_le; [exact clock_mono| |apply X1; reflexivity]; lia|]. split; [apply Y1; reflexivity|]. split; [exact C|]. cbn [rv_f rv_lps rv_neg].
      intros w pi P. destruct (H w pi P) as (E & E1 & E2). split; [exact E|]. split; intros K; [apply (X3 w (pi 0))|apply (Y3 w (pi 0))]; try apply P; auto.
  Qed.

  Hypothesis L : layout net.
  Hypothesis Hm0 : length m0 = cn_places net.
  Lemma member_of : forall e, expr_ok (cn_places net) e = true -> exists mb, constraint net m0 e = Ok mb /\
    (mb_ok mb = true -> mb_const mb = den m0 e /\ forall w pi, at_ w pi -> mval mb (occ w) = den (pi 0) e).
  Proof.
    intros e He. destruct (constraint_ok L Hm0 (run_nil pn m0) e He) as (mb & E & G). exists mb. split; [exact E|]. intros Ho. split.
    - rewrite <- (G Ho). unfold mval. rewrite lin_occ_nil. lia.
    - intros w pi (_ & R). destruct (constraint_ok L Hm0 R e He) as (mb' & E' & G'). rewrite E in E'. injection E' as <-. apply G', Ho.
  Qed.
  Lemma val_ok_spec : forall e, val_ok m0 e = true -> (- 2 ^ 30 < den m0 e < 2 ^ 30)%Z.
  Proof. intros e. unfold val_ok. rewrite andb_true_iff, !Z.ltb_lt. tauto. Qed.
  Lemma leaf_rok : forall s f lps neglps (Q : path -> Prop), wf B lps -> wf B neglps -> cls k f = true ->
    (forall w pi, at_ w pi -> (holds pn pi f <-> Q pi) /\ (holds pn pi f -> msem lps (occ w)) /\ (~ holds pn pi f -> msem neglps (occ w))) ->
    rok s Q (mkRv f lps neglps).
  Proof. intros s f lps neglps Q A C D E. split; [right; exact A|]. split; [right; exact C|]. split; [exact D|exact E]. Qed.
  Lemma empty_rok : forall s f (Q : path -> Prop), cls k f = true -> (forall pi, RP pi -> (holds pn pi f <-> Q pi)) -> rok s Q (mkRv f empty_single empty_single).
  Proof. intros. apply (only_ok clock net m0 B k); assumption. Qed.

  Lemma less_ok : forall strict neg a b s, let c := CCmp (if strict : bool then OpLt else OpLe) a b in
    query_ok (cn_places net) m0 c = true -> cls k c = true ->
    mpost (simp_less addr clock simplex intopt net m0 strict neg a b) s (fun r s' => s <= s' /\ rok s' (target neg c) r).
  Proof.
    intros strict neg a b s c Hq Hc. unfold c in *. clear c. cbn [query_ok] in Hq. rewrite !andb_true_iff in Hq. destruct Hq as (((Ea & Eb) & Va) & Vb).
    apply val_ok_spec in Va, Vb. destruct (member_of a Ea) as (m1 & E1 & G1). destruct (member_of b Eb) as (m2 & E2 & G2).
    unfold simp_less. rewrite E1, E2.
    eapply mpost_bind; [apply mpost_lift with (P := fun x s' => x = m1 /\ s' = s); cbn; auto|]. intros x s' (-> & ->).
    eapply mpost_bind; [apply mpost_lift with (P := fun x s' => x = m2 /\ s' = s); cbn; auto|]. intros x s' (-> & ->). cbv zeta.
    eapply mpost_bind; [apply tick_ok with (P := fun _ s' => s' = S s); reflexivity|]. intros t s' ->.
    set (f := if neg then CCmp (if strict then OpLe else OpLt) b a else CCmp (if strict then OpLt else OpLe) a b).
    assert (Cf : cls k f = true).
    { rewrite cls_cmp in Hc. destruct (cmp_range_swap a b) as (W1 & W2 & _). unfold f. destruct neg, strict; rewrite cls_cmp; auto. }
    assert (Hf : forall pi, holds pn pi f <-> target neg (CCmp (if strict then OpLt else OpLe) a b) pi).
    { intros pi. unfold f, SimpProofs.target. destruct neg, strict; cbn [holds cmp_holds]; lia. }
    destruct (negb t && mb_ok m1 && mb_ok m2) eqn:Ho.
    2:{ eapply mpost_impl; [apply decide_ok; apply empty_rok; [exact Cf|intros; apply Hf]|]. intros r s' (S' & R). split; [lia|exact R]. }
    rewrite !andb_true_iff in Ho. destruct Ho as ((_ & O1) & O2). destruct (G1 O1) as (K1 & M1). destruct (G2 O2) as (K2 & M2). clear G1 G2.
    assert (I1 : int32 (mb_const m1) = true) by (apply int32_spec; lia). assert (I2 : int32 (mb_const m2) = true) by (apply int32_spec; lia).
    destruct (if neg then trivial_lt (negb strict) m2 m1 else trivial_lt strict m1 m2) as [r|] eqn:T.
    - apply mpost_ret. split; [lia|]. apply bool_ok. intros pi (w & P). rewrite <- Hf.
      destruct neg; [pose proof (@trivial_ok _ _ _ _ (occ w) (occ_nonneg w) I2 I1 T) as G|pose proof (@trivial_ok _ _ _ _ (occ w) (occ_nonneg w) I1 I2 T) as G];
        rewrite (M1 w pi P), (M2 w pi P) in G; unfold f; destruct strict; cbn [negb holds cmp_holds] in *; rewrite <- G; tauto.
    - unfold mb_int. rewrite !i32_id by assumption. rewrite int_sub_ok by lia.
      eapply mpost_bind; [apply mpost_lift with (P := fun x s' => x = (mb_const m2 - mb_const m1)%Z /\ s' = S s); cbn; auto|]. intros x s' (-> & ->).
      eapply mpost_impl; [apply decide_ok; apply leaf_rok; [apply single_wf|apply single_wf|exact Cf|]|].
      2:{ intros r s' (S' & R). split; [lia|exact R]. }
      intros w pi P. split; [apply Hf|]. rewrite !single_sem, (M1 w pi P), (M2 w pi P). unfold f. destruct neg, strict; cbn [holds cmp_holds lop_holds]; lia.
  Qed.

  Lemma veq_lin : forall a b i x, veq a b = true -> lin i a x = lin i b x.
  Proof.
    induction a as [|z a IH]; intros b i x H.
    - cbn [veq] in H. destruct b; cbn [lin]; [reflexivity|]. change (0 = lin i (z :: b) x)%Z. rewrite (lin_zero _ i x H). reflexivity.
    - destruct b as [|y b]; [rewrite (lin_zero _ i x H); reflexivity|]. cbn [veq] in H. apply andb_true_iff in H. destruct H as (H1 & H2). apply Z.eqb_eq in H1. cbn [lin]. rewrite (IH _ _ _ H2), H1. reflexivity.
  Qed.
  Lemma equal_ok : forall eq neg a b s, let c := CCmp (if eq : bool then OpEq else OpNe) a b in
    query_ok (cn_places net) m0 c = true -> cls k c = true ->
    mpost (simp_equal addr clock simplex intopt net m0 eq neg a b) s (fun r s' => s <= s' /\ rok s' (target neg c) r).
  Proof.
    intros eq neg a b s c Hq Hc. unfold c in *. clear c. cbn [query_ok] in Hq. rewrite !andb_true_iff in Hq. destruct Hq as (((Ea & Eb) & Va) & Vb).
    apply val_ok_spec in Va, Vb. destruct (member_of a Ea) as (m1 & E1 & G1). destruct (member_of b Eb) as (m2 & E2 & G2).
    unfold simp_equal. rewrite E1, E2.
    eapply mpost_bind; [apply mpost_lift with (P := fun x s' => x = m1 /\ s' = s); cbn; auto|]. intros x s' (-> & ->).
    eapply mpost_bind; [apply mpost_lift with (P := fun x s' => x = m2 /\ s' = s); cbn; auto|]. intros x s' (-> & ->). cbv zeta.
    eapply mpost_bind; [apply tick_ok with (P := fun _ s' => s' = S s); reflexivity|]. intros t s' ->.
    set (want := Bool.eqb eq (negb neg)). set (f := CCmp (if want then OpEq else OpNe) a b).
    assert (Cf : cls k f = true).
    { rewrite cls_cmp in Hc. destruct (cmp_range_swap a b) as (_ & _ & W). unfold f. rewrite cls_cmp. destruct want, eq; congruence. }
    assert (Hf : forall pi, holds pn pi f <-> target neg (CCmp (if eq then OpEq else OpNe) a b) pi).
    { intros pi. unfold f, want, SimpProofs.target. destruct neg, eq; cbn [holds cmp_holds Bool.eqb negb]; lia. }
    destruct (negb t && mb_ok m1 && mb_ok m2) eqn:Ho.
    2:{ eapply mpost_impl; [apply decide_ok; apply empty_rok; [exact Cf|intros; apply Hf]|]. intros r s' (S' & R). split; [lia|exact R]. }
    rewrite !andb_true_iff in Ho. destruct Ho as ((_ & O1) & O2). destruct (G1 O1) as (K1 & M1). destruct (G2 O2) as (K2 & M2). clear G1 G2.
    assert (I1 : int32 (mb_const m1) = true) by (apply int32_spec; lia). assert (I2 : int32 (mb_const m2) = true) by (apply int32_spec; lia).
    unfold mb_int. rewrite !i32_id by assumption.
    destruct (mb_zero m1 && mb_zero m2 || mb_same m1 m2) eqn:T.
    - apply mpost_ret. split; [lia|]. apply bool_ok. intros pi (w & P). rewrite <- Hf.
      assert (G : mb_const m1 = mb_const m2 <-> den (pi 0) a = den (pi 0) b).
      { rewrite <- (M1 w pi P), <- (M2 w pi P). unfold mval. assert (lin 0 (mb_vars m1) (occ w) = lin 0 (mb_vars m2) (occ w)).
        { apply orb_true_iff in T. destruct T as [T|T]; [|apply veq_lin; exact T]. apply andb_true_iff in T. destruct T as (T1 & T2). rewrite (lin_zero _ 0 _ T1), (lin_zero _ 0 _ T2). reflexivity. }
        lia. }
      unfold f. destruct (Z.eqb_spec (mb_const m1) (mb_const m2)) as [E|E]; destruct want; cbn [Bool.eqb holds cmp_holds]; split; intros; try reflexivity; try discriminate; tauto.
    - rewrite int_sub_ok by lia.
      eapply mpost_bind; [apply mpost_lift with (P := fun x s' => x = (mb_const m2 - mb_const m1)%Z /\ s' = S s); cbn; auto|]. intros x s' (-> & ->).
      assert (W2 : wf B (union2 (single (mb_sub m1 m2) (mb_const m2 - mb_const m1) LGt) (single (mb_sub m1 m2) (mb_const m2 - mb_const m1) LLt))) by (cbn; auto).
      assert (X2 : forall x, msem (union2 (single (mb_sub m1 m2) (mb_const m2 - mb_const m1) LGt) (single (mb_sub m1 m2) (mb_const m2 - mb_const m1) LLt)) x <-> mval m1 x <> mval m2 x).
      { intros x. change (msem (single (mb_sub m1 m2) (mb_const m2 - mb_const m1) LGt) x \/ msem (single (mb_sub m1 m2) (mb_const m2 - mb_const m1) LLt) x \/ False <-> mval m1 x <> mval m2 x).
        rewrite !single_sem. cbn [lop_holds]. lia. }
      assert (X1 : forall x, msem (single (mb_sub m1 m2) (mb_const m2 - mb_const m1) LEq) x <-> mval m1 x = mval m2 x) by (intros x; rewrite single_sem; reflexivity).
      destruct want eqn:Ew.
      + eapply mpost_impl; [apply decide_ok; apply leaf_rok; [apply single_wf|exact W2|exact Cf|]|].
        2:{ intros r s' (S' & R). split; [lia|exact R]. }
        intros w pi P. split; [apply Hf|]. rewrite X1, X2, (M1 w pi P), (M2 w pi P). unfold f. cbn [holds cmp_holds]. tauto.
      + eapply mpost_impl; [apply decide_ok; apply leaf_rok; [exact W2|apply single_wf|exact Cf|]|].
        2:{ intros r s' (S' & R). split; [lia|exact R]. }
        intros w pi P. split; [apply Hf|]. rewrite X1, X2, (M1 w pi P), (M2 w pi P). unfold f. cbn [holds cmp_holds]. lia.
  Qed.

  (** ** Intervals *)
  Hypothesis Hb0 : forall v, In v m0 -> (v < 2 ^ 31)%N.
  (** the bounds of an interval *)
  Definition bl (c : cons) : list (marking -> Prop) :=
    (if (c_lower c =? 0)%N then [] else [fun m => (c_lower c <= tokens m (c_place c))%N]) ++
    (if (c_upper c =? u32max)%N then [] else [fun m => (tokens m (c_place c) <= c_upper c)%N]).
  Lemma bl_holds : forall m c, cons_holds m c <-> Forall (fun P => P m) (bl c).
  Proof.
    intros m c. unfold bl, cons_holds. rewrite Forall_app.
    destruct (N.eqb_spec (c_lower c) 0) as [E|E]; destruct (N.eqb_spec (c_upper c) u32max) as [F|F]; rewrite ?Forall_cons_iff, ?Forall_nil_iff.
    - split; [auto|]. intros _. split; [lia|auto].
    - split; [intros (A & [C|C]); [contradiction|auto]|]. intros (_ & C & _). split; [lia|auto].
    - split; [intros (A & _); auto|]. intros ((A & _) & _). split; [exact A|auto].
    - split; [intros (A & [C|C]); [contradiction|auto]|]. intros ((A & _) & C & _). auto.
  Qed.
  Lemma bls_holds : forall m cs, Forall (cons_holds m) cs <-> Forall (fun P => P m) (flat_map bl cs).
  Proof. intros m. induction cs as [|c cs IH]; [split; constructor|]. cbn [flat_map]. rewrite Forall_cons_iff, Forall_app, bl_holds, IH. tauto. Qed.

  Definition pairok (P : marking -> Prop) (p : coll * coll) : Prop := wf B (fst p) /\ wf B (snd p) /\
    forall w pi, at_ w pi -> (P (pi 0) -> msem (fst p) (occ w)) /\ (~ P (pi 0) -> msem (snd p) (occ w)).
  Lemma bound_spec : forall m1 m2 (P : marking -> Prop), int32 (mb_const m1) = true -> int32 (mb_const m2) = true ->
    (- 2 ^ 31 <= mb_const m2 - mb_const m1 < 2 ^ 31)%Z ->
    (forall w pi, at_ w pi -> (P (pi 0) <-> (mval m1 (occ w) <= mval m2 (occ w))%Z)) ->
    match bound m1 m2 with
    | Ok None => forall pi, RP pi -> ~ P (pi 0)
    | Ok (Some None) => forall pi, RP pi -> P (pi 0)
    | Ok (Some (Some p)) => pairok P p
    | _ => False
    end.
  Proof.
    intros m1 m2 P I1 I2 D H. unfold bound. destruct (trivial_lt false m1 m2) as [[|]|] eqn:T.
    - intros pi (w & Hp). apply (H w pi Hp). apply (@trivial_ok _ _ _ _ (occ w) (occ_nonneg w) I1 I2 T). reflexivity.
    - intros pi (w & Hp) Hk. apply (H w pi Hp) in Hk. apply (@trivial_ok _ _ _ _ (occ w) (occ_nonneg w) I1 I2 T) in Hk. discriminate.
    - unfold mb_int. rewrite !i32_id by assumption. rewrite int_sub_ok by lia. cbn [bind]. split; [apply single_wf|]. split; [apply single_wf|].
      intros w pi Hp. cbn [fst snd]. rewrite !single_sem, (H w pi Hp). cbn [lop_holds]. lia.
  Qed.
  Lemma place_mem : forall p, p < cn_places net -> exists mb, member_for_place net m0 p = Ok mb /\ (0 <= mb_const mb < 2 ^ 31)%Z /\
    forall w pi, at_ w pi -> mval mb (occ w) = Z.of_N (tokens (pi 0) p).
  Proof.
    intros p Hp. rewrite (member_for_place_ok L m0 Hm0 Hp). eexists. split; [reflexivity|]. cbn [mb_const]. split.
    - unfold tokens. assert (nth p m0 0%N < 2 ^ 31)%N by (apply Hb0, nth_In; lia). lia.
    - intros w pi (_ & R). apply (place_val Hm0 R Hp).
  Qed.
  Lemma int_mem : forall v, (v < 2 ^ 31)%N -> mb_const (member_int (Z.of_N v)) = Z.of_N v /\ forall x, mval (member_int (Z.of_N v)) x = Z.of_N v.
  Proof.
    intros v Hv. unfold mval, member_int. cbn [mb_const mb_vars lin]. rewrite i32_id by (apply int32_spec; lia). split; [reflexivity|]. intros; lia.
  Qed.
  (** what is left of one interval *)
  Definition left_of (m : list (marking -> Prop)) (c c' : cons) (ps : list (coll * coll)) : Prop :=
    Forall2 pairok m ps /\ bound_ok (cn_places net) c' = true /\ c_place c' = c_place c /\
    (forall pi, RP pi -> (cons_holds (pi 0) c <-> cons_holds (pi 0) c')).
  Lemma bound_ok_spec : forall np c, bound_ok np c = true <-> c_place c < np /\ (c_lower c < 2 ^ 31)%N /\ (c_upper c < 2 ^ 31 \/ c_upper c = u32max)%N.
  Proof. intros np c. unfold bound_ok. rewrite !andb_true_iff, orb_true_iff, Nat.ltb_lt, !N.ltb_lt, N.eqb_eq. tauto. Qed.
  Definition lo (c : cons) : list (marking -> Prop) := if (c_lower c =? 0)%N then [] else [fun m => (c_lower c <= tokens m (c_place c))%N].
  Definition up (c : cons) : list (marking -> Prop) := if (c_upper c =? u32max)%N then [] else [fun m => (tokens m (c_place c) <= c_upper c)%N].
  Lemma lower_ok : forall c, bound_ok (cn_places net) c = true ->
    match lower_bound net m0 c with
    | Ok None => forall pi, RP pi -> ~ cons_holds (pi 0) c
    | Ok (Some (c', ps)) => left_of (lo c') c c' ps /\ c_upper c' = c_upper c
    | _ => False
    end.
  Proof.
    intros c Hc. pose proof Hc as Hc'. apply bound_ok_spec in Hc'. destruct Hc' as (Hp & Hl & Hu). unfold lower_bound. destruct (N.eqb_spec (c_lower c) 0) as [E|E].
    - split; [|reflexivity]. unfold left_of, lo. destruct (N.eqb_spec (c_lower c) 0); [|contradiction]. split; [constructor|]. split; [exact Hc|]. split; [reflexivity|tauto].
    - destruct (place_mem (c_place c) Hp) as (mb & Em & Km & Vm). rewrite Em. cbn [bind]. destruct (int_mem (c_lower c) Hl) as (Ki & Vi).
      pose proof (bound_spec (member_int (Z.of_N (c_lower c))) mb (fun m => (c_lower c <= tokens m (c_place c))%N)) as S.
      rewrite Ki in S. assert (S' := S ltac:(apply int32_spec; lia) ltac:(apply int32_spec; lia) ltac:(lia)). clear S.
      assert (S := S' ltac:(intros w pi Hw; rewrite Vi, (Vm w pi Hw); lia)). clear S'.
      destruct (bound _ mb) as [[[p|]|]| | |]; cbn [bind]; try contradiction.
      + split; [|reflexivity]. unfold left_of, lo. destruct (N.eqb_spec (c_lower c) 0); [contradiction|]. split; [constructor; [exact S|constructor]|]. split; [exact Hc|]. split; [reflexivity|tauto].
      + split; [|reflexivity]. unfold left_of, lo, set_lower. cbn [c_lower c_place c_upper N.eqb]. split; [constructor|]. split; [apply bound_ok_spec; cbn [c_lower c_place c_upper]; split; [exact Hp|]; split; [lia|exact Hu]|]. split; [reflexivity|].
        intros pi P. specialize (S pi P). unfold cons_holds. cbn [c_lower c_place c_upper]. split; [intros (_ & A); split; [lia|exact A]|intros (_ & A); split; [exact S|exact A]].
      + intros pi P (A & _). exact (S pi P A).
  Qed.
  Lemma upper_ok : forall c, bound_ok (cn_places net) c = true ->
    match upper_bound net m0 c with
    | Ok None => forall pi, RP pi -> ~ cons_holds (pi 0) c
    | Ok (Some (c', ps)) => left_of (up c') c c' ps /\ c_lower c' = c_lower c
    | _ => False
    end.
  Proof.
    intros c Hc. pose proof Hc as Hc'. apply bound_ok_spec in Hc'. destruct Hc' as (Hp & Hl & Hu). unfold upper_bound. destruct (N.eqb_spec (c_upper c) u32max) as [E|E].
    - split; [|reflexivity]. unfold left_of, up. destruct (N.eqb_spec (c_upper c) u32max); [|contradiction]. split; [constructor|]. split; [exact Hc|]. split; [reflexivity|tauto].
    - destruct (place_mem (c_place c) Hp) as (mb & Em & Km & Vm). rewrite Em. cbn [bind]. assert (Hu' : (c_upper c < 2 ^ 31)%N) by tauto. destruct (int_mem (c_upper c) Hu') as (Ki & Vi).
      pose proof (bound_spec mb (member_int (Z.of_N (c_upper c))) (fun m => (tokens m (c_place c) <= c_upper c)%N)) as S.
      rewrite Ki in S. assert (S' := S ltac:(apply int32_spec; lia) ltac:(apply int32_spec; lia) ltac:(lia)). clear S.
      assert (S := S' ltac:(intros w pi Hw; rewrite Vi, (Vm w pi Hw); lia)). clear S'.
      destruct (bound mb _) as [[[p|]|]| | |]; cbn [bind]; try contradiction.
      + split; [|reflexivity]. unfold left_of, up. destruct (N.eqb_spec (c_upper c) u32max); [contradiction|]. split; [constructor; [exact S|constructor]|]. split; [exact Hc|]. split; [reflexivity|tauto].
      + split; [|reflexivity]. unfold left_of, up, set_upper. cbn [c_lower c_place c_upper]. rewrite N.eqb_refl. split; [constructor|]. split; [apply bound_ok_spec; cbn [c_lower c_place c_upper]; split; [exact Hp|]; split; [exact Hl|auto]|]. split; [reflexivity|].
        intros pi P. specialize (S pi P). unfold cons_holds. cbn [c_lower c_place c_upper]. split; [intros (A & _); auto|intros (A & _); auto].
      + intros pi P (_ & [A|A]); [contradiction|]. exact (S pi P A).
  Qed.
  Definition fine (c : cons) : Prop := bound_ok (cn_places net) c = true /\ no_bound c = false.
  Lemma bounds_ok : forall cs, forallb (bound_ok (cn_places net)) cs = true ->
    match bounds net m0 cs with
    | Ok None => forall pi, RP pi -> ~ Forall (cons_holds (pi 0)) cs
    | Ok (Some (ncs, ps)) => Forall2 pairok (flat_map bl ncs) ps /\ Forall fine ncs /\ forall pi, RP pi -> (Forall (cons_holds (pi 0)) cs <-> Forall (cons_holds (pi 0)) ncs)
    | _ => False
    end.
  Proof.
    induction cs as [|c cs IH]; intros H; cbn [bounds].
    - cbn [flat_map]. split; [constructor|]. split; [constructor|tauto].
    - cbn [forallb] in H. apply andb_true_iff in H. destruct H as (Hc & Hcs). specialize (IH Hcs). pose proof (lower_ok c Hc) as Lo. destruct (lower_bound net m0 c) as [[(c1, ps1)|]| | |]; cbn [bind]; try contradiction.
      2:{ intros pi P F. inversion F; subst. eapply Lo; eassumption. }
      destruct Lo as ((L1 & L2 & L3 & L4) & L5). pose proof (upper_ok c1 L2) as Up. destruct (upper_bound net m0 c1) as [[(c2, ps2)|]| | |]; cbn [bind]; try contradiction.
      2:{ intros pi P F. inversion F as [|? ? F1 F2]; subst. apply (L4 pi P) in F1. eapply Up; eassumption. }
      destruct Up as ((U1 & U2 & U3 & U4) & U5). destruct (bounds net m0 cs) as [[(ncs, ps)|]| | |]; cbn [bind]; try contradiction.
      2:{ intros pi P F. inversion F; subst. eapply IH; eassumption. }
      destruct IH as (I1 & I2 & I3).
      assert (Hlo : lo c2 = lo c1) by (unfold lo; rewrite U5, U3; reflexivity).
      assert (Hbl : bl c2 = lo c1 ++ up c2) by (rewrite <- Hlo; reflexivity).
      destruct (no_bound c2) eqn:Nb.
      + unfold no_bound in Nb. apply andb_true_iff in Nb. destruct Nb as (N1 & N2).
        assert (Z1 : lo c1 = []) by (rewrite <- Hlo; unfold lo; rewrite N1; reflexivity). assert (Z2 : up c2 = []) by (unfold up; rewrite N2; reflexivity).
        rewrite Z1 in L1. rewrite Z2 in U1. inversion L1; subst. inversion U1; subst. cbn [app]. split; [exact I1|]. split; [exact I2|].
        intros pi P. rewrite Forall_cons_iff, (I3 pi P), (L4 pi P), (U4 pi P). split; [tauto|]. intros F. split; [|exact F]. apply bl_holds. rewrite Hbl, Z1, Z2. constructor.
      + cbn [flat_map]. rewrite Hbl, <- app_assoc. split; [apply Forall2_app; [exact L1|apply Forall2_app; assumption]|]. split; [constructor; [split; assumption|exact I2]|].
        intros pi P. rewrite !Forall_cons_iff, (I3 pi P), (L4 pi P), (U4 pi P). tauto.
  Qed.

  Definition nlpok (s : nat) (P : marking -> Prop) (n : coll) : Prop := inv s n /\ forall w pi, at_ w pi -> ~ P (pi 0) -> msem n (occ w).
  Lemma nlpok_later : forall s s' Ps ns, s <= s' -> Forall2 (nlpok s) Ps ns -> Forall2 (nlpok s') Ps ns.
  Proof. intros s s' Ps ns H F. induction F as [|P n Ps ns (A & C) F IH]; constructor; [|exact IH]. split; [eapply inv_le; [exact clock_mono|exact H|exact A]|exact C]. Qed.
  Lemma rev_flat : forall cs, rev (flat_map bl cs) = flat_map (fun c => rev (bl c)) (rev cs).
  Proof. induction cs as [|c cs IH]; [reflexivity|]. cbn [flat_map rev]. rewrite rev_app_distr, IH, flat_map_app. cbn [flat_map]. rewrite app_nil_r. reflexivity. Qed.
  Lemma Forall2_rev : forall A C (R : A -> C -> Prop) l l', Forall2 R l l' -> Forall2 R (rev l) (rev l').
  Proof. intros A C R l l' H. induction H; cbn [rev]; [constructor|]. apply Forall2_app; [assumption|]. constructor; [assumption|constructor]. Qed.

  Lemma drop_ok : forall present c dropped (P : marking -> Prop) Ps rn kn Ks s,
    Forall2 (nlpok s) ((if present : bool then [P] else []) ++ Ps) rn -> Forall2 (nlpok s) Ks kn ->
    mpost (drop_one addr clock simplex intopt net m0 present c dropped rn kn) s (fun y s' => s <= s' /\
      exists keep : bool, fst (fst y) = (if keep then c else dropped) /\ (present = false -> keep = true) /\
        Forall2 (nlpok s') Ps (snd (fst y)) /\ Forall2 (nlpok s') ((if present && keep then [P] else []) ++ Ks) (snd y) /\
        (keep = false -> forall pi, RP pi -> P (pi 0))).
  Proof.
    intros present c dropped P Ps rn kn Ks s F G. unfold drop_one. destruct present.
    - cbn [app] in F. inversion F as [|? n ? rn' (F1 & F2) F3]; subst.
      eapply mpost_bind; [apply (sat_ok addr addr_inj clock clock_mono simplex intopt simplex_sound intopt_sound net m0 B HB HBs); exact F1|]. intros [n' b] s' (S1 & Y1 & Y2 & Y3). cbn [fst snd] in *.
      apply mpost_ret. split; [exact S1|]. exists b. destruct b; cbn [fst snd andb app].
      + split; [reflexivity|]. split; [auto|]. split; [eapply nlpok_later; eassumption|]. split; [|discriminate]. constructor; [|eapply nlpok_later; eassumption]. split; [apply Y1; reflexivity|].
        intros w pi Hp Hn. apply (Y3 w (pi 0)); [apply Hp|]. apply (F2 w pi Hp Hn).
      + split; [reflexivity|]. split; [auto|]. split; [eapply nlpok_later; eassumption|]. split; [eapply nlpok_later; eassumption|].
        intros _ pi (w & Hp). apply NNPP. intros Hn. apply (Y2 eq_refl w (pi 0)); [apply Hp|]. apply (F2 w pi Hp Hn).
    - apply mpost_ret. cbn [fst snd andb app] in *. split; [lia|]. exists true. split; [reflexivity|]. split; [auto|]. split; [exact F|]. split; [exact G|discriminate].
  Qed.
  Lemma prune_ok : forall rcs rn kc kn s, Forall fine rcs -> Forall fine kc ->
    Forall2 (nlpok s) (flat_map (fun c => rev (bl c)) rcs) rn -> Forall2 (nlpok s) (flat_map bl kc) kn ->
    mpost (prune addr clock simplex intopt net m0 rcs rn kc kn) s (fun y s' => s <= s' /\ Forall fine (fst y) /\
      Forall2 (nlpok s') (flat_map bl (fst y)) (snd y) /\ forall pi, RP pi -> (Forall (cons_holds (pi 0)) (rev rcs ++ kc) <-> Forall (cons_holds (pi 0)) (fst y))).
  Proof.
    induction rcs as [|c rcs IH]; intros rn kc kn s Fc Fk Hn Hk.
    - cbn [prune flat_map] in *. inversion Hn; subst. apply mpost_ret. cbn [fst snd rev app]. split; [lia|]. split; [exact Fk|]. split; [exact Hk|tauto].
    - cbn [prune]. eapply mpost_bind; [apply tick_ok with (P := fun _ s' => s' = S s); reflexivity|]. intros t s' ->.
      apply (nlpok_later s (S s)) in Hn; [|lia]. apply (nlpok_later s (S s)) in Hk; [|lia]. destruct t.
      + apply mpost_ret. cbn [fst snd]. split; [lia|]. split; [apply Forall_app; split; [apply Forall_rev; exact Fc|exact Fk]|]. split; [|tauto].
        rewrite flat_map_app. apply Forall2_app; [|exact Hk]. apply Forall2_rev in Hn. rewrite <- (rev_involutive (c :: rcs)) in Hn at 1. rewrite <- rev_flat, rev_involutive in Hn. exact Hn.
      + inversion Fc as [|? ? Fc1 Fc2]; subst. destruct Fc1 as (Fb & Fn). cbn [flat_map] in Hn. unfold bl at 1 in Hn. rewrite rev_app_distr, <- app_assoc in Hn.
        eapply mpost_bind.
        { apply drop_ok with (P := fun m => (tokens m (c_place c) <= c_upper c)%N) (Ps := rev (lo c) ++ flat_map (fun c => rev (bl c)) rcs) (Ks := flat_map bl kc); [|exact Hk].
          revert Hn. unfold lo. destruct (N.eqb_spec (c_upper c) u32max); cbn [negb rev app]; auto. }
        intros [[c1 rn1] kn1] s1 (S1 & keep1 & E1 & E1' & N1 & K1 & D1). cbn [fst snd] in *.
        eapply mpost_bind.
        { apply drop_ok with (P := fun m => (c_lower c <= tokens m (c_place c))%N) (Ps := flat_map (fun c => rev (bl c)) rcs); [|exact K1].
          revert N1. unfold lo. destruct (N.eqb_spec (c_lower c) 0); cbn [negb rev app]; auto. }
        intros [[c2 rn2] kn2] s2 (S2 & keep2 & E2 & E2' & N2 & K2 & D2). cbn [fst snd] in *.
        assert (Hbl : bl c2 = (if negb (c_lower c =? 0)%N && keep2 then [fun m => (c_lower c <= tokens m (c_place c))%N] else []) ++ (if negb (c_upper c =? u32max)%N && keep1 then [fun m => (tokens m (c_place c) <= c_upper c)%N] else [])).
        { subst c2 c1. unfold bl. destruct keep1, keep2; cbn [set_lower set_upper c_lower c_upper c_place]; rewrite ?andb_true_r, ?andb_false_r, ?N.eqb_refl;
            destruct (c_lower c =? 0)%N, (c_upper c =? u32max)%N; reflexivity. }
        assert (Hc2 : forall pi, RP pi -> (cons_holds (pi 0) c <-> cons_holds (pi 0) c2)).
        { intros pi P. rewrite (bl_holds _ c), (bl_holds _ c2), Hbl. unfold bl. destruct (N.eqb_spec (c_lower c) 0); destruct (N.eqb_spec (c_upper c) u32max); cbn [negb andb app]; destruct keep1, keep2; cbn [app];
            rewrite ?Forall_cons_iff, ?Forall_nil_iff; try (pose proof (D1 eq_refl pi P)); try (pose proof (D2 eq_refl pi P)); tauto. }
        assert (Hb2 : bound_ok (cn_places net) c2 = true).
        { apply bound_ok_spec. apply bound_ok_spec in Fb. subst c2 c1. destruct keep1, keep2; cbn [set_lower set_upper c_lower c_upper c_place]; lia. }
        rewrite app_assoc in K2. rewrite <- Hbl in K2.
        eapply mpost_impl.
        * apply IH with (s := s2); [exact Fc2| |exact N2|].
          -- destruct (no_bound c2) eqn:Nb; [exact Fk|]. constructor; [split; assumption|exact Fk].
          -- destruct (no_bound c2) eqn:Nb; [|exact K2]. unfold no_bound in Nb. apply andb_true_iff in Nb. destruct Nb as (Nb1 & Nb2). replace (bl c2) with (@nil (marking -> Prop)) in K2 by (unfold bl; rewrite Nb1, Nb2; reflexivity). exact K2.
        * intros y s' (S' & A1 & A2 & A3). split; [lia|]. split; [exact A1|]. split; [exact A2|]. intros pi P. rewrite <- (A3 pi P). cbn [rev]. rewrite <- app_assoc. rewrite !Forall_app. cbn [app]. rewrite Forall_cons_iff, Forall_nil_iff.
          rewrite (Hc2 pi P). destruct (no_bound c2) eqn:Nb; [|rewrite Forall_cons_iff; tauto].
          assert (cons_holds (pi 0) c2). { apply bl_holds. unfold bl. unfold no_bound in Nb. apply andb_true_iff in Nb. destruct Nb as (-> & ->). constructor. }
          tauto.
  Qed.

  Lemma fine_proper : forall c, fine c -> cons_proper c = true.
  Proof.
    intros c (A & C). apply bound_ok_spec in A. apply cons_proper_spec. unfold no_bound in C. apply andb_false_iff in C. rewrite !N.eqb_neq in C. unfold u32max in *. lia.
  Qed.
  Lemma conj_left_ok : forall neg cs, Forall fine cs -> cs <> [] -> exists f, conj_left neg cs = Ok f /\ cls k f = true /\
    forall pi, holds pn pi f <-> if neg : bool then ~ Forall (cons_holds (pi 0)) cs else Forall (cons_holds (pi 0)) cs.
  Proof.
    intros neg cs F Hne.
    assert (Multi : exists f, Ok (CConj neg cs) = Ok f /\ cls k f = true /\ forall pi, holds pn pi f <-> if neg : bool then ~ Forall (cons_holds (pi 0)) cs else Forall (cons_holds (pi 0)) cs).
    { eexists. split; [reflexivity|]. split; [apply cls_conj; eapply Forall_impl; [|exact F]; apply fine_proper|]. intros pi. destruct neg; cbn [holds]; tauto. }
    destruct cs as [|c [|c' cs]]; [congruence| |exact Multi]. clear Multi. inversion F as [|? ? Fc _]; subst. destruct Fc as (Fb & Fn). apply bound_ok_spec in Fb. destruct Fb as (Hp & Hl & Hu).
    assert (Fn' : c_lower c <> 0%N \/ c_upper c <> u32max) by (unfold no_bound in Fn; apply andb_false_iff in Fn; rewrite !N.eqb_neq in Fn; exact Fn).
    assert (One : forall m, Forall (cons_holds m) [c] <-> (c_lower c <= tokens m (c_place c))%N /\ (c_upper c = u32max \/ (tokens m (c_place c) <= c_upper c)%N)) by (intros m; rewrite Forall_cons_iff, Forall_nil_iff; unfold cons_holds; tauto).
    unfold conj_left. rewrite (i32_id (Z.of_N (c_lower c))) by (apply int32_spec; lia).
    assert (Ku : c_upper c <> u32max -> i32 (Z.of_N (c_upper c)) = Z.of_N (c_upper c)) by (intros; apply i32_id, int32_spec; lia).
    assert (Cmp : forall o a b, cmp_range o a b = true -> cls k (CCmp o a b) = true) by (intros; rewrite cls_cmp; assumption).
    assert (Two : forall isor a b, cls k a = true -> cls k b = true -> exists f, make_log isor [a; b] = Ok f /\ cls k f = true /\ forall pi, holds pn pi f <-> op2 isor (holds pn pi a) (holds pn pi b)).
    { intros isor a b Ca Cb. destruct (@make_log_spec k isor [a; b]) as (f & E1 & E2 & E3); [constructor; [exact Ca|constructor; [exact Cb|constructor]]|]. exists f. split; [exact E1|]. split; [exact E2|]. intros pi. rewrite E3, J_cons, J_one. tauto. }
    assert (R1 : forall z, (1 <= z < 2 ^ 31)%Z -> u32range 1 (2 ^ 32) z = true) by (intros z Hz; unfold u32range; destruct (Z.leb_spec 1 z); destruct (Z.ltb_spec z (2 ^ 32)); cbn; lia).
    assert (R0 : forall z, (0 <= z < 2 ^ 31)%Z -> u32range 0 (2 ^ 32 - 1) z = true) by (intros z Hz; unfold u32range; destruct (Z.leb_spec 0 z); destruct (Z.ltb_spec z (2 ^ 32 - 1)); cbn; lia).
    destruct (N.eqb_spec (c_lower c) (c_upper c)) as [E|E]; [|destruct (N.eqb_spec (c_lower c) 0) as [E0|E0]; destruct (N.eqb_spec (c_upper c) u32max) as [Em|Em]; cbn [negb andb]].
    - assert (Em : c_upper c <> u32max) by (unfold u32max in *; lia). rewrite (Ku Em). eexists. split; [reflexivity|]. destruct (N.eqb_spec (c_lower c) 0) as [E0|E0]; cbn [negb].
      + split; [destruct neg; apply Cmp; cbn [cmp_range constant negb orb den]; apply R0; lia|]. intros pi. destruct neg; rewrite One; cbn [holds cmp_holds den]; lia.
      + split; [destruct neg; apply Cmp; cbn [cmp_range constant negb orb den]; apply R0; lia|]. intros pi. destruct neg; rewrite One; cbn [holds cmp_holds den]; lia.
    - tauto.
    - rewrite (Ku Em). eexists. split; [reflexivity|]. split; [destruct neg; apply Cmp; cbn [cmp_range constant negb orb den]; apply R0; lia|]. intros pi. destruct neg; rewrite One; cbn [holds cmp_holds den]; lia.
    - eexists. split; [reflexivity|]. split; [destruct neg; apply Cmp; cbn [cmp_range constant negb orb den]; apply R1; lia|]. intros pi. destruct neg; rewrite One; cbn [holds cmp_holds den]; lia.
    - rewrite (Ku Em). destruct neg.
      + destruct (Two true (CCmp OpLt (Pl (c_place c)) (Lit (Z.of_N (c_lower c)))) (CCmp OpLt (Lit (Z.of_N (c_upper c))) (Pl (c_place c)))) as (f & E1 & E2 & E3);
          [apply Cmp; cbn [cmp_range constant negb orb den]; apply R1; lia|apply Cmp; cbn [cmp_range constant negb orb den]; apply R0; lia|]. exists f. split; [exact E1|]. split; [exact E2|].
        intros pi. rewrite E3, One. cbn [op2 holds cmp_holds den]. lia.
      + destruct (Two false (CCmp OpLe (Lit (Z.of_N (c_lower c))) (Pl (c_place c))) (CCmp OpLe (Pl (c_place c)) (Lit (Z.of_N (c_upper c))))) as (f & E1 & E2 & E3);
          [apply Cmp; cbn [cmp_range constant negb orb den]; apply R1; lia|apply Cmp; cbn [cmp_range constant negb orb den]; apply R0; lia|]. exists f. split; [exact E1|]. split; [exact E2|].
        intros pi. rewrite E3, One. cbn [op2 holds cmp_holds den]. lia.
  Qed.
  Lemma Forall2_map_snd : forall s Ps ps, Forall2 pairok Ps ps -> Forall2 (nlpok s) Ps (map snd ps).
  Proof. intros s Ps ps H. induction H as [|P p Ps ps (A & C & D) H IH]; cbn [map]; constructor; [|exact IH]. split; [right; exact C|]. intros w pi Hp. apply (D w pi Hp). Qed.

  Lemma conj_ok : forall negated isneg cs s, let c := CConj isneg cs in query_ok (cn_places net) m0 c = true -> cls k c = true ->
    mpost (simp_conj addr clock simplex intopt net m0 negated isneg cs) s (fun r s' => s <= s' /\ rok s' (target negated c) r).
  Proof.
    intros negated isneg cs s c Hq Hc. unfold c in *. clear c. cbn [query_ok] in Hq.
    assert (Ht : forall pi, target negated (CConj isneg cs) pi <-> if xorb negated isneg then ~ Forall (cons_holds (pi 0)) cs else Forall (cons_holds (pi 0)) cs).
    { intros pi. unfold SimpProofs.target. destruct negated, isneg; cbn [holds xorb]; tauto. }
    unfold simp_conj. eapply mpost_bind; [apply tick_ok with (P := fun _ s' => s' = S s); reflexivity|]. intros t s' ->. cbv zeta. set (neg := xorb negated isneg) in *. destruct t.
    { apply mpost_ret. split; [lia|]. apply only_ok; [apply cls_conj; apply cls_conj in Hc; exact Hc|]. intros pi P. rewrite Ht. destruct neg; cbn [holds]; tauto. }
    assert (Tr : forall b s', (forall pi, RP pi -> if b : bool then Forall (cons_holds (pi 0)) cs else ~ Forall (cons_holds (pi 0)) cs) -> rok s' (target negated (CConj isneg cs)) (only (CBool (xorb neg b)))).
    { intros b s' H. apply bool_ok. intros pi P. rewrite Ht. specialize (H pi P). destruct neg, b; cbn [xorb negb]; split; intros; try discriminate; try tauto; auto. }
    assert (X1 : neg = xorb neg false) by (destruct neg; reflexivity). assert (X2 : negb neg = xorb neg true) by (destruct neg; reflexivity).
    pose proof (bounds_ok cs Hq) as Hb. destruct (bounds net m0 cs) as [[(ncs, ps)|]| | |]; try contradiction.
    2:{ unfold mpost, mbind, lift, ret. cbn [bind post fst snd]. split; [lia|]. rewrite X1. apply (Tr false). exact Hb. }
    destruct Hb as (F2 & Fi & He).
    eapply mpost_bind; [apply mpost_lift with (P := fun x s' => x = Some (ncs, ps) /\ s' = S s); cbn; auto|]. intros x s' (-> & ->).
    destruct ps as [|p0 ps].
    { cbn [map merge_lps]. eapply mpost_bind; [apply mpost_lift with (P := fun x s' => x = None /\ s' = S s); cbn; auto|]. intros x s' (-> & ->).
      assert (ncs = []). { destruct ncs as [|c ncs]; [reflexivity|]. exfalso. inversion F2 as [E|]. inversion Fi as [|? ? (_ & Fc) _]; subst. symmetry in E. cbn [flat_map] in E. apply app_eq_nil in E. destruct E as (E & _).
        unfold no_bound in Fc. unfold bl in E. destruct (c_lower c =? 0)%N; [|discriminate]. destruct (c_upper c =? u32max)%N; [discriminate Fc|discriminate]. }
      subst ncs. eapply mpost_bind; [apply tick_ok with (P := fun _ s' => s' = S (S s)); reflexivity|]. intros t s' ->.
      eapply mpost_bind with (Q := fun _ s' => S (S s) <= s'); [destruct t; [apply tick_ok; lia|apply mpost_ret; lia]|]. intros _ s' S'.
      apply mpost_ret. split; [lia|]. rewrite X2. apply (Tr true). intros pi P. rewrite (He pi P). constructor. }
    remember (p0 :: ps) as l eqn:El. assert (Hne : map fst l <> []) by (subst l; discriminate).
    destruct (merge_lps_ok clock B (map fst l) Hne) as (lc & Ec & Ci & Cs). rewrite Ec.
    eapply mpost_bind; [apply mpost_lift with (P := fun x s' => x = Some lc /\ s' = S s); cbn; auto|]. intros x s' (-> & ->).
    assert (Ilc : inv (S (S s)) lc). { apply Ci. rewrite Forall_map. clear -F2. induction F2 as [|P p Ps l (A & _) F IH]; constructor; [right; exact A|exact IH]. }
    assert (Slc : forall w pi, at_ w pi -> Forall (cons_holds (pi 0)) cs -> msem lc (occ w)).
    { intros w pi P H. apply Cs. apply (He pi (ex_intro _ w P)) in H. apply bls_holds in H. rewrite Forall_map. clear -F2 H P. induction F2 as [|Q p Ps l (_ & _ & D) F IH]; [constructor|]. inversion H; subst. constructor; [apply (D w pi P); assumption|apply IH; assumption]. }
    eapply mpost_bind; [apply tick_ok with (P := fun _ s' => s' = S (S s)); reflexivity|]. intros t s' ->.
    eapply mpost_bind; [apply (guarded_ok addr addr_inj clock clock_mono simplex intopt simplex_sound intopt_sound net m0 B HB HBs); exact Ilc|]. intros [lc' b1] s1 (S1 & Y1 & Y2 & Y3). cbn [fst snd] in *. destruct b1; cbn [negb].
    2:{ apply mpost_ret. split; [lia|]. rewrite X1. apply (Tr false). intros pi (w & P) H. apply (Y2 eq_refl w (pi 0)); [apply P|]. apply (Slc w pi P H). }
    eapply mpost_bind.
    { apply prune_ok with (s := s1); [apply Forall_rev; exact Fi|constructor| |constructor]. rewrite <- rev_flat. apply Forall2_rev. apply Forall2_map_snd. exact F2. }
    intros [ncs' kn] s2 (S2 & P1 & P2 & P3). cbn [fst snd] in *. rewrite app_nil_r, rev_involutive in P3.
    assert (He' : forall pi, RP pi -> (Forall (cons_holds (pi 0)) cs <-> Forall (cons_holds (pi 0)) ncs')) by (intros pi P; rewrite (He pi P); apply P3; exact P).
    destruct ncs' as [|c' ncs'].
    { apply mpost_ret. split; [lia|]. rewrite X2. apply (Tr true). intros pi P. apply (He' pi P). constructor. }
    destruct (conj_left_ok neg (c' :: ncs') P1 ltac:(discriminate)) as (f & Ef & Cf & Hf). rewrite Ef.
    eapply mpost_bind; [apply mpost_lift with (P := fun x s' => x = f /\ s' = s2); cbn; auto|]. intros x s' (-> & ->).
    apply mpost_ret. split; [lia|].
    assert (Iu : inv s2 (union_of kn)). { apply union_inv. clear -P2. induction P2 as [|P n Ps ns (A & _) F IH]; constructor; assumption. }
    assert (Il : inv s2 lc') by (eapply inv_le; [exact clock_mono|exact S2|apply Y1; reflexivity]).
    assert (Su : forall w pi, at_ w pi -> ~ Forall (cons_holds (pi 0)) cs -> msem (union_of kn) (occ w)).
    { intros w pi P H. cbn [msem union_of]. apply msem_union. rewrite (He' pi (ex_intro _ w P)), bls_holds in H. clear -P2 H P. induction P2 as [|Q n Ps ns (_ & D) F IH]; [exfalso; apply H; constructor|].
      destruct (classic (Q (pi 0))) as [K|K].
      - destruct IH as (d & Hd & Hm); [intros G; apply H; constructor; assumption|]. exists d. split; [right; exact Hd|exact Hm].
      - exists n. split; [left; reflexivity|]. apply (D w pi P K). }
    assert (Hfe : forall w pi, at_ w pi -> (holds pn pi f <-> if neg then ~ Forall (cons_holds (pi 0)) cs else Forall (cons_holds (pi 0)) cs)).
    { intros w pi P. rewrite Hf. destruct neg; rewrite (He' pi (ex_intro _ w P)); tauto. }
    destruct neg; (split; [|split; [|split]]); cbn [rv_f rv_lps rv_neg]; try assumption.
    - intros w pi P. split; [rewrite (Hfe w pi P), Ht; tauto|]; rewrite (Hfe w pi P). split; [apply (Su w pi P)|]. intros H. apply NNPP in H. apply (Y3 w (pi 0)); [apply P|]. apply (Slc w pi P H).
    - intros w pi P. split; [rewrite (Hfe w pi P), Ht; tauto|]; rewrite (Hfe w pi P). split; [|apply (Su w pi P)]. intros H. apply (Y3 w (pi 0)); [apply P|]. apply (Slc w pi P H).
  Qed.
End Simp.
