(** Negation rewriting keeps what is certainly true and what is possibly true of formulas
    about fireable transitions (C44). *)
From Verif Require Import Base BaseLemmas PqlSyntax PqlSpec PqlModel CtlFrag IgnFireModel.
From Coq Require Import Permutation.

(** ** What is certainly true ([true]) and what is possibly true ([false]) *)
Section Tv.
Variable m : list N.
Definition cok (b : bool) (c : cons) : bool :=
  if b then ((c_lower c =? 0) && ((c_upper c =? u32max) || (nth (c_place c) m 0 <=? c_upper c)))%N
  else (c_lower c <=? nth (c_place c) m 0)%N.
Fixpoint tvl (b : bool) (c : cond) : bool :=
  match c with
  | CBool x => x
  | CConj n cs => if n then negb (forallb (cok (negb b)) cs) else forallb (cok b) cs
  | CNot c => negb (tvl (negb b) c)
  | CAnd l => forallb (tvl b) l
  | COr l => existsb (tvl b) l
  | _ => false
  end.

(** Formulas without comparisons; formulas without negation. *)
Fixpoint ffrag (c : cond) : bool :=
  match c with
  | CBool _ => true
  | CConj _ cs => forallb cons_proper cs
  | CNot c => ffrag c
  | CAnd l | COr l => forallb ffrag l
  | _ => false
  end.
Fixpoint nf (c : cond) : bool :=
  match c with
  | CBool _ => true
  | CConj _ cs => forallb cons_proper cs
  | CAnd l | COr l => forallb nf l
  | _ => false
  end.

Lemma proper_parts : forall c, cons_proper c = true -> (c_lower c <= u32max)%N /\ (c_upper c <= u32max)%N /\ ~ (c_lower c = 0%N /\ c_upper c = u32max).
Proof.
  intros c H. unfold cons_proper in H. apply andb_prop in H. destruct H as [H H3]. apply andb_prop in H. destruct H as [H1 H2].
  apply N.leb_le in H1, H2. split; auto. split; auto. intros [E1 E2]. rewrite E1, E2, !N.eqb_refl in H3. discriminate.
Qed.
Lemma proper_of : forall c, (c_lower c <= u32max)%N -> (c_upper c <= u32max)%N -> ~ (c_lower c = 0%N /\ c_upper c = u32max) -> cons_proper c = true.
Proof.
  intros c H1 H2 H3. unfold cons_proper. apply N.leb_le in H1, H2. rewrite H1, H2. cbn [andb].
  destruct (N.eqb_spec (c_lower c) 0); auto. destruct (N.eqb_spec (c_upper c) u32max); auto; exfalso; auto.
Qed.
Lemma proper_no : forall c, cons_proper c = true -> no_cons c = false.
Proof. intros c H. unfold cons_proper, no_cons in *. apply andb_prop in H. destruct H as [_ H]. apply Bool.negb_true_iff in H. exact H. Qed.

Lemma invert_ok : forall b c, cons_proper c = true -> (c_lower c = 0%N \/ c_upper c = u32max) ->
  cons_proper (invert c) = true /\ (c_lower (invert c) = 0%N \/ c_upper (invert c) = u32max) /\ cok b (invert c) = negb (cok (negb b) c).
Proof.
  intros b c P S. pose proof (proper_no c P) as NC. destruct (proper_parts c P) as (L & U & D).
  assert (UM : u32max = 4294967295%N) by reflexivity. assert (PW : (2 ^ 32 = 4294967296)%N) by reflexivity.
  unfold invert. rewrite NC. destruct (N.eqb_spec (c_lower c) 0) as [E|E].
  - assert (c_upper c <> u32max) by auto. assert (X : ((c_upper c + 1) mod 2 ^ 32 = c_upper c + 1)%N) by (apply N.mod_small; lia). rewrite X.
    split; [apply proper_of; cbn [c_lower c_upper]; lia|]. split; [right; reflexivity|]. destruct b; cbn [cok c_lower c_upper c_place negb].
    + replace (c_upper c + 1 =? 0)%N with false by (symmetry; apply N.eqb_neq; lia). rewrite E. cbn [andb].
      replace (0 <=? nth (c_place c) m 0)%N with true by (symmetry; apply N.leb_le; lia). reflexivity.
    + rewrite E, N.eqb_refl. replace (c_upper c =? u32max)%N with false by (symmetry; apply N.eqb_neq; lia). cbn [andb orb].
      destruct (N.leb_spec (nth (c_place c) m 0%N) (c_upper c)); cbn [negb]; [apply N.leb_gt|apply N.leb_le]; lia.
  - destruct S as [S|S]; [contradiction|]. rewrite S, N.eqb_refl. 
    split; [apply proper_of; cbn [c_lower c_upper]; lia|]. split; [left; reflexivity|]. destruct b; cbn [cok c_lower c_upper c_place negb].
    + rewrite N.eqb_refl. replace (c_lower c - 1 =? u32max)%N with false by (symmetry; apply N.eqb_neq; lia). cbn [andb orb].
      destruct (N.leb_spec (c_lower c) (nth (c_place c) m 0%N)); cbn [negb]; [apply N.leb_gt|apply N.leb_le]; lia.
    + replace (c_lower c =? 0)%N with false by (symmetry; apply N.eqb_neq; lia). cbn [andb negb]. apply N.leb_le. lia.
Qed.

Lemma intersect_ok : forall b a c, cons_proper a = true -> cons_proper c = true -> c_place a = c_place c ->
  cons_proper (intersect a c) = true /\ cok b (intersect a c) = cok b a && cok b c.
Proof.
  intros b a c PA PC E. destruct (proper_parts a PA) as (A1 & A2 & A3). destruct (proper_parts c PC) as (C1 & C2 & C3).
  split; [apply proper_of; unfold intersect; cbn [c_lower c_upper]; lia|].
  unfold intersect, cok. destruct b; cbn [c_lower c_upper c_place]; rewrite E.
  - destruct (N.eqb_spec (c_lower a) 0), (N.eqb_spec (c_lower c) 0), (N.eqb_spec (N.max (c_lower a) (c_lower c)) 0),
      (N.eqb_spec (c_upper a) u32max), (N.eqb_spec (c_upper c) u32max), (N.eqb_spec (N.min (c_upper a) (c_upper c)) u32max),
      (N.leb_spec (nth (c_place c) m 0%N) (c_upper a)), (N.leb_spec (nth (c_place c) m 0%N) (c_upper c)), (N.leb_spec (nth (c_place c) m 0%N) (N.min (c_upper a) (c_upper c)));
      cbn [andb orb]; try reflexivity; exfalso; lia.
  - destruct (N.leb_spec (c_lower a) (nth (c_place c) m 0%N)), (N.leb_spec (c_lower c) (nth (c_place c) m 0%N)), (N.leb_spec (N.max (c_lower a) (c_lower c)) (nth (c_place c) m 0%N));
      cbn [andb]; try reflexivity; exfalso; lia.
Qed.

Lemma add_cons_ok : forall b c l, cons_proper c = true -> forallb cons_proper l = true ->
  forallb cons_proper (add_cons c l) = true /\ forallb (cok b) (add_cons c l) = forallb (cok b) l && cok b c.
Proof.
  intros b c. induction l as [|d l IH]; intros P L; cbn [add_cons].
  - cbn [forallb]. rewrite P. split; auto. rewrite andb_true_r. reflexivity.
  - cbn [forallb] in L. apply andb_prop in L. destruct L as [Ld L]. destruct (IH P L) as [I1 I2].
    destruct (c_place d <? c_place c)%nat.
    + cbn [forallb]. rewrite Ld, I1, I2, andb_assoc. auto.
    + destruct (Nat.eqb_spec (c_place d) (c_place c)) as [E|_].
      * destruct (intersect_ok b d c Ld P E) as [X Y]. cbn [forallb]. rewrite X, Y, L. split; auto. destruct (cok b d), (cok b c), (forallb (cok b) l); reflexivity.
      * cbn [forallb]. rewrite P, Ld, L. split; auto. destruct (cok b d), (cok b c), (forallb (cok b) l); reflexivity.
Qed.

Lemma singular_one : forall cs, singular cs = true -> exists c, cs = [c] /\ (c_lower c = 0%N \/ c_upper c = u32max).
Proof.
  intros [|c [|d cs]] H; try discriminate H. exists c. split; auto. cbn in H. apply Bool.orb_true_iff in H. destruct H as [H|H]; apply N.eqb_eq in H; auto.
Qed.

Lemma merge_conj_ok : forall b neg this other r, merge_conj neg this other = Ok r -> (neg = true -> singular other = true) ->
  forallb cons_proper this = true -> forallb cons_proper other = true ->
  forallb cons_proper r = true /\ forallb (cok b) r = forallb (cok b) this && (if neg then negb (forallb (cok (negb b)) other) else forallb (cok b) other).
Proof.
  intros b neg this other r H S T O. unfold merge_conj in H. destruct neg.
  - destruct (singular_one other (S eq_refl)) as (c & -> & Sc). cbn [forallb] in O. rewrite andb_true_r in O. destruct (invert_ok b c O Sc) as (V1 & V2 & V3).
    cbn [andb length] in H. change (1 <? 1)%nat with false in H. cbn [foldM] in H. rewrite (proper_no _ V1) in H.
    assert (X : negb (c_upper (invert c) =? u32max)%N && negb (c_lower (invert c) =? 0)%N && true = false).
    { destruct V2 as [->| ->]; rewrite N.eqb_refl; cbn [negb]; rewrite ?andb_false_r; reflexivity. }
    rewrite X in H. cbn [bind] in H. injection H as <-. destruct (add_cons_ok b (invert c) this V1 T) as [A1 A2]. rewrite A1, A2, V3. split; auto.
    cbn [forallb]. rewrite andb_true_r. reflexivity.
  - cbn [andb] in H. clear S. revert this T H. induction other as [|c l IH]; intros this T H; cbn [foldM] in H.
    + injection H as <-. cbn [forallb]. rewrite andb_true_r. auto.
    + cbn [forallb] in O. apply andb_prop in O. destruct O as [Oc O]. rewrite (proper_no c Oc), andb_false_r in H. cbn [bind] in H.
      destruct (add_cons_ok b c this Oc T) as [A1 A2]. destruct (IH O _ A1 H) as [B1 B2]. split; auto. rewrite B2, A2. cbn [forallb]. rewrite andb_assoc. reflexivity.
Qed.

(** ** Conjunctions and disjunctions *)
Definition comb (isor x y : bool) : bool := if isor then x || y else x && y.
Definition fold (b isor : bool) (l : list cond) : bool := if isor then existsb (tvl b) l else forallb (tvl b) l.
Notation all := (Forall (fun c => nf c = true)).

Lemma fold_cons : forall b isor c l, fold b isor (c :: l) = comb isor (tvl b c) (fold b isor l).
Proof. intros b [|] c l; reflexivity. Qed.
Lemma comb_comm : forall isor x y, comb isor x y = comb isor y x.
Proof. intros [|] [|] [|]; reflexivity. Qed.
Lemma comb_assoc : forall isor x y z, comb isor x (comb isor y z) = comb isor (comb isor x y) z.
Proof. intros [|] [|] [|] [|]; reflexivity. Qed.
Lemma fold_app : forall b isor l1 l2, fold b isor (l1 ++ l2) = comb isor (fold b isor l1) (fold b isor l2).
Proof.
  intros b isor l1 l2. induction l1 as [|c l1 IH]; [destruct isor; reflexivity|]. cbn [app]. rewrite !fold_cons, IH, comb_assoc. reflexivity.
Qed.
Lemma fold_end : forall b isor l c, fold b isor (l ++ [c]) = comb isor (fold b isor l) (tvl b c).
Proof. intros. rewrite fold_app. f_equal. rewrite fold_cons. destruct isor; cbn [comb fold existsb forallb]; [apply orb_false_r|apply andb_true_r]. Qed.

Lemma merge_into_tv : forall b isor conds n cs r, merge_into isor conds n cs = Ok r -> all conds -> forallb cons_proper cs = true ->
  all r /\ fold b isor r = comb isor (fold b isor conds) (tvl b (CConj n cs)).
Proof.
  intros b isor conds n cs r H A P. unfold merge_into in H.
  assert (Front : all (CConj n cs :: conds) /\ fold b isor (CConj n cs :: conds) = comb isor (fold b isor conds) (tvl b (CConj n cs))).
  { split; [constructor; auto|]. rewrite fold_cons, comb_comm. reflexivity. }
  destruct (if isor then n || singular cs else negb n || singular cs) eqn:G.
  - destruct conds as [|x conds]; [injection H as <-; exact Front|]. destruct x; try (injection H as <-; exact Front).
    inversion A as [|? ? A1 A2]; subst. cbn [nf] in A1. destruct (Bool.eqb_spec neg isor) as [->|D].
    + destruct (merge_conj (xorb isor n) cs0 cs) as [cs'| | |] eqn:E; try discriminate H. cbn [bind] in H. injection H as <-.
      assert (S : xorb isor n = true -> singular cs = true) by (destruct isor, n; cbn in *; auto; discriminate).
      destruct (merge_conj_ok b _ _ _ _ E S A1 P) as [M1 M2]. destruct (merge_conj_ok (negb b) _ _ _ _ E S A1 P) as [_ M3].
      split; [constructor; auto|]. rewrite !fold_cons, (comb_comm isor (comb _ _ _)), comb_assoc. f_equal.
      destruct isor, n; cbn [tvl comb xorb] in *; rewrite ?M2, ?M3, ?Bool.negb_involutive.
      * rewrite Bool.negb_andb. apply Bool.orb_comm.
      * rewrite Bool.negb_andb, Bool.negb_involutive. apply Bool.orb_comm.
      * apply Bool.andb_comm.
      * apply Bool.andb_comm.
    + destruct (Bool.eqb_spec n isor) as [->|D2]; [injection H as <-; exact Front|].
      destruct (merge_conj (xorb false n) [] cs) as [cs'| | |] eqn:E; try discriminate H. cbn [bind] in H. injection H as <-.
      assert (S : xorb false n = true -> singular cs = true) by (destruct isor, n; cbn in *; auto; try discriminate; congruence).
      destruct (merge_conj_ok b _ _ _ _ E S eq_refl P) as [M1 M2]. split; [constructor; auto|]. rewrite fold_cons, comb_comm. f_equal.
      cbn [tvl]. rewrite M2. cbn [forallb andb]. destruct n; reflexivity.
  - injection H as <-. split; [apply Forall_app; auto|]. apply fold_end.
Qed.

Lemma merge_leaf_tv : forall b isor aggr c conds r, merge_leaf isor aggr c conds = Ok r -> all conds -> nf c = true ->
  all r /\ fold b isor r = comb isor (fold b isor conds) (tvl b c).
Proof.
  intros b isor aggr c conds r H A P. unfold merge_leaf in H.
  assert (End : all (conds ++ [c]) /\ fold b isor (conds ++ [c]) = comb isor (fold b isor conds) (tvl b c)).
  { split; [apply Forall_app; auto|]. apply fold_end. }
  destruct aggr; [|injection H as <-; exact End]. destruct c; try (injection H as <-; exact End); try discriminate P.
  eapply merge_into_tv; eauto.
Qed.

Lemma try_merge_tv : forall b isor aggr c conds r, try_merge isor aggr c conds = Ok r -> all conds -> nf c = true ->
  all r /\ fold b isor r = comb isor (fold b isor conds) (tvl b c).
Proof.
  intros b isor aggr.
  assert (L : forall l, Forall (fun c => forall conds r, try_merge isor aggr c conds = Ok r -> all conds -> nf c = true ->
      all r /\ fold b isor r = comb isor (fold b isor conds) (tvl b c)) l ->
    forall conds r, (fix all (l : list cond) (acc : list cond) : res (list cond) :=
        match l with [] => Ok acc | x :: l' => acc' <- try_merge isor aggr x acc ;; all l' acc' end) l conds = Ok r -> all conds -> forallb nf l = true ->
      all r /\ fold b isor r = comb isor (fold b isor conds) (fold b isor l)).
  { induction 1 as [|x l I1 I2 IH]; intros conds r H A P.
    - injection H as <-. split; auto. destruct isor; cbn; [rewrite orb_false_r|rewrite andb_true_r]; reflexivity.
    - cbn [forallb] in P. apply andb_prop in P. destruct P as [Px P]. destruct (try_merge isor aggr x conds) as [acc| | |] eqn:E; try discriminate H. cbn [bind] in H.
      destruct (I1 _ _ E A Px) as [J1 J2]. destruct (IH _ _ H J1 P) as [K1 K2]. split; auto. rewrite K2, J2, fold_cons, comb_assoc. reflexivity. }
  induction c using cond_ind'; intros conds r K A P; cbn [try_merge] in K; try (eapply merge_leaf_tv; eassumption).
  - destruct isor; [eapply merge_leaf_tv; eassumption|]. exact (L l H conds r K A P).
  - destruct isor; [|eapply merge_leaf_tv; eassumption]. exact (L l H conds r K A P).
Qed.
Lemma try_merge_all_tv : forall b isor aggr l conds r, try_merge_all isor aggr l conds = Ok r -> all conds -> all l ->
  all r /\ fold b isor r = comb isor (fold b isor conds) (fold b isor l).
Proof.
  intros b isor aggr. induction l as [|x l IH]; intros conds r H A P; cbn [try_merge_all] in H.
  - injection H as <-. split; auto. destruct isor; cbn; [rewrite orb_false_r|rewrite andb_true_r]; reflexivity.
  - inversion P as [|? ? Px P']; subst. destruct (try_merge isor aggr x conds) as [acc| | |] eqn:E; try discriminate H. cbn [bind] in H.
    destruct (try_merge_tv b _ _ _ _ _ E A Px) as [J1 J2]. destruct (IH _ _ H J1 P') as [K1 K2]. split; auto. rewrite K2, J2, fold_cons, comb_assoc. reflexivity.
Qed.

Lemma nf_temporal : forall c, nf c = true -> temporal c = false.
Proof.
  induction c using cond_ind'; cbn [nf temporal]; intros Hc; auto; try discriminate.
  - rewrite forallb_forall in Hc. rewrite Forall_forall in H. destruct (existsb temporal l) eqn:E; auto. apply existsb_exists in E. destruct E as (x & I & E). rewrite H in E; auto; discriminate.
  - rewrite forallb_forall in Hc. rewrite Forall_forall in H. destruct (existsb temporal l) eqn:E; auto. apply existsb_exists in E. destruct E as (x & I & E). rewrite H in E; auto; discriminate.
Qed.
Lemma post_nf : forall l, all l -> post_merge l = l.
Proof.
  intros l A. unfold post_merge. assert (X : filter (fun c => negb (temporal c)) l = l /\ filter temporal l = []).
  { induction A as [|c l Hc A [I1 I2]]; auto. cbn [filter]. rewrite (nf_temporal c Hc). cbn [negb]. rewrite I1, I2. auto. }
  destruct X as [-> ->]. apply app_nil_r.
Qed.

Lemma all_forallb : forall l, all l -> forallb nf l = true.
Proof. intros l A. apply forallb_forall. rewrite Forall_forall in A. exact A. Qed.

Lemma make_log_tv : forall b isor l r, make_log isor l = Ok r -> all l -> nf r = true /\ tvl b r = fold b isor l.
Proof.
  intros b isor l r H A. unfold make_log in H. destruct l as [|x l]; [injection H as <-; split; destruct isor; reflexivity|].
  destruct l as [|y l].
  { injection H as <-. inversion A; subst. split; auto. rewrite fold_cons. destruct isor; cbn; [rewrite orb_false_r|rewrite andb_true_r]; reflexivity. }
  destruct (try_merge_all isor true (x :: y :: l) []) as [c1| | |] eqn:E1; try discriminate H. cbn [bind] in H.
  destruct (try_merge_all isor false c1 []) as [c2| | |] eqn:E2; try discriminate H. cbn [bind] in H.
  destruct (try_merge_all_tv b _ _ _ _ _ E1 (Forall_nil _) A) as [A1 F1]. destruct (try_merge_all_tv b _ _ _ _ _ E2 (Forall_nil _) A1) as [A2 F2].
  assert (F : fold b isor c2 = fold b isor (x :: y :: l)).
  { rewrite F2, F1. destruct isor; reflexivity. }
  rewrite (post_nf c2 A2) in H. rewrite <- F. clear F F1 F2 E1 E2 A A1. destruct c2 as [|u c2]; [injection H as <-; split; destruct isor; reflexivity|].
  destruct c2 as [|v c2].
  - injection H as <-. inversion A2; subst. split; auto. rewrite fold_cons. destruct isor; cbn; [rewrite orb_false_r|rewrite andb_true_r]; reflexivity.
  - pose proof (all_forallb _ A2) as Q. injection H as <-. destruct isor; split; auto.
Qed.

(** ** Negations *)
Definition neg_tv (negated b : bool) (c : cond) : bool := if negated then negb (tvl (negb b) c) else tvl b c.

Definition vals (stop : bool) (val : cond -> bool) (l : list cond) : bool := if stop then existsb val l else forallb val l.
Lemma vals_cons : forall stop val c l, vals stop val (c :: l) = comb stop (val c) (vals stop val l).
Proof. intros [|]; reflexivity. Qed.
Lemma vals_ext : forall stop f g l, (forall x, In x l -> f x = g x) -> vals stop f l = vals stop g l.
Proof.
  intros stop f g. induction l as [|x l IH]; intros H; [destruct stop; reflexivity|]. rewrite !vals_cons, (H x (or_introl eq_refl)), IH by (intros; apply H; right; auto). reflexivity.
Qed.

Lemma split_tv : forall b (visit : cond -> res cond) stop ef (val : cond -> bool) l nef other s,
  (forall c x, In c l -> visit c = Ok x -> nf x = true /\ tvl b x = val c) -> (forall x y, ef x = Some y -> nf x = false) ->
  all other -> split_ops visit stop ef l nef other = Ok s ->
  match s with
  | Stop c => c = CBool stop /\ comb stop (fold b stop other) (vals stop val l) = stop
  | Parts nef' other' => nef' = nef /\ all other' /\ fold b stop other' = comb stop (fold b stop other) (vals stop val l)
  end.
Proof.
  intros b visit stop ef val. induction l as [|c l IH]; intros nef other s Hv He Ho H; cbn [split_ops] in H.
  { injection H as <-. split; auto. split; auto. destruct stop; cbn; [rewrite orb_false_r|rewrite andb_true_r]; reflexivity. }
  destruct (visit c) as [x| | |] eqn:E; try discriminate H. cbn [bind] in H. destruct (Hv c x (or_introl eq_refl) E) as [Nx Vx].
  assert (Hv' : forall c x, In c l -> visit c = Ok x -> nf x = true /\ tvl b x = val c) by (intros y z Hy; apply Hv; right; exact Hy).
  rewrite vals_cons, comb_assoc. 
  assert (G : match ef x with Some y => split_ops visit stop ef l (nef ++ [y]) other | None => split_ops visit stop ef l nef (other ++ [x]) end = Ok s ->
    match s with
    | Stop c0 => c0 = CBool stop /\ comb stop (comb stop (fold b stop other) (val c)) (vals stop val l) = stop
    | Parts nef' other' => nef' = nef /\ all other' /\ fold b stop other' = comb stop (comb stop (fold b stop other) (val c)) (vals stop val l)
    end).
  { intros K. destruct (ef x) as [y|] eqn:En; [rewrite (He x y En) in Nx; discriminate|].
    rewrite <- Vx, <- fold_end. apply (IH nef (other ++ [x]) s Hv' He); [apply Forall_app; auto|exact K]. }
  destruct x; try (apply G; exact H). cbn [tvl] in Vx. destruct (Bool.eqb_spec b0 stop) as [->|D].
  - injection H as <-. split; auto. rewrite <- Vx. destruct stop, (fold b _ other), (vals _ val l); reflexivity.
  - replace (comb stop (fold b stop other) (val c)) with (fold b stop other); [apply (IH nef other s Hv' He Ho H)|].
    rewrite <- Vx. destruct stop, b0; try (contradiction D; reflexivity); destruct (fold b _ other); reflexivity.
Qed.

Lemma push_log_tv : forall b visit val l r (isor : bool), 
  (forall c x, In c l -> visit c = Ok x -> nf x = true /\ tvl b x = val c) ->
  (if isor then push_or visit l else push_and visit l) = Ok r -> nf r = true /\ tvl b r = vals isor val l.
Proof.
  intros b visit val l r isor Hv H.
  assert (X : (s <- split_ops visit isor (if isor then as_ef else as_nef) l [] [] ;;
    match s with Stop c => Ok c | Parts nef other => if isor then finish_or nef other else finish_and nef other end) = Ok r) by (destruct isor; exact H).
  clear H. destruct (split_ops visit isor (if isor then as_ef else as_nef) l [] []) as [s| | |] eqn:E; try discriminate X. cbn [bind] in X.
  apply (split_tv b visit isor _ val) in E; auto.
  2:{ intros x y Q. destruct isor; destruct x; try discriminate Q; reflexivity. }
  assert (Z : forall y, comb isor (fold b isor []) y = y) by (intros; destruct isor; reflexivity).
  destruct s as [c|nef other].
  - destruct E as [-> E]. rewrite Z in E. injection X as <-. split; auto.
  - destruct E as (-> & A & F). rewrite Z in F. rewrite <- F.
    assert (Y : match other with [] => Ok (CBool (negb isor)) | [x] => Ok x | _ => make_log isor other end = Ok r).
    { destruct isor; unfold finish_or, finish_and in X; destruct other as [|o1 [|o2 other]]; exact X. }
    destruct other as [|o1 [|o2 other]].
    + injection Y as <-. destruct isor; auto.
    + injection Y as <-. inversion A; subst. split; auto. rewrite fold_cons. destruct isor; cbn; [rewrite orb_false_r|rewrite andb_true_r]; reflexivity.
    + eapply make_log_tv; eauto.
Qed.

Theorem push_tv : forall deadb m0 fuel nested negated c r, ffrag c = true -> push deadb m0 false fuel nested negated c = Ok r ->
  nf r = true /\ forall b, tvl b r = neg_tv negated b c.
Proof.
  intros deadb m0. induction fuel as [|f IH]; intros nested negated c r Hc H; [discriminate H|].
  assert (RW : forall x, bind x (fun y => Ok (init_rw deadb m0 false nested y)) = Ok r -> x = Ok r).
  { intros x K. apply bindR in K. destruct K as (y & K1 & K2). unfold init_rw in K2. rewrite andb_false_r in K2. congruence. }
  cbn [PqlModel.push] in H. destruct c as [b| |c|l|l|o a b|neg cs|c|c|c|c|c|c|a b|a b|c|c|c|c|c|a b]; cbn [ffrag] in Hc; try discriminate Hc; apply RW in H.
  - injection H as <-. split; auto. intros b0. destruct negated, b; reflexivity.
  - destruct (IH _ _ _ _ Hc H) as [N1 N2]. split; auto. intros b. rewrite N2. unfold neg_tv. cbn [tvl]. destruct negated; cbn [negb]; rewrite ?Bool.negb_involutive; reflexivity.
  - rewrite forallb_forall in Hc.
    assert (V : forall b x y, In x l -> push deadb m0 false f nested negated x = Ok y -> nf y = true /\ tvl b y = neg_tv negated b x) by (intros b x y I K; destruct (IH _ _ _ _ (Hc x I) K); auto).
    assert (K : forall b, nf r = true /\ tvl b r = vals negated (neg_tv negated b) l) by (intros b; eapply (push_log_tv b (push deadb m0 false f nested negated)); [apply V|destruct negated; exact H]).
    split; [apply (K true)|]. intros b. destruct (K b) as [_ ->]. unfold neg_tv. destruct negated; cbn [vals tvl]; auto.
    clear. induction l as [|x l I]; auto. cbn [existsb forallb]. rewrite I, Bool.negb_andb. reflexivity.
  - rewrite forallb_forall in Hc.
    assert (V : forall b x y, In x l -> push deadb m0 false f nested negated x = Ok y -> nf y = true /\ tvl b y = neg_tv negated b x) by (intros b x y I K; destruct (IH _ _ _ _ (Hc x I) K); auto).
    assert (K : forall b, nf r = true /\ tvl b r = vals (negb negated) (neg_tv negated b) l) by (intros b; eapply (push_log_tv b (push deadb m0 false f nested negated)); [apply V|destruct negated; exact H]).
    split; [apply (K true)|]. intros b. destruct (K b) as [_ ->]. unfold neg_tv. destruct negated; cbn [vals tvl negb]; auto.
    clear. induction l as [|x l I]; auto. cbn [existsb forallb]. rewrite I, Bool.negb_orb. reflexivity.
  - injection H as <-. split; auto. intros b. unfold neg_tv. cbn [tvl]. destruct negated, neg; cbn [xorb]; rewrite ?Bool.negb_involutive; reflexivity.
Qed.

Lemma nf_ffrag : forall c, nf c = true -> ffrag c = true.
Proof.
  induction c using cond_ind'; cbn [nf ffrag]; intros Hc; auto; try discriminate.
  - rewrite forallb_forall in *. rewrite Forall_forall in H. auto.
  - rewrite forallb_forall in *. rewrite Forall_forall in H. auto.
Qed.

(** ** The values computed *)
Lemma all_of_ok : forall f l r, all_of f l r = RTrue -> r = RTrue /\ forall c, In c l -> f c = RTrue.
Proof.
  intros f. induction l as [|c l IH]; intros r H; cbn [all_of] in H; [split; auto; intros c []|].
  destruct (f c) eqn:E; try discriminate H.
  - destruct (IH _ H) as [A B]. split; auto. intros d [<-|D]; auto.
  - destruct (IH _ H) as [A _]. discriminate A.
Qed.
Lemma all_of_no : forall f l r, r <> RFalse -> all_of f l r = RFalse -> exists c, In c l /\ f c = RFalse.
Proof.
  intros f. induction l as [|c l IH]; intros r D H; cbn [all_of] in H; [contradiction|].
  destruct (f c) eqn:E.
  - destruct (IH _ D H) as (d & I & F). exists d. split; auto. right; auto.
  - exists c. split; auto. left; auto.
  - destruct (IH RUnknown ltac:(discriminate) H) as (d & I & F). exists d. split; auto. right; auto.
Qed.
Lemma any_of_ok : forall f l r, any_of f l r = RFalse -> r = RFalse /\ forall c, In c l -> f c = RFalse.
Proof.
  intros f. induction l as [|c l IH]; intros r H; cbn [any_of] in H; [split; auto; intros c []|].
  destruct (f c) eqn:E; try discriminate H.
  - destruct (IH _ H) as [A B]. split; auto. intros d [<-|D]; auto.
  - destruct (IH _ H) as [A _]. discriminate A.
Qed.
Lemma any_of_no : forall f l r, r <> RTrue -> any_of f l r = RTrue -> exists c, In c l /\ f c = RTrue.
Proof.
  intros f. induction l as [|c l IH]; intros r D H; cbn [any_of] in H; [contradiction|].
  destruct (f c) eqn:E.
  - exists c. split; auto. left; auto.
  - destruct (IH _ D H) as (d & I & F). exists d. split; auto. right; auto.
  - destruct (IH RUnknown ltac:(discriminate) H) as (d & I & F). exists d. split; auto. right; auto.
Qed.

Lemma fire_eval_tv : forall c, nf c = true -> (fire_eval m c = RTrue -> tvl true c = true) /\ (fire_eval m c = RFalse -> tvl false c = false).
Proof.
  induction c using cond_ind'; cbn [nf]; intros Hc; try discriminate; cbn [fire_eval tvl].
  - destruct b; split; intros H; try discriminate H; reflexivity.
  - rewrite forallb_forall in Hc. rewrite Forall_forall in H. split; intros K.
    + apply all_of_ok in K. destruct K as [_ K]. apply forallb_forall. intros x I. apply H; auto.
    + apply all_of_no in K; [|discriminate]. destruct K as (x & I & K). destruct (forallb (tvl false) l) eqn:E; auto. rewrite forallb_forall in E.
      destruct (H x I (Hc x I)) as [_ Q]. rewrite (E x I) in Q. apply Q in K. discriminate K.
  - rewrite forallb_forall in Hc. rewrite Forall_forall in H. split; intros K.
    + apply any_of_no in K; [|discriminate]. destruct K as (x & I & K). apply existsb_exists. exists x. split; auto. apply H; auto.
    + apply any_of_ok in K. destruct K as [_ K]. destruct (existsb (tvl false) l) eqn:E; auto. apply existsb_exists in E. destruct E as (x & I & E).
      destruct (H x I (Hc x I)) as [_ Q]. rewrite (Q (K x I)) in E. discriminate E.
  - assert (X : lowers m cs = forallb (cok false) cs) by reflexivity. rewrite X. destruct (forallb (cok false) cs) eqn:E; destruct n; cbn [negb]; split; intros K; try discriminate K; rewrite ?E; reflexivity.
Qed.
End Tv.

(** No formula is certainly true in one marking and certainly false in another. *)
Lemma fire_eval_one : forall c, nf c = true -> (forall m, fire_eval m c <> RTrue) \/ (forall m, fire_eval m c <> RFalse).
Proof.
  induction c using cond_ind'; cbn [nf]; intros Hc; try discriminate; cbn [fire_eval].
  - destruct b; [right|left]; discriminate.
  - rewrite forallb_forall in Hc. rewrite Forall_forall in H.
    assert (X : (exists x, In x l /\ forall m, fire_eval m x <> RTrue) \/ (forall x, In x l -> forall m, fire_eval m x <> RFalse)).
    { clear - H Hc. induction l as [|x l IH]; [right; intros x []|]. destruct (H x (or_introl eq_refl) (Hc x (or_introl eq_refl))) as [A|A].
      - left. exists x. split; auto. left; auto.
      - destruct IH as [(y & I & B)|B]; [intros; apply H; auto; right; auto|intros; apply Hc; right; auto| |].
        + left. exists y. split; auto. right; auto.
        + right. intros y [<-|I]; auto. }
    destruct X as [(x & I & X)|X]; [left|right]; intros m K.
    + apply all_of_ok in K. destruct K as [_ K]. exact (X m (K x I)).
    + apply all_of_no in K; [|discriminate]. destruct K as (x & I & K). exact (X x I m K).
  - rewrite forallb_forall in Hc. rewrite Forall_forall in H.
    assert (X : (exists x, In x l /\ forall m, fire_eval m x <> RFalse) \/ (forall x, In x l -> forall m, fire_eval m x <> RTrue)).
    { clear - H Hc. induction l as [|x l IH]; [right; intros x []|]. destruct (H x (or_introl eq_refl) (Hc x (or_introl eq_refl))) as [A|A].
      - destruct IH as [(y & I & B)|B]; [intros; apply H; auto; right; auto|intros; apply Hc; right; auto| |].
        + left. exists y. split; auto. right; auto.
        + right. intros y [<-|I]; auto.
      - left. exists x. split; auto. left; auto. }
    destruct X as [(x & I & X)|X]; [right|left]; intros m K.
    + apply any_of_ok in K. destruct K as [_ K]. exact (X m (K x I)).
    + apply any_of_no in K; [|discriminate]. destruct K as (x & I & K). exact (X x I m K).
  - destruct n; [right|left]; intros m; destruct (lowers m cs); discriminate.
Qed.
