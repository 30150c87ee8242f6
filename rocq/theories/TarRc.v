(** Explanations of false queries. *)
From Verif Require Import Base BaseLemmas NetSpec NetModel NetProofs PqlSyntax PqlSpec PqlModel PqlProofs RangeSpec RangeModel RangeProofs StubModel StubMain StubProofs
  QueryModel TarModel TarSpec TarVec TarSem.
From Coq Require Import Sorted.

Lemma rmax_u32 : rmax = u32max. Proof. reflexivity. Qed.
Lemma v_upper_rg : forall v p, v_upper v p = snd (rg v p). Proof. intros v p. unfold v_upper, rg. destruct (lookup v p); reflexivity. Qed.
Lemma v_lower_rg : forall v p, v_lower v p = fst (rg v p). Proof. intros v p. unfold v_lower, rg. destruct (lookup v p); reflexivity. Qed.
Lemma full_in : forall x, in_range (0%N, rmax) x. Proof. intros x. split; [cbn; lia|left; reflexivity]. Qed.

Section Rc.
  Variable net : cnet.
  Hypothesis L : layout net.
  Hypothesis P0 : 0 < cn_places net.
  Hypothesis NI : has_inhib net = false.
  Notation P := (to_pnet net).
  Notation np := (cn_places net).
  Notation nt := (cn_ntrans net).
  Notation pre := (in_slice net).
  Variable inq : list bool.
  Notation ev := (evaluate (net_deadb net)).
  Notation X := (fun p => nth p inq false = true).
  Notation uses := (uses net inq).

  Lemma uses_fold : forall (p : nat) (ts : list nat) (n : N),
    (n <= fold_left (fun n t => fold_left (fun n iv => if Nat.eqb (iv_place iv) p then (n + N.of_nat nt)%N else n) (pre t) n) ts n)%N.
  Proof.
    intros p. assert (A : forall l n, (n <= fold_left (fun n iv => if Nat.eqb (iv_place iv) p then (n + N.of_nat nt)%N else n) l n)%N).
    { induction l as [|iv l IH]; intros n; cbn [fold_left]; [lia|]. specialize (IH (if Nat.eqb (iv_place iv) p then (n + N.of_nat nt)%N else n)). destruct (Nat.eqb (iv_place iv) p); lia. }
    induction ts as [|t ts IH]; intros n; cbn [fold_left]; [lia|]. specialize (A (pre t) n). specialize (IH (fold_left (fun n iv => if Nat.eqb (iv_place iv) p then (n + N.of_nat nt)%N else n) (pre t) n)). lia.
  Qed.
  Lemma uses_query : forall p, X p -> (0 < uses p)%N.
  Proof. intros p H. unfold TarModel.uses. rewrite H. pose proof (uses_fold p (seq 0 nt) 1). lia. Qed.
  Lemma uses_pre : forall t iv, t < nt -> In iv (pre t) -> (0 < uses (iv_place iv))%N.
  Proof.
    intros t iv Ht I. unfold TarModel.uses. set (p := iv_place iv).
    assert (A : forall l n, (n <= fold_left (fun n iv => if Nat.eqb (iv_place iv) p then (n + N.of_nat nt)%N else n) l n)%N).
    { induction l as [|x l IH]; intros n; cbn [fold_left]; [lia|]. specialize (IH (if Nat.eqb (iv_place x) p then (n + N.of_nat nt)%N else n)). destruct (Nat.eqb (iv_place x) p); lia. }
    assert (B : forall l n, In iv l -> (0 < fold_left (fun n iv => if Nat.eqb (iv_place iv) p then (n + N.of_nat nt)%N else n) l n)%N).
    { induction l as [|x l IH]; intros n J0; [destruct J0|destruct J0 as [->|J]; cbn [fold_left]].
      - unfold p. rewrite Nat.eqb_refl. fold p. specialize (A l (n + N.of_nat nt)%N). lia.
      - apply IH. exact J. }
    assert (C : forall ts n, In t ts -> (0 < fold_left (fun n t => fold_left (fun n iv => if Nat.eqb (iv_place iv) p then (n + N.of_nat nt)%N else n) (pre t) n) ts n)%N).
    { induction ts as [|x ts IH]; intros n J0; [destruct J0|destruct J0 as [->|J]; cbn [fold_left]].
      - pose proof (uses_fold p ts (fold_left (fun n iv => if Nat.eqb (iv_place iv) p then (n + N.of_nat nt)%N else n) (pre t) n)). specialize (B (pre t) n I). lia.
      - apply IH. exact J. }
    apply C. apply in_seq. lia.
  Qed.

  Variable mark : list N.
  Hypothesis Hmark : length mark = np.
  Variable dirty : list bool.
  Definition clean : Prop := forall p, X p -> is_dirty dirty p = false.
  Notation rc := (rc net inq mark dirty).

  (** what an explanation [w] of [c] from [v] is *)
  Definition exb (c : cond) (v w : rvec) : Prop :=
    okv np w /\ within w X /\ in_vec w (tokens mark) /\ (forall m, in_vec w m -> in_vec v m) /\
    (forall p, ~ In p (compared c) -> ~ mentions_dead c -> rg w p = rg v p).
  Definition expl (c : cond) (v w : rvec) (b : bool) : Prop :=
    exb c v w /\
    (b = false -> forall m, length m = np -> fits m -> in_vec w (tokens m) -> ~ hm P m c) /\
    (clean -> b = false).

  (** ** Interval constraints *)
  Definition cause (cs : list cons) (v : rvec) (pr : option (nat * range * N)) : Prop :=
    match pr with
    | None => True
    | Some (p, r, _) => In p (map c_place cs) /\ in_range r (tokens mark p) /\ (snd r <= rmax)%N /\ is_dirty dirty p = false /\
        forall m, fits m -> in_range r (tokens m p) -> exists c, In c cs /\ ~ cons_holds m c
    end.
  Lemma set_expl : forall v p r, okv np v -> within v X -> p < np -> X p -> rg v p = (0%N, rmax) -> (snd r <= rmax)%N -> in_vec v (tokens mark) -> in_range r (tokens mark p) ->
    let w := at_place v p (fun _ => r) in okv np w /\ within w X /\ in_vec w (tokens mark) /\ (forall m, in_vec w m -> in_vec v m) /\ (forall q, q <> p -> rg w q = rg v q) /\ rg w p = r.
  Proof.
    intros v p r O W Hp Hx Fr Hr Im Ir w. assert (S : sorted_vec v) by apply O.
    assert (Rg : forall q, rg w q = if Nat.eqb q p then r else rg v q) by (intros q; apply (rg_at v p (fun _ => r) q S)).
    assert (Ow : okv np w) by (apply okv_at; auto). split; [exact Ow|]. split; [apply within_at; assumption|]. split; [|split; [|split]].
    - apply in_vec_rg; [apply Ow|]. intros q. rewrite Rg. destruct (Nat.eqb_spec q p); [subst; exact Ir|]. apply in_vec_rg; assumption.
    - intros m I. apply in_vec_rg; [exact S|]. intros q. pose proof (proj1 (in_vec_rg w m (proj1 Ow)) I q) as Y. rewrite Rg in Y. destruct (Nat.eqb_spec q p); [subst; rewrite Fr; apply full_in|exact Y].
    - intros q N. rewrite Rg. destruct (Nat.eqb_spec q p); [contradiction|reflexivity].
    - rewrite Rg, Nat.eqb_refl. reflexivity.
  Qed.
  Lemma rc_conj_ok : forall cs0 cs v v0 pr w b, (forall c, In c cs -> In c cs0) -> (forall c, In c cs0 -> c_place c < np /\ X (c_place c) /\ (c_lower c <= u32max)%N /\ (c_upper c <= u32max)%N /\ rg v0 (c_place c) = (0%N, rmax)) ->
    sorted_vec v0 -> okv np v -> within v X -> (forall p, rg v p = rg v0 p) -> in_vec v (tokens mark) -> cause cs0 v pr ->
    rc_conj net inq mark dirty cs v pr = (w, b) ->
    okv np w /\ within w X /\ in_vec w (tokens mark) /\ (forall m, in_vec w m -> in_vec v0 m) /\ (forall p, ~ In p (map c_place cs0) -> rg w p = rg v0 p) /\
    (b = false -> forall m, fits m -> in_vec w (tokens m) -> exists c, In c cs0 /\ ~ cons_holds m c) /\
    (clean -> pr <> None \/ (exists c, In c cs /\ cons_ok mark c = false) -> b = false).
  Proof.
    intros cs0. induction cs as [|c cs IH]; intros v v0 pr w b Sub H0 S0 O W Rg Im Cz E; cbn [rc_conj] in E.
    - assert (Eq : forall m, in_vec v m <-> in_vec v0 m). { intros m. rewrite (in_vec_rg v m (proj1 O)), (in_vec_rg v0 m S0). split; intros H p; [rewrite <- Rg|rewrite Rg]; apply H. }
      destruct pr as [((p, r), n)|]; injection E as <- <-.
      + destruct Cz as (A1 & A2 & A3 & A4 & A5). apply in_map_iff in A1. destruct A1 as (c & <- & Ic). destruct (H0 c Ic) as (B1 & B2 & _ & _ & B3).
        destruct (set_expl v (c_place c) r O W B1 B2 ltac:(rewrite Rg; exact B3) A3 Im A2) as (C1 & C2 & C3 & C4 & C5 & C6). set (u := at_place v (c_place c) (fun _ => r)) in *.
        assert (Sc : forall m, in_vec (compact u) m <-> in_vec u m) by (intros m; apply compact_ok).
        split; [apply okv_compact; exact C1|]. split; [apply within_compact; exact C2|]. split; [apply Sc; exact C3|]. split; [intros m I; apply Eq, C4, Sc, I|]. split; [|split].
        * intros q Nq. rewrite (rg_compact u q (proj1 C1)). rewrite C5, Rg; [reflexivity|]. intros ->. apply Nq. apply in_map. exact Ic.
        * intros _ m F I. apply A5; [exact F|]. rewrite <- C6. apply in_vec_rg; [apply C1|]. apply Sc. exact I.
        * reflexivity.
      + split; [exact O|]. split; [exact W|]. split; [exact Im|]. split; [intros m I; apply Eq, I|]. split; [intros p _; apply Rg|]. split; [discriminate|]. intros _ [K|(c & [] & _)]. congruence.
    - destruct (H0 c (Sub c (or_introl eq_refl))) as (B1 & B2 & B3 & B4 & B5). set (p := c_place c) in *.
      set (better := negb (is_dirty dirty p) && ((match pr with Some (_, n) => n | None => 0 end) <? uses p)%N) in *.
      assert (Ov1 : okv np (find_or_add v p)) by (apply okv_find; assumption). assert (Wv1 : within (find_or_add v p) X) by (apply within_at; assumption).
      assert (Rv1 : forall q, rg (find_or_add v p) q = rg v0 q) by (intros q; rewrite rg_find by apply O; apply Rg).
      assert (Iv1 : in_vec (find_or_add v p) (tokens mark)) by (apply find_or_add_ok; [apply O|exact Im]).
      assert (Sub' : forall c, In c cs -> In c cs0) by (intros x Ix; apply Sub; right; exact Ix).
      assert (Step : forall r0, (0 < uses p)%N -> in_range r0 (tokens mark p) -> (snd r0 <= rmax)%N -> (forall m, fits m -> in_range r0 (tokens m p) -> ~ cons_holds m c) ->
        rc_conj net inq mark dirty cs (find_or_add v p) (if better then Some (p, r0, uses p) else pr) = (w, b) ->
        okv np w /\ within w X /\ in_vec w (tokens mark) /\ (forall m, in_vec w m -> in_vec v0 m) /\ (forall p, ~ In p (map c_place cs0) -> rg w p = rg v0 p) /\
        (b = false -> forall m, fits m -> in_vec w (tokens m) -> exists c, In c cs0 /\ ~ cons_holds m c) /\
        (clean -> pr <> None \/ (exists c, In c (c :: cs) /\ cons_ok mark c = false) -> b = false) /\ (clean -> b = false)).
      { intros r0 Up M1 M2 M3 E'. assert (Cz' : cause cs0 (find_or_add v p) (if better then Some (p, r0, uses p) else pr)).
        { destruct better eqn:Eb; [|exact Cz]. unfold better in Eb. apply andb_true_iff in Eb. destruct Eb as (Eb & _). apply negb_true_iff in Eb. cbn [cause]. split; [apply in_map, Sub; left; reflexivity|]. split; [exact M1|]. split; [exact M2|]. split; [exact Eb|].
          intros m F I. exists c. split; [apply Sub; left; reflexivity|apply M3; assumption]. }
        destruct (IH _ v0 _ w b Sub' H0 S0 Ov1 Wv1 Rv1 Iv1 Cz' E') as (C1 & C2 & C3 & C4 & C5 & C6 & C7).
        assert (G : clean -> b = false). { intros Cl. apply C7; [exact Cl|]. left. unfold better. rewrite (Cl p B2). cbn [negb andb]. destruct pr as [((p1, r1), n1)|]; [destruct (n1 <? uses p)%N; discriminate|].
          replace (0 <? uses p)%N with true by (symmetry; apply N.ltb_lt; exact Up). discriminate. }
        repeat (split; [assumption|]). split; auto. }
      pose proof (uses_query p B2) as Up. destruct (nth p mark 0 <? c_lower c)%N eqn:E1.
      + apply N.ltb_lt in E1. destruct (v_upper (find_or_add v p) p <=? c_lower c - 1)%N eqn:E2.
        * injection E as <- <-. rewrite v_upper_rg, Rv1, B5 in E2. cbn [snd] in E2. apply N.leb_le in E2. unfold rmax, u32max in *. lia.
        * apply Step in E; [intuition|exact Up| | |].
          -- unfold tokens. split; cbn [fst snd]; [lia|right; lia].
          -- cbn [snd]. rewrite rmax_u32. lia.
          -- intros m F (_ & I) (K & _). fold p in K. cbn [fst snd] in I. destruct I as [I|I]; [|lia]. unfold infinite, u32max in *. lia.
      + apply N.ltb_ge in E1. destruct (c_upper c <? nth p mark 0)%N eqn:E2.
        * apply N.ltb_lt in E2. destruct (c_upper c + 1 <=? v_lower (find_or_add v p) p)%N eqn:E3.
          -- rewrite v_lower_rg, Rv1, B5 in E3. cbn [fst] in E3. apply N.leb_le in E3. lia.
          -- apply Step in E; [intuition|exact Up| | |].
             ++ unfold tokens. split; cbn [fst snd]; [lia|left; reflexivity].
             ++ cbn [snd]. lia.
             ++ intros m F (I & _) (_ & K). fold p in K. cbn [fst snd] in I. pose proof (F p). unfold u32max in *. destruct K as [K|K]; lia.
        * apply N.ltb_ge in E2. destruct (IH v v0 pr w b Sub' H0 S0 O W Rg Im Cz E) as (C1 & C2 & C3 & C4 & C5 & C6 & C7). repeat (split; [assumption|]).
          intros Cl K. apply C7; [exact Cl|]. destruct K as [K|(x & [->|Ix] & K)]; [left; exact K| |right; exists x; auto]. exfalso. unfold cons_ok in K. fold p in K.
          apply andb_false_iff in K. destruct K as [K|K]; apply N.leb_gt in K; unfold p in *; lia.
  Qed.
  Lemma rc_disj_ok : forall cs v w b, NoDup (map c_place cs) -> (forall c, In c cs -> c_place c < np /\ X (c_place c) /\ (c_lower c <= u32max)%N /\ (c_upper c <= u32max)%N /\ rg v (c_place c) = (0%N, rmax) /\ cons_ok mark c = true) ->
    okv np v -> within v X -> in_vec v (tokens mark) -> rc_disj dirty cs v = (w, b) ->
    okv np w /\ within w X /\ in_vec w (tokens mark) /\ (forall m, in_vec w m -> in_vec v m) /\ (forall p, ~ In p (map c_place cs) -> rg w p = rg v p) /\
    (b = false -> forall m, fits m -> in_vec w (tokens m) -> Forall (cons_holds m) cs) /\ (clean -> b = false).
  Proof.
    induction cs as [|c cs IH]; intros v w b Nd H0 O W Im E; cbn [rc_disj] in E.
    - injection E as <- <-. repeat (split; [assumption|]). split; [auto|]. split; [auto|]. split; [intros; constructor|auto].
    - destruct (H0 c (or_introl eq_refl)) as (B1 & B2 & B3 & B4 & B5 & B6). set (p := c_place c) in *. cbn [map] in Nd. inversion Nd as [|? ? N1 N2]; subst. fold p in N1.
      replace (N.max (c_lower c) 0) with (c_lower c) in E by lia. replace (N.min (c_upper c) rmax) with (c_upper c) in E by (rewrite rmax_u32; lia).
      unfold cons_ok in B6. fold p in B6. apply andb_true_iff in B6. destruct B6 as (B6 & B7). apply N.leb_le in B6, B7.
      destruct (set_expl v p (c_lower c, c_upper c) O W B1 B2 B5 B4 Im) as (C1 & C2 & C3 & C4 & C5 & C6); [split; cbn [fst snd]; [exact B7|right; exact B6]|]. set (u := at_place v p (fun _ => (c_lower c, c_upper c))) in *.
      destruct (is_dirty dirty p) eqn:Ed.
      + injection E as <- <-. repeat (split; [assumption|]). split; [|split; [discriminate|]].
        * intros q Nq. apply C5. intros ->. apply Nq. left. reflexivity.
        * intros Cl. rewrite (Cl p B2) in Ed. discriminate.
      + destruct (IH u w b N2) as (D1 & D2 & D3 & D4 & D5 & D6 & D7); auto.
        { intros x Ix. destruct (H0 x (or_intror Ix)) as (F1 & F2 & F3 & F4 & F5 & F6). repeat (split; [assumption|]). split; [|exact F6]. rewrite C5; [exact F5|]. intros Y. apply N1. rewrite <- Y. apply in_map. exact Ix. }
        repeat (split; [assumption|]). split; [intros m I; apply C4, D4, I|]. split; [|split; [|exact D7]].
        * intros q Nq. cbn [map In] in Nq. fold p in Nq. rewrite D5 by tauto. apply C5. intros ->. tauto.
        * intros Hb m F I. constructor; [|apply D6; assumption]. assert (Iu : in_range (rg u p) (tokens m p)) by (apply in_vec_rg; [apply C1|apply D4; exact I]). rewrite C6 in Iu. destruct Iu as (I1 & I2). cbn [fst snd] in *. split; fold p; [exact I1|].
          destruct I2; [left; assumption|right; assumption].
  Qed.

  (** ** Deadlocks *)
  Definition en_mark (t : nat) : Prop := forall iv, In iv (pre t) -> (iv_tokens iv <= tokens mark (iv_place iv))%N.
  Lemma rc_cand_ok : forall ts pr cand d pr' cand' d', rc_dead_cand net inq mark dirty ts pr cand d = (pr', cand', d') -> (forall t, In t ts -> t < nt) ->
    ((pr =? 0)%N = false -> cand < nt /\ en_mark cand) ->
    ((pr' =? 0)%N = false -> cand' < nt /\ en_mark cand') /\ (d' = false -> d = false /\ forall t iv, In t ts -> In iv (pre t) -> is_dirty dirty (iv_place iv) = false) /\
    ((pr' =? 0)%N = true -> (pr =? 0)%N = true /\ forall t, In t ts -> en_mark t -> (forall iv, In iv (pre t) -> is_dirty dirty (iv_place iv) = false) -> pre t = []) /\
    (clean -> (forall t iv, In t ts -> In iv (pre t) -> X (iv_place iv)) -> d = false -> d' = false).
  Proof.
    induction ts as [|t ts IH]; intros pr cand d pr' cand' d' E Ht Hc; cbn [rc_dead_cand] in E.
    - injection E as <- <- <-. split; [exact Hc|]. split; [intros H; split; [exact H|intros ? ? []]|]. split; [intros H; split; [exact H|intros ? []]|auto].
    - set (dirt := d || existsb (fun iv => is_dirty dirty (iv_place iv)) (pre t)) in *.
      set (ok := forallb (fun iv => negb (nth (iv_place iv) mark 0 <? iv_tokens iv)%N && negb (is_dirty dirty (iv_place iv))) (pre t)) in *. set (sum := sumN (map (fun iv => uses (iv_place iv)) (pre t))) in *.
      assert (Ok : ok = true -> en_mark t). { intros H iv I. unfold ok in H. rewrite forallb_forall in H. specialize (H iv I). apply andb_true_iff in H. destruct H as (H & _). apply negb_true_iff, N.ltb_ge in H. exact H. }
      assert (Ok2 : en_mark t -> (forall iv, In iv (pre t) -> is_dirty dirty (iv_place iv) = false) -> ok = true).
      { intros A B. apply forallb_forall. intros iv I. rewrite (B iv I). specialize (A iv I). apply andb_true_iff. split; [apply negb_true_iff, N.ltb_ge; exact A|reflexivity]. }
      assert (Sum : sum = 0%N -> pre t = []). { intros H. destruct (pre t) as [|iv l] eqn:Ep; [reflexivity|]. exfalso. assert (U : (0 < uses (iv_place iv))%N) by (apply (uses_pre t); [apply Ht; left; reflexivity|rewrite Ep; left; reflexivity]).
        unfold sum in H. cbn [map] in H. unfold sumN in H. cbn [fold_right] in H. lia. }
      assert (Dt : dirt = false -> d = false /\ forall iv, In iv (pre t) -> is_dirty dirty (iv_place iv) = false).
      { intros H. apply orb_false_iff in H. destruct H as (A & B). split; [exact A|]. intros iv I. destruct (is_dirty dirty (iv_place iv)) eqn:F; [|reflexivity]. exfalso.
        assert (Y : existsb (fun iv => is_dirty dirty (iv_place iv)) (pre t) = true); [|congruence]. apply existsb_exists. exists iv. auto. }
      assert (Cl1 : clean -> (forall iv, In iv (pre t) -> X (iv_place iv)) -> d = false -> dirt = false).
      { intros Cl Hx ->. unfold dirt. cbn [orb]. destruct (existsb _ (pre t)) eqn:F; [|reflexivity]. apply existsb_exists in F. destruct F as (iv & I & F). rewrite (Cl _ (Hx iv I)) in F. discriminate. }
      destruct (ok && (pr <? sum)%N) eqn:B.
      + apply andb_true_iff in B. destruct B as (B1 & B2). apply N.ltb_lt in B2. destruct (IH _ _ _ _ _ _ E) as (A1 & A2 & A3 & A4).
        { intros x Ix. apply Ht. right. exact Ix. }
        { intros _. split; [apply Ht; left; reflexivity|apply Ok; exact B1]. }
        split; [exact A1|]. split; [|split].
        * intros Hd. destruct (A2 Hd) as (C1 & C2). destruct (Dt C1) as (C3 & C4). split; [exact C3|]. intros x iv [<-|Ix] I; [apply C4; exact I|eapply C2; eassumption].
        * intros Hz. destruct (A3 Hz) as (C1 & _). apply N.eqb_eq in C1. lia.
        * intros Cl Hx Hd. apply A4; [exact Cl|intros x iv Ix I; apply (Hx x); [right; exact Ix|exact I]|]. apply Cl1; [exact Cl|intros iv I; apply (Hx t); [left; reflexivity|exact I]|exact Hd].
      + destruct (IH _ _ _ _ _ _ E) as (A1 & A2 & A3 & A4); [intros x Ix; apply Ht; right; exact Ix|exact Hc|].
        split; [exact A1|]. split; [|split].
        * intros Hd. destruct (A2 Hd) as (C1 & C2). destruct (Dt C1) as (C3 & C4). split; [exact C3|]. intros x iv [<-|Ix] I; [apply C4; exact I|eapply C2; eassumption].
        * intros Hz. destruct (A3 Hz) as (C1 & C2). split; [exact C1|]. intros x [<-|Ix] En Nd; [|apply C2; assumption]. apply Sum. rewrite (Ok2 En Nd) in B. cbn [andb] in B. apply N.ltb_ge in B. apply N.eqb_eq in C1. lia.
        * intros Cl Hx Hd. apply A4; [exact Cl|intros x iv Ix I; apply (Hx x); [right; exact Ix|exact I]|]. apply Cl1; [exact Cl|intros iv I; apply (Hx t); [left; reflexivity|exact I]|exact Hd].
  Qed.
  Lemma dead_fold : forall l v, okv np v -> within v X -> (forall iv, In iv l -> iv_place iv < np /\ X (iv_place iv) /\ (iv_tokens iv <= tokens mark (iv_place iv))%N) -> in_vec v (tokens mark) ->
    let w := fold_left (fun v iv => at_place v (iv_place iv) (fun r => (N.max (iv_tokens iv) (fst r), snd r))) l v in
    okv np w /\ within w X /\ in_vec w (tokens mark) /\ (forall m, in_vec w m -> in_vec v m) /\ (forall m, in_vec w m -> forall iv, In iv l -> (iv_tokens iv <= m (iv_place iv))%N).
  Proof.
    induction l as [|iv l IH]; intros v O W H Im; cbv zeta; cbn [fold_left]; [repeat (split; [auto|]); intros m _ iv []|].
    destruct (H iv (or_introl eq_refl)) as (H1 & H2 & H3). set (u := at_place v (iv_place iv) (fun r => (N.max (iv_tokens iv) (fst r), snd r))).
    assert (Rg : forall q, rg u q = if Nat.eqb q (iv_place iv) then (N.max (iv_tokens iv) (fst (rg v (iv_place iv))), snd (rg v (iv_place iv))) else rg v q) by (intros q; exact (rg_at v (iv_place iv) (fun r => (N.max (iv_tokens iv) (fst r), snd r)) q (proj1 O))).
    assert (Ou : okv np u) by (apply okv_at; [exact O|exact H1|cbn [snd]; auto]).
    assert (Iu : forall m, in_vec u m <-> in_vec v m /\ (iv_tokens iv <= m (iv_place iv))%N).
    { intros m. rewrite (in_vec_rg u m (proj1 Ou)), (in_vec_rg v m (proj1 O)). split.
      - intros K. pose proof (K (iv_place iv)) as K1. rewrite Rg, Nat.eqb_refl in K1. destruct K1 as (K1 & K2). cbn [fst snd] in K1, K2. split; [|lia]. intros q. specialize (K q). rewrite Rg in K. destruct (Nat.eqb_spec q (iv_place iv)) as [Eq|]; [|exact K]. rewrite Eq. split; [lia|exact K2].
      - intros (K & K1) q. rewrite Rg. specialize (K q). destruct (Nat.eqb_spec q (iv_place iv)) as [Eq|]; [|exact K]. rewrite Eq in *. destruct K as (K2 & K3). split; cbn [fst snd]; [lia|exact K3]. }
    destruct (IH u Ou) as (A1 & A2 & A3 & A4 & A5); [apply within_at; assumption|intros x Ix; apply H; right; exact Ix|apply Iu; auto|].
    split; [exact A1|]. split; [exact A2|]. split; [exact A3|]. split; [intros m I; apply Iu, A4, I|]. intros m I x [<-|Ix]; [apply Iu, A4, I|apply A5; assumption].
  Qed.
  Lemma rc_dead_ok : forall v w b, okv np v -> within v X -> in_vec v (tokens mark) -> (forall p, p < np -> X p) -> net_deadb net mark = false ->
    rc_dead net inq mark dirty v = (w, b) -> expl CDead v w b.
  Proof.
    intros v w b O W Im Hx Nd E. unfold rc_dead in E. destruct (rc_dead_cand net inq mark dirty (seq 0 nt) 0 0 false) as ((pr, cand), d) eqn:C.
    destruct (rc_cand_ok _ _ _ _ _ _ _ C) as (A1 & A2 & A3 & A4); [intros t I; apply in_seq in I; lia|discriminate|].
    assert (A5 : clean -> d = false). { intros Cl. apply A4; [exact Cl| |reflexivity]. intros t iv It I. apply Hx. apply in_seq in It. eapply pre_place; [exact L| |exact I]. lia. }
    destruct (pr =? 0)%N eqn:Ez; cbn [negb] in E; injection E as <- <-.
    - split; [unfold exb; repeat (split; [assumption|]); split; auto|]. split; [|exact A5]. intros Hd m Lm F I. destruct (A2 Hd) as (_ & Cl). destruct (A3 eq_refl) as (_ & Em).
      assert (Hen : exists t, t < nt /\ pre t = []).
      { assert (Nd' : ~ dead P mark) by (rewrite <- (deadb_spec net L P0 mark Hmark); rewrite Nd; discriminate).
        destruct (existsb (fun t => forallb (fun iv => (iv_tokens iv <=? tokens mark (iv_place iv))%N) (pre t)) (seq 0 nt)) eqn:Ex.
        - apply existsb_exists in Ex. destruct Ex as (t & It & Ft). exists t. assert (t < nt) by (apply in_seq in It; lia). split; [assumption|]. apply Em; [exact It| |intros iv Iv; apply (Cl t iv It Iv)].
          intros iv Iv. rewrite forallb_forall in Ft. specialize (Ft iv Iv). apply N.leb_le. exact Ft.
        - exfalso. apply Nd'. apply (dead_ft net L P0 NI). intros t Ht. destruct (forallb (fun iv => (iv_tokens iv <=? tokens mark (iv_place iv))%N) (pre t)) eqn:Ft.
          + assert (Y : existsb (fun t => forallb (fun iv => (iv_tokens iv <=? tokens mark (iv_place iv))%N) (pre t)) (seq 0 nt) = true); [|congruence]. apply existsb_exists. exists t. split; [apply in_seq; lia|exact Ft].
          + assert (Y : exists iv, In iv (pre t) /\ (iv_tokens iv <=? tokens mark (iv_place iv))%N = false).
            { clear - Ft. induction (pre t) as [|iv l IH]; [discriminate|]. cbn [forallb] in Ft. apply andb_false_iff in Ft. destruct Ft as [Ft|Ft]; [exists iv; split; [left; reflexivity|exact Ft]|]. destruct (IH Ft) as (x & Ix & Fx). exists x. split; [right; exact Ix|exact Fx]. }
            destruct Y as (iv & Iv & Fv). apply N.leb_gt in Fv. exists (iv_place iv). rewrite (ft_in _ _ (pre_nodup net L t Ht) Iv). exact Fv. }
      destruct Hen as (t & Ht & Ep). unfold hm. cbn [holds]. intros Dm. apply (dead_ft net L P0 NI) with (t := t) in Dm; [|exact Ht]. destruct Dm as (p & Hp). rewrite Ep in Hp. cbn in Hp. lia.
    - destruct (A1 eq_refl) as (Hc & En). destruct (dead_fold (pre cand) v O W) as (B1 & B2 & B3 & B4 & B5).
      { intros iv I. pose proof (pre_place net L cand iv Hc I). split; [assumption|]. split; [apply Hx; assumption|apply En; exact I]. }
      { exact Im. }
      split; [unfold exb; repeat (split; [assumption|]); cbn [mentions_dead]; tauto|]. split; [|reflexivity]. intros _ m Lm F I. unfold hm. cbn [holds]. intros Dm.
      apply (dead_ft net L P0 NI) with (t := cand) in Dm; [|exact Hc]. destruct Dm as (p & Hp). destruct (ft_pos (pre cand) p ltac:(lia)) as (iv & Iv & <-). rewrite (ft_in _ _ (pre_nodup net L cand Hc) Iv) in Hp.
      specialize (B5 (tokens m) I iv Iv). lia.
  Qed.

  (** ** The visitor *)
  Lemma known : forall c, atomic c = true -> ev mark c <> RUnknown.
  Proof. intros c. apply (@evaluate_known P (net_deadb net) mark (deadb_spec net L P0 mark Hmark)). Qed.
  Lemma ev_and : forall l, (forall c, In c l -> ev mark c <> RUnknown) -> ev mark (CAnd l) <> RTrue -> exists c, In c l /\ ev mark c = RFalse.
  Proof.
    intros l K H. cbn [evaluate] in H. revert K H. induction l as [|c l IH]; intros K H; [congruence|]. destruct (ev mark c) eqn:E; [|exists c; split; [left; reflexivity|exact E]|exfalso; apply (K c (or_introl eq_refl) E)]. destruct IH as (x & A & B); [intros x Ix; apply K; right; exact Ix|exact H|]. exists x. split; [right; exact A|exact B].
  Qed.
  Lemma ev_or : forall l, (forall c, In c l -> ev mark c <> RUnknown) -> ev mark (COr l) <> RTrue -> forall c, In c l -> ev mark c <> RTrue.
  Proof.
    intros l K H. cbn [evaluate] in H. revert K H. induction l as [|c l IH]; intros K H x Ix; [destruct Ix|]. destruct (ev mark c) eqn:E; [congruence| |exfalso; apply (K c (or_introl eq_refl) E)]. destruct Ix as [<-|Ix]; [congruence|].
    apply IH; [intros y Iy; apply K; right; exact Iy|exact H|exact Ix].
  Qed.
  Definition known_places (c : cond) : Prop := (forall p, In p (compared c) -> p < np /\ X p) /\ (mentions_dead c -> forall p, p < np -> X p).
  Lemma known_sub : forall l c, known_places (CAnd l) -> In c l -> known_places c.
  Proof.
    intros l c (A & B) I. split; [intros p Ip; apply A; cbn [compared]; apply in_flat_map; exists c; auto|]. intros Md. apply B. cbn [mentions_dead]. apply fr_or. exists c. auto.
  Qed.
  Lemma rc_ok : forall c, separate c -> known_places c -> forall v w b, okv np v -> within v X -> in_vec v (tokens mark) -> (forall p, In p (compared c) -> rg v p = (0%N, rmax)) ->
    ev mark c <> RTrue -> rc c v = Ok (w, b) -> expl c v w b.
  Proof.
    induction c as [| | |l Hl|l Hl| |n cs| | | | | | | | | | | | | |] using cond_ind'; intros Sc Kn v w bb O W Im Fr Ev E; cbn [separate] in Sc; try contradiction; rename bb into b; cbn [TarModel.rc] in E.
    - injection E as E. apply rc_dead_ok; auto; [apply Kn; exact I|]. cbn [evaluate] in Ev. destruct (net_deadb net mark); [exfalso; apply Ev; reflexivity|reflexivity].
    - destruct Sc as (Sl & _). rewrite fr_and in Sl. rewrite Forall_forall in Hl.
      assert (Ku : forall c, In c l -> ev mark c <> RUnknown) by (intros c Ic; apply known, separate_atomic, Sl, Ic).
      destruct (ev_and l Ku Ev) as (ef & If & Ef). destruct (ev mark (CAnd l)) eqn:Ev'; [congruence| |exfalso; revert Ev'; apply known; cbn [atomic]; apply forallb_forall; intros x Ix; apply separate_atomic, Sl, Ix].
      + match type of E with (bind (?F l None v) _) = _ => set (loop := F) in E end.
        assert (Up : forall c x, In c l -> exb c v x -> exb (CAnd l) v x).
        { intros c x Ic (A1 & A2 & A3 & A4 & A5). repeat (split; [assumption|]). intros p Np Nm. apply A5.
          - intros Ip. apply Np. cbn [compared]. apply in_flat_map. exists c. auto.
          - intros Md. apply Nm. cbn [mentions_dead]. apply fr_or. exists c. auto. }
        assert (Lp : forall k best cur r, (forall c, In c k -> In c l) -> loop k best cur = Ok r ->
          (match best with Some (x, _) => expl (CAnd l) v x false | None => True end) -> exb (CAnd l) v cur ->
          (match fst r with Some (x, _) => expl (CAnd l) v x false | None => True end) /\ exb (CAnd l) v (snd r) /\
          (clean -> (best <> None \/ exists c, In c k /\ ev mark c = RFalse) -> fst r <> None)).
        { induction k as [|c k IHk]; intros best cur r Sub El Hb Hc.
          - cbn in El. injection El as <-. cbn [fst snd]. split; [exact Hb|]. split; [exact Hc|]. intros _ [K|(c & [] & _)]. exact K.
          - assert (Ic : In c l) by (apply Sub; left; reflexivity). assert (Sub' : forall c, In c k -> In c l) by (intros x Ix; apply Sub; right; exact Ix).
            change (loop (c :: k) best cur) with (match ev mark c with RFalse => x <- rc c v ;; if snd x then loop k best (fst x) else loop k (rc_better net inq best (fst x)) (fst x) | _ => loop k best cur end) in El.
            destruct (ev mark c) eqn:Ec.
            + destruct (IHk _ _ _ Sub' El Hb Hc) as (C1 & C2 & C3). split; [exact C1|]. split; [exact C2|]. intros Cl K. apply C3; [exact Cl|]. destruct K as [K|(y & [<-|Iy] & K)]; [left; exact K|congruence|right; exists y; auto].
            + destruct (rc c v) as [(x, d)| | |] eqn:Er; cbn [bind] in El; try discriminate. cbn [fst snd] in El.
              destruct (Hl c Ic (Sl c Ic) (known_sub l c Kn Ic) v x d O W Im) as (B1 & B2 & B3); [intros p Ip; apply Fr; cbn [compared]; apply in_flat_map; exists c; auto|congruence|exact Er|].
              destruct d.
              * destruct (IHk _ _ _ Sub' El Hb (Up c x Ic B1)) as (C1 & C2 & C3). split; [exact C1|]. split; [exact C2|]. intros Cl _. specialize (B3 Cl). discriminate.
              * assert (Ex : expl (CAnd l) v x false).
                { split; [apply (Up c); assumption|]. split; [|reflexivity]. intros _ m Lm F I Hm. apply (B2 eq_refl m Lm F I). unfold hm in Hm |- *. cbn [holds] in Hm. rewrite fr_and in Hm. apply Hm. exact Ic. }
                destruct (IHk (rc_better net inq best x) x r Sub' El) as (C1 & C2 & C3).
                { unfold rc_better. destruct best as [(y, n)|]; [|exact Ex]. destruct (length x <? length y); [exact Ex|]. destruct (Nat.eqb _ _ && _); [exact Ex|exact Hb]. }
                { apply (Up c); assumption. }
                split; [exact C1|]. split; [exact C2|]. intros Cl _. apply C3; [exact Cl|]. left. unfold rc_better. destruct best as [(y, n)|]; [|discriminate]. destruct (length x <? length y); [discriminate|]. destruct (Nat.eqb _ _ && _); discriminate.
            + exfalso. exact (Ku c Ic Ec). }
        destruct (loop l None v) as [r| | |] eqn:El; cbn [bind] in E; try discriminate.
        destruct (Lp l None v r (fun _ H => H) El I) as (C1 & C2 & C3). { split; [exact O|]. split; [exact W|]. split; [exact Im|]. split; auto. }
        assert (C4 : clean -> fst r <> None) by (intros Cl; apply C3; [exact Cl|right; exists ef; auto]).
        destruct (fst r) as [(x, n)|] eqn:Ex; injection E as <- <-; [exact C1|]. split; [exact C2|]. split; [discriminate|]. intros Cl. exfalso. apply C4; auto.
    - destruct Sc as (Sl & Pl). rewrite fr_and in Sl. rewrite Forall_forall in Hl.
      assert (Ku : forall c, In c l -> ev mark c <> RUnknown) by (intros c Ic; apply known, separate_atomic, Sl, Ic). pose proof (ev_or l Ku Ev) as Eo.
      match type of E with ?F l v = _ => set (loop := F) in E end.
      assert (Lp : forall k v w b, (forall c, In c k -> In c l) -> ForallOrdPairs (fun a b => apart (compared a) (compared b) /\ (mentions_dead a -> compared b = [])) k ->
        okv np v -> within v X -> in_vec v (tokens mark) -> (forall c p, In c k -> In p (compared c) -> rg v p = (0%N, rmax)) -> loop k v = Ok (w, b) ->
        okv np w /\ within w X /\ in_vec w (tokens mark) /\ (forall m, in_vec w m -> in_vec v m) /\
        (forall p, (forall c, In c k -> ~ In p (compared c)) -> (forall c, In c k -> ~ mentions_dead c) -> rg w p = rg v p) /\
        (b = false -> forall m, length m = np -> fits m -> in_vec w (tokens m) -> forall c, In c k -> ~ hm P m c) /\ (clean -> b = false)).
      { clear v w b O W Im Fr E. induction k as [|c k IHk]; intros v w b Sub Po O W Im Fr El.
        - cbn in El. injection El as <- <-. repeat (split; [assumption|]). split; [auto|]. split; [auto|]. split; [intros _ m _ _ _ c []|auto].
        - assert (Ic : In c l) by (apply Sub; left; reflexivity). assert (Sub' : forall c, In c k -> In c l) by (intros x Ix; apply Sub; right; exact Ix).
          change (loop (c :: k) v) with (x <- rc c v ;; if snd x then Ok x else loop k (fst x)) in El. destruct (rc c v) as [(x, d)| | |] eqn:Er; cbn [bind] in El; try discriminate. cbn [fst snd] in El.
          destruct (Hl c Ic (Sl c Ic) (known_sub l c Kn Ic) v x d O W Im) as ((A1 & A2 & A3 & A4 & A5) & B2 & B3); [intros p Ip; apply (Fr c); [left; reflexivity|exact Ip]|apply Eo; exact Ic|exact Er|].
          inversion Po as [|? ? Pc Pk]; subst. rewrite Forall_forall in Pc. destruct d.
          + injection El as <- <-. repeat (split; [assumption|]). split; [intros p N1 N2; apply A5; [apply N1; left; reflexivity|apply N2; left; reflexivity]|]. split; [discriminate|]. intros Cl. exact (B3 Cl).
          + destruct (IHk x w b Sub' Pk A1 A2 A3) as (C1 & C2 & C3 & C4 & C5 & C6 & C7); [|exact El|].
            { intros e p Ie Ip. destruct (Pc e Ie) as (Q1 & Q2). rewrite A5; [apply (Fr e); [right; exact Ie|exact Ip]| |].
              - intros Ip'. exact (Q1 p Ip' Ip).
              - intros Md. rewrite (Q2 Md) in Ip. destruct Ip. }
            repeat (split; [assumption|]). split; [intros m Im'; apply A4, C4, Im'|]. split; [|split; [|exact C7]].
            * intros p N1 N2. rewrite C5; [apply A5; [apply N1; left; reflexivity|apply N2; left; reflexivity]|intros e Ie; apply N1; right; exact Ie|intros e Ie; apply N2; right; exact Ie].
            * intros Hb m Lm F I' e [<-|Ie]; [apply (B2 eq_refl); auto|apply C6; assumption]. }
      destruct (Lp l v w b (fun _ H => H) Pl O W Im) as (C1 & C2 & C3 & C4 & C5 & C6 & C7); [intros c p Ic Ip; apply Fr; cbn [compared]; apply in_flat_map; exists c; auto|exact E|].
      split; [|split; [|exact C7]].
      + repeat (split; [assumption|]). intros p N1 N2. apply C5.
        * intros c Ic Ip. apply N1. cbn [compared]. apply in_flat_map. exists c. auto.
        * intros c Ic Md. apply N2. cbn [mentions_dead]. apply fr_or. exists c. auto.
      + intros Hb m Lm F I' Hm. unfold hm in Hm. cbn [holds] in Hm. rewrite fr_or in Hm. destruct Hm as (c & Ic & Hc). exact (C6 Hb m Lm F I' c Ic Hc).
    - destruct Sc as (Nd & Bd). destruct Kn as (Kp & _). cbn [compared] in Kp, Fr. cbn [evaluate] in Ev. destruct n; cbn [xorb negb] in Ev.
      + injection E as E. destruct (forallb (cons_ok mark) cs) eqn:Fa; cbn [xorb negb tvb] in Ev; [|exfalso; apply Ev; reflexivity]. rewrite forallb_forall in Fa.
        destruct (rc_disj_ok cs v w b Nd) as (C1 & C2 & C3 & C4 & C5 & C6 & C7); auto.
        { intros c Ic. destruct (Kp (c_place c) (in_map _ _ _ Ic)). destruct (Bd c Ic). repeat (split; [assumption|]). split; [apply Fr, in_map, Ic|apply Fa, Ic]. }
        split; [repeat (split; [assumption|]); intros p Np _; apply C5; exact Np|]. split; [|exact C7]. intros Hb m Lm F I' Hm. unfold hm in Hm. cbn [holds] in Hm. apply Hm. apply C6; assumption.
      + injection E as E. destruct (forallb (cons_ok mark) cs) eqn:Fa; cbn [xorb negb tvb] in Ev; [exfalso; apply Ev; reflexivity|].
        destruct (rc_conj_ok cs cs v v None w b (fun _ H => H)) as (C1 & C2 & C3 & C4 & C5 & C6 & C7); auto.
        { intros c Ic. destruct (Kp (c_place c) (in_map _ _ _ Ic)). destruct (Bd c Ic). repeat (split; [assumption|]). apply Fr, in_map, Ic. }
        { apply O. }
        { exact I. }
        split; [repeat (split; [assumption|]); intros p Np _; apply C5; exact Np|]. split.
        * intros Hb m Lm F I' Hm. unfold hm in Hm. cbn [holds] in Hm. destruct (C6 Hb m F I') as (c & Ic & Nc). apply Nc. rewrite Forall_forall in Hm. apply Hm. exact Ic.
        * intros Cl. apply C7; [exact Cl|]. right. clear - Fa. induction cs as [|c cs IH]; [discriminate|]. cbn [forallb] in Fa. destruct (cons_ok mark c) eqn:Ec; [destruct IH as (x & A & B); [exact Fa|]; exists x; split; [right; exact A|exact B]|exists c; split; [left; reflexivity|exact Ec]].
  Qed.
End Rc.
