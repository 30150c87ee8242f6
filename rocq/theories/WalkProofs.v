(** The random walk only reports what it has seen. *)
From Verif Require Import Base BaseLemmas NetSpec NetModel NetProofs StoreSpec StoreProofs SearchModel SearchMain WalkModel WalkSpec.
Set Implicit Arguments.

Lemma sum_marking_total : forall m, sum_marking m = total32 m.
Proof.
  intros m. unfold sum_marking, total32. assert (G : forall l s, fold_left (fun s x => w32 (s + x)) l (s mod 2 ^ 32)%N = ((s + sumN l) mod 2 ^ 32)%N).
  { induction l as [|x l IH]; intros s; cbn [fold_left sumN]; [rewrite N.add_0_r; reflexivity|]. unfold w32 at 2. change 4294967296%N with (2 ^ 32)%N.
    rewrite N.add_mod_idemp_l by discriminate. rewrite IH. f_equal. lia. }
  specialize (G m 0%N). rewrite N.mod_0_l in G by discriminate. exact G.
Qed.

Lemma pop_trace_ok : forall st acc, st <> [] -> pop_trace st acc = Ok (rev st ++ acc, []).
Proof.
  induction st as [|t st IH]; intros acc H; [congruence|]. cbn [pop_trace]. destruct st as [|u st]; [reflexivity|].
  rewrite IH by discriminate. cbn [rev]. rewrite <- !app_assoc. reflexivity.
Qed.

(** Runs all of whose markings but the first are within the bound. *)
Definition brun (net : pnet) (k : N) (m0 : marking) (w : list nat) (m : marking) : Prop :=
  run net m0 w m /\ forall w1 w2 m1, w = w1 ++ w2 -> w1 <> [] -> run net m0 w1 m1 -> over_bound k m1 = false.
Lemma brun_nil : forall net k m0, brun net k m0 [] m0.
Proof. intros. split; [constructor|]. intros w1 w2 m1 E N. destruct w1; [congruence|discriminate]. Qed.
Lemma brun_inner : forall net k m0 w m t m', brun net k m0 w m -> step net m t m' -> inner_run net k m0 (w ++ [t]) m'.
Proof.
  intros net k m0 w m t m' (R & B) S. split; [eapply run_snoc; eauto|]. intros w1 w2 m1 E N1 N2 R1.
  destruct (exists_last N2) as (w3 & u & ->). rewrite app_assoc in E. apply app_inj_tail in E. destruct E as (E & _). eapply B; eauto.
Qed.
Lemma brun_snoc : forall net k m0 w m t m', brun net k m0 w m -> step net m t m' -> over_bound k m' = false -> brun net k m0 (w ++ [t]) m'.
Proof.
  intros net k m0 w m t m' (R & B) S O. split; [eapply run_snoc; eauto|]. intros w1 w2 m1 E N1 R1.
  destruct w2 as [|u w2] using rev_ind.
  - rewrite app_nil_r in E. subst w1. assert (X := run_snoc R S). rewrite (run_det R1 X). exact O.
  - clear IHw2. rewrite app_assoc in E. apply app_inj_tail in E. destruct E as (E & _). eapply B; eauto.
Qed.

Section Sound.
  Variable P : pnet.
  Variable places ntrans : nat.
  Variable init : list N.
  Variable good : list N -> Prop.
  Variable thr : Prop.
  Variable qs : list query.
  Variable dist : list N -> N.
  Variable handle : nat -> rslt -> rslt * bool.
  Variable prints : bool.
  Variable succ : list N -> list (nat * list N) * res unit.
  Variable k : N.
  Variable keep : bool.
  Variable rnd : nat -> N.
  Variable accept : N -> N -> N -> bool.
  Hypothesis Hgi : good init.
  Hypothesis Hgl : forall m, good m -> length m = places.
  Hypothesis Hpl : 0 < places.
  Hypothesis Hsucc : forall m t m', good m -> In (t, m') (fst (succ m)) -> step P m t m' /\ good m' /\ t < ntrans.
  Hypothesis Hend : forall m w, good m -> run P init w m -> snd (succ m) = Ok tt \/ (snd (succ m) = Throw /\ thr).
  Hypothesis Hh : forall i, fst (handle i Satisfied) <> Unknown.

  Notation check_loop := (wcheck_loop qs handle prints).
  Notation cands := (candidates qs dist handle prints k keep rnd accept).

  Definition crash : Prop := keep = true /\ prints = true /\ 2 <= length qs.
  Definition traced (l : list event) : Prop := keep = true /\ prints = true /\ untraced l.
  Fixpoint log_ok (l : list event) : Prop :=
    match l with
    | [] => True
    | e :: l' => log_ok l' /\ truthful P k init qs (traced l') e
    end.
  Definition res_ok (rs0 : list rslt) (s : wst) : Prop :=
    forall i, nth i (v_res s) Unknown = nth i rs0 Unknown \/
      exists e, In e (v_log s) /\ ev_query e = i /\ nth i (v_res s) Unknown = fst (handle i Satisfied).
  Variable rs0 : list rslt.

  Definition base (s : wst) : Prop :=
    log_ok (v_log s) /\ (keep = false -> v_sat s = 0) /\ length (v_res s) = length qs /\
    length (v_pots s) = ntrans /\ length (v_next s) = places /\ res_ok rs0 s.
  Definition same (s s' : wst) : Prop :=
    v_next s' = v_next s /\ v_pots s' = v_pots s /\ v_prev s' = v_prev s /\ v_rand s' = v_rand s /\
    v_cdist s' = v_cdist s /\ v_ndist s' = v_ndist s /\ v_total s' = v_total s /\ v_sat s' = v_sat s.
  Lemma same_refl : forall s, same s s.
  Proof. intros s. repeat split. Qed.
  Lemma same_trans : forall a b c, same a b -> same b c -> same a c.
  Proof. unfold same. intros a b c H1 H2. decompose [and] H1. decompose [and] H2. repeat split; congruence. Qed.

  Lemma untraced_cons : forall e l, untraced (e :: l) -> ev_trace e = Ok [] /\ untraced l.
  Proof. intros e l H. split; [apply H; left; reflexivity|intros x Hx; apply H; right; exact Hx]. Qed.

  Lemma wheur_same : forall s i, same s (wheur qs s i) /\ v_log (wheur qs s i) = v_log s /\ v_stack (wheur qs s i) = v_stack s /\
    v_res (wheur qs s i) = v_res s.
  Proof. intros s i. unfold wheur. destruct (_ && _ && _); repeat split. Qed.

  (** One check of the queries. *)
  Lemma check_ok : forall m w l i ad s,
    inner_run P k init w m -> length qs = i + length l -> (forall j, nth_error l j = nth_error qs (i + j)) ->
    (i = 0 -> ad = true) -> base s ->
    (keep = true -> v_sat s = 0 -> w = []) ->
    (keep = true -> v_sat s <> 0 -> untraced (v_log s) -> v_stack s = rev w) ->
    (keep = true -> v_sat s <> 0 -> crash \/ v_stack s <> []) ->
    match check_loop l i m ad s with
    | Ok (s', b) => base s' /\ same s s' /\ (untraced (v_log s') -> untraced (v_log s) /\ v_stack s' = v_stack s) /\
        (b = false -> crash \/ v_stack s' = v_stack s)
    | UB => crash
    | _ => False
    end.
  Proof.
    intros m w. induction l as [|q l IH]; intros i ad s R Hlen Hq Ha Hb Hw0 Hst Hne; cbn [wcheck_loop].
    - repeat split; try tauto; try apply Hb.
    - assert (Hi : nth_error qs i = Some q) by (specialize (Hq 0); rewrite Nat.add_0_r in Hq; symmetry; exact Hq).
      assert (Hilt : i < length qs) by (cbn [length] in Hlen; lia).
      assert (HqS : forall j, nth_error l j = nth_error qs (S i + j)) by (intros j; specialize (Hq (S j)); cbn in Hq; rewrite Hq; f_equal; lia).
      assert (HlenS : length qs = S i + length l) by (cbn [length] in Hlen; lia).
      destruct (is_unknown (nth i (v_res s) Unknown)) eqn:Eu.
      + set (v := q (nth i (v_qst s) 0%N) m). set (s1 := set_qst s (upd (v_qst s) i (fst v))).
        assert (B1 : base s1) by exact Hb.
        destruct (snd v) eqn:Ev.
        * unfold wcallback.
          assert (Tr : (exists tr st, (if prints then walk_trace (v_sat s1) (v_stack s1) else Ok ([], v_stack s1)) = Ok (tr, st) /\
                     (traced (v_log s) -> tr = w) /\ ((tr = [] -> st = v_stack s) /\ (st = v_stack s \/ (keep = true /\ prints = true)))) \/
                   ((if prints then walk_trace (v_sat s1) (v_stack s1) else Ok ([], v_stack s1)) = UB /\ crash)).
          { change (v_sat s1) with (v_sat s). change (v_stack s1) with (v_stack s). destruct prints eqn:Ep.
            - unfold walk_trace. destruct (v_sat s) as [|n] eqn:Es.
              + left. exists [], (v_stack s). split; [reflexivity|]. split; [intros (Tk & _); symmetry; apply Hw0; [exact Tk|reflexivity]|auto].
              + destruct keep eqn:Ek; [|destruct Hb as (_ & Hk & _); rewrite Ek in Hk; rewrite Hk in Es by reflexivity; discriminate].
                destruct (v_stack s) as [|t st] eqn:Et.
                * right. split; [reflexivity|]. destruct (Hne eq_refl ltac:(discriminate)) as [C|C]; [exact C|congruence].
                * left. exists (rev (t :: st)), []. rewrite pop_trace_ok by discriminate. rewrite app_nil_r. split; [reflexivity|]. split.
                  -- intros (_ & _ & U). rewrite (Hst eq_refl ltac:(discriminate) U). apply rev_involutive.
                  -- split; [|right; auto]. intros E. apply (f_equal (@rev nat)) in E. rewrite rev_involutive in E. discriminate.
            - left. exists [], (v_stack s). split; [reflexivity|]. split; [intros (_ & C & _); congruence|auto]. }
          destruct Tr as [(tr & st & -> & Htr & Hst1 & Hst2)|(-> & C)]; [|exact C]. cbn [bind fst snd].
          set (s2 := mkW _ _ _ _ _ _ _ _ _ _ _ _ _ _ _ _ _ _).
          assert (B2 : base s2).
          { destruct Hb as (L1 & L2 & L3 & L4 & L5 & L6). unfold base, s2. cbn. split; [split; [exact L1|]|].
            - split; [reflexivity|]. exists q, (nth i (v_qst s) 0%N), m, w. repeat split; auto. exact (proj1 R). exact (proj2 R). intros T. cbn. rewrite (Htr T). reflexivity.
            - split; [exact L2|]. split; [rewrite upd_length; exact L3|]. split; [exact L4|]. split; [exact L5|].
              intros j. cbn. destruct (Nat.eq_dec i j) as [Ej|Ej].
              + subst j. right. eexists. split; [left; reflexivity|]. split; [reflexivity|]. rewrite nth_upd_eq by (rewrite L3; exact Hilt). reflexivity.
              + rewrite nth_upd_neq by exact Ej. destruct (L6 j) as [X|(e & X1 & X2)]; [left; exact X|]. right. exists e. split; [right; exact X1|exact X2]. }
          assert (Un : untraced (v_log s2) -> untraced (v_log s) /\ v_stack s2 = v_stack s).
          { intros U. unfold s2 in U. cbn in U. apply untraced_cons in U. cbn in U. destruct U as (U1 & U2). split; [exact U2|]. unfold s2; cbn. apply Hst1. congruence. }
          destruct (snd (handle i Satisfied)) eqn:Eh.
          { split; [exact B2|]. split; [repeat split|]. split; [exact Un|discriminate]. }
          set (s3 := wheur qs s2 i). destruct (wheur_same s2 i) as (W1 & W2 & W3 & W4). fold s3 in W1, W2, W3, W4.
          assert (B3 : base s3).
          { destruct B2 as (L1 & L2 & L3 & L4 & L5 & L6). unfold base, res_ok. rewrite W2, W4. destruct W1 as (V1 & V2 & _ & _ & _ & _ & _ & V8). rewrite V1, V2, V8. exact (conj L1 (conj L2 (conj L3 (conj L4 (conj L5 L6))))). }
          assert (Cs : v_stack s2 = v_stack s \/ crash \/ (l = [] /\ i = 0)).
          { unfold s2; cbn. destruct Hst2 as [X|(X1 & X2)]; [left; exact X|]. right. destruct (le_lt_dec 2 (length qs)) as [Y|Y]; [left; repeat split; auto|].
            right. destruct l; [|cbn [length] in HlenS; lia]. split; [reflexivity|lia]. }
          destruct Cs as [Cs|[Cs|(-> & Cs)]].
          { assert (X := IH (S i) ad s3 R HlenS HqS ltac:(discriminate) B3).
            assert (E1 : v_sat s3 = v_sat s) by apply W1. rewrite E1, W3, Cs in X. specialize (X Hw0).
            assert (X1 : keep = true -> v_sat s <> 0 -> untraced (v_log s3) -> v_stack s = rev w) by (intros K1 K2 K3; rewrite W2 in K3; exact (Hst K1 K2 (proj1 (Un K3)))).
            specialize (X X1 Hne). destruct (check_loop l (S i) m ad s3) as [[s' b]| | |]; auto. destruct X as (X2 & X3 & X4 & X5). split; [exact X2|].
            split; [eapply same_trans; [|exact X3]; eapply same_trans; [|exact W1]; repeat split|]. split; [|exact X5].
            intros U. destruct (X4 U) as (Y1 & Y2). rewrite W2 in Y1. split; [exact (proj1 (Un Y1))|exact Y2]. }
          { assert (X := IH (S i) ad s3 R HlenS HqS ltac:(discriminate) B3).
            assert (E1 : v_sat s3 = v_sat s) by apply W1. rewrite E1, W3 in X. specialize (X Hw0).
            assert (X1 : keep = true -> v_sat s <> 0 -> untraced (v_log s3) -> v_stack s2 = rev w).
            { intros K1 K2 K3. rewrite W2 in K3. destruct (Un K3) as (K4 & K5). rewrite K5. exact (Hst K1 K2 K4). }
            specialize (X X1 (fun _ _ => or_introl Cs)). destruct (check_loop l (S i) m ad s3) as [[s' b]| | |]; auto. destruct X as (X2 & X3 & X4 & X5). split; [exact X2|].
            split; [eapply same_trans; [|exact X3]; eapply same_trans; [|exact W1]; repeat split|]. split; [|intros _; left; exact Cs].
            intros U. destruct (X4 U) as (Y1 & Y2). rewrite W2 in Y1. destruct (Un Y1) as (Y3 & Y4). split; [exact Y3|congruence]. }
          { cbn [wcheck_loop]. split; [exact B3|]. split; [eapply same_trans; [|exact W1]; repeat split|]. split; [|rewrite (Ha Cs); discriminate].
            intros U. rewrite W2 in U. rewrite W3. exact (Un U). }
        * set (s3 := wheur qs s1 i). destruct (wheur_same s1 i) as (W1 & W2 & W3 & W4). fold s3 in W1, W2, W3, W4.
          assert (B3 : base s3).
          { destruct B1 as (L1 & L2 & L3 & L4 & L5 & L6). unfold base, res_ok. rewrite W2, W4. destruct W1 as (V1 & V2 & _ & _ & _ & _ & _ & V8). rewrite V1, V2, V8. exact (conj L1 (conj L2 (conj L3 (conj L4 (conj L5 L6))))). }
          assert (X := IH (S i) false s3 R HlenS HqS ltac:(discriminate) B3).
          assert (E1 : v_sat s3 = v_sat s) by apply W1. rewrite E1, W3, W2 in X. specialize (X Hw0 Hst Hne).
          destruct (check_loop l (S i) m false s3) as [[s' b]| | |]; auto. destruct X as (X2 & X3 & X4 & X5). split; [exact X2|].
          split; [eapply same_trans; [|exact X3]; eapply same_trans; [|exact W1]; repeat split|]. split; [exact X4|exact X5].
      + set (s3 := wheur qs s i). destruct (wheur_same s i) as (W1 & W2 & W3 & W4). fold s3 in W1, W2, W3, W4.
        assert (B3 : base s3).
        { destruct Hb as (L1 & L2 & L3 & L4 & L5 & L6). unfold base, res_ok. rewrite W2, W4. destruct W1 as (V1 & V2 & _ & _ & _ & _ & _ & V8). rewrite V1, V2, V8. exact (conj L1 (conj L2 (conj L3 (conj L4 (conj L5 L6))))). }
        assert (X := IH (S i) ad s3 R HlenS HqS ltac:(discriminate) B3).
        assert (E1 : v_sat s3 = v_sat s) by apply W1. rewrite E1, W3, W2 in X. specialize (X Hw0 Hst Hne).
        destruct (check_loop l (S i) m ad s3) as [[s' b]| | |]; auto. destruct X as (X2 & X3 & X4 & X5). split; [exact X2|].
        split; [eapply same_trans; [exact W1|exact X3]|]. split; [exact X4|exact X5].
  Qed.

  (** During a step from [cm]. *)
  Definition cur (wc : list nat) (cm : list N) (s : wst) : Prop :=
    (keep = true -> untraced (v_log s) -> exists top, v_stack s = top :: rev wc) /\
    (keep = true -> crash \/ v_stack s <> []) /\ (keep = true -> v_sat s <> 0) /\
    (nth 0 (v_next s) 0%N = no_mark \/
     exists t, In (t, v_next s) (fst (succ cm)) /\ over_bound k (v_next s) = false /\
       (keep = true -> untraced (v_log s) -> v_stack s = t :: rev wc)).

  Lemma candidates_ok : forall wc cm, brun P k init wc cm -> good cm ->
    forall l s, (forall x, In x l -> In x (fst (succ cm))) -> base s -> cur wc cm s ->
    match cands l (snd (succ cm)) s with
    | Ok (s', b) => base s' /\ (b = false -> cur wc cm s')
    | Throw => thr
    | UB => crash
    | NoFuel => False
    end.
  Proof.
    intros wc cm R G. induction l as [|[t m] l IH]; intros s Hl Hb Hc; cbn [candidates].
    - destruct (Hend G (proj1 R)) as [->|(-> & T)]; cbn [bind]; [auto|exact T].
    - destruct (@Hsucc cm t m G (Hl _ (or_introl eq_refl))) as (St & Gm & Ht).
      assert (Rm : inner_run P k init (wc ++ [t]) m) by (eapply brun_inner; eauto).
      set (s0 := inc_explored s).
      assert (B0 : base s0) by exact Hb.
      assert (Hs1 : (exists s1, (if keep then s' <- save_previous s0 ;; set_history s' t else Ok s0) = Ok s1 /\ base s1 /\
                v_log s1 = v_log s /\ v_next s1 = v_next s /\ v_sat s1 = v_sat s /\
                (keep = true -> exists top st, v_stack s = top :: st /\ v_stack s1 = t :: st /\ v_prev s1 = top)) \/
              ((if keep then s' <- save_previous s0 ;; set_history s' t else Ok s0) = UB /\ crash)).
      { destruct keep eqn:Ek; [|left; exists s0; repeat split; try (intros; discriminate); apply B0].
        unfold save_previous. change (v_stack s0) with (v_stack s). destruct (v_stack s) as [|top st] eqn:Es.
        - right. split; [reflexivity|]. destruct Hc as (_ & C & _). destruct (C Ek) as [C1|C1]; [exact C1|congruence].
        - left. eexists. cbn [bind]. unfold set_history, set_prev. change (v_stack s0) with (v_stack s). cbn [v_stack]. rewrite Es. split; [reflexivity|].
          split; [exact B0|]. repeat split. intros _. exists top, st. repeat split. }
      destruct Hs1 as [(s1 & -> & B1 & L1 & N1 & S1 & K1)|(-> & C)]; [|exact C]. cbn [bind].
      assert (Hck := @check_ok m (wc ++ [t]) qs 0 true s1 Rm eq_refl (fun j => eq_refl) (fun _ => eq_refl) B1).
      assert (H1 : keep = true -> v_sat s1 = 0 -> wc ++ [t] = []) by (intros Ek E; exfalso; destruct Hc as (_ & _ & C & _); apply (C Ek); congruence).
      assert (H2 : keep = true -> v_sat s1 <> 0 -> untraced (v_log s1) -> v_stack s1 = rev (wc ++ [t])).
      { intros Ek _ U. rewrite L1 in U. destruct Hc as (C & _). destruct (C Ek U) as (top & E). destruct (K1 Ek) as (top' & st & E1 & E2 & _).
        rewrite E in E1. injection E1 as _ <-. rewrite E2, rev_app_distr. reflexivity. }
      assert (H3 : keep = true -> v_sat s1 <> 0 -> crash \/ v_stack s1 <> []) by (intros Ek _; destruct (K1 Ek) as (top' & st & _ & E2 & _); right; rewrite E2; discriminate).
      specialize (Hck H1 H2 H3). unfold wcheck. destruct (check_loop qs 0 m true s1) as [[s2 b]| | |]; [|destruct Hck|exact Hck|destruct Hck].
      destruct Hck as (B2 & V2 & U2 & T2). cbn [bind fst snd]. destruct b; [split; [exact B2|discriminate]|]. specialize (T2 eq_refl).
      assert (Hcand : exists s3 b, compute_candidate dist k rnd accept m t s2 = Ok (s3, b) /\ base s3 /\ v_log s3 = v_log s2 /\ v_stack s3 = v_stack s2 /\ v_prev s3 = v_prev s2 /\ v_sat s3 = v_sat s2 /\ (b = true -> v_next s3 = m /\ over_bound k m = false) /\ (b = false -> v_next s3 = v_next s2)).
      { unfold compute_candidate. rewrite sum_marking_total. fold (over_bound k m). destruct (over_bound k m) eqn:Eo.
        - eexists _, _. split; [reflexivity|]. split; [exact B2|]. repeat split; discriminate.
        - destruct B2 as (M1 & M2 & M3 & M4 & M5 & M6). rewrite (rd_nth (v_pots s2) 0%N) by (rewrite M4; exact Ht). cbn [bind].
          eexists _, _. split; [reflexivity|]. split.
          + unfold base. cbn. split; [exact M1|]. split; [exact M2|]. split; [exact M3|]. split; [rewrite upd_length; exact M4|]. split; [|exact M6].
            destruct (accept _ _ _); [apply Hgl; exact Gm|exact M5].
          + cbn. repeat split; try (destruct (accept _ _ _); intros; congruence). }
      destruct Hcand as (s3 & b & -> & B3 & L3 & K3 & P3 & S3 & N3t & N3f). cbn [bind fst snd].
      assert (Ub : untraced (v_log s3) -> untraced (v_log s) /\ (keep = true -> exists top, v_stack s = top :: rev wc /\ v_stack s3 = t :: rev wc /\ v_prev s3 = top)).
      { intros U. rewrite L3 in U. destruct (U2 U) as (U3 & U4). assert (U5 := U3). rewrite L1 in U3. split; [exact U3|]. intros Ek.
        destruct Hc as (C & _). destruct (C Ek U3) as (top & E). destruct (K1 Ek) as (top' & st & E1 & E2 & E3). rewrite E in E1. injection E1 as -> <-.
        exists top'. split; [exact E|]. rewrite K3, U4, P3. split; [exact E2|]. destruct V2 as (_ & _ & V2 & _). congruence. }
      assert (Ne : keep = true -> crash \/ v_stack s3 <> []).
      { intros Ek. destruct T2 as [T2|T2]; [left; exact T2|]. right. rewrite K3, T2. destruct (K1 Ek) as (top' & st & _ & E2 & _). rewrite E2. discriminate. }
      assert (Sat : keep = true -> v_sat s3 <> 0).
      { intros Ek. rewrite S3. destruct V2 as (_ & _ & _ & _ & _ & _ & _ & V8). rewrite V8, S1. apply Hc. exact Ek. }
      destruct b.
      + rewrite andb_false_r. cbn [bind]. apply IH; [intros x Hx; apply Hl; right; exact Hx|exact B3|].
        split; [intros Ek U; destruct (proj2 (Ub U) Ek) as (top & _ & X & _); exists t; exact X|]. split; [exact Ne|]. split; [exact Sat|].
        right. exists t. destruct (N3t eq_refl) as (N4 & N5). rewrite N4. split; [apply Hl; left; reflexivity|]. split; [exact N5|].
        intros Ek U. destruct (proj2 (Ub U) Ek) as (top & _ & X & _). exact X.
      + rewrite andb_true_r.
        assert (Nx : v_next s3 = v_next s) by (rewrite (N3f eq_refl); destruct V2 as (V2 & _); rewrite V2; exact N1).
        destruct keep eqn:Ek.
        * unfold set_history. destruct (v_stack s3) as [|x st3] eqn:E3; [destruct (Ne eq_refl) as [C|C]; [exact C|congruence]|]. cbn [bind].
          apply IH; [intros x0 Hx; apply Hl; right; exact Hx|exact B3|]. unfold cur. cbn.
          assert (Un : untraced (v_log s3) -> v_prev s3 :: st3 = v_stack s).
          { intros U. destruct (proj2 (Ub U) eq_refl) as (top & X1 & X2 & X3). injection X2 as _ ->. congruence. }
          destruct Hc as (C1 & C2 & C3 & C4). split; [intros _ U; rewrite (Un U); apply (C1 Ek), (proj1 (Ub U))|]. split; [right; discriminate|]. split; [intros _; exact (Sat eq_refl)|].
          rewrite Nx. destruct C4 as [C4|(u & D1 & D2 & D3)]; [left; exact C4|]. right. exists u. split; [exact D1|]. split; [exact D2|]. intros _ U. rewrite (Un U). apply (D3 Ek), (proj1 (Ub U)).
        * cbn [bind]. apply IH; [intros x0 Hx; apply Hl; right; exact Hx|exact B3|]. unfold cur. rewrite Ek. repeat split; try (intros; discriminate).
          rewrite Nx. destruct Hc as (_ & _ & _ & [C4|(u & D1 & D2 & D3)]); [left; exact C4|]. right. exists u. repeat split; auto. intros; discriminate.
  Qed.

  Notation oneW := (one_walk qs dist handle prints succ k keep rnd accept).
  Notation allW := (walks qs dist handle prints succ k keep rnd accept).

  (** Between two steps. *)
  Definition start (s : wst) : Prop :=
    base s /\ (keep = true -> v_sat s <> 0) /\
    (nth 0 (v_next s) 0%N = no_mark \/
     exists w, brun P k init w (v_next s) /\ good (v_next s) /\ (keep = true -> untraced (v_log s) -> v_stack s = rev w)).

  Lemma one_walk_ok : forall fuel c depth s, start s ->
    match oneW fuel c depth s with
    | Ok (s', b) => base s' /\ (b = false -> keep = true -> v_sat s' <> 0)
    | Throw => thr
    | UB => crash \/ (2147483647 < c + N.of_nat fuel)%N
    | NoFuel => True
    end.
  Proof.
    induction fuel as [|f IH]; intros c depth s (Hb & Hsat & Hs); cbn [one_walk]; [exact I|].
    destruct (c <? depth)%N; [|auto]. unfold next_step.
    assert (Hlen : length (v_next s) = places) by apply Hb.
    rewrite (rd_nth (v_next s) 0%N) by lia. cbn [bind]. destruct (N.eqb_spec (nth 0 (v_next s) 0%N) no_mark) as [E|E]; [cbn [bind]; auto|].
    cbn [bind]. destruct Hs as [Hs|(w & R & G & Hst)]; [congruence|].
    set (s2 := if keep then _ else _). set (cm := v_next s) in *.
    assert (B2 : base s2).
    { destruct Hb as (M1 & M2 & M3 & M4 & M5 & M6). unfold s2. assert (X : base (set_next s (upd cm 0 no_mark) 0%N)) by (unfold base; cbn; rewrite upd_length; exact (conj M1 (conj M2 (conj M3 (conj M4 (conj M5 M6)))))). destruct keep; exact X. }
    assert (C2 : cur w cm s2).
    { unfold cur. assert (N0 : nth 0 (v_next s2) 0%N = no_mark) by (unfold s2; destruct keep; cbn; apply nth_upd_eq; lia).
      unfold s2. destruct keep eqn:Ek; cbn.
      - split; [intros _ U; exists 0; rewrite (Hst eq_refl U); reflexivity|]. split; [right; discriminate|]. split; [exact Hsat|]. left. apply nth_upd_eq. lia.
      - repeat split; try (intros; discriminate). left. apply nth_upd_eq. lia. }
    assert (X := @candidates_ok w cm R G (fst (succ cm)) s2 (fun x H => H) B2 C2).
    destruct (cands (fst (succ cm)) (snd (succ cm)) s2) as [[s3 b]| | |]; cbn [bind]; [|exact X|left; exact X|destruct X].
    destruct X as (B3 & C3). cbn [fst snd]. destruct b; [split; [exact B3|discriminate]|]. specialize (C3 eq_refl).
    destruct (N.eqb_spec c 2147483647) as [Ec|Ec]; [right; lia|].
    assert (St : start (inc_expanded s3)).
    { split; [exact B3|]. destruct C3 as (D1 & D2 & D3 & D4). split; [exact D3|]. destruct D4 as [D4|(t & F1 & F2 & F3)]; [left; exact D4|]. right.
      destruct (@Hsucc cm t (v_next s3) G F1) as (G1 & G2 & _). exists (w ++ [t]). cbn. split; [eapply brun_snoc; eauto|]. split; [exact G2|]. intros Ek U. rewrite (F3 Ek U), rev_app_distr. reflexivity. }
    assert (X := IH (c + 1)%N depth _ St). destruct (oneW f (c + 1)%N depth (inc_expanded s3)) as [[s4 b]| | |]; auto.
    destruct X as [X|X]; [left; exact X|right; lia].
  Qed.

  Lemma walks_ok : forall fuel wfuel idist depth inc s, base s -> (keep = true -> v_sat s <> 0) ->
    match allW fuel wfuel init idist depth inc s with
    | Ok (s', b) => base s' /\ b = true
    | Throw => thr
    | UB => crash \/ (2147483647 < N.of_nat wfuel)%N
    | NoFuel => True
    end.
  Proof.
    induction fuel as [|f IH]; intros wfuel idist depth inc s Hb Hs; cbn [walks]; [exact I|].
    set (s1 := set_next _ _ _).
    assert (St : start s1).
    { destruct Hb as (M1 & M2 & M3 & M4 & M5 & M6).
      split; [|split].
      - assert (X : base s1) by (assert (Y : base (set_next s init 0%N)) by (unfold base; cbn; exact (conj M1 (conj M2 (conj M3 (conj M4 (conj (Hgl Hgi) M6)))))); unfold s1; destruct keep; exact Y). exact X.
      - unfold s1; destruct keep; exact Hs.
      - right. exists []. unfold s1. split; [destruct keep; apply brun_nil|]. split; [destruct keep; exact Hgi|]. intros Ek _. rewrite Ek. reflexivity. }
    assert (X := @one_walk_ok wfuel 0%N depth s1 St). destruct (oneW wfuel 0%N depth s1) as [[s2 b]| | |]; cbn [bind fst snd]; auto.
    destruct X as (B2 & S2). destruct b; [auto|]. apply IH; [exact B2|exact (S2 eq_refl)].
  Qed.

  Lemma random_walk_ok : forall fuel wfuel qst0 heur pots depth inc,
    length rs0 = length qs -> heur < length qs -> length (init_pots ntrans pots) = ntrans ->
    match random_walk qs dist handle prints succ k keep rnd accept fuel wfuel places ntrans init rs0 qst0 heur pots depth inc with
    | Ok (s', b) => base s' /\ b = true
    | Throw => thr
    | UB => crash \/ (2147483647 < N.of_nat wfuel)%N
    | NoFuel => True
    end.
  Proof.
    intros fuel wfuel qst0 heur pots depth inc Hr Hq Hp. unfold random_walk.
    destruct (nth_error_ex qs Hq) as (q & Eq). rewrite (rd_some _ _ Eq). cbn [bind].
    rewrite wr_ok by (rewrite repeat_length; exact Hpl). cbn [bind].
    set (s0 := mkW _ _ _ _ _ _ _ _ _ _ _ _ _ _ _ _ _ _).
    assert (B0 : base s0).
    { unfold base, s0; cbn. rewrite upd_length, repeat_length. repeat split; auto. intros i. left. reflexivity. }
    assert (R0 : inner_run P k init [] init) by (split; [constructor|]; intros w1 w2 m1 E N1; destruct w1; [congruence|discriminate]).
    assert (X := @check_ok init [] qs 0 true s0 R0 eq_refl (fun j => eq_refl) (fun _ => eq_refl) B0 (fun _ _ => eq_refl)).
    specialize (X ltac:(intros _ C; exfalso; apply C; reflexivity) ltac:(intros _ C; exfalso; apply C; reflexivity)).
    unfold wcheck. destruct (check_loop qs 0 init true s0) as [[s1 b]| | |]; cbn [bind fst snd]; [|destruct X|left; exact X|destruct X].
    destruct X as (B1 & V1 & _). destruct b; [auto|]. apply walks_ok.
    - destruct keep eqn:Ek; [|exact B1]. destruct B1 as (M1 & M2 & M3 & M4 & M5 & M6). unfold base; cbn. repeat split; auto. rewrite Ek. discriminate.
    - intros Ek. rewrite Ek. discriminate.
  Qed.

  (** When the search ends and the handler never stops it, every query has a result. *)
  Hypothesis Hstop : forall i, snd (handle i Satisfied) = false.
  Lemma check_known : forall m l i ad s s' b, length (v_res s) = length qs -> length qs = i + length l ->
    check_loop l i m ad s = Ok (s', b) ->
    length (v_res s') = length qs /\ (b = true -> ad = true /\ (forall j, i <= j -> j < length qs -> nth j (v_res s') Unknown <> Unknown)) /\
    (forall j, nth j (v_res s) Unknown <> Unknown -> nth j (v_res s') Unknown <> Unknown).
  Proof.
    intros m. induction l as [|q l IH]; intros i ad s s' b Hr Hl E; cbn [wcheck_loop] in E.
    - injection E as <- <-. split; [exact Hr|]. split; [|auto]. intros ->. split; [reflexivity|]. intros j H1 H2. cbn [length] in Hl. lia.
    - assert (HlS : length qs = S i + length l) by (cbn [length] in Hl; lia).
      assert (K : forall s2 ad2 (Hr2 : length (v_res s2) = length qs) (Hk : ad2 = true -> nth i (v_res s2) Unknown <> Unknown)
                (Hm : forall j, nth j (v_res s) Unknown <> Unknown -> nth j (v_res s2) Unknown <> Unknown) (Ha : ad2 = true -> ad = true)
                (E2 : check_loop l (S i) m ad2 (wheur qs s2 i) = Ok (s', b)),
                length (v_res s') = length qs /\ (b = true -> ad = true /\ (forall j, i <= j -> j < length qs -> nth j (v_res s') Unknown <> Unknown)) /\
                (forall j, nth j (v_res s) Unknown <> Unknown -> nth j (v_res s') Unknown <> Unknown)).
      { intros s2 ad2 Hr2 Hk Hm Ha E2. destruct (wheur_same s2 i) as (_ & _ & _ & W4).
        destruct (IH (S i) ad2 _ s' b ltac:(rewrite W4; exact Hr2) HlS E2) as (I1 & I2 & I3). split; [exact I1|]. rewrite W4 in I3. split; [|intros j Hj; apply I3, Hm, Hj].
        intros Eb. destruct (I2 Eb) as (J1 & J2). split; [exact (Ha J1)|]. intros j H1 H2. destruct (Nat.eq_dec j i) as [->|Ne]; [apply I3, Hk, J1|]. apply J2; lia. }
      destruct (is_unknown (nth i (v_res s) Unknown)) eqn:Eu.
      + destruct (snd (q (nth i (v_qst s) 0%N) m)).
        * unfold wcallback in E. destruct (if prints then _ else _) as [[tr st]| | |]; cbn [bind fst snd] in E; try discriminate. rewrite Hstop in E.
          eapply K; [| | | |exact E]; cbn.
          -- rewrite upd_length. exact Hr.
          -- intros _. rewrite nth_upd_eq by lia. apply Hh.
          -- intros j Hj. destruct (Nat.eq_dec i j) as [->|Ne]; [rewrite nth_upd_eq by (rewrite Hr; destruct (Nat.lt_ge_cases j (length qs)); [assumption|cbn [length] in Hl; lia]); apply Hh|rewrite nth_upd_neq by exact Ne; exact Hj].
          -- auto.
        * eapply K; [| | | |exact E]; cbn; auto. discriminate. discriminate.
      + eapply K; [| | | |exact E]; auto. intros _ C. rewrite C in Eu. discriminate.
  Qed.

  Definition known (s : wst) : Prop := forall j, j < length qs -> nth j (v_res s) Unknown <> Unknown.
  Lemma wcheck_known : forall m s s' b, length (v_res s) = length qs -> wcheck qs handle prints m s = Ok (s', b) ->
    length (v_res s') = length qs /\ (b = true -> known s').
  Proof.
    intros m s s' b Hr E. destruct (@check_known m qs 0 true s s' b Hr eq_refl E) as (A & B & _). split; [exact A|].
    intros Eb j Hj. apply (proj2 (B Eb)); [lia|exact Hj].
  Qed.
  Lemma candidates_known : forall e l s s' b, length (v_res s) = length qs -> cands l e s = Ok (s', b) ->
    length (v_res s') = length qs /\ (b = true -> known s').
  Proof.
    intros e. induction l as [|[t m] l IH]; intros s s' b Hr E; cbn [candidates] in E.
    - destruct e; cbn [bind] in E; try discriminate. injection E as <- <-. split; [exact Hr|discriminate].
    - set (x := if keep then _ else _) in E at 1. destruct x as [s1| | |] eqn:E1; cbn [bind] in E; try discriminate.
      assert (R1 : length (v_res s1) = length qs).
      { unfold x in E1. destruct keep; [|injection E1 as <-; exact Hr]. unfold save_previous in E1. destruct (v_stack (inc_explored s)) as [|u st] eqn:Es; cbn [bind] in E1; [discriminate|].
        unfold set_history in E1. change (v_stack (set_prev (inc_explored s) u)) with (v_stack (inc_explored s)) in E1. rewrite Es in E1. injection E1 as <-. exact Hr. }
      destruct (wcheck qs handle prints m s1) as [[s2 c]| | |] eqn:E2; cbn [bind fst snd] in E; try discriminate.
      destruct (wcheck_known m s1 R1 E2) as (R2 & K2). destruct c; [injection E as <- <-; auto|].
      destruct (compute_candidate dist k rnd accept m t s2) as [[s3 d]| | |] eqn:E3; cbn [bind fst snd] in E; try discriminate.
      assert (R3 : length (v_res s3) = length qs).
      { unfold compute_candidate in E3. destruct (_ && _); [injection E3 as <- _; exact R2|]. destruct (rd (v_pots s2) t); cbn [bind] in E3; try discriminate. injection E3 as <- _. exact R2. }
      set (y := if keep && negb d then _ else _) in E. destruct y as [s4| | |] eqn:E4; cbn [bind] in E; try discriminate.
      eapply IH; [|exact E]. unfold y in E4. destruct (keep && negb d); [|injection E4 as <-; exact R3]. unfold set_history in E4. destruct (v_stack s3); [discriminate|]. injection E4 as <-. exact R3.
  Qed.
  Lemma one_walk_known : forall fuel c depth s s' b, length (v_res s) = length qs -> oneW fuel c depth s = Ok (s', b) ->
    length (v_res s') = length qs /\ (b = true -> known s').
  Proof.
    induction fuel as [|f IH]; intros c depth s s' b Hr E; cbn [one_walk] in E; [discriminate|].
    destruct (c <? depth)%N; [|injection E as <- <-; split; [exact Hr|discriminate]]. unfold next_step in E.
    destruct (rd (v_next s) 0) as [x| | |]; cbn [bind] in E; try discriminate. destruct (x =? no_mark)%N; cbn [bind] in E; [injection E as <- <-; split; [exact Hr|discriminate]|].
    set (s2 := if keep then _ else _) in E. assert (R2 : length (v_res s2) = length qs) by (unfold s2; destruct keep; exact Hr).
    destruct (cands (fst (succ (v_next s))) (snd (succ (v_next s))) s2) as [[s3 d]| | |] eqn:E3; cbn [bind fst snd] in E; try discriminate.
    destruct (candidates_known _ _ s2 R2 E3) as (R3 & K3). destruct d; [injection E as <- <-; auto|].
    destruct (c =? 2147483647)%N; [discriminate|]. eapply IH; [|exact E]. exact R3.
  Qed.
  Lemma walks_known : forall fuel wfuel idist depth inc s s' b, length (v_res s) = length qs -> allW fuel wfuel init idist depth inc s = Ok (s', b) -> known s'.
  Proof.
    induction fuel as [|f IH]; intros wfuel idist depth inc s s' b Hr E; cbn [walks] in E; [discriminate|].
    set (s1 := set_next _ _ _) in E. assert (R1 : length (v_res s1) = length qs) by (unfold s1; destruct keep; exact Hr).
    destruct (oneW wfuel 0%N depth s1) as [[s2 d]| | |] eqn:E2; cbn [bind fst snd] in E; try discriminate.
    destruct (one_walk_known _ _ _ s1 R1 E2) as (R2 & K2). destruct d; [injection E as <- <-; auto|]. eapply IH; [|exact E]. exact R2.
  Qed.
  Lemma random_walk_known : forall fuel wfuel qst0 heur pots depth inc s' b, length rs0 = length qs ->
    random_walk qs dist handle prints succ k keep rnd accept fuel wfuel places ntrans init rs0 qst0 heur pots depth inc = Ok (s', b) -> known s'.
  Proof.
    intros fuel wfuel qst0 heur pots depth inc s' b Hr E. unfold random_walk in E. destruct (rd qs heur); cbn [bind] in E; try discriminate.
    destruct (wr _ _ _); cbn [bind] in E; try discriminate. set (s0 := mkW _ _ _ _ _ _ _ _ _ _ _ _ _ _ _ _ _ _) in E.
    destruct (wcheck qs handle prints init s0) as [[s1 d]| | |] eqn:E1; cbn [bind fst snd] in E; try discriminate.
    destruct (wcheck_known _ s0 (Hr : length (v_res s0) = length qs) E1) as (R1 & K1). destruct d; [injection E as <- <-; auto|].
    eapply walks_known; [|exact E]. destruct keep; exact R1.
  Qed.
End Sound.
