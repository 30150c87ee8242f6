(** For some random choices the random walk finds any goal that a run leads to. *)
From Verif Require Import Base BaseLemmas NetSpec NetModel NetProofs StoreSpec StoreProofs SearchModel SearchMain WalkModel WalkSpec WalkProofs.
Set Implicit Arguments.
Local Open Scope N_scope.

Lemma w32_small : forall x, x < 4294967296 -> w32 x = x.
Proof. intros x H. apply N.mod_small. exact H. Qed.
Lemma sub32_le : forall x y, y <= x -> x < 4294967296 -> sub32 x y = x - y.
Proof.
  intros x y H1 H2. unfold sub32, w32. replace (x + (4294967296 - y)) with ((x - y) + 1 * 4294967296) by lia.
  rewrite N.mod_add by discriminate. apply N.mod_small. lia.
Qed.
Lemma new_pot_range : forall p d c D, 1 <= p -> p + D < 4294967296 -> d <= D -> c <= D -> 1 <= new_pot p d c <= p + D.
Proof.
  intros p d c D H1 H2 H3 H4. unfold new_pot. destruct (N.ltb_spec d c) as [H|H].
  - rewrite w32_small by lia. lia.
  - rewrite sub32_le by lia. destruct (N.leb_spec (d - c) (p - 1)) as [H5|H5]; [rewrite sub32_le by lia; lia|lia].
Qed.

Definition agree (rnd : nat -> N) (a : nat) (l : list N) : Prop := forall i x, nth_error l i = Some x -> rnd (a + i)%nat = x.
Lemma agree_app : forall rnd a l1 l2, agree rnd a (l1 ++ l2) -> agree rnd a l1 /\ agree rnd (a + length l1) l2.
Proof.
  intros rnd a l1 l2 H. split; intros i x E.
  - apply H. rewrite nth_error_app1; [exact E|]. apply nth_error_Some. congruence.
  - rewrite <- Nat.add_assoc. apply H. rewrite nth_error_app2 by lia. replace (length l1 + i - length l1)%nat with i by lia. exact E.
Qed.
Lemma agree_cons : forall rnd a x l, agree rnd a (x :: l) -> rnd a = x /\ agree rnd (S a) l.
Proof.
  intros rnd a x l H. split; [specialize (H 0%nat x eq_refl); rewrite Nat.add_0_r in H; exact H|].
  intros i y E. specialize (H (S i) y E). rewrite Nat.add_succ_r in H. exact H.
Qed.
Lemma agree_of : forall a l, exists rnd, agree rnd a l.
Proof. intros a l. exists (fun n => nth (n - a) l 0). intros i x E. replace (a + i - a)%nat with i by lia. apply nth_error_nth. exact E. Qed.

Section Find.
  Variable f : list N -> bool.
  Variable dist : list N -> N.
  Variable handle : nat -> rslt -> rslt * bool.
  Variable prints : bool.
  Variable succ : list N -> list (nat * list N) * res unit.
  Variable k : N.
  Variable keep : bool.
  Variable accept : N -> N -> N -> bool.
  Variable RM D : N.
  Variable places ntrans : nat.
  Hypothesis Hacc0 : forall p t, 1 <= p -> 1 <= t -> accept 0 p t = true.
  Hypothesis HaccM : forall p t, p < t -> accept RM p t = false.
  Hypothesis HD : forall m, dist m <= D.
  Notation qs := [pure_query f].
  Notation cands := (candidates qs dist handle prints k keep).
  Notation oneW := (one_walk qs dist handle prints succ k keep).

  Definition found (s : wst) : Prop := exists e, In e (v_log s) /\ ev_query e = 0%nat /\ ev_result e = Satisfied.

  (** The fields that matter. *)
  Definition like (s s' : wst) : Prop :=
    v_next s' = v_next s /\ v_pots s' = v_pots s /\ v_cdist s' = v_cdist s /\ v_ndist s' = v_ndist s /\ v_total s' = v_total s /\
    v_rand s' = v_rand s /\ v_res s' = v_res s /\ (v_stack s' = [] <-> v_stack s = []).
  Definition lim (b : N) (s : wst) : Prop := length (v_pots s) = ntrans /\ forall p, In p (v_pots s) -> 1 <= p <= b.
  Definition st (b : N) (s : wst) : Prop :=
    v_res s = [Unknown] /\ (keep = true -> v_stack s <> []) /\ lim b s /\ v_cdist s <= D /\ v_ndist s <= D.

  Lemma check_one : forall m s, v_res s = [Unknown] -> (keep = true -> v_stack s <> []) -> (keep = false -> v_sat s = 0%nat) ->
    (f m = true /\ exists s', wcheck qs handle prints m s = Ok (s', true) /\ found s') \/
    (f m = false /\ exists s', wcheck qs handle prints m s = Ok (s', false) /\ like s s' /\ v_prev s' = v_prev s /\ v_stack s' = v_stack s /\ v_sat s' = v_sat s).
  Proof.
    intros m s Hr Hs Hz. unfold wcheck. cbn [wcheck_loop]. rewrite Hr. cbn [nth is_unknown pure_query fst snd].
    destruct (f m) eqn:E; [left|right]; (split; [reflexivity|]).
    - unfold wcallback.
      assert (T : exists tr, (if prints then walk_trace (v_sat (set_qst s (Base.upd (v_qst s) 0 (nth 0 (v_qst s) 0)))) (v_stack (set_qst s (Base.upd (v_qst s) 0 (nth 0 (v_qst s) 0))))
                             else Ok ([], v_stack (set_qst s (Base.upd (v_qst s) 0 (nth 0 (v_qst s) 0))))) = Ok tr).
      { cbn [set_qst v_sat v_stack]. destruct prints; [|eauto]. unfold walk_trace. destruct (v_sat s) eqn:Es; [eauto|].
        destruct keep; [|specialize (Hz eq_refl); discriminate]. rewrite pop_trace_ok by (apply Hs; reflexivity). eauto. }
      destruct T as (tr & ->). cbn [bind fst snd]. set (s2 := mkW _ _ _ _ _ _ _ _ _ _ _ _ _ _ _ _ _ _).
      assert (F : found s2) by (eexists; split; [left; reflexivity|split; reflexivity]).
      destruct (snd (handle 0%nat Satisfied)); eexists; (split; [reflexivity|]); [exact F|].
      unfold wheur. rewrite andb_false_r. exact F.
    - unfold wheur. rewrite andb_false_r. eexists. split; [reflexivity|]. repeat split; auto.
  Qed.

  Definition stz (b : N) (s : wst) : Prop := st b s /\ (keep = false -> v_sat s = 0%nat).

  (** One candidate that is not a hit: with a random number of choice it becomes the next
      marking or not. *)
  Lemma one_cand : forall b s t m, stz b s -> (t < ntrans)%nat -> f m = false -> v_total s + b + D < 4294967296 ->
    exists n (r : N -> wst), (n <= 1)%nat /\
      (forall x, stz (b + D) (r x) /\ v_rand (r x) = (v_rand s + n)%nat /\ v_total (r x) <= v_total s + b + D /\ v_total s <= v_total (r x)) /\
      (over_bound k m = false -> n = 1%nat /\ v_next (r 0) = m /\ 1 <= v_total (r 0)) /\
      (1 <= v_total s -> v_next (r RM) = v_next s) /\
      (forall rnd l e, cands rnd accept ((t, m) :: l) e s = cands rnd accept l e (r (rnd (v_rand s)))) /\
      (n = 0%nat -> forall x y, r y = r x).
  Proof.
    intros b s t m ((S1 & S2 & (S3 & S3') & S4 & S5) & S6) Ht Hf Ht32.
    set (s0 := inc_explored s).
    assert (E1 : exists s1, (if keep then s' <- save_previous s0 ;; set_history s' t else Ok s0) = Ok s1 /\ like s s1 /\ v_sat s1 = v_sat s).
    { destruct keep; [|exists s0; repeat split; auto]. unfold save_previous. change (v_stack s0) with (v_stack s). destruct (v_stack s) as [|u stk] eqn:Es; [exfalso; apply S2; reflexivity|].
      cbn [bind]. unfold set_history. change (v_stack (set_prev s0 u)) with (v_stack s). rewrite Es. eexists. split; [reflexivity|]. repeat split; intros; try congruence. discriminate. }
    destruct E1 as (s1 & E1 & (L1 & L2 & L3 & L4 & L5 & L6 & L7 & L8) & L9).
    destruct (@check_one m s1) as [(F & _)|(_ & s2 & E2 & (M1 & M2 & M3 & M4 & M5 & M6 & M7 & M8) & M9 & M10 & M11)]; [congruence|intros K C; apply (S2 K), L8, C|intros K; rewrite L9; auto|congruence|].
    destruct (over_bound k m) eqn:Eo.
    - (* over the token bound *)
      exists 0%nat. unshelve eexists; [|split; [lia|]].
      { intros _. exact (match (if keep then set_history (fst (mkW (v_next s2) (v_pots s2) (v_cdist s2) (v_ndist s2) (v_total s2) (S (v_disc s2)) (if v_maxtok s2 <? sum_marking m then sum_marking m else v_maxtok s2) (v_bound s2) (v_stack s2)
            (v_prev s2) (v_rand s2) (v_res s2) (v_qst s2) (v_heur s2) (v_sat s2) (v_log s2) (v_expanded s2) (v_explored s2), false)) (v_prev s2) else Ok (mkW (v_next s2) (v_pots s2) (v_cdist s2) (v_ndist s2) (v_total s2) (S (v_disc s2)) (if v_maxtok s2 <? sum_marking m then sum_marking m else v_maxtok s2) (v_bound s2) (v_stack s2)
            (v_prev s2) (v_rand s2) (v_res s2) (v_qst s2) (v_heur s2) (v_sat s2) (v_log s2) (v_expanded s2) (v_explored s2))) with Ok y => y | _ => s end). }
      cbn [fst]. set (s3 := mkW _ _ _ _ _ _ _ _ _ _ _ _ _ _ _ _ _ _).
      assert (E4 : exists s4, (if keep then set_history s3 (v_prev s2) else Ok s3) = Ok s4 /\ like s s4 /\ v_sat s4 = v_sat s).
      { destruct keep eqn:Ek.
        - unfold set_history. change (v_stack s3) with (v_stack s2). destruct (v_stack s2) as [|u stk] eqn:Es; [exfalso; apply S2; [reflexivity|apply L8, M8; reflexivity]|].
          eexists. split; [reflexivity|]. split; [|cbn; congruence]. repeat split; cbn; try congruence; try discriminate. intros C. exfalso. apply S2 in C; [exact C|reflexivity].
        - eexists. split; [reflexivity|]. split; [|cbn; congruence]. repeat split; cbn; try congruence; intros C; [apply L8, M8, C|apply M8, L8, C]. }
      destruct E4 as (s4 & E4 & (N1 & N2 & N3 & N4 & N5 & N6 & N7 & N8) & N9). rewrite E4.
      split; [|split; [|split; [|split]]].
      + intros _. split; [|split; [lia|rewrite N5; lia]]. split; [|intros K; rewrite N9; auto]. split; [congruence|]. split; [intros K C; apply (S2 K), N8, C|].
        split; [split; [congruence|intros p Hp; rewrite N2 in Hp; specialize (S3' p Hp); lia]|]. rewrite N3, N4. auto.
      + discriminate.
      + intros _. exact N1.
      + intros rnd l e. cbn [candidates]. fold s0. rewrite E1. cbn [bind]. rewrite E2. cbn [bind fst snd]. unfold compute_candidate. rewrite sum_marking_total. fold (over_bound k m). rewrite Eo. cbn [bind fst snd negb].
        rewrite andb_true_r. rewrite <- sum_marking_total. fold s3. change (v_prev s3) with (v_prev s2). rewrite E4. reflexivity.
      + reflexivity.
    - (* within the bound *)
      set (p := nth t (v_pots s2) 0). set (p' := new_pot p (dist m) (v_cdist s2)). set (tot := w32 (v_total s2 + p')).
      assert (Ip : In p (v_pots s)) by (unfold p; rewrite M2, L2; apply nth_In; rewrite S3; exact Ht).
      assert (Pp : 1 <= p' <= b + D).
      { unfold p'. destruct (S3' p Ip) as (P1 & P2). destruct (@new_pot_range p (dist m) (v_cdist s2) D P1) as (Q1 & Q2); [lia|apply HD|rewrite M3, L3; exact S4|]. lia. }
      assert (Et : tot = v_total s + p') by (unfold tot; rewrite M5, L5; apply w32_small; lia).
      set (s3 := fun b0 : bool => mkW (if b0 then m else v_next s2) (Base.upd (v_pots s2) t p') (v_cdist s2) (if b0 then dist m else v_ndist s2) tot
            (S (v_disc s2)) (if v_maxtok s2 <? sum_marking m then sum_marking m else v_maxtok s2)
            (map (fun i => N.max (nth i m 0) (nth i (v_bound s2) 0)) (seq 0 (length (v_bound s2)))) (v_stack s2) (v_prev s2) (S (v_rand s2)) (v_res s2) (v_qst s2) (v_heur s2) (v_sat s2)
            (v_log s2) (v_expanded s2) (v_explored s2)).
      set (s4 := fun b0 : bool => match (if keep && negb b0 then set_history (s3 b0) (v_prev (s3 b0)) else Ok (s3 b0)) with Ok y => y | _ => s end).
      assert (Ns : keep = true -> v_stack s2 <> []) by (intros K C; apply (S2 K), L8, M8, C).
      assert (E4 : forall b0, (if keep && negb b0 then set_history (s3 b0) (v_prev (s3 b0)) else Ok (s3 b0)) = Ok (s4 b0) /\
                stz (b + D) (s4 b0) /\ v_rand (s4 b0) = (v_rand s + 1)%nat /\ v_total (s4 b0) = tot /\ v_next (s4 b0) = if b0 then m else v_next s).
      { intros b0.
        assert (B : forall stk, (keep = true -> stk <> []) -> let y := set_stack (s3 b0) stk in
                  stz (b + D) y /\ v_rand y = (v_rand s + 1)%nat /\ v_total y = tot /\ v_next y = if b0 then m else v_next s).
        { intros stk Hk. cbn. split; [|split; [rewrite M6, L6; lia|split; [reflexivity|destruct b0; congruence]]].
          split; [|intros K; cbn; rewrite M11, L9; auto]. split; [cbn; congruence|]. split; [exact Hk|].
          split; [split; cbn; [rewrite upd_length; congruence|]|cbn; rewrite M3, L3; split; [exact S4|destruct b0; [apply HD|congruence]]].
          intros x Hx. apply In_nth with (d := 0) in Hx. destruct Hx as (j & Hj & <-). rewrite upd_length, M2, L2, S3 in Hj. destruct (Nat.eq_dec t j) as [<-|Ne].
          - rewrite nth_upd_eq by (rewrite M2, L2, S3; exact Ht). exact Pp.
          - rewrite nth_upd_neq by exact Ne. assert (Hin : In (nth j (v_pots s2) 0) (v_pots s)) by (rewrite M2, L2; apply nth_In; rewrite S3; exact Hj). specialize (S3' _ Hin). lia. }
        unfold s4. destruct (keep && negb b0) eqn:Ek.
        - unfold set_history. change (v_stack (s3 b0)) with (v_stack s2). destruct (v_stack s2) as [|u stk] eqn:Es; [exfalso; apply andb_prop in Ek; apply Ns; [apply Ek|reflexivity]|].
          split; [reflexivity|]. apply B. discriminate.
        - split; [reflexivity|]. specialize (B (v_stack s2) Ns). exact B. }
      exists 1%nat, (fun x => s4 (accept x p' tot)). split; [lia|]. split; [|split; [|split; [|split]]].
      + intros x. destruct (E4 (accept x p' tot)) as (_ & X1 & X2 & X3 & _). split; [exact X1|]. split; [exact X2|]. rewrite X3, Et. lia.
      + intros _. split; [reflexivity|]. rewrite Hacc0 by lia. destruct (E4 true) as (_ & _ & _ & X3 & X4). rewrite X3, X4. split; [reflexivity|lia].
      + intros H1. rewrite HaccM by lia. apply (E4 false).
      + intros rnd l e. cbn [candidates]. fold s0. rewrite E1. cbn [bind]. rewrite E2. cbn [bind fst snd]. unfold compute_candidate. rewrite sum_marking_total. fold (over_bound k m). rewrite Eo.
        rewrite (rd_nth (v_pots s2) 0) by (rewrite M2, L2, S3; exact Ht). cbn [bind fst snd]. fold p. fold p'. fold tot. rewrite <- sum_marking_total.
        replace (rnd (v_rand s)) with (rnd (v_rand s2)) by congruence. set (b0 := accept (rnd (v_rand s2)) p' tot). destruct (E4 b0) as (X & _).
        transitivity (y <- (if keep && negb b0 then set_history (s3 b0) (v_prev (s3 b0)) else Ok (s3 b0)) ;; cands rnd accept l e y); [reflexivity|rewrite X; reflexivity].
      + discriminate.
  Qed.

  Lemma cand_hit : forall b s t m, stz b s -> f m = true ->
    exists s', found s' /\ forall rnd l e, cands rnd accept ((t, m) :: l) e s = Ok (s', true).
  Proof.
    intros b s t m ((S1 & S2 & (S3 & S3') & S4 & S5) & S6) Hf. set (s0 := inc_explored s).
    assert (E1 : exists s1, (if keep then s' <- save_previous s0 ;; set_history s' t else Ok s0) = Ok s1 /\ v_res s1 = v_res s /\ (keep = true -> v_stack s1 <> []) /\ v_sat s1 = v_sat s).
    { destruct keep; [|exists s0; repeat split; auto; discriminate]. unfold save_previous. change (v_stack s0) with (v_stack s). destruct (v_stack s) as [|u stk] eqn:Es; [exfalso; apply S2; reflexivity|].
      cbn [bind]. unfold set_history. change (v_stack (set_prev s0 u)) with (v_stack s). rewrite Es. eexists. split; [reflexivity|]. repeat split; intros; discriminate. }
    destruct E1 as (s1 & E1 & R1 & N1 & Z1).
    destruct (@check_one m s1) as [(_ & s2 & E2 & F)|(F & _)]; [congruence|exact N1|intros K; rewrite Z1; auto| |congruence].
    exists s2. split; [exact F|]. intros rnd l e. cbn [candidates]. fold s0. rewrite E1. cbn [bind]. rewrite E2. reflexivity.
  Qed.

  Definition outcome (b : N) (s : wst) (l : list (nat * list N)) (post : wst -> Prop) : Prop :=
    exists rl s' bb, (forall rnd, agree rnd (v_rand s) rl -> cands rnd accept l (Ok tt) s = Ok (s', bb)) /\
      (bb = true -> found s') /\
      (bb = false -> stz (b + N.of_nat (length l) * D) s' /\ v_rand s' = (v_rand s + length rl)%nat /\ post s').

  (* after the first candidate: one random number [x] (or none), then the rest *)
  Lemma outcome_cons : forall b s t m l post n r x,
    (n <= 1)%nat -> v_rand (r x) = (v_rand s + n)%nat -> (n = 0%nat -> forall y, r y = r x) ->
    (forall rnd l0 e, cands rnd accept ((t, m) :: l0) e s = cands rnd accept l0 e (r (rnd (v_rand s)))) ->
    outcome (b + D) (r x) l post -> outcome b s ((t, m) :: l) post.
  Proof.
    intros b s t m l post n r x Hn Hr Hc He (rl & s' & bb & A1 & A2 & A3). exists (repeat x n ++ rl), s', bb. split; [|split; [exact A2|]].
    - intros rnd Ha. apply agree_app in Ha. destruct Ha as (Ha1 & Ha2). rewrite repeat_length in Ha2. rewrite He.
      destruct n as [|[|n]]; [| |lia].
      + rewrite (Hc eq_refl). apply A1. rewrite Hr. exact Ha2.
      + cbn [repeat] in Ha1. apply agree_cons in Ha1. destruct Ha1 as (-> & _). apply A1. rewrite Hr. exact Ha2.
    - intros E. destruct (A3 E) as (B1 & B2 & B3). split; [|split; [rewrite B2, Hr, app_length, repeat_length; lia|exact B3]].
      cbn [length]. replace (b + N.of_nat (S (length l)) * D) with (b + D + N.of_nat (length l) * D) by lia. exact B1.
  Qed.
  Lemma room_step : forall T b n T', T + N.of_nat (S n) * (b + N.of_nat (S n) * D) < 4294967296 -> T' <= T + b + D ->
    T' + N.of_nat n * (b + D + N.of_nat n * D) < 4294967296.
  Proof. intros T b n T' H1 H2. rewrite Nat2N.inj_succ in H1. nia. Qed.
  Lemma room_head : forall T b n, T + N.of_nat (S n) * (b + N.of_nat (S n) * D) < 4294967296 -> T + b + D < 4294967296.
  Proof. intros T b n H1. rewrite Nat2N.inj_succ in H1. nia. Qed.

  Lemma keep_next : forall l b s, stz b s -> (forall x, In x l -> (fst x < ntrans)%nat) -> 1 <= v_total s ->
    v_total s + N.of_nat (length l) * (b + N.of_nat (length l) * D) < 4294967296 ->
    outcome b s l (fun s' => v_next s' = v_next s).
  Proof.
    induction l as [|[t m] l IH]; intros b s Hs Hl Ht Hroom.
    - exists [], s, false. split; [reflexivity|]. split; [discriminate|]. intros _. cbn [length]. change (N.of_nat 0 * D) with 0. rewrite N.add_0_r. split; [exact Hs|]. split; [lia|reflexivity].
    - destruct (f m) eqn:Ef.
      + destruct (@cand_hit b s t m Hs Ef) as (s' & F & E). exists [], s', true. split; [intros rnd _; apply E|]. split; [intros _; exact F|discriminate].
      + cbn [length] in Hroom.
        destruct (@one_cand b s t m Hs (Hl _ (or_introl eq_refl)) Ef (room_head _ _ _ Hroom)) as (n & r & O1 & O2 & O3 & O4 & O5 & O6).
        destruct (O2 RM) as (Q1 & Q2 & Q3 & Q4). eapply (@outcome_cons b s t m l _ n r RM); [exact O1|exact Q2|intros E0 y; apply O6; exact E0|exact O5|].
        assert (X := IH (b + D) (r RM) Q1 (fun x Hx => Hl x (or_intror Hx)) ltac:(lia) (room_step _ _ _ Hroom Q3)).
        rewrite (O4 Ht) in X. exact X.
  Qed.

  Lemma pick_next : forall t' m' l b s, stz b s -> (forall x, In x l -> (fst x < ntrans)%nat) -> In (t', m') l ->
    f m' = true \/ over_bound k m' = false ->
    v_total s + N.of_nat (length l) * (b + N.of_nat (length l) * D) < 4294967296 ->
    outcome b s l (fun s' => f m' = false /\ v_next s' = m').
  Proof.
    intros t' m'. induction l as [|[t m] l IH]; intros b s Hs Hl Hin Hm Hroom; [destruct Hin|].
    destruct (f m) eqn:Ef.
    - destruct (@cand_hit b s t m Hs Ef) as (s' & F & E). exists [], s', true. split; [intros rnd _; apply E|]. split; [intros _; exact F|discriminate].
    - cbn [length] in Hroom.
      destruct (@one_cand b s t m Hs (Hl _ (or_introl eq_refl)) Ef (room_head _ _ _ Hroom)) as (n & r & O1 & O2 & O3 & O4 & O5 & O6).
      destruct (O2 0) as (Q1 & Q2 & Q3 & Q4). eapply (@outcome_cons b s t m l _ n r 0); [exact O1|exact Q2|intros E0 y; apply O6; exact E0|exact O5|].
      destruct Hin as [E|Hin].
      + injection E as -> ->. destruct Hm as [Hm|Hm]; [congruence|]. destruct (O3 Hm) as (_ & R1 & R2).
        assert (X := @keep_next l (b + D) (r 0) Q1 (fun x Hx => Hl x (or_intror Hx)) R2 (room_step _ _ _ Hroom Q3)).
        rewrite R1 in X. destruct X as (rl & s' & bb & A1 & A2 & A3). exists rl, s', bb. split; [exact A1|]. split; [exact A2|]. intros Eb. destruct (A3 Eb) as (A4 & A5 & A6). auto.
      + exact (IH (b + D) (r 0) Q1 (fun x Hx => Hl x (or_intror Hx)) Hin Hm (room_step _ _ _ Hroom Q3)).
  Qed.

  (** Markings a walk can go on from, and runs of the generator through them. *)
  Definition okm (m : list N) : Prop :=
    snd (succ m) = Ok tt /\ (length (fst (succ m)) <= ntrans)%nat /\ (forall x, In x (fst (succ m)) -> (fst x < ntrans)%nat) /\
    nth 0 m 0 <> no_mark /\ m <> [].
  Inductive line : list N -> list nat -> list N -> Prop :=
  | line_last : forall m t gm, okm m -> In (t, gm) (fst (succ m)) -> f gm = true -> line m [t] gm
  | line_step : forall m t m' w gm, okm m -> In (t, m') (fst (succ m)) -> over_bound k m' = false -> line m' w gm -> line m (t :: w) gm.

  Definition stw (b : N) (s : wst) : Prop :=
    v_res s = [Unknown] /\ lim b s /\ v_ndist s <= D /\ (keep = false -> v_sat s = 0%nat).

  Lemma walk_find : forall m w gm, line m w gm -> forall b s c fuel depth, v_next s = m -> stw b s ->
    c + N.of_nat (length w) <= depth -> c + N.of_nat (length w) <= 2147483648 -> (length w <= fuel)%nat ->
    N.of_nat ntrans * (b + N.of_nat (length w * ntrans) * D) < 4294967296 ->
    exists rl s', found s' /\ forall rnd, agree rnd (v_rand s) rl -> oneW rnd accept fuel c depth s = Ok (s', true).
  Proof.
    assert (H : forall m t m' (Hk : okm m) (Hin : In (t, m') (fst (succ m))) (Hm' : f m' = true \/ over_bound k m' = false) b s
        (Hn : v_next s = m) (Hs : stw b s) (Hroom : N.of_nat ntrans * (b + N.of_nat ntrans * D) < 4294967296),
        exists rl s' bb, (bb = true -> found s') /\ (bb = false -> stw (b + N.of_nat ntrans * D) s' /\ v_rand s' = (v_rand s + length rl)%nat /\ f m' = false /\ v_next s' = m') /\
          forall rnd fuel c depth, agree rnd (v_rand s) rl -> c < depth ->
            oneW rnd accept (S fuel) c depth s = if bb then Ok (s', true) else if c =? 2147483647 then UB else oneW rnd accept fuel (c + 1) depth (inc_expanded s')).
    { intros m t m' (K1 & K2 & K3 & K4 & K5) Hin Hm' b s Hn (Z1 & Z2 & Z3 & Z4) Hroom. subst m. set (m := v_next s) in *.
      set (s1 := mkW (Base.upd m 0 no_mark) (v_pots s) (v_ndist s) (v_ndist s) 0 (v_disc s) (v_maxtok s) (v_bound s)
          (v_stack s) (v_prev s) (v_rand s) (v_res s) (v_qst s) (v_heur s) (v_sat s) (v_log s) (v_expanded s) (v_explored s)).
      set (s2 := if keep then set_stack s1 (0%nat :: v_stack s1) else s1).
      assert (Hs2 : stz b s2) .
      { assert (Y : v_sat s2 = v_sat s /\ v_res s2 = v_res s /\ v_pots s2 = v_pots s /\ v_cdist s2 = v_ndist s /\ v_ndist s2 = v_ndist s) by (unfold s2; destruct keep; repeat split).
        destruct Y as (Y1 & Y2 & Y3 & Y4 & Y5). split; [|intros Ek; rewrite Y1; exact (Z4 Ek)]. split; [congruence|]. split; [intros Ek; unfold s2; rewrite Ek; discriminate|].
        unfold lim. rewrite Y3, Y4, Y5. auto. }
      assert (T2 : v_total s2 = 0) by (unfold s2; destruct keep; reflexivity).
      assert (R2 : v_rand s2 = v_rand s) by (unfold s2; destruct keep; reflexivity).
      set (n := length (fst (succ m))) in *. assert (Hn' : N.of_nat n <= N.of_nat ntrans) by lia.
      assert (X : outcome b s2 (fst (succ m)) (fun s' => f m' = false /\ v_next s' = m')).
      { apply (@pick_next t m' (fst (succ m)) b s2 Hs2 K3 Hin Hm'). rewrite T2. fold n. rewrite N.add_0_l. eapply N.le_lt_trans; [|exact Hroom]. apply N.mul_le_mono; [exact Hn'|]. apply N.add_le_mono_l, N.mul_le_mono_r. exact Hn'. }
      destruct X as (rl & s' & bb & A1 & A2 & A3). rewrite R2 in A1. exists rl, s', bb. split; [exact A2|]. split.
      - intros E. destruct (A3 E) as (((B1 & B2 & (B3 & B3') & B4 & B5) & B6) & B7 & B8 & B9). rewrite R2 in B7. split; [|auto]. split; [exact B1|]. split; [|auto].
        split; [exact B3|]. intros p Hp. specialize (B3' p Hp). fold n in B3'. assert (N.of_nat n * D <= N.of_nat ntrans * D) by (apply N.mul_le_mono_r; exact Hn'). lia.
      - intros rnd fuel c depth Ha Hc. cbn [one_walk]. rewrite (proj2 (N.ltb_lt _ _) Hc). unfold next_step. fold m. rewrite (rd_nth m 0) by (destruct m; [congruence|cbn; lia]).
        cbn [bind]. rewrite (proj2 (N.eqb_neq _ _) K4). cbn [bind].  fold s1. fold s2.
        rewrite K1. rewrite (A1 rnd Ha). cbn [bind fst snd]. destruct bb; reflexivity. }
    intros m w gm HL. induction HL as [m t gm Hk Hin Hg|m t m' w gm Hk Hin Ho HL IH]; intros b s c fuel depth Hn Hs H1 H2 Hf Hroom.
    - cbn [length] in *. destruct fuel as [|fuel]; [lia|].
      destruct (H m t gm Hk Hin (or_introl Hg) b s Hn Hs) as (rl & s' & bb & A1 & A2 & A3); [rewrite Nat.mul_1_l in Hroom; exact Hroom|].
      destruct bb; [|destruct (A2 eq_refl) as (_ & _ & C & _); congruence]. exists rl, s'. split; [exact (A1 eq_refl)|]. intros rnd Ha. apply A3; [exact Ha|lia].
    - cbn [length] in *. destruct fuel as [|fuel]; [lia|].
      destruct (H m t m' Hk Hin (or_intror Ho) b s Hn Hs) as (rl & s' & bb & A1 & A2 & A3); [eapply N.le_lt_trans; [|exact Hroom]; apply N.mul_le_mono_l, N.add_le_mono_l, N.mul_le_mono_r; lia|].
      destruct bb; [exists rl, s'; split; [exact (A1 eq_refl)|]; intros rnd Ha; apply A3; [exact Ha|lia]|].
      destruct (A2 eq_refl) as (B1 & B2 & _ & B4).
      destruct (IH (b + N.of_nat ntrans * D) (inc_expanded s') (c + 1) fuel depth B4 B1) as (rl2 & s2 & F2 & E2); [lia|lia|lia| |].
      { cbn [Nat.mul] in Hroom. rewrite Nat2N.inj_add, N.mul_add_distr_r, N.add_assoc in Hroom. exact Hroom. }
      exists (rl ++ rl2), s2. split; [exact F2|]. intros rnd Ha. apply agree_app in Ha. destruct Ha as (Ha1 & Ha2). rewrite A3 by (auto; lia).
      assert (Hw : (0 < length w)%nat) by (destruct HL; cbn [length]; lia).
      rewrite (proj2 (N.eqb_neq c 2147483647)) by lia. apply E2. cbn. rewrite B2. exact Ha2.
  Qed.
End Find.
