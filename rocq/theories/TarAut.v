(** The automaton of refuted traces is sound. *)
From Verif Require Import Base BaseLemmas NetSpec NetModel NetProofs PqlSyntax PqlSpec PqlModel PqlProofs RangeSpec RangeModel RangeProofs StubModel StubMain
  TarModel TarSpec TarVec TarSem.
From Coq Require Import Sorted.

Lemma filter_lt : forall (A : Type) (g h : A -> bool) l x, (forall y, In y l -> g y = true -> h y = true) -> In x l -> h x = true -> g x = false -> length (filter g l) < length (filter h l).
Proof.
  intros A g h l x. assert (Le : forall l, (forall y, In y l -> g y = true -> h y = true) -> length (filter g l) <= length (filter h l)).
  { induction l0 as [|y l0 IH]; intros H; [cbn; lia|]. cbn [filter]. specialize (IH (fun z Hz => H z (or_intror Hz))). pose proof (H y (or_introl eq_refl)).
    destruct (g y), (h y); cbn [length]; try lia; try (specialize (H0 eq_refl); discriminate). }
  induction l as [|y l IH]; intros H I Hx Gx; [destruct I|]. cbn [filter]. destruct I as [->|I].
  - rewrite Hx, Gx. cbn [length]. specialize (Le l (fun z Hz => H z (or_intror Hz))). lia.
  - specialize (IH (fun z Hz => H z (or_intror Hz)) I Hx Gx). pose proof (H y (or_introl eq_refl)). destruct (g y), (h y); cbn [length]; try lia; try (specialize (H0 eq_refl); discriminate).
Qed.

Section Aut.
  Variable net : cnet.
  Hypothesis L : layout net.
  Hypothesis P0 : 0 < cn_places net.
  Hypothesis So : sorted_arcs net.
  Hypothesis NI : has_inhib net = false.
  Notation P := (to_pnet net).
  Notation np := (cn_places net).
  Notation nt := (cn_ntrans net).
  Notation pre := (in_slice net).
  Notation post := (out_slice net).
  Notation wi t p := (first_tokens (pre t) p).
  Notation wo t p := (first_tokens (post t) p).
  Variable R : marking -> Prop.
  Hypothesis Rstep : forall m t m', R m -> step P m t m' -> R m'.
  Hypothesis Rlen : forall m, R m -> length m = np.
  Hypothesis Rfit : forall m, R m -> fits m.
  Hypothesis Rnz : forall m, R m -> exists p, p < np /\ tokens m p <> 0%N.
  Hypothesis Rinit : R (cn_init net).
  Variable Q : marking -> Prop.

  Definition ints (T : tset) : list rvec := map a_int (ts_states T).
  Definition edge_ok (v : rvec) (e : nat) (w : rvec) (j : nat) : Prop :=
    match e with
    | S t => forall m m', R m -> in_vec v (tokens m) -> step P m t m' -> in_vec w (tokens m')
    | 0 => j = 0 -> forall m, R m -> in_vec v (tokens m) -> ~ Q m
    end.
  Definition tgt (l : list (nat * list nat)) (e : nat) : list nat := match find (fun x => Nat.eqb (fst x) e) l with Some x => snd x | None => [] end.
  Record good (T : tset) : Prop := {
    g_false : nth_error (ints T) 0 = Some (false_range net);
    g_true : nth_error (ints T) 1 = Some [];
    g_ok : forall i v, nth_error (ints T) i = Some v -> okv np v;
    g_inj : forall i j v, nth_error (ints T) i = Some v -> nth_error (ints T) j = Some v -> i = j;
    g_sim : forall i a j, nth_error (ts_states T) i = Some a -> In j (a_sim a) -> i <> j /\ exists w, nth_error (ints T) j = Some w /\ incl_vec w (a_int a);
    g_edge : forall i a e j, nth_error (ts_states T) i = Some a -> In j (tgt (a_edges a) e) -> exists w, nth_error (ints T) j = Some w /\ edge_ok (a_int a) e w j;
    g_init : forall i, In i (ts_init T) -> exists v, nth_error (ints T) i = Some v /\ in_vec v (tokens (cn_init net))
  }.

  Lemma ints_at : forall T i v, nth_error (ints T) i = Some v <-> exists a, nth_error (ts_states T) i = Some a /\ a_int a = v.
  Proof.
    intros T i v. unfold ints. rewrite nth_error_map. destruct (nth_error (ts_states T) i) as [a|]; cbn.
    - split; [intros E; injection E as <-; exists a; auto|intros (b & E & <-); congruence].
    - split; [discriminate|intros (b & E & _); discriminate].
  Qed.
  Lemma int_of_at : forall T i v, nth_error (ints T) i = Some v -> int_of T i = v.
  Proof. intros T i v H. apply ints_at in H. destruct H as (a & E & <-). unfold int_of. rewrite (nth_error_nth _ _ _ E). reflexivity. Qed.

  (** ** New states and edges *)
  Lemma okv_false : okv np (false_range net).
  Proof.
    unfold false_range. assert (Sv : sorted_vec (map (fun p : nat => (p, (0%N, 0%N))) (seq 0 np))).
    { generalize 0 at 1. clear. induction np as [|k IH]; intros a; unfold sorted_vec in *; cbn [seq map fst]; constructor; [apply IH|]. apply Forall_forall. intros x Hx. apply in_map_iff in Hx. destruct Hx as (y & <- & Hx).
      apply in_map_iff in Hx. destruct Hx as (z & <- & Hx). apply in_seq in Hx. cbn. lia. }
    split; [exact Sv|]. split.
    - intros p r I. apply in_map_iff in I. destruct I as (q & E & I). injection E as <- <-. apply in_seq in I. lia.
    - intros p. unfold rg. destruct (lookup _ p) as [r|] eqn:E; [|cbn; lia]. apply (@lookup_ok _ p Sv r) in E. apply in_map_iff in E. destruct E as (q & E & _). injection E as _ <-. cbn. unfold rmax. lia.
  Qed.
  Lemma false_no : forall m, R m -> ~ in_vec (false_range net) (tokens m).
  Proof.
    intros m Hm I. destruct (Rnz m Hm) as (p & Hp & Z). apply Z. specialize (I p (0%N, 0%N)). unfold in_range, infinite in I. cbn [fst snd] in I.
    assert (X : In (p, (0%N, 0%N)) (false_range net)) by (apply in_map_iff; exists p; split; [reflexivity|apply in_seq; lia]). specialize (I X). lia.
  Qed.
  Lemma good_new : good (ts_new net).
  Proof.
    constructor; unfold ts_new, ints; cbn [ts_states ts_init map a_int].
    - reflexivity.
    - reflexivity.
    - intros [|[|i]] v H; cbn in H; [injection H as <-; apply okv_false|injection H as <-; apply okv_nil|destruct i; discriminate].
    - assert (X : false_range net <> []) by (unfold false_range; destruct np; [lia|discriminate]).
      intros [|[|i]] [|[|j]] v H K; cbn in H, K; try reflexivity; try (destruct i; discriminate); try (destruct j; discriminate); congruence.
    - intros [|[|i]] a j H I; cbn in H; [injection H as <-|injection H as <-; destruct I|destruct i; discriminate]. cbn in I. destruct I as [<-|[]]. split; [lia|].
      exists []. split; [reflexivity|]. intros p r [].
    - intros [|[|i]] a e j H I; cbn in H; [injection H as <-; destruct I|injection H as <-; destruct I|destruct i; discriminate].
    - intros i [<-|[]]. exists []. split; [reflexivity|]. intros p r [].
  Qed.

  Lemma edge_add_in : forall i to j, In j (edge_add i to) -> j = i \/ In j to.
  Proof.
    intros i to j. unfold edge_add. destruct to as [|[|x] to].
    - destruct (Nat.eqb_spec i 0) as [->|]; [intros [<-|[]]; auto|]. cbn. intros [<-|[]]. auto.
    - auto.
    - destruct (Nat.eqb_spec i 0) as [->|]; [intros [<-|[]]; auto|]. rewrite sins_in. auto.
  Qed.
  Lemma edges_add_in : forall e i l s j, In j (tgt (edges_add e i l) s) -> (s = e /\ j = i) \/ In j (tgt l s).
  Proof.
    unfold tgt. intros e i. induction l as [|(f, to) l IH]; intros s j; cbn [edges_add].
    - cbn [find fst]. destruct (Nat.eqb_spec e s) as [->|]; cbn [snd]; [|intros []]. intros H. apply edge_add_in in H. destruct H as [->|[]]. auto.
    - destruct (e <? f) eqn:E; [|destruct (Nat.eqb_spec e f) as [<-|NE]].
      + cbn [find fst]. destruct (Nat.eqb_spec e s) as [->|]; cbn [snd]; [|auto]. intros H. apply edge_add_in in H. destruct H as [->|[]]. auto.
      + cbn [find fst]. destruct (Nat.eqb_spec e s) as [->|]; cbn [snd]; [|auto]. intros H. apply edge_add_in in H. destruct H as [->|H]; auto.
      + cbn [find fst]. destruct (Nat.eqb_spec f s) as [->|]; cbn [snd]; [auto|]. apply IH.
  Qed.
  Lemma add_edge_ints : forall T s e j, ints (add_edge T s e j) = ints T /\ ts_init (add_edge T s e j) = ts_init T.
  Proof.
    intros T s e j. unfold add_edge, ints. destruct (nth_error (ts_states T) s) as [a|] eqn:E; [|auto]. cbn [ts_states ts_init]. split; [|reflexivity].
    revert s a E. induction (ts_states T) as [|b l IH]; intros [|s] a E; try discriminate; cbn [Base.upd map nth_error] in *; [injection E as ->; reflexivity|]. f_equal. apply IH. exact E.
  Qed.
  Lemma add_edge_good : forall T s e j v w, good T -> nth_error (ints T) s = Some v -> nth_error (ints T) j = Some w -> edge_ok v e w j -> good (add_edge T s e j).
  Proof.
    intros T s e j v w G Hs Hj Ok. destruct (add_edge_ints T s e j) as (EI & E0). pose proof (proj1 (ints_at T s v) Hs) as (a & Ea & Ev).
    assert (St : forall i b, nth_error (ts_states (add_edge T s e j)) i = Some b -> exists b', nth_error (ts_states T) i = Some b' /\ a_int b = a_int b' /\ a_sim b = a_sim b' /\
       forall f x, In x (tgt (a_edges b) f) -> (i = s /\ f = e /\ x = j) \/ In x (tgt (a_edges b') f)).
    { intros i b H. unfold add_edge in H. rewrite Ea in H. cbn [ts_states] in H. destruct (Nat.eq_dec i s) as [->|NE].
      - rewrite nth_error_upd_eq in H by (eapply nth_error_lt; exact Ea). injection H as <-. exists a. cbn [a_int a_sim a_edges]. split; [exact Ea|]. split; [reflexivity|]. split; [reflexivity|].
        intros f x I. apply edges_add_in in I. destruct I as [(A & B)|I]; auto.
      - rewrite nth_error_upd_neq in H by auto. exists b. auto. }
    constructor; rewrite ?EI, ?E0; try apply G.
    - intros i b k Hb Hk. destruct (St i b Hb) as (b' & B1 & B2 & B3 & _). rewrite B3 in Hk. rewrite B2. apply (g_sim T G i b' k B1 Hk).
    - intros i b f k Hb Hk. destruct (St i b Hb) as (b' & B1 & B2 & _ & B4). destruct (B4 f k Hk) as [(-> & -> & ->)|I].
      + exists w. split; [exact Hj|]. assert (b' = a) by congruence. subst b'. rewrite B2, Ev. exact Ok.
      + rewrite B2. apply (g_edge T G i b' f k B1 I).
  Qed.

  Lemma add_state_ints : forall T v, ints (add_state T v) = ints T ++ [v].
  Proof.
    intros T v. unfold add_state, ints. cbn [ts_states]. rewrite map_app. cbn [map a_int]. f_equal. rewrite map_map. apply map_ext. intros a. destruct (snd _); reflexivity.
  Qed.
  Lemma nth_last : forall (A : Type) (l : list A) x i y, nth_error (l ++ [x]) i = Some y -> nth_error l i = Some y \/ (i = length l /\ y = x).
  Proof.
    intros A l x i y H. destruct (Nat.lt_ge_cases i (length l)); [rewrite nth_error_app1 in H by assumption; auto|]. rewrite nth_error_app2 in H by assumption.
    destruct (i - length l) as [|k] eqn:E; [injection H as <-; right; split; [lia|reflexivity]|destruct k; discriminate].
  Qed.
  Lemma ints_len : forall T, length (ints T) = length (ts_states T). Proof. intros T. apply map_length. Qed.
  Lemma ext_at : forall T v i w, nth_error (ints T) i = Some w -> nth_error (ints T ++ [v]) i = Some w.
  Proof. intros T v i w H. rewrite nth_error_app1; [exact H|]. eapply nth_error_lt. exact H. Qed.
  Lemma add_state_good : forall T v, good T -> okv np v -> (forall i, nth_error (ints T) i <> Some v) -> good (add_state T v).
  Proof.
    intros T v G Ov New. constructor; rewrite ?add_state_ints.
    - apply ext_at, G.
    - apply ext_at, G.
    - intros i w H. apply nth_last in H. destruct H as [H|(_ & ->)]; [apply (g_ok T G i w H)|exact Ov].
    - intros i j w H K. apply nth_last in H. apply nth_last in K. destruct H as [H|(-> & ->)], K as [K|(-> & K)]; subst; try (exfalso; eapply New; eassumption); [eapply (g_inj T G); eassumption|reflexivity].
    - intros i a j H I. unfold add_state in H. cbn [ts_states] in H. apply nth_last in H. destruct H as [H|(-> & ->)].
      + rewrite nth_error_map in H. destruct (nth_error (ts_states T) i) as [b|] eqn:Eb; [|discriminate]. cbn [option_map] in H. injection H as <-.
        assert (Ob : okv np (a_int b)) by (apply (g_ok T G i); apply ints_at; exists b; auto).
        destruct (snd (RangeModel.compare (a_int b) v)) eqn:C; cbn [a_sim a_int] in *.
        * apply sins_in in I. destruct I as [->|I].
          -- split; [pose proof (nth_error_lt _ _ Eb); lia|]. exists v. split; [rewrite <- ints_len, nth_error_app2, Nat.sub_diag by lia; reflexivity|].
             apply (compare_snd (a_int b) v (proj1 Ob) (proj1 Ov)). exact C.
          -- destruct (g_sim T G i b j Eb I) as (A & w & B & C'). split; [exact A|]. exists w. split; [apply ext_at; exact B|exact C'].
        * destruct (g_sim T G i b j Eb I) as (A & w & B & C'). split; [exact A|]. exists w. split; [apply ext_at; exact B|exact C'].
      + cbn [a_sim a_int] in *. rewrite map_length. apply filter_In in I. destruct I as (I & C). apply in_seq in I. split; [lia|].
        destruct (nth_error (ints T) j) as [w|] eqn:Ew; [|apply nth_error_None in Ew; rewrite ints_len in Ew; lia]. exists w. split; [apply ext_at; exact Ew|].
        rewrite (int_of_at T j w Ew) in C. apply (compare_fst w v); [apply (g_ok T G j w Ew)|apply Ov|exact C].
    - intros i a e j H I. unfold add_state in H. cbn [ts_states] in H. apply nth_last in H. destruct H as [H|(-> & ->)]; [|destruct I].
      rewrite nth_error_map in H. destruct (nth_error (ts_states T) i) as [b|] eqn:Eb; [|discriminate]. cbn [option_map] in H. injection H as <-.
      assert (X : a_edges (if snd (RangeModel.compare (a_int b) v) then mkA (a_int b) (a_edges b) (sins (length (ts_states T)) (a_sim b)) else b) = a_edges b) by (destruct (snd _); reflexivity).
      assert (Y : a_int (if snd (RangeModel.compare (a_int b) v) then mkA (a_int b) (a_edges b) (sins (length (ts_states T)) (a_sim b)) else b) = a_int b) by (destruct (snd _); reflexivity).
      rewrite X in I. rewrite Y. destruct (g_edge T G i b e j Eb I) as (w & A & B). exists w. split; [apply ext_at; exact A|exact B].
    - intros i H. unfold add_state in H. cbn [ts_init] in H. destruct (g_init T G i H) as (w & A & B). exists w. split; [apply ext_at; exact A|exact B].
  Qed.

  (** ** Edges of a new state *)
  Lemma change_ok_range : forall r (x a b : N), change_ok r (Z.of_N b - Z.of_N a) = true -> (a <= x)%N -> in_range r x -> in_range r (x - a + b)%N.
  Proof.
    intros r x a b H Ha (I1 & I2). unfold change_ok in H. destruct ((Z.of_N b - Z.of_N a <? 0)%Z && negb (no_lower r)) eqn:E1; [discriminate|].
    destruct ((0 <? Z.of_N b - Z.of_N a)%Z && negb (no_upper r)) eqn:E2; [discriminate|]. apply andb_false_iff in E1, E2. rewrite negb_false_iff in E1, E2. unfold no_lower, no_upper in *. rewrite N.eqb_eq in *.
    change infinite with rmax in *. rewrite !Z.ltb_ge in *. split; [destruct E1; lia|destruct E2; [|left; assumption]]. destruct I2; [left; assumption|right; lia].
  Qed.
  Lemma keep_pre_ok : forall v t l dis ch d o c, keep_pre net v t l dis ch = (d, o, c) ->
    (d = true -> dis = true \/ exists iv r, In iv l /\ lookup v (iv_place iv) = Some r /\ (snd r < iv_tokens iv)%N) /\
    (o = true -> forall iv r, In iv l -> lookup v (iv_place iv) = Some r -> change_ok r (Z.of_N (wo t (iv_place iv)) - Z.of_N (iv_tokens iv)) = true).
  Proof.
    intros v t. induction l as [|iv l IH]; intros dis ch d o c H; cbn [keep_pre] in H.
    - injection H as <- <- <-. split; [auto|intros _ iv r []].
    - destruct (lookup v (iv_place iv)) as [r|] eqn:Lk.
      + destruct (change_ok r _) eqn:C.
        * apply IH in H. destruct H as (A & B). split.
          -- intros Hd. destruct (A Hd) as [X|(x & s & X)]; [|right; exists x, s; split; [right; apply X|apply X]]. apply orb_true_iff in X. destruct X as [X|X]; [auto|]. apply N.ltb_lt in X.
             right. exists iv, r. split; [left; reflexivity|auto].
          -- intros Ho x s [<-|I] Lx; [congruence|]. exact (B Ho x s I Lx).
        * injection H as <- <- <-. split; [|discriminate]. intros X. apply orb_true_iff in X. destruct X as [X|X]; [auto|]. apply N.ltb_lt in X. right. exists iv, r. split; [left; reflexivity|auto].
      + apply IH in H. destruct H as (A & B). split.
        * intros Hd. destruct (A Hd) as [X|(x & s & X)]; [auto|]. right. exists x, s. split; [right; apply X|apply X].
        * intros Ho x s [<-|I] Lx; [congruence|]. exact (B Ho x s I Lx).
  Qed.
  Lemma keep_post_ok : forall v t l ok ch, fst (keep_post net v t l ok ch) = true ->
    ok = true /\ forall iv r, In iv l -> lookup v (iv_place iv) = Some r -> change_ok r (Z.of_N (iv_tokens iv) - Z.of_N (wi t (iv_place iv))) = true.
  Proof.
    intros v t. induction l as [|iv l IH]; intros ok ch H; cbn [keep_post] in H; [split; [exact H|intros ? ? []]|].
    destruct (lookup v (iv_place iv)) as [r|] eqn:Lk.
    - destruct (ok && change_ok r _) eqn:C; [|cbn in H; discriminate]. apply andb_true_iff in C. destruct C as (C1 & C2). apply IH in H. split; [exact C1|]. intros x s [<-|I] Lx; [congruence|]. apply (proj2 H x s I Lx).
    - destruct ok; [|cbn in H; discriminate]. apply IH in H. split; [reflexivity|]. intros x s [<-|I] Lx; [congruence|]. apply (proj2 H x s I Lx).
  Qed.
  Lemma rg_lookup : forall v p r, lookup v p = Some r -> rg v p = r. Proof. intros v p r H. unfold rg. rewrite H. reflexivity. Qed.
  Lemma keep_one : forall T v s t, good T -> okv np v -> nth_error (ints T) s = Some v -> t < nt ->
    let x := keep_pre net v t (pre t) false false in
    let T1 := if fst (fst x) then add_edge T s (S t) 0 else T in
    let y := keep_post net v t (post t) (snd (fst x)) (snd x) in
    let T2 := if fst y && snd y then add_edge T1 s (S t) s else T1 in
    good T2 /\ ints T2 = ints T.
  Proof.
    intros T v s t G Ov Hs Ht. cbv zeta. destruct (keep_pre net v t (pre t) false false) as ((d, o), c) eqn:K. cbn [fst snd]. destruct (keep_pre_ok v t _ _ _ _ _ _ K) as (Kd & Ko).
    set (T1 := if d then add_edge T s (S t) 0 else T).
    assert (G1 : good T1 /\ ints T1 = ints T).
    { unfold T1. destruct d; [|auto]. split; [|apply add_edge_ints]. eapply add_edge_good; [exact G|exact Hs|apply G|]. intros m m' Hm I St. exfalso.
      destruct (Kd eq_refl) as [X|(iv & r & A & B & C)]; [discriminate|]. destruct (step_ft net L P0 NI m t m' St (Rlen m Hm)) as (_ & _ & En & _). specialize (En (iv_place iv)).
      rewrite (ft_in _ _ (pre_nodup net L t Ht) A) in En. pose proof (proj1 (in_vec_rg v (tokens m) (proj1 Ov)) I (iv_place iv)) as X. rewrite (rg_lookup _ _ _ B) in X. pose proof (Rfit m Hm (iv_place iv)).
      destruct X as (_ & [X|X]); unfold infinite, u32max in *; lia. }
    destruct G1 as (G1 & E1). destruct (keep_post net v t (post t) o c) as (a, b) eqn:Kp. cbn [fst snd]. destruct (a && b) eqn:Ab; [|auto]. apply andb_true_iff in Ab. destruct Ab as (-> & ->).
    destruct (keep_post_ok v t (post t) o c) as (-> & Kq); [rewrite Kp; reflexivity|]. split; [|rewrite (proj1 (add_edge_ints _ _ _ _)); exact E1].
    apply add_edge_good with (v := v) (w := v); [exact G1|rewrite E1; exact Hs|rewrite E1; exact Hs|]. intros m m' Hm I St.
    destruct (step_ft net L P0 NI m t m' St (Rlen m Hm)) as (_ & _ & En & Ef). apply in_vec_rg; [apply Ov|]. intros p. rewrite Ef. pose proof (proj1 (in_vec_rg v (tokens m) (proj1 Ov)) I p) as X.
    unfold rg in *. destruct (lookup v p) as [r|] eqn:Lk; [|split; [cbn; lia|left; reflexivity]].
    destruct (in_dec Nat.eq_dec p (map iv_place (pre t))) as [Ip|Np].
    - apply in_map_iff in Ip. destruct Ip as (iv & <- & Ip). pose proof (Ko eq_refl iv r Ip Lk) as C. rewrite <- (ft_in _ _ (pre_nodup net L t Ht) Ip) in C. apply change_ok_range; [exact C|apply En|exact X].
    - destruct (in_dec Nat.eq_dec p (map iv_place (post t))) as [Ip|Nq].
      + apply in_map_iff in Ip. destruct Ip as (iv & <- & Ip). pose proof (Kq iv r Ip Lk) as C. rewrite <- (ft_in _ _ (post_nodup net L t Ht) Ip) in C. apply change_ok_range; [exact C|apply En|exact X].
      + rewrite !ft_out by assumption. replace (tokens m p - 0 + 0)%N with (tokens m p) by lia. exact X.
  Qed.
  Lemma keep_edges_good : forall v s T, good T -> okv np v -> nth_error (ints T) s = Some v -> good (keep_edges net v s T) /\ ints (keep_edges net v s T) = ints T.
  Proof.
    intros v s T G Ov Hs. unfold keep_edges. assert (H : forall t, In t (seq 0 nt) -> t < nt) by (intros t I; apply in_seq in I; lia).
    revert T G Hs H. induction (seq 0 nt) as [|t l IH]; intros T G Hs H; cbn [fold_left]; [auto|].
    destruct (keep_one T v s t G Ov Hs (H t (or_introl eq_refl))) as (A & B). match goal with |- context [fold_left _ l ?X] => set (T2 := X) in * end. change (good T2) in A. change (ints T2 = ints T) in B.
    destruct (IH T2 A) as (C & E); [rewrite B; exact Hs|intros; apply H; right; assumption|]. split; [exact C|congruence].
  Qed.

  Lemma find_state_some : forall l i v k, find_state l i v = Some k -> exists a, nth_error l (k - i) = Some a /\ i <= k /\ a_int a = v.
  Proof.
    induction l as [|a l IH]; intros i v k H; cbn [find_state] in H; [discriminate|]. destruct (negb (v_less (a_int a) v) && negb (v_less v (a_int a))) eqn:E.
    - injection H as <-. apply andb_true_iff in E. destruct E as (E1 & E2). apply negb_true_iff in E1, E2. exists a. rewrite Nat.sub_diag. split; [reflexivity|]. split; [lia|]. apply v_less_total; assumption.
    - apply IH in H. destruct H as (b & A & B & C). exists b. replace (k - i) with (S (k - S i)) by lia. split; [exact A|]. split; [lia|exact C].
  Qed.
  Lemma v_less_irrefl : forall v, v_less v v = false.
  Proof.
    intros v. unfold v_less. rewrite Nat.eqb_refl. cbn [negb]. induction v as [|(p, (a, b)) v IH]; [reflexivity|]. cbn [v_less_eqlen fst snd]. rewrite Nat.eqb_refl, !N.eqb_refl. exact IH.
  Qed.
  Lemma find_state_none : forall l i v, find_state l i v = None -> forall a, In a l -> a_int a <> v.
  Proof.
    induction l as [|b l IH]; intros i v H a I; cbn [find_state] in H; [destruct I|]. destruct (negb (v_less (a_int b) v) && negb (v_less v (a_int b))) eqn:E; [discriminate|].
    destruct I as [->|I]; [|eapply IH; eassumption]. intros X. rewrite X, v_less_irrefl in E. discriminate.
  Qed.
  Definition extends (T T' : tset) : Prop := exists l, ints T' = ints T ++ l.
  Lemma extends_at : forall T T' i v, extends T T' -> nth_error (ints T) i = Some v -> nth_error (ints T') i = Some v.
  Proof. intros T T' i v (l & E) H. rewrite E, nth_error_app1; [exact H|]. eapply nth_error_lt. exact H. Qed.
  Lemma extends_refl : forall T, extends T T. Proof. intros T. exists []. rewrite app_nil_r. reflexivity. Qed.
  Lemma extends_same : forall T T', ints T' = ints T -> extends T T'. Proof. intros T T' E. exists []. rewrite app_nil_r. exact E. Qed.
  Lemma extends_trans : forall A B C, extends A B -> extends B C -> extends A C.
  Proof. intros A B C (l & E) (k & F). exists (l ++ k). rewrite F, E, app_assoc. reflexivity. Qed.

  Lemma state_for_ok : forall T v, good T -> okv np v -> let x := state_for net T v in
    good (fst x) /\ extends T (fst x) /\ exists w, nth_error (ints (fst x)) (snd x) = Some w /\ okv np w /\ forall m, R m -> (in_vec w (tokens m) <-> in_vec v (tokens m)).
  Proof.
    intros T v G Ov. cbv zeta. unfold state_for. pose proof (okv_compact np v Ov) as Oc.
    assert (Eq : forall m, in_vec (compact v) (tokens m) <-> in_vec v (tokens m)) by (intros m; apply compact_ok).
    destruct (is_true (compact v)) eqn:Et; cbn [fst snd].
    - split; [exact G|]. split; [apply extends_refl|]. exists []. split; [apply G|]. split; [apply okv_nil|]. intros m Hm. rewrite <- Eq. destruct (compact v); [tauto|discriminate].
    - destruct (is_false np (compact v)) eqn:Ef; cbn [fst snd].
      + split; [exact G|]. split; [apply extends_refl|]. exists (false_range net). split; [apply G|]. split; [apply okv_false|]. intros m Hm. split; intros I.
        * exfalso. exact (false_no m Hm I).
        * exfalso. destruct (Rnz m Hm) as (p & Hp & Z). apply Z. apply (is_false_zero np (compact v) (tokens m) Oc Ef); [apply Eq; exact I|exact Hp].
      + destruct (find_state (ts_states T) 0 (compact v)) as [i|] eqn:F; cbn [fst snd].
        * apply find_state_some in F. destruct F as (a & A & _ & B). rewrite Nat.sub_0_r in A. split; [exact G|]. split; [apply extends_refl|]. exists (compact v).
          split; [apply ints_at; exists a; auto|]. split; [exact Oc|]. intros m _. apply Eq.
        * assert (New : forall i, nth_error (ints T) i <> Some (compact v)).
          { intros i X. apply ints_at in X. destruct X as (a & A & B). eapply find_state_none; [exact F|eapply nth_error_In; exact A|exact B]. }
          pose proof (add_state_good T (compact v) G Oc New) as G1. set (T1 := add_state T (compact v)) in *. set (s := length (ts_states T)).
          assert (Hs : nth_error (ints T1) s = Some (compact v)). { unfold T1. rewrite add_state_ints, nth_error_app2; rewrite ints_len; [|unfold s; lia]. unfold s. rewrite Nat.sub_diag. reflexivity. }
          set (ok := forallb _ _). set (T2 := if ok then mkTs (ts_states T1) (sins s (ts_init T1)) else T1).
          assert (G2 : good T2 /\ ints T2 = ints T1).
          { unfold T2. destruct ok eqn:Eo; [|auto]. split; [|reflexivity]. constructor; try apply G1. intros i I. cbn [ts_init] in I. apply sins_in in I. destruct I as [->|I]; [|apply (g_init T1 G1 i I)].
            exists (compact v). split; [exact Hs|]. intros p r Ir. unfold ok in Eo. rewrite forallb_forall in Eo. specialize (Eo _ Ir). cbn [fst snd] in Eo. apply andb_true_iff in Eo. destruct Eo as (A & B).
            apply negb_true_iff in A, B. apply N.ltb_ge in A, B. unfold tokens. split; [exact B|right; exact A]. }
          destruct G2 as (G2 & E2). destruct (keep_edges_good (compact v) s T2 G2 Oc) as (G3 & E3); [rewrite E2; exact Hs|].
          split; [exact G3|]. split; [exists [compact v]; rewrite E3, E2; unfold T1; apply add_state_ints|]. exists (compact v). split; [rewrite E3, E2; exact Hs|]. split; [exact Oc|]. intros m _. apply Eq.
  Qed.

  (** ** Traces *)
  Definition mid_ok (v : rvec) (e : nat) (w : rvec) : Prop :=
    match e with
    | S t => forall m m', R m -> in_vec v (tokens m) -> step P m t m' -> in_vec w (tokens m')
    | 0 => False
    end.
  Definition last_ok (v : rvec) (e : nat) : Prop :=
    match e with
    | S t => forall m m', R m -> in_vec v (tokens m) -> ~ step P m t m'
    | 0 => forall m, R m -> in_vec v (tokens m) -> ~ Q m
    end.
  Fixpoint valid (inter : list (rvec * nat)) : Prop :=
    match inter with
    | [] => True
    | (v, e) :: rest => okv np v /\ match rest with [] => last_ok v e | (w, _) :: _ => mid_ok v e w end /\ valid rest
    end.
  Lemma add_trace_from_good : forall inter T last v e rest w, inter = (v, e) :: rest -> good T -> valid inter -> nth_error (ints T) last = Some w ->
    (forall m, R m -> (in_vec w (tokens m) <-> in_vec v (tokens m))) -> good (add_trace_from net T last inter) /\ extends T (add_trace_from net T last inter).
  Proof.
    induction inter as [|x inter IH]; intros T last v e rest w E G V Hl Eq; [discriminate|]. injection E as -> ->. cbn [add_trace_from]. destruct rest as [|(u, f) rest].
    - destruct V as (_ & V & _). split; [|apply extends_same; apply add_edge_ints]. eapply add_edge_good; [exact G|exact Hl|apply G|]. destruct e as [|t]; cbn [edge_ok last_ok] in *.
      + intros _ m Hm I. apply V; [exact Hm|apply Eq; assumption].
      + intros m m' Hm I St. exfalso. apply (V m m' Hm); [apply Eq; assumption|exact St].
    - destruct V as (Ov & V & Vr). assert (Ou : okv np u) by apply Vr. destruct (state_for_ok T u G Ou) as (G1 & X1 & w1 & H1 & O1 & Q1). set (x := state_for net T u) in *.
      assert (G2 : good (add_edge (fst x) last e (snd x))).
      { eapply add_edge_good; [exact G1|eapply extends_at; eassumption|exact H1|]. destruct e as [|t]; [destruct V|]. intros m m' Hm I St. apply Q1; [eapply Rstep; eassumption|]. apply (V m m' Hm); [apply Eq; assumption|exact St]. }
      destruct (add_edge_ints (fst x) last e (snd x)) as (E2 & _).
      destruct (IH (add_edge (fst x) last e (snd x)) (snd x) u f rest w1 eq_refl G2 Vr) as (A & B); [rewrite E2; exact H1|exact Q1|]. split; [exact A|].
      eapply extends_trans; [exact X1|]. eapply extends_trans; [|exact B]. apply extends_same. exact E2.
  Qed.
  Lemma add_trace_good : forall T inter, good T -> valid inter -> good (add_trace net T inter).
  Proof.
    intros T inter G V. unfold add_trace. destruct inter as [|(v, e) rest]; [exact G|]. assert (Ov : okv np v) by apply V. destruct (state_for_ok T v G Ov) as (G1 & X1 & w & H1 & O1 & Q1).
    eapply add_trace_from_good; [reflexivity|exact G1|exact V|exact H1|exact Q1].
  Qed.

  (** ** Following the automaton *)
  Definition holds_all (T : tset) (l : list nat) (m : marking) : Prop := forall i, In i l -> exists v, nth_error (ints T) i = Some v /\ in_vec v (tokens m).
  Lemma targets_tgt : forall T i e, targets T i e = tgt (a_edges (nth i (ts_states T) (mkA [] [] []))) e. Proof. reflexivity. Qed.
  Lemma target_ok : forall T i e j, good T -> In j (targets T i e) -> exists v w, nth_error (ints T) i = Some v /\ nth_error (ints T) j = Some w /\ edge_ok v e w j.
  Proof.
    intros T i e j G I. rewrite targets_tgt in I. destruct (nth_error (ts_states T) i) as [a|] eqn:E.
    - rewrite (nth_error_nth _ _ _ E) in I. destruct (g_edge T G i a e j E I) as (w & A & B). exists (a_int a), w. split; [apply ints_at; exists a; auto|auto].
    - apply nth_error_None in E. rewrite nth_overflow in I by exact E. destruct I.
  Qed.
  Lemma follow_none : forall T e from next m, good T -> R m -> follow T from e next = None -> holds_all T from m ->
    match e with S t => forall m', ~ step P m t m' | 0 => ~ Q m end.
  Proof.
    intros T e from. induction from as [|i from IH]; intros next m G Hm F H; cbn [follow] in F; [discriminate|].
    assert (H' : holds_all T from m) by (intros j Ij; apply H; right; exact Ij). destruct (Nat.eqb i 0); [eapply IH; eassumption|].
    destruct (targets T i e) as [|[|j] to] eqn:Tg; [eapply IH; eassumption| |eapply IH; eassumption].
    destruct (target_ok T i e 0 G) as (v & w & A & B & C); [rewrite Tg; left; reflexivity|]. destruct (H i (or_introl eq_refl)) as (v' & A' & I). assert (v' = v) by congruence. subst v'.
    rewrite (g_false T G) in B. injection B as <-. destruct e as [|t]; [exact (C eq_refl m Hm I)|]. intros m' St. apply (false_no m' (Rstep m t m' Hm St)). exact (C m m' Hm I St).
  Qed.
  Lemma follow_some : forall T t from next next' m m', good T -> R m -> follow T from (S t) next = Some next' -> holds_all T from m -> step P m t m' -> holds_all T next m' -> holds_all T next' m'.
  Proof.
    intros T t from. induction from as [|i from IH]; intros next next' m m' G Hm F H St Hn; cbn [follow] in F; [injection F as <-; exact Hn|].
    assert (H' : holds_all T from m) by (intros j Ij; apply H; right; exact Ij). destruct (Nat.eqb i 0); [eapply IH; eassumption|].
    assert (X : forall to, targets T i (S t) = to -> holds_all T (sins_all to next) m').
    { intros to Tg j Ij. apply sins_all_in in Ij. destruct Ij as [Ij|Ij]; [|apply Hn; exact Ij]. destruct (target_ok T i (S t) j G) as (v & w & A & B & C); [rewrite Tg; exact Ij|].
      destruct (H i (or_introl eq_refl)) as (v' & A' & I). assert (v' = v) by congruence. subst v'. exists w. split; [exact B|]. exact (C m m' Hm I St). }
    destruct (targets T i (S t)) as [|[|j] to] eqn:Tg; [|discriminate|]; (eapply IH; [exact G|exact Hm|exact F|exact H'|exact St|apply X; reflexivity]).
  Qed.
  Lemma sort_in_in : forall x l y, In y (sort_in x l) <-> y = x \/ In y l.
  Proof. intros x l y. induction l as [|z l IH]; cbn [sort_in]; [cbn; intuition|]. destruct (x <=? z); cbn [In]; [intuition|]. rewrite IH. tauto. Qed.
  Lemma sort_in_sorted : forall x l, StronglySorted le l -> StronglySorted le (sort_in x l).
  Proof.
    intros x l S. induction S as [|z l S IH F]; cbn [sort_in]; [repeat constructor|]. destruct (x <=? z) eqn:E.
    - apply Nat.leb_le in E. constructor; [constructor; assumption|]. constructor; [exact E|]. rewrite Forall_forall in *. intros y Iy. specialize (F y Iy). lia.
    - apply Nat.leb_gt in E. constructor; [exact IH|]. rewrite Forall_forall in *. intros y Iy. apply sort_in_in in Iy. destruct Iy as [->|Iy]; [lia|auto].
  Qed.
  Lemma sorted_places_ok : forall t, StronglySorted le (sorted_places net t) /\ forall p, In p (sorted_places net t) <-> In p (map iv_place (pre t)) \/ In p (map iv_place (post t)).
  Proof.
    intros t. unfold sorted_places. assert (G : forall l, StronglySorted le (fold_right sort_in [] l) /\ forall p, In p (fold_right sort_in [] l) <-> In p l).
    { induction l as [|x l (A & B)]; cbn [fold_right]; [split; [constructor|tauto]|]. split; [apply sort_in_sorted; exact A|]. intros p. rewrite sort_in_in, B. cbn. intuition. }
    destruct (G (map iv_place (pre t) ++ map iv_place (post t))) as (A & B). split; [exact A|]. intros p. rewrite B. apply in_app_iff.
  Qed.
  Lemma copy_ok : forall T t from to m m', good T -> R m -> step P m t m' -> holds_all T from m -> holds_all T to m' -> holds_all T (copy_non_changed T from (sorted_places net t) to) m'.
  Proof.
    intros T t from. induction from as [|i from IH]; intros to m m' G Hm St H Ht; unfold copy_non_changed; cbn [fold_left]; [exact Ht|].
    apply (IH _ m m' G Hm St); [intros j Ij; apply H; right; exact Ij|]. destruct (restricts (int_of T i) (sorted_places net t)) eqn:E; [exact Ht|]. intros j Ij. apply sins_in in Ij. destruct Ij as [->|Ij]; [|apply Ht; exact Ij].
    destruct (H i (or_introl eq_refl)) as (v & A & I). exists v. split; [exact A|]. rewrite (int_of_at T i v A) in E. destruct (sorted_places_ok t) as (S1 & S2). pose proof (g_ok T G i v A) as Ov.
    intros p r Ir. destruct (step_ft net L P0 NI m t m' St (Rlen m Hm)) as (_ & _ & En & Ef). rewrite Ef. specialize (I p r Ir).
    destruct (in_dec Nat.eq_dec p (sorted_places net t)) as [Ip|Np].
    - assert (X : unbounded r \/ ~ unbounded r). { unfold unbounded. destruct (N.eq_dec (fst r) 0), (N.eq_dec (snd r) infinite); tauto. }
      destruct X as [(X1 & X2)|X]; [split; [rewrite X1; lia|left; exact X2]|]. exfalso. assert (Y : restricts v (sorted_places net t) = true); [|congruence]. apply restricts_ok; [apply Ov|exact S1|]. exists p, r. auto.
    - rewrite S2 in Np. rewrite !ft_out by tauto. replace (tokens m p - 0 + 0)%N with (tokens m p) by lia. exact I.
  Qed.
  Lemma sims_ok : forall T i m j, good T -> (exists v, nth_error (ints T) i = Some v /\ in_vec v (tokens m)) -> In j (sim_of T i) -> exists v, nth_error (ints T) j = Some v /\ in_vec v (tokens m).
  Proof.
    intros T i m j G (v & A & I) Ij. apply ints_at in A. destruct A as (a & A & <-). unfold sim_of in Ij. rewrite (nth_error_nth _ _ _ A) in Ij.
    destruct (g_sim T G i a j A Ij) as (_ & w & B & C). exists w. split; [exact B|]. eapply incl_vec_sem; [|exact C|exact I]. intros p r Ir. pose proof (g_ok T G j w B) as (S & _ & Cp). rewrite <- (rg_in w p r S Ir). apply Cp.
  Qed.
  Lemma maximize_ok : forall T l m, good T -> holds_all T l m -> holds_all T (maximize T l) m.
  Proof.
    intros T l m G H. unfold maximize. assert (B : holds_all T (sins 1 l) m).
    { intros i I. apply sins_in in I. destruct I as [->|I]; [exists []; split; [apply G|intros p r []]|apply H; exact I]. }
    revert B. generalize (sins 1 l) as acc. induction l as [|i l IH]; intros acc B; cbn [fold_left]; [exact B|]. apply IH; [intros j Ij; apply H; right; exact Ij|].
    intros j Ij. apply sins_all_in in Ij. destruct Ij as [Ij|Ij]; [|apply B; exact Ij]. eapply sims_ok; [exact G|apply (H i); left; reflexivity|exact Ij].
  Qed.
  Lemma fold_filter_in : forall (f : nat -> nat -> bool) org l x, In x (fold_left (fun m i => filter (f i) m) org l) <-> In x l /\ forall i, In i org -> f i x = true.
  Proof.
    intros f. induction org as [|i org IH]; intros l x; cbn [fold_left]; [split; [intros H; split; [exact H|intros ? []]|tauto]|]. rewrite IH, filter_In. split.
    - intros ((A & B) & C). split; [exact A|]. intros j [<-|I]; [exact B|apply C; exact I].
    - intros (A & B). split; [split; [exact A|apply B; left; reflexivity]|]. intros j I. apply B. right. exact I.
  Qed.
  Lemma minimize_in : forall T org x, In x (minimize T org) <-> In x org /\ forall i, In i org -> ~ In x (sim_of T i).
  Proof.
    intros T org x. unfold minimize. rewrite (fold_filter_in (fun i x => negb (existsb (Nat.eqb x) (sim_of T i)))). split; intros (A & B); (split; [exact A|]); intros i I.
    - specialize (B i I). intros X. apply negb_true_iff in B. assert (Y : existsb (Nat.eqb x) (sim_of T i) = true); [|congruence]. apply existsb_exists. exists x. split; [exact X|apply Nat.eqb_refl].
    - apply negb_true_iff. destruct (existsb (Nat.eqb x) (sim_of T i)) eqn:E; [|reflexivity]. exfalso. apply existsb_exists in E. destruct E as (y & Y & E). apply Nat.eqb_eq in E. subst y. exact (B i I Y).
  Qed.
  Lemma minimize_sound : forall T org m, good T -> (forall i, In i org -> i < length (ints T)) -> holds_all T (minimize T org) m -> holds_all T org m.
  Proof.
    intros T org m G Hb H. set (up := fun x y => negb (Nat.eqb y x) && fst (RangeModel.compare (int_of T x) (int_of T y))).
    assert (Ex : forall i, In i org -> exists v, nth_error (ints T) i = Some v) by (intros i I; apply nth_error_ex, Hb, I).
    assert (Up : forall x y, In x org -> In y org -> (up x y = true <-> y <> x /\ incl_vec (int_of T x) (int_of T y))).
    { intros x y Ix Iy. destruct (Ex x Ix) as (v & Ev). destruct (Ex y Iy) as (w & Ew). unfold up. rewrite (int_of_at T x v Ev), (int_of_at T y w Ew), andb_true_iff, negb_true_iff, Nat.eqb_neq.
      rewrite (compare_fst v w (proj1 (g_ok T G x v Ev)) (proj1 (g_ok T G y w Ew))). tauto. }
    assert (W : forall n x, In x org -> length (filter (up x) org) < n -> exists v, nth_error (ints T) x = Some v /\ in_vec v (tokens m)).
    { induction n as [|n IH]; intros x Ix Hn; [lia|]. destruct (existsb (fun i => existsb (Nat.eqb x) (sim_of T i)) org) eqn:E.
      - apply existsb_exists in E. destruct E as (i & Ii & E). apply existsb_exists in E. destruct E as (y & Iy & E). apply Nat.eqb_eq in E. subst y.
        destruct (Ex i Ii) as (v & Ev). pose proof (proj1 (ints_at T i v) Ev) as (a & Ea & Eav). assert (Is := Iy). unfold sim_of in Iy. rewrite (nth_error_nth _ _ _ Ea) in Iy. destruct (g_sim T G i a x Ea Iy) as (Nix & w & Ew & Inc).
        rewrite Eav in Inc. apply (sims_ok T i m x G); [|exact Is]. apply IH; [exact Ii|].
        assert (Lt : length (filter (up i) org) < length (filter (up x) org)); [|lia]. apply filter_lt with (x := i).
        + intros y Iyo U. apply Up; [exact Ix|exact Iyo|]. apply Up in U; [|exact Ii|exact Iyo]. destruct U as (U1 & U2). rewrite (int_of_at T x w Ew). rewrite (int_of_at T i v Ev) in U2. split.
          * intros ->. rewrite (int_of_at T x w Ew) in U2. apply Nix. apply (g_inj T G i x v); [exact Ev|]. rewrite Ew. f_equal. apply incl_antisym; [apply (g_ok T G x w Ew)|apply (g_ok T G i v Ev)|exact Inc|exact U2].
          * eapply incl_trans_vec; eassumption.
        + exact Ii.
        + apply Up; [exact Ix|exact Ii|]. split; [exact Nix|]. rewrite (int_of_at T x w Ew), (int_of_at T i v Ev). exact Inc.
        + unfold up. rewrite Nat.eqb_refl. reflexivity.
      - apply H. apply minimize_in. split; [exact Ix|]. intros i Ii X. assert (Y : existsb (fun i => existsb (Nat.eqb x) (sim_of T i)) org = true); [|congruence].
        apply existsb_exists. exists i. split; [exact Ii|]. apply existsb_exists. exists x. split; [exact X|apply Nat.eqb_refl]. }
    intros x Ix. apply (W (S (length (filter (up x) org))) x Ix). lia.
  Qed.
End Aut.
