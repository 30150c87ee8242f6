(** The theorems about the unfolding with the naive binding generator (C34). *)
From Verif Require Import Base BaseLemmas NetSpec NetModel BuilderModel BuilderSpec BuilderMain
  ColSyntax ColSpec ColModel ColRadix ColEval ColGen ColCorr ColUnfold ColMain.
From Coq Require Import Permutation.

Lemma ctyped_range : forall n e ty v, ctyped n e ty -> In v (cvars e) -> v < length (cn_vars n).
Proof.
  intros n e. induction e as [|x|uty ui|e IHe|e IHe|es IHs] using cexp_ind'; intros ty v H V; cbn in *; try contradiction.
  - destruct V as [<-|[]]. apply nth_error_lt in H. auto.
  - destruct H. eauto.
  - destruct H. eauto.
  - destruct H as (cs & _ & L & H). revert cs L H. induction es as [|e es IH]; intros cs L H; cbn in *; [contradiction|].
    destruct cs as [|c cs]; [discriminate|]. inversion IHs as [|? ? Q1 Q2]; subst. destruct H as [H1 H2].
    apply in_app_iff in V. destruct V as [V|V]; [eauto|]. apply (IH Q2 V cs); auto.
Qed.
Lemma gtyped_range : forall n g v, gtyped n g -> In v (gvars g) -> v < length (cn_vars n).
Proof.
  induction g as [l r|l r|l r|l r|l IHl r IHr|l IHl r IHr]; intros v H V; cbn in H, V; apply in_app_iff in V.
  - destruct H as (ty & _ & H1 & H2). destruct V as [V|V]; [exact (ctyped_range n l ty v H1 V)|exact (ctyped_range n r ty v H2 V)].
  - destruct H as (ty & _ & H1 & H2). destruct V as [V|V]; [exact (ctyped_range n l ty v H1 V)|exact (ctyped_range n r ty v H2 V)].
  - destruct H as (ty & H1 & H2). destruct V as [V|V]; [exact (ctyped_range n l ty v H1 V)|exact (ctyped_range n r ty v H2 V)].
  - destruct H as (ty & H1 & H2). destruct V as [V|V]; [exact (ctyped_range n l ty v H1 V)|exact (ctyped_range n r ty v H2 V)].
  - destruct H as [H1 H2]. destruct V as [V|V]; auto.
  - destruct H as [H1 H2]. destruct V as [V|V]; auto.
Qed.
Lemma atyped_range : forall n a ty v, atyped n a ty -> In v (avars a) -> v < length (cn_vars n).
Proof.
  intros n a. induction a as [es k|es IHs|l r IHl IHr|e k IHe] using aexp_ind'; intros ty v H V; cbn in *.
  - destruct H as [_ H]. apply in_flat_map in V. destruct V as (e & E & V). rewrite Forall_forall in H.
    eapply ctyped_range; eauto.
  - destruct H as [_ H]. induction es as [|e es IH]; cbn in *; [contradiction|].
    inversion IHs as [|? ? Q1 Q2]; subst. destruct H as [H1 H2]. apply in_app_iff in V. destruct V as [V|V]; eauto.
  - destruct H. apply in_app_iff in V. destruct V; eauto.
  - eauto.
Qed.
Lemma tvars_range : forall n t tr v, cpn_ok n -> nth_error (cn_trs n) t = Some tr -> In v (tvars tr) -> v < length (cn_vars n).
Proof.
  intros n t tr v OK TR V. pose proof OK as (_ & _ & _ & Q & _). destruct (Q _ _ TR) as (G & F1 & F2).
  unfold tvars in V. rewrite !in_app_iff in V. rewrite Forall_forall in F1, F2. destruct V as [V|[V|V]].
  - destruct (ct_guard tr) as [g|]; [|contradiction]. eapply gtyped_range; eauto.
  - apply in_flat_map in V. destruct V as (x & X & V). destruct (F1 x X) as (pl & _ & H & _). eapply atyped_range; eauto.
  - apply in_flat_map in V. destruct V as (x & X & V). destruct (F2 x X) as (pl & _ & H & _). eapply atyped_range; eauto.
Qed.

Lemma naive_gens_ok : forall n vs, cpn_ok n ->
  forall l t, (forall k tr, nth_error l k = Some tr -> nth_error (cn_trs n) (t + k) = Some tr) ->
  (forall k tr, nth_error (cn_trs n) k = Some tr -> forall v, In v (vs k) <-> In v (tvars tr)) ->
  exists gens, naive_gens n vs t l = Ok gens /\ length gens = length l /\
    forall k tr, nth_error l k = Some tr ->
      (forall b, In b (nth k gens []) -> exists a, binds n a /\ brel n b a (tvars tr) /\
         forall g, ct_guard tr = Some g -> gval (cn_types n) (cn_vars n) a g = true) /\
      (forall a, binds n a -> (forall g, ct_guard tr = Some g -> gval (cn_types n) (cn_vars n) a g = true) ->
         exists b, In b (nth k gens []) /\ brel n b a (tvars tr)).
Proof.
  intros n vs OK. induction l as [|tr l IH]; intros t NT VS; cbn [naive_gens].
  - exists []. split; auto. split; auto. intros [|k] tr H; discriminate.
  - assert (TR : nth_error (cn_trs n) t = Some tr) by (rewrite <- (Nat.add_0_r t); apply NT; auto).
    pose proof OK as (T & TV & _ & Q & _). destruct (Q _ _ TR) as (G & _ & _).
    assert (VI : incl (tvars tr) (vs t)) by (intros v V; apply (VS t tr TR); auto).
    destruct (naive_bindings_ok n T TV (vs t)) with (g := ct_guard tr) as (bs & E & SD & C).
    { intros v V. apply (VS t tr TR) in V. eapply tvars_range; eauto. }
    { intros e Ee. split; auto. intros v V. apply (VS t tr TR). unfold tvars. rewrite Ee. apply in_app_iff. auto. }
    rewrite E. cbn [bind].
    destruct (IH (S t)) as (gens & E2 & L2 & H2); auto.
    { intros k tr' H. replace (S t + k) with (t + S k) by lia. apply NT. auto. }
    rewrite E2. cbn [bind]. exists (bs :: gens). split; auto. split; [cbn; auto|].
    intros [|k] tr' H; cbn in H.
    + inversion H; subst tr'. cbn [nth]. split.
      * intros b B. destruct (SD b B) as (a & A1 & A2 & A3). exists a. split; auto. split; auto.
        eapply brel_incl; eauto.
      * intros a A1 A2. destruct (C a A1 A2) as (b & B1 & B2). exists b. split; auto. eapply brel_incl; eauto.
    + cbn [nth]. auto.
Qed.

Theorem unfold_main : forall n enc enct vs,
  cpn_ok n -> (forall u v, enc u = enc v -> u = v) ->
  (forall t i t' i', enct t i = enct t' i' -> t = t' /\ i = i') ->
  (forall t tr, nth_error (cn_trs n) t = Some tr -> forall v, In v (vs t) <-> In v (tvars tr)) ->
  exists s gens, naive_unfold n enc enct vs = Ok (s, gens) /\
    weights_pos (u_calls s) /\ (separate n -> calls_ok (u_calls s)) /\
    (0 < length (cn_pls n) -> exists x, is_place (u_calls s) x) /\
    exists R, bisimulation n (u_calls s) (tnames enct gens) R /\
      (forall M U, R M U -> shows n enc (u_calls s) M U) /\
      (forall M U U', R M U -> (forall x, is_place (u_calls s) x -> U x = U' x) -> R M U') /\
      (forall M U p names, R M U -> p < length (cn_pls n) -> Permutation names (map snd (pnames s p)) ->
         (forall t w, ~ In (p, t, w) (cn_inh n)) \/ untouched n p ->
         Forall (fun u => is_place (u_calls s) (enc u)) names /\
         exists us, place_query names = Ok us /\ sumU enc U us = total n M p /\
                    sumU enc U (bounds_query names) = total n M p).
Proof.
  intros n enc enct vs OK EI TI VS.
  destruct (naive_gens_ok n vs OK (cn_trs n) 0) as (gens & E & L & H); auto.
  assert (GS : gens_sound n gens) by (intros t tr b TR B; destruct (H t tr TR) as [S _]; auto).
  assert (GC : gens_complete n gens) by (intros t tr a TR B G; destruct (H t tr TR) as [_ C]; auto).
  destruct (first_stage n OK enc enct EI TI gens GS) as (s & E1 & I & CP & TS).
  destruct (orphans_ok n OK enc enct EI s I) as (s2 & E2 & S2).
  exists s2, gens. split.
  { unfold naive_unfold. rewrite E. cbn [bind]. unfold unfold. unfold start in E1. rewrite E1. cbn [bind]. rewrite E2. reflexivity. }
  assert (PL : forall p, p < length (cn_pls n) -> Forall (fun u => is_place (u_calls s2) (enc u)) (map snd (pnames s2 p))).
  { intros p P. apply Forall_forall. intros u U.
    assert (Q : In u (map snd (pnames s p)) -> is_place (u_calls s2) (enc u)).
    { intros X. apply in_map_iff in X. destruct X as ((k & u') & Eu & X). cbn in Eu. subst u'.
      destruct (i_names _ _ _ _ I _ _ _ X) as (_ & [(d & D1 & D2 & D3)|(D1 & D2 & D3)]); subst;
        apply (final_place n enc enct EI s s2 I S2); try discriminate; auto. }
    destruct (orphans n enc s p) eqn:O.
    - destruct (o_yes _ _ _ _ _ S2 p P O) as ((kk & Eq) & PO & _). rewrite Eq, map_app, in_app_iff in U.
      destruct U as [U|[<-|[]]]; auto.
    - rewrite (o_no _ _ _ _ _ S2 p P O) in U. auto. }
  split; [eapply final_wpos; eauto|]. split; [intros SP; eapply final_ok; eauto|]. split.
  { intros P. specialize (PL 0 P). pose proof (names_nonempty n enc s s2 S2 0 P) as NE.
    destruct (pnames s2 0) as [|[k u] l]; [congruence|]. cbn in PL. inversion PL; subst. eauto. }
  exists (rel n enc s s2).
  assert (CE : forall t x, In x (tnames enct gens t) <-> In x (copies n enct gens t)).
  { intros t x. unfold copies. destruct (Nat.ltb_spec t (length (cn_trs n))); [tauto|]. unfold tnames.
    rewrite nth_overflow by lia. cbn. tauto. }
  split; [|split; [|split]].
  - destruct (bisim n OK enc enct EI TI gens GS GC s s2 I CP TS S2) as (B1 & B2 & B3 & B4 & B5).
    split; auto. split; [|split; [|split]].
    + intros M U t M' R C. destruct (B2 M U t M' R C) as (x & U' & X & F). exists x, U'. split; auto. apply CE. auto.
    + intros M U x U' R IT F. destruct (B3 M U x U' R IT F) as (t & M' & X & Q). exists t, M'. split; auto. apply CE. auto.
    + intros t x X. apply (B4 t). apply CE. auto.
    + intros t t' x X X'. apply (B5 t t' x); apply CE; auto.
  - intros M U R. eapply rel_shows; eauto.
  - intros M U U' (R1 & R2 & R3 & R4) EQ. split; [|split; [|split]]; auto.
    + intros p c K. rewrite <- EQ; auto. apply (final_place n enc enct EI s s2 I S2); [discriminate|auto].
    + intros p K. rewrite <- EQ; auto. apply (final_place n enc enct EI s s2 I S2); [discriminate|auto].
    + intros p K. rewrite <- EQ; auto.
  - intros M U p names R P PM C. split.
    { apply Forall_forall. intros u X. specialize (PL p P). rewrite Forall_forall in PL. apply PL. eapply Permutation_in; eauto. }
    eapply place_query_ok; eauto. destruct C as [C|C]; auto. left.
    unfold inhibiting. destruct (existsb _ _) eqn:X; auto. apply existsb_exists in X. destruct X as ([[q t] w] & X & Y).
    cbn in Y. apply Nat.eqb_eq in Y. subst q. exfalso. eapply C; eauto.
Qed.

(** Consequences of a bisimulation for runs, deadlocks and fireability. *)
Lemma bisim_runs : forall n cs copies R, bisimulation n cs copies R ->
  (forall M ts M' U, R M U -> cruns n M ts M' ->
     exists xs U', uruns cs U xs U' /\ Forall2 (fun t x => In x (copies t)) ts xs /\ R M' U') /\
  (forall U xs U' M, R M U -> uruns cs U xs U' ->
     exists ts M', cruns n M ts M' /\ Forall2 (fun t x => In x (copies t)) ts xs /\ R M' U').
Proof.
  intros n cs copies R (B1 & B2 & B3 & B4 & B5). split.
  - intros M ts M' U H X. revert U H. induction X as [M|M t M1 ts M2 S X IH]; intros U H.
    + exists [], U. repeat split; auto. constructor.
    + destruct (B2 _ _ _ _ H S) as (x & U1 & C & F & H1). destruct (IH U1 H1) as (xs & U2 & X2 & F2 & H2).
      exists (x :: xs), U2. split; [econstructor; eauto|]. split; [constructor; auto|auto].
  - intros U xs U' M H X. revert M H. induction X as [U|U x U1 xs U2 IT S X IH]; intros M H.
    + exists [], M. repeat split; auto. constructor.
    + destruct (B3 _ _ _ _ H IT S) as (t & M1 & C & F & H1). destruct (IH M1 H1) as (ts & M2 & X2 & F2 & H2).
      exists (t :: ts), M2. split; [econstructor; eauto|]. split; [constructor; auto|auto].
Qed.

Lemma bisim_fireable : forall n cs copies R M U, bisimulation n cs copies R -> R M U ->
  forall t, (exists M', cstep n M t M') <-> exists x, In x (copies t) /\ decl_enabled cs x U.
Proof.
  intros n cs copies R M U (B1 & B2 & B3 & B4 & B5) H t. split.
  - intros (M' & S). destruct (B2 _ _ _ _ H S) as (x & U1 & C & (F & _) & _). eauto.
  - intros (x & C & E).
    destruct (B3 M U x (fun p => U p - in_of cs p x + out_of cs x p)%N H (B4 _ _ C)) as (t' & M' & C' & S & _).
    { split; [auto|]. intros; reflexivity. }
    rewrite (B5 _ _ _ C C'). eauto.
Qed.

Lemma bisim_dead : forall n cs copies R M U, bisimulation n cs copies R -> R M U ->
  ((exists t M', cstep n M t M') <-> exists x, is_trans cs x /\ decl_enabled cs x U).
Proof.
  intros n cs copies R M U B H. pose proof B as (B1 & B2 & B3 & B4 & B5). split.
  - intros (t & M' & S). destruct (proj1 (bisim_fireable _ _ _ _ _ _ B H t)) as (x & C & E); eauto.
  - intros (x & IT & E).
    destruct (B3 M U x (fun p => U p - in_of cs p x + out_of cs x p)%N H IT) as (t' & M' & C' & S & _); eauto.
    split; [auto|]. intros; reflexivity.
Qed.

Theorem unfold_runs : forall n enc enct vs,
  cpn_ok n -> (forall u v, enc u = enc v -> u = v) ->
  (forall t i t' i', enct t i = enct t' i' -> t = t' /\ i = i') ->
  (forall t tr, nth_error (cn_trs n) t = Some tr -> forall v, In v (vs t) <-> In v (tvars tr)) ->
  exists s gens, naive_unfold n enc enct vs = Ok (s, gens) /\
    (forall ts M, cruns n (cinit n) ts M ->
       exists xs U, uruns (u_calls s) (init_of (u_calls s)) xs U /\
         Forall2 (fun t x => In x (tnames enct gens t)) ts xs /\
         agrees n enc (u_calls s) (fun p => map snd (pnames s p)) (tnames enct gens) M U) /\
    (forall xs U, uruns (u_calls s) (init_of (u_calls s)) xs U ->
       exists ts M, cruns n (cinit n) ts M /\
         Forall2 (fun t x => In x (tnames enct gens t)) ts xs /\
         agrees n enc (u_calls s) (fun p => map snd (pnames s p)) (tnames enct gens) M U).
Proof.
  intros n enc enct vs OK EI TI VS.
  destruct (unfold_main n enc enct vs OK EI TI VS) as (s & gens & E & _ & _ & _ & R & BI & SH & _ & CN).
  exists s, gens. split; auto.
  assert (AG : forall M U, R M U -> agrees n enc (u_calls s) (fun p => map snd (pnames s p)) (tnames enct gens) M U).
  { intros M U H. split; [auto|]. split; [|split].
    - intros p names P PM C. destruct (CN M U p names H P PM C) as [_ Q]. exact Q.
    - eapply bisim_fireable; eauto.
    - eapply bisim_dead; eauto. }
  destruct (bisim_runs _ _ _ _ BI) as [F B]. pose proof BI as (B1 & _). split.
  - intros ts M H. destruct (F _ _ _ _ B1 H) as (xs & U & X1 & X2 & X3). eauto 6.
  - intros xs U H. destruct (B _ _ _ _ B1 H) as (ts & M & X1 & X2 & X3). eauto 6.
Qed.

(** ** Down to the compiled net *)
Lemma make_marking : forall (P : nat -> Prop) k idx (U : nat -> N), numbering P k idx ->
  exists m, length m = k /\ forall x, P x -> tokens m (idx x) = U x.
Proof.
  intros P k idx U (N1 & N2 & N3).
  assert (H : forall j, j <= k -> exists m, length m = j /\ forall x, P x -> idx x < j -> tokens m (idx x) = U x).
  { induction j as [|j IH]; intros L.
    - exists []. split; auto. intros; lia.
    - destruct (IH ltac:(lia)) as (m & Lm & Hm). destruct (N3 j L) as (y & Py & Ey).
      exists (m ++ [U y]). split; [rewrite app_length; cbn; lia|]. intros x Px Lx. unfold tokens in *.
      destruct (Nat.eq_dec (idx x) j) as [E|E].
      + rewrite E, app_nth2 by lia. rewrite Lm, Nat.sub_diag. cbn. f_equal. apply N2; auto. congruence.
      + rewrite app_nth1 by lia. apply Hm; auto. lia. }
  destruct (H k (le_n _)) as (m & Lm & Hm). exists m. split; auto.
Qed.

Theorem unfold_compiled : forall n enc enct vs reorder,
  cpn_ok n -> separate n -> 0 < length (cn_pls n) ->
  (forall u v, enc u = enc v -> u = v) ->
  (forall t i t' i', enct t i = enct t' i' -> t = t' /\ i = i') ->
  (forall t tr, nth_error (cn_trs n) t = Some tr -> forall v, In v (vs t) <-> In v (tvars tr)) ->
  exists s gens b net ids tids pidx tidx,
    naive_unfold n enc enct vs = Ok (s, gens) /\ do_calls b_empty (u_calls s) = Ok b /\
    make_net b reorder = Ok (net, ids, tids) /\ layout net /\
    exists R : cmark -> NetSpec.marking -> Prop,
      R (cinit n) (cn_init net) /\
      (forall M m, R M m -> length m = cn_places net) /\
      (forall M m t M', R M m -> cstep n M t M' ->
         exists i m', In i (map tidx (tnames enct gens t)) /\ step (to_pnet net) m i m' /\ R M' m') /\
      (forall M m i m', R M m -> step (to_pnet net) m i m' ->
         exists t M', In i (map tidx (tnames enct gens t)) /\ cstep n M t M' /\ R M' m') /\
      (forall M m p v, R M m -> p < length (cn_pls n) -> vtyped (cn_types n) (ptype n p) v ->
         let x := enc (UCol p (vnum (cn_types n) (ptype n p) v)) in
         (is_place (u_calls s) x -> tokens m (pidx x) = M p v) /\ (~ is_place (u_calls s) x -> M p v = cinit n p v)) /\
      (forall M m p names, R M m -> p < length (cn_pls n) -> Permutation names (map snd (pnames s p)) ->
         (forall t w, ~ In (p, t, w) (cn_inh n)) \/ untouched n p ->
         exists us, place_query names = Ok us /\
           sumN (map (fun u => tokens m (pidx (enc u))) us) = total n M p /\
           sumN (map (fun u => tokens m (pidx (enc u))) (bounds_query names)) = total n M p).
Proof.
  intros n enc enct vs reorder OK SP NP EI TI VS.
  destruct (unfold_main n enc enct vs OK EI TI VS) as (s & gens & E & WP & CO & EP & R & BI & SH & EX & CN).
  specialize (CO SP). specialize (EP NP).
  destruct (builder_accepts WP) as [(_ & b & DB)|(NC & _)]; [|contradiction].
  destruct (builder_correct reorder WP DB EP) as (net & ids & tids & pidx & tidx & MK & LY & NPl & NTr & _ & _ & _ & LI & IN & ST & _).
  exists s, gens, b, net, ids, tids, pidx, tidx. split; auto. split; auto. split; auto. split; auto.
  pose proof BI as (B1 & B2 & B3 & B4 & B5).
  exists (fun M m => length m = cn_places net /\ R M (fun p => tokens m (pidx p))).
  split; [|split; [|split; [|split; [|split]]]].
  - split; auto. eapply EX; [exact B1|]. intros x X. symmetry. auto.
  - intros M m [H _]. auto.
  - intros M m t M' [L H] S. destruct (B2 _ _ _ _ H S) as (x & U' & C & F & H').
    destruct (make_marking _ _ _ U' NPl) as (m' & Lm & Hm).
    exists (tidx x), m'. split; [apply in_map; auto|]. split.
    + apply ST; auto; [eapply B4; eauto|]. split; auto. destruct F as [F1 F2]. split; auto. intros p P. rewrite Hm by auto. auto.
    + split; auto. eapply EX; [exact H'|]. intros p P. symmetry. auto.
  - intros M m i m' [L H] S.
    assert (IX : exists x, is_trans (u_calls s) x /\ tidx x = i).
    { destruct NTr as (_ & _ & N3). apply N3. destruct S as (tr & S & _). apply nth_error_lt in S.
      unfold to_pnet in S. cbn in S. rewrite map_length, seq_length in S. auto. }
    destruct IX as (x & IT & <-). apply ST in S; auto. destruct S as [L' F].
    destruct (B3 _ _ _ _ H IT F) as (t & M' & C & CS & H'). exists t, M'. split; [apply in_map; auto|]. auto.
  - intros M m p v [L H] P V. apply (SH _ _ H p v P V).
  - intros M m p names [L H] P PM C. destruct (CN _ _ _ _ H P PM C) as (_ & us & Q). exists us. exact Q.
Qed.
