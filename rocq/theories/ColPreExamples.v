(** Examples for the preemptive firing of transitions in coloured nets (C48). *)
From Verif Require Import Base BaseLemmas ColSyntax ColSpec ColModel ColExamples ColRedModel ColRedSpec ColRedExamples ColPreModel ColPreSpec.

(** Equality of printed expressions, as far as the examples need it. *)
Definition psame (x y : aexp) : bool :=
  match x, y with
  | ANum [EVar a] k, ANum [EVar b] l => Nat.eqb a b && N.eqb k l
  | ANum [EUser s a] k, ANum [EUser t b] l => Nat.eqb s t && Nat.eqb a b && N.eqb k l
  | _, _ => false
  end.
Lemma psame_ok : forall n, same_ok n psame.
Proof.
  intros n x y H. unfold psame in H. destruct x as [[|[|a|s a| | |] [|]] k| | |]; try discriminate H; destruct y as [[|[|b|t b| | |] [|]] l| | |]; try discriminate H.
  - apply andb_prop in H. destruct H as [H1 H2]. apply Nat.eqb_eq in H1. apply N.eqb_eq in H2. subst. auto.
  - apply andb_prop in H. destruct H as [H H2]. apply andb_prop in H. destruct H as [H0 H1]. apply Nat.eqb_eq in H0, H1. apply N.eqb_eq in H2. subst. auto.
Qed.
Definition pused (p : nat) : bool := Nat.eqb p 2.

(** Place 0 holds the second colour.  t0 moves the first colour from place 0 to place 1, t1
    moves any colour from there to the places 2 and 0. *)
Definition iz : cpn := mkCpn xt [0; 1; 2] [1]
  [ mkCP 1 (Some (ANum [EUser 1 1] 1)); mkCP 1 None; mkCP 1 None ]
  [ mkCT None [(0, ANum [EUser 1 0] 1)] [(1, ANum [EUser 1 0] 1)] 0%Z;
    mkCT None [(1, kx 1)] [(2, kx 1); (0, kx 1)] 0%Z ] [].
Lemma iz_ok : cpn_ok iz.
Proof. net_ok 2. Qed.
Lemma iz_once : arcs_once iz.
Proof.
  intros t tr H. do 2 (destruct t as [|t]; [cbn in H; inversion H; subst; split; cbn; repeat constructor; cbn; lia|]). destruct t; discriminate.
Qed.
Definition iz' : rnet := mkR (mkCpn xt [0; 1; 2] [1]
  [ mkCP 1 None; mkCP 1 (Some (ANum [EUser 1 1] 1)); mkCP 1 None ] (cn_trs iz) []) [] [].
Lemma iz_run : forall cleared, preemptive (fun _ => false) pused psame (fun _ => false) cleared (mkR iz [] []) [] = Ok (iz', [0]).
Proof. vm_compute. reflexivity. Qed.
Lemma iz_never : forall M, rreach (mkR iz [] []) M -> forall p v, M p v = cinit iz p v.
Proof.
  intros M R. induction R as [M E|M t M' R IH [_ (tr & b & ET & (B1 & _ & B3 & _) & _)]]; [exact E|]. exfalso. cbn [r_net] in *.
  destruct t as [|[|t]]; [| |destruct t; discriminate ET]; injection ET as <-.
  - pose proof (B3 0 (VE 0)) as K. rewrite IH in K. unfold moved in K. cbn in K. lia.
  - pose proof (B1 0 1 eq_refl) as T. cbn in T. destruct (b 0) as [i|l] eqn:EB; [|contradiction]. pose proof (B3 1 (VE i)) as K. rewrite IH in K. unfold moved in K. cbn in K. rewrite EB in K. cbn in K. rewrite Nat.eqb_refl in K. lia.
Qed.
Lemma iz_reached : exists M, rreach iz' M /\ M 2 (VE 1) = 1%N.
Proof.
  exists (fun p v => (cinit (r_net iz') p v - moved (r_net iz') (fun _ => VE 1%nat) [(1%nat, kx 1)] p v + moved (r_net iz') (fun _ => VE 1%nat) [(2%nat, kx 1); (0%nat, kx 1)] p v)%N).
  split; [|reflexivity]. apply (@reach_step _ (cinit (r_net iz')) 1); [apply reach_init; reflexivity|]. split; [intros []|].
  exists (mkCT None [(1, kx 1)] [(2, kx 1); (0, kx 1)] 0%Z), (fun _ => VE 1). split; [reflexivity|]. split; [|reflexivity]. split; [|split; [discriminate|split]].
  - intros v ty H. destruct v as [|v]; [cbn in H; injection H as <-; cbn; lia|destruct v; discriminate H].
  - intros p v. destruct p as [|[|p]]; unfold moved; cbn; lia.
  - intros p w [].
Qed.

(** Place 0 holds the first colour.  t0 copies a colour from place 0 to place 1, t1 needs it
    twice in place 1 and puts it on place 2. *)
Definition lz : cpn := mkCpn xt [0; 1; 2] [1]
  [ mkCP 1 (Some (ANum [EUser 1 0] 1)); mkCP 1 None; mkCP 1 None ]
  [ mkCT None [(0, kx 1)] [(0, kx 1); (1, kx 1)] 0%Z;
    mkCT None [(1, kx 2)] [(2, kx 1)] 0%Z ] [].
Lemma lz_ok : cpn_ok lz.
Proof. net_ok 2. Qed.
Lemma lz_once : arcs_once lz.
Proof.
  intros t tr H. do 2 (destruct t as [|t]; [cbn in H; inversion H; subst; split; cbn; repeat constructor; cbn; lia|]). destruct t; discriminate.
Qed.
Definition lz' : rnet := mkR (mkCpn xt [0; 1; 2] [1]
  [ mkCP 1 None; mkCP 1 (Some (ANum [EUser 1 0] 1)); mkCP 1 None ]
  [ mkCT None [(0, kx 1)] [(0, kx 1); (1, kx 1)] 0%Z; mkCT None [(1, kx 2)] [(2, kx 1)] 0%Z ] []) [] [].
Lemma lz_run : forall cleared, preemptive (fun _ => false) pused psame (fun _ => false) cleared (mkR lz [] []) [] = Ok (lz', [0]).
Proof. vm_compute. reflexivity. Qed.
Lemma lz_never : forall M, rreach lz' M -> forall p v, M p v = cinit (r_net lz') p v.
Proof.
  intros M R. induction R as [M E|M t M' R IH [_ (tr & b & ET & (B1 & _ & B3 & _) & _)]]; [exact E|]. exfalso. cbn [r_net lz'] in *.
  pose proof (B1 0 1 eq_refl) as T. cbn in T. destruct (b 0) as [i|l] eqn:EB; [|contradiction].
  destruct t as [|[|t]]; [| |destruct t; discriminate ET]; injection ET as <-.
  - pose proof (B3 0 (VE i)) as K. rewrite IH in K. unfold moved in K. cbn in K. rewrite EB in K. cbn in K. rewrite Nat.eqb_refl in K. lia.
  - pose proof (B3 1 (VE i)) as K. rewrite IH in K. unfold moved in K. cbn in K. rewrite EB in K. destruct i; cbn in K; try rewrite Nat.eqb_refl in K; lia.
Qed.
Definition lfire (M : cmark) (i o : list (nat * aexp)) : cmark := fun p v => (M p v - moved lz (fun _ => VE 0%nat) i p v + moved lz (fun _ => VE 0%nat) o p v)%N.
Definition m0 : cmark := cinit lz.
Definition m1 : cmark := lfire m0 [(0, kx 1)] [(0, kx 1); (1, kx 1)].
Definition m2 : cmark := lfire m1 [(0, kx 1)] [(0, kx 1); (1, kx 1)].
Definition m3 : cmark := lfire m2 [(1, kx 2)] [(2, kx 1)].
Lemma lz_reached : exists M, rreach (mkR lz [] []) M /\ M 2 (VE 0) = 1%N.
Proof.
  assert (B : binds lz (fun _ => VE 0)) by (intros v ty H; destruct v as [|v]; [cbn in H; injection H as <-; cbn; lia|destruct v; discriminate H]).
  exists m3. split; [|reflexivity]. apply (@reach_step _ m2 1); [apply (@reach_step _ m1 0); [apply (@reach_step _ m0 0); [apply reach_init; reflexivity|]|]|].
  - split; [intros []|]. eexists. exists (fun _ => VE 0). split; [reflexivity|]. split; [|reflexivity]. split; [exact B|]. split; [discriminate|]. split; [|intros p w []]. intros p v. destruct p as [|[|p]]; unfold m0, moved; cbn; destruct v as [[|i]|l]; cbn; lia.
  - split; [intros []|]. eexists. exists (fun _ => VE 0). split; [reflexivity|]. split; [|reflexivity]. split; [exact B|]. split; [discriminate|]. split; [|intros p w []]. intros p v. destruct p as [|[|p]]; unfold m1, m0, lfire, moved; cbn; destruct v as [[|i]|l]; cbn; lia.
  - split; [intros []|]. eexists. exists (fun _ => VE 0). split; [reflexivity|]. split; [|reflexivity]. split; [exact B|]. split; [discriminate|]. split; [|intros p w []]. intros p v. destruct p as [|[|p]]; unfold m2, m1, m0, lfire, moved; cbn; destruct v as [[|i]|l]; cbn; lia.
Qed.

(** Place 0 holds the first and the second colour, place 1 the second.  t0 moves any colour from
    place 0 to place 1, t1 moves it on to place 2. *)
Definition mz : cpn := mkCpn xt [0; 1; 2] [1]
  [ mkCP 1 (Some (ANum [EUser 1 0; EUser 1 1] 1)); mkCP 1 (Some (ANum [EUser 1 1] 1)); mkCP 1 None ]
  [ mkCT None [(0, kx 1)] [(1, kx 1)] 0%Z; mkCT None [(1, kx 1)] [(2, kx 1)] 0%Z ] [].
Lemma mz_ok : cpn_ok mz.
Proof. net_ok 2. Qed.
Lemma mz_once : arcs_once mz.
Proof.
  intros t tr H. do 2 (destruct t as [|t]; [cbn in H; inversion H; subst; split; cbn; repeat constructor; cbn; lia|]). destruct t; discriminate.
Qed.
Lemma mz_ub : preemptive (fun _ => false) pused psame (fun _ => false) (fun _ => UB) (mkR mz [] []) [] = UB.
Proof. vm_compute. reflexivity. Qed.
Lemma mz_run : exists r, preemptive (fun _ => false) pused psame (fun _ => false) (fun t => Ok t) (mkR mz [] []) [] = Ok (r, [0]) /\ r_trs r = [0] /\ r_pls r = [0].
Proof. eexists. vm_compute. split; [reflexivity|split; reflexivity]. Qed.
Lemma mz_any : moves_any (fun _ => false) pused mz.
Proof.
  intros t tr p i H _ E _ _. do 2 (destruct t as [|t]; [cbn in H; inversion H; subst; cbn in E; inversion E; subst; split; [exists 0; reflexivity|cbn; lia]|]). destruct t; discriminate.
Qed.
