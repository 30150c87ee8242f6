(** Examples for the removal of dead transitions from coloured nets (C46). *)
From Verif Require Import Base BaseLemmas ColSyntax ColSpec ColModel ColExamples ColRedModel ColRedSpec ColRedProofs ColRedMain.

(** k'(x) *)
Definition kx (k : N) : aexp := ANum [EVar 0] k.
Definition dvs (t : nat) : list nat := [0].
Definition dsame (x y : aexp) : bool :=
  match x, y with ANum [EVar a] k, ANum [EVar b] l => Nat.eqb a b && N.eqb k l | _, _ => false end.
Lemma dsame_ok : forall n, same_ok n dsame.
Proof.
  intros n x y H. unfold dsame in H. destruct x as [[|[|a| | | |] [|]] k| | |]; try discriminate H. destruct y as [[|[|b| | | |] [|]] l| | |]; try discriminate H.
  apply andb_prop in H. destruct H as [H1 H2]. apply Nat.eqb_eq in H1. apply N.eqb_eq in H2. subst. auto.
Qed.
Tactic Notation "net_ok" integer(k) := split; [apply xtab; reflexivity|]; split; [|split; [|split]];
  [ intros v ty H; destruct v as [|v]; [cbn in H; inversion H; subst; eexists; reflexivity|destruct v; discriminate]
  | intros p pl H; destruct p as [|[|[|p]]]; cbn in H; try discriminate; [..|destruct p; discriminate]; inversion H; subst; (split; [eexists; reflexivity|]); intros a A; inversion A; subst;
    repeat split; try discriminate; cbn; try lia; repeat constructor; cbn; auto
  | intros t tr H; do k (destruct t as [|t]; [cbn in H; inversion H; subst; (split; [discriminate|]); split; repeat constructor; eexists; (split; [reflexivity|]); cbn; repeat split; try discriminate; repeat constructor|]); destruct t; discriminate
  | intros p t w [] ].

(** Place 0 holds the first colour, place 1 the second.  t0 copies a colour from place 0 to
    place 2.  t1 needs twice the same colour in place 0, t2 in place 1. *)
Definition dz : cpn := mkCpn xt [0; 1; 2] [1]
  [ mkCP 1 (Some (ANum [EUser 1 0] 1)); mkCP 1 (Some (ANum [EUser 1 1] 1)); mkCP 1 None ]
  [ mkCT None [(0, kx 1)] [(0, kx 1); (2, kx 1)] 0%Z;
    mkCT None [(0, kx 2)] [(0, kx 2); (2, kx 1)] 0%Z;
    mkCT None [(1, kx 2)] [(1, kx 1); (2, kx 1)] 0%Z ]
  [].
Lemma dz_ok : cpn_ok dz.
Proof. net_ok 3. Qed.
Lemma dz_once : arcs_once dz.
Proof.
  intros t tr H. do 3 (destruct t as [|t]; [cbn in H; inversion H; subst; split; cbn; repeat constructor; cbn; lia|]). destruct t; discriminate.
Qed.
Lemma dz_vs : vars_ok dz dvs.
Proof.
  intros t tr H. do 3 (destruct t as [|t]; [cbn in H; inversion H; subst; split; cbn; [intros v I; cbn in *; tauto|intros v [<-|[]]; lia]|]). destruct t; discriminate.
Qed.
Lemma dz_back : puts_back dz (fun _ => false).
Proof.
  intros p. right. intros t tr H I. do 3 (destruct t as [|t]; [cbn in H; inversion H; subst; cbn in *; tauto|]). destruct t; discriminate.
Qed.
Lemma dz_run : exists r, dead_transitions (fun _ => false) (fun _ => false) dsame (fun _ _ => false) dvs (fun _ => false) (mkR dz [] []) = Ok r /\ r_trs r = [2; 1] /\ r_pls r = [1].
Proof. eexists. split; [vm_compute; reflexivity|]. split; reflexivity. Qed.

(** Place 0 holds the first colour, place 1 the second.  t0 takes the same colour from both
    and puts it back into place 0 and into place 2: it can never fire.  t1 needs twice the
    same colour in place 0. *)
Definition bz : cpn := mkCpn xt [0; 1; 2] [1]
  [ mkCP 1 (Some (ANum [EUser 1 0] 1)); mkCP 1 (Some (ANum [EUser 1 1] 1)); mkCP 1 None ]
  [ mkCT None [(0, kx 1); (1, kx 1)] [(0, kx 1); (2, kx 1)] 0%Z;
    mkCT None [(0, kx 2)] [] 0%Z ]
  [].
Lemma bz_ok : cpn_ok bz.
Proof. net_ok 2. Qed.
Lemma bz_once : arcs_once bz.
Proof.
  intros t tr H. do 2 (destruct t as [|t]; [cbn in H; inversion H; subst; split; cbn; repeat constructor; cbn; lia|]). destruct t; discriminate.
Qed.
Lemma bz_vs : vars_ok bz dvs.
Proof.
  intros t tr H. do 2 (destruct t as [|t]; [cbn in H; inversion H; subst; split; cbn; [intros v I; cbn in *; tauto|intros v [<-|[]]; lia]|]). destruct t; discriminate.
Qed.
(** The query is about place 2. *)
Definition bused (p : nat) : bool := Nat.eqb p 2.
Definition bz' : rnet := mkR (mkCpn xt [0; 1; 2] [1]
  [ mkCP 1 (Some (ANum [EUser 1 0] 1)); mkCP 1 (Some (ANum [EUser 1 1] 1)); mkCP 1 None ]
  [ mkCT None [(1, kx 1)] [(2, kx 1)] 0%Z; mkCT None [] [] 0%Z ] []) [1] [0].
Lemma bz_run : dead_transitions (fun _ => false) bused dsame (fun _ _ => false) dvs (fun _ => false) (mkR bz [] []) = Ok bz'.
Proof. vm_compute. reflexivity. Qed.
Lemma bz_never : forall M, rreach (mkR bz [] []) M -> forall p v, M p v = cinit bz p v.
Proof.
  intros M R. induction R as [M E|M t M' R IH [_ (tr & b & ET & (B1 & _ & B3 & _) & _)]]; [exact E|]. exfalso. cbn [r_net] in *.
  pose proof (B1 0 1 eq_refl) as T. cbn in T. destruct (b 0) as [i|l] eqn:EB; [|contradiction].
  destruct t as [|[|t]]; [| |destruct t; discriminate ET]; injection ET as <-.
  - destruct i as [|i].
    + pose proof (B3 1 (VE 0)) as K. rewrite IH in K. unfold moved in K. cbn in K. rewrite EB in K. cbn in K. lia.
    + pose proof (B3 0 (VE (S i))) as K. rewrite IH in K. unfold moved in K. cbn in K. rewrite EB in K. cbn in K. rewrite Nat.eqb_refl in K. lia.
  - pose proof (B3 0 (VE i)) as K. rewrite IH in K. unfold moved in K. cbn in K. rewrite EB in K. destruct i; cbn in K; try rewrite Nat.eqb_refl in K; lia.
Qed.
Lemma bz_reached : exists M, rreach bz' M /\ M 2 (VE 1) = 1%N.
Proof.
  exists (fun p v => (cinit (r_net bz') p v - moved (r_net bz') (fun _ => VE 1%nat) [(1%nat, kx 1)] p v + moved (r_net bz') (fun _ => VE 1%nat) [(2%nat, kx 1)] p v)%N).
  split; [|reflexivity]. apply (@reach_step _ (cinit (r_net bz')) 0); [apply reach_init; reflexivity|]. split; [cbn; intros [K|[]]; discriminate K|].
  exists (mkCT None [(1, kx 1)] [(2, kx 1)] 0%Z), (fun _ => VE 1). split; [reflexivity|]. split; [|reflexivity]. split; [|split; [discriminate|split]].
  - intros v ty H. destruct v as [|v]; [cbn in H; injection H as <-; cbn; lia|destruct v; discriminate H].
  - intros p v. destruct p as [|[|p]]; unfold moved; cbn; lia.
  - intros p w [].
Qed.
