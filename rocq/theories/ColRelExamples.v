(** Examples for the removal of what is irrelevant from coloured nets (C49). *)
From Verif Require Import Base BaseLemmas ColSyntax ColSpec ColModel ColExamples ColRedModel ColRedSpec ColRedExamples ColRdpSpec ColPreSpec ColRelModel ColRelSpec.

(** The places 0 and 1 hold the first colour.  t0 takes a colour from place 0, t1 the same
    colour from the places 0 and 1, t2 moves a colour from place 1 to place 2. *)
Definition rz : cpn := mkCpn xt [0; 1; 2] [1]
  [ mkCP 1 (Some (ANum [EUser 1 0] 1)); mkCP 1 (Some (ANum [EUser 1 0] 1)); mkCP 1 None ]
  [ mkCT None [(0, kx 1)] [] 0%Z; mkCT None [(0, kx 1); (1, kx 1)] [] 0%Z; mkCT None [(1, kx 1)] [(2, kx 1)] 0%Z ] [].
Lemma rz_ok : cpn_ok rz.
Proof. net_ok 3. Qed.
Lemma rz_once : arcs_once rz.
Proof.
  intros t tr H. do 3 (destruct t as [|t]; [cbn in H; inversion H; subst; split; cbn; repeat constructor; cbn; lia|]). destruct t; discriminate.
Qed.
(** The query is about t0 and t1. *)
Definition rused (t : nat) : bool := t <? 2.
Definition rz' : rnet := mkR (mkCpn xt [0; 1; 2] [1] (cn_pls rz)
  [ mkCT None [(0, kx 1)] [] 0%Z; mkCT None [(0, kx 1); (1, kx 1)] [] 0%Z; mkCT None [] [] 0%Z ] []) [2] [2].
Lemma rz_run : relevance rused (fun _ => false) (mkR rz [] []) = Ok rz'.
Proof. vm_compute. reflexivity. Qed.
Lemma zero_binds : forall n, cn_types n = xt -> cn_vars n = [1] -> binds n (fun _ => VE 0).
Proof. intros n E1 E2 v ty H. rewrite E1. rewrite E2 in H. destruct v as [|v]; [cbn in H; injection H as <-; cbn; lia|destruct v; discriminate H]. Qed.
Lemma rz_lost : exists M, rreach (mkR rz [] []) M /\ fireable (mkR rz [] []) M 0 /\ ~ fireable (mkR rz [] []) M 1.
Proof.
  set (M := fun p v => (cinit rz p v - moved rz (fun _ => VE 0%nat) [(1%nat, kx 1)] p v + moved rz (fun _ => VE 0%nat) [(2%nat, kx 1)] p v)%N).
  exists M. split; [|split].
  - apply (@reach_step _ (cinit rz) 2); [apply reach_init; reflexivity|]. split; [intros []|]. eexists. exists (fun _ => VE 0). split; [reflexivity|]. split; [|reflexivity].
    split; [apply zero_binds; reflexivity|]. split; [discriminate|]. split; [|intros p w []]. intros p v. destruct p as [|[|p]]; unfold moved; cbn; destruct v as [[|i]|l]; cbn; lia.
  - eexists. split; [intros []|]. eexists. exists (fun _ => VE 0). split; [reflexivity|]. split; [|reflexivity].
    split; [apply zero_binds; reflexivity|]. split; [discriminate|]. split; [|intros p w []]. intros p v. destruct p as [|[|p]]; unfold M, moved; cbn; destruct v as [[|i]|l]; cbn; lia.
  - intros (M1 & _ & (tr & b & ET & (B1 & _ & B3 & _) & _)). injection ET as <-. pose proof (B3 1 (b 0)) as K. unfold M, moved in K. cbn in K.
    pose proof (B1 0 1 eq_refl) as T. cbn in T. destruct (b 0) as [[|i]|l]; [| |contradiction]; cbn in K; try rewrite Nat.eqb_refl in K; lia.
Qed.
Lemma rz_inv : forall M, rreach rz' M -> (forall p v, M p v = cinit rz p v) \/ forall v, M 0 v = 0%N.
Proof.
  intros M R. induction R as [M E|M t M' R IH [NI (tr & b & ET & (B1 & _ & B3 & _) & F)]]; [left; exact E|]. right. cbn [r_net rz'] in *.
  pose proof (B1 0 1 eq_refl) as T. cbn in T. destruct (b 0) as [i|l] eqn:EB; [|contradiction].
  set (c := fun v => if value_eqb (VE i) v then 1%N else 0%N).
  assert (Z : forall v, M' 0 v = (M 0%nat v - c v)%N /\ (c v <= M 0%nat v)%N).
  { intros v. pose proof (B3 0 v) as K. rewrite F. unfold c. destruct t as [|[|[|t]]]; [| |destruct NI; left; reflexivity|destruct t; discriminate ET]; injection ET as <-; unfold moved in *; cbn [ct_in ct_out map fst snd Nat.eqb kx mval cval sumN] in *; rewrite EB in *; destruct (value_eqb (VE i) v); cbn in *; lia. }
  intros v. destruct (Z v) as [Z1 Z2]. destruct (Z (VE i)) as [_ Z3]. rewrite Z1. unfold c in *. destruct IH as [IH|IH]; [|rewrite IH; reflexivity].
  rewrite IH in *. cbn in *. rewrite Nat.eqb_refl in Z3. destruct i as [|i]; cbn in *; [|lia]. destruct v as [[|j]|l]; cbn in *; lia.
Qed.
Lemma rz_never : forall M, rreach rz' M -> fireable rz' M 0 -> fireable rz' M 1.
Proof.
  intros M R (M1 & _ & (tr & b & ET & (B1 & _ & B3 & _) & _)). injection ET as <-. destruct (rz_inv M R) as [E|E].
  - eexists. split; [cbn; lia|]. eexists. exists (fun _ => VE 0). split; [reflexivity|]. split; [|reflexivity].
    split; [apply zero_binds; reflexivity|]. split; [discriminate|]. split; [|intros p w []]. intros p v. rewrite E. destruct p as [|[|p]]; unfold moved; cbn; destruct v as [[|i]|l]; cbn; lia.
  - exfalso. pose proof (B3 0 (b 0)) as K. rewrite E in K. unfold moved in K. cbn in K. pose proof (B1 0 1 eq_refl) as T. cbn in T. destruct (b 0) as [i|l]; [|contradiction]. cbn in K. rewrite Nat.eqb_refl in K. lia.
Qed.

(** The same net with a query about place 1: t0, t1 and t2 and the places 0 and 1 matter, place
    2 does not.  With a query about place 0, t2 does not matter either. *)
Lemma rz_place : exists r, relevance (fun _ => false) (Nat.eqb 0) (mkR rz [] []) = Ok r /\ r_trs r = [2] /\ r_pls r = [2].
Proof. eexists. vm_compute. split; [reflexivity|split; reflexivity]. Qed.

(** Place 0 holds the first colour twice.  t0 puts a token on place 1 while there are less than
    two tokens on place 0.  t1 takes 2'x - 1'y from place 0 and puts 1'x back: two tokens for
    one if the colours differ. *)
Definition hz : cpn := mkCpn xt [0; 1; 2] [1; 1]
  [ mkCP 1 (Some (ANum [EUser 1 0] 2)); mkCP 1 None; mkCP 1 None ]
  [ mkCT None [] [(1, kx 1)] 0%Z; mkCT None [(0, ASub (kx 2) (ANum [EVar 1] 1))] [(0, kx 1)] 0%Z ] [(0, 0, 2%N)].
Lemma hz_ok : cpn_ok hz.
Proof.
  split; [apply xtab; reflexivity|]. split; [|split; [|split]].
  - intros v ty H. destruct v as [|[|v]]; [| |destruct v; discriminate H]; cbn in H; inversion H; subst; eexists; reflexivity.
  - intros p pl H. destruct p as [|[|[|p]]]; cbn in H; try discriminate; [..|destruct p; discriminate]; inversion H; subst; (split; [eexists; reflexivity|]); intros a A; inversion A; subst; repeat split; try discriminate; cbn; try lia; repeat constructor; cbn; auto.
  - intros t tr H. do 2 (destruct t as [|t]; [cbn in H; inversion H; subst; (split; [discriminate|]); split; repeat constructor; eexists; (split; [reflexivity|]); cbn; repeat split; try discriminate; repeat constructor|]). destruct t; discriminate.
  - intros p t w [E|[]]. inversion E; subst. cbn. lia.
Qed.
Lemma hz_once : arcs_once hz.
Proof.
  intros t tr H. do 2 (destruct t as [|t]; [cbn in H; inversion H; subst; split; cbn; repeat constructor; cbn; lia|]). destruct t; discriminate.
Qed.
Definition hz' : rnet := mkR (mkCpn xt [0; 1; 2] [1; 1] (cn_pls hz)
  [ mkCT None [] [(1, kx 1)] 0%Z; mkCT None [] [] 0%Z ] [(0, 0, 2%N)]) [1] [2].
Lemma hz_run : relevance (fun _ => false) (Nat.eqb 1) (mkR hz [] []) = Ok hz'.
Proof. vm_compute. reflexivity. Qed.
Lemma hz_never : forall M, rreach hz' M -> forall p v, M p v = cinit hz p v.
Proof.
  intros M R. induction R as [M E|M t M' R IH [NI (tr & b & ET & (_ & _ & _ & B4) & F)]]; [exact E|]. exfalso.
  destruct t as [|[|t]]; [|destruct NI; left; reflexivity|destruct t; discriminate ET]. specialize (B4 0 2%N (or_introl eq_refl)). unfold total in B4. cbn in B4. rewrite !IH in B4. cbn in B4. lia.
Qed.
Definition hb (v : nat) : value := VE v.
Definition h1 : cmark := fun p v => (cinit hz p v - moved hz hb [(0%nat, ASub (kx 2) (ANum [EVar 1] 1))] p v + moved hz hb [(0%nat, kx 1)] p v)%N.
Definition h2 : cmark := fun p v => (h1 p v - moved hz hb [] p v + moved hz hb [(1%nat, kx 1)] p v)%N.
Lemma hz_reached : exists M, rreach (mkR hz [] []) M /\ M 1 (VE 0) = 1%N.
Proof.
  assert (B : binds hz hb) by (intros v ty H; destruct v as [|[|v]]; [| |destruct v; discriminate H]; cbn in H; injection H as <-; cbn; lia).
  exists h2. split; [|reflexivity]. apply (@reach_step _ h1 0); [apply (@reach_step _ (cinit hz) 1); [apply reach_init; reflexivity|]|].
  - split; [intros []|]. eexists. exists hb. split; [reflexivity|]. split; [|reflexivity]. split; [exact B|]. split; [discriminate|]. split; [|intros p w [E|[]]; inversion E].
    intros p v. destruct p as [|p]; unfold moved; cbn; destruct v as [[|[|i]]|l]; cbn; lia.
  - split; [intros []|]. eexists. exists hb. split; [reflexivity|]. split; [|reflexivity]. split; [exact B|]. split; [discriminate|]. split; [intros p v; unfold moved; cbn; lia|]. intros p w [E|[]]. inversion E; subst. reflexivity.
Qed.
Lemma hz_plain : plain_vars hz.
Proof. intros v ty H. destruct v as [|[|v]]; [| |destruct v; discriminate H]; cbn in H; injection H as <-; cbn; lia. Qed.

(** A query about t0 alone: t2 and place 2 are removed. *)
Lemma rz_single : exists r, relevance (Nat.eqb 0) (fun _ => false) (mkR rz [] []) = Ok r /\ r_trs r = [2] /\ r_pls r = [2].
Proof. eexists. vm_compute. split; [reflexivity|split; reflexivity]. Qed.
Lemma single_apart : forall n t0, apart (Nat.eqb t0) (fun _ => false) n.
Proof. intros n t0 t U. apply Nat.eqb_eq in U. subst t. split; [discriminate|]. intros t' tr' q U' NE. apply Nat.eqb_eq in U'. congruence. Qed.

(** t0 can fire while there is no token on place 0.  t1 puts tokens there. *)
Definition qz : cpn := mkCpn xt [0; 1; 2] [1]
  [ mkCP 1 None; mkCP 1 None; mkCP 1 None ]
  [ mkCT None [] [(1, kx 1)] 0%Z; mkCT None [] [(0, kx 1)] 0%Z ] [(0, 0, 1%N)].
Lemma qz_ok : cpn_ok qz.
Proof.
  split; [apply xtab; reflexivity|]. split; [|split; [|split]].
  - intros v ty H. destruct v as [|v]; [|destruct v; discriminate H]; cbn in H; inversion H; subst; eexists; reflexivity.
  - intros p pl H. destruct p as [|[|[|p]]]; cbn in H; try discriminate; [..|destruct p; discriminate]; inversion H; subst; (split; [eexists; reflexivity|]); intros a A; inversion A.
  - intros t tr H. do 2 (destruct t as [|t]; [cbn in H; inversion H; subst; (split; [discriminate|]); split; repeat constructor; eexists; (split; [reflexivity|]); cbn; repeat split; try discriminate; repeat constructor|]). destruct t; discriminate.
  - intros p t w [E|[]]. inversion E; subst. cbn. lia.
Qed.
Lemma qz_once : arcs_once qz.
Proof.
  intros t tr H. do 2 (destruct t as [|t]; [cbn in H; inversion H; subst; split; cbn; repeat constructor; cbn; lia|]). destruct t; discriminate.
Qed.
Definition qz' : rnet := mkR (mkCpn xt [0; 1; 2] [1] (cn_pls qz) [ mkCT None [] [] 0%Z; mkCT None [] [] 0%Z ] [(0, 0, 1%N)]) [1] [1; 2].
Lemma qz_run : relevance (Nat.eqb 0) (fun _ => false) (mkR qz [] []) = Ok qz'.
Proof. vm_compute. reflexivity. Qed.
Lemma qz_stays : forall M, rreach qz' M -> forall p v, M p v = 0%N.
Proof.
  intros M R. induction R as [M E|M t M' R IH [NI (tr & b & ET & _ & F)]]; intros p v; [rewrite E; unfold cinit; destruct p as [|[|[|p]]]; try reflexivity; destruct p; reflexivity|].
  destruct t as [|[|t]]; [|destruct NI; left; reflexivity|destruct t; discriminate ET]. injection ET as <-. rewrite F, IH. reflexivity.
Qed.
Lemma qz_always : forall M, rreach qz' M -> fireable qz' M 0.
Proof.
  intros M R. eexists. split; [cbn; lia|]. eexists. exists (fun _ => VE 0). split; [reflexivity|]. split; [|reflexivity].
  split; [apply zero_binds; reflexivity|]. split; [discriminate|]. split; [intros p v; unfold moved; cbn; lia|]. intros p w [E|[]]. inversion E; subst. unfold total. cbn. rewrite !(qz_stays M R). reflexivity.
Qed.
Lemma qz_blocked : exists M, rreach (mkR qz [] []) M /\ ~ fireable (mkR qz [] []) M 0.
Proof.
  exists (fun p v => (cinit qz p v - moved qz (fun _ => VE 0%nat) [] p v + moved qz (fun _ => VE 0%nat) [(0%nat, kx 1)] p v)%N). split.
  - apply (@reach_step _ (cinit qz) 1); [apply reach_init; reflexivity|]. split; [intros []|]. eexists. exists (fun _ => VE 0). split; [reflexivity|]. split; [|reflexivity].
    split; [apply zero_binds; reflexivity|]. split; [discriminate|]. split; [intros p v; unfold moved; cbn; lia|]. intros p w [E|[]]. inversion E.
  - intros (M1 & _ & (tr & b & ET & (_ & _ & _ & B4) & _)). specialize (B4 0 1%N (or_introl eq_refl)). unfold total, moved in B4. cbn in B4. lia.
Qed.
