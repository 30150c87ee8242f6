(** Examples for the removal of redundant places from coloured nets (C47). *)
From Verif Require Import Base BaseLemmas ColSyntax ColSpec ColModel ColExamples ColRedModel ColRedSpec ColRedExamples ColRdpModel ColRdpSpec.

(** Place 0 holds both colours and gets back, twice, what t0 takes; t0 also moves a colour from
    place 1 to place 2. *)
Definition uz : cpn := mkCpn xt [0; 1; 2] [1]
  [ mkCP 1 (Some (AAdd [ANum [EUser 1 0] 1; ANum [EUser 1 1] 1])); mkCP 1 (Some (ANum [EUser 1 0] 1)); mkCP 1 None ]
  [ mkCT None [(0, kx 1); (1, kx 1)] [(0, AScal (kx 1) 2); (2, kx 1)] 0%Z ]
  [].
Lemma uz_ok : cpn_ok uz.
Proof. net_ok 1. Qed.
Lemma uz_once : arcs_once uz.
Proof.
  intros t tr H. destruct t as [|t]; [cbn in H; inversion H; subst; split; cbn; repeat constructor; cbn; lia|]. destruct t; discriminate.
Qed.
Lemma uz_vs : vars_ok uz dvs.
Proof.
  intros t tr H. destruct t as [|t]; [cbn in H; inversion H; subst; split; cbn; [intros v I; cbn in *; tauto|intros v [<-|[]]; lia]|]. destruct t; discriminate.
Qed.
Lemma uz_plain : plain_vars uz.
Proof. intros v ty H. destruct v as [|v]; [cbn in H; injection H as <-; cbn; lia|destruct v; discriminate H]. Qed.
Lemma uz_run : exists r, redundant_places (fun p => Nat.eqb p 2) dvs (fun _ => false) (mkR uz [] []) = Ok r /\ r_pls r = [0] /\ map ct_in (cn_trs (r_net r)) = [[(1, kx 1)]].
Proof. eexists. split; [vm_compute; reflexivity|]. split; reflexivity. Qed.

(** Place 0 holds all pairs of colours.  t0 takes the pair x and puts back the pair (y, z). *)
Definition pair (i j : nat) : cexp := ETup [EUser 1 i; EUser 1 j].
Definition tz : cpn := mkCpn xt [0; 1; 2] [2; 1; 1]
  [ mkCP 2 (Some (ANum [pair 0 0; pair 0 1; pair 1 0; pair 1 1] 1)); mkCP 1 None ]
  [ mkCT None [(0, ANum [EVar 0] 1)] [(0, ANum [ETup [EVar 1; EVar 2]] 1); (1, ANum [EVar 1] 1)] 0%Z ]
  [].
Definition tvs (t : nat) : list nat := [0; 1; 2].
Lemma tz_ok : cpn_ok tz.
Proof.
  split; [apply xtab; reflexivity|]. split; [|split; [|split]].
  - intros v ty H. do 3 (destruct v as [|v]; [cbn in H; inversion H; subst; eexists; reflexivity|]). destruct v; discriminate.
  - intros p pl H. destruct p as [|[|p]]; cbn in H; [..|destruct p; discriminate]; inversion H; subst; (split; [eexists; reflexivity|]); intros a A; inversion A; subst.
    split; [|split; [|cbn; lia]].
    + split; [discriminate|]. repeat (constructor; [exists [1; 1]; cbn; repeat split; auto|]). constructor.
    + cbn. repeat (constructor; [cbn; auto|]). constructor.
  - intros t tr H. destruct t as [|t]; cbn in H; [|destruct t; discriminate]. inversion H; subst. split; [discriminate|]. split; repeat constructor; eexists; (split; [reflexivity|]); cbn.
    + repeat split; try discriminate. repeat constructor.
    + repeat split; try discriminate. constructor; [|constructor]. exists [1; 1]. cbn. repeat split; auto.
    + repeat split; try discriminate. repeat constructor.
  - intros p t w [].
Qed.
Lemma tz_once : arcs_once tz.
Proof.
  intros t tr H. destruct t as [|t]; [cbn in H; inversion H; subst; split; cbn; repeat constructor; cbn; lia|]. destruct t; discriminate.
Qed.
Lemma tz_vs : vars_ok tz tvs.
Proof.
  intros t tr H. destruct t as [|t]; [cbn in H; inversion H; subst; split; [intros v I; cbn in *; tauto|intros v I; cbn in *; lia]|]. destruct t; discriminate.
Qed.
Lemma tz_run : redundant_places (fun _ => false) tvs (fun _ => false) (mkR tz [] []) = Throw.
Proof. vm_compute. reflexivity. Qed.
