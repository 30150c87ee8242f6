(** Concrete nets for C44, queries about fireable transitions. *)
From Verif Require Import Base BaseLemmas NetSpec NetModel BuilderModel ColSyntax ColSpec ExpSyntax ExpSpec ExpModel ExpExamples PqlSyntax PqlSpec PqlModel
  IgnModel IgnSpec IgnCheck IgnMain IgnExamples IgnFireModel IgnFireSpec.

(** One token that changes its colour, and an empty place in front of the second
    transition. *)
Definition fz : cpn := mkCpn en_types [0; 1; 2] [1]
  [ mkCP 1 (Some (ANum [EUser 1 0] 1)); mkCP 1 None ]
  [ mkCT None [(0, ANum [EVar 0] 1)] [(0, ANum [ESucc (EVar 0)] 1)] 0%Z; mkCT None [(1, ANum [EVar 0] 1); (0, ANum [EVar 0] 1)] [] 0%Z ] [].
Lemma fz_ok : cpn_ok fz.
Proof.
  split; [apply etab; reflexivity|]. split; [|split; [|split]].
  - intros v ty H. destruct v; [cbn in H; inversion H; subst; eexists; reflexivity|]. destruct v; discriminate.
  - intros p pl H. destruct p as [|[|p]]; cbn in H; try discriminate; [..|destruct p; discriminate]; inversion H; subst; (split; [eexists; reflexivity|]); intros a A; inversion A; subst.
    repeat split; try discriminate; cbn; try lia; repeat constructor; cbn; auto.
  - intros t tr H. destruct t as [|[|t]]; cbn in H; [..|destruct t; discriminate]; inversion H; subst.
    + split; [discriminate|]. split; repeat constructor; eexists; (split; [reflexivity|]); cbn; repeat split; try discriminate; repeat constructor.
    + split; [discriminate|]. split; repeat constructor; eexists; (split; [reflexivity|]); cbn; repeat split; try discriminate; repeat constructor.
  - intros p t w [].
Qed.
Lemma fz_pos : arcs_pos fz.
Proof.
  intros t tr x H I. destruct t as [|[|t]]; cbn in H; [..|destruct t; discriminate]; inversion H; subst; cbn in I; intuition; subst; cbn; try discriminate.
Qed.

(** A transition without arcs and with a guard that is never true. *)
Definition fu : cpn := mkCpn en_types [0; 1; 2] [1] [ mkCP 1 None ] [ mkCT (Some (GNe (EVar 0) (EVar 0))) [] [] 0%Z ] [].
Lemma fu_ok : cpn_ok fu.
Proof.
  split; [apply etab; reflexivity|]. split; [|split; [|split]].
  - intros v ty H. destruct v; [cbn in H; inversion H; subst; eexists; reflexivity|]. destruct v; discriminate.
  - intros p pl H. destruct p as [|p]; cbn in H; try discriminate; [..|destruct p; discriminate]; inversion H; subst; (split; [eexists; reflexivity|]); intros a A; inversion A.
  - intros t tr H. destruct t as [|t]; cbn in H; [..|destruct t; discriminate]; inversion H; subst.
    split; [|split; constructor]. intros g G. inversion G; subst. cbn. exists 1. auto.
  - intros p t w [].
Qed.
Lemma fu_pos : arcs_pos fu.
Proof. intros t tr x H I. destruct t as [|t]; cbn in H; [..|destruct t; discriminate]; inversion H; subst. destruct I. Qed.

(** What the check does: the numbers of the first [k] transitions, the compiled query,
    the arcs the transitions take tokens with, and the answer. *)
Definition fi_idx (tnum : nat -> option nat) (t : nat) : nat := match tnum t with Some i => i | None => 0 end.
Definition fi_out : Type := list (option nat) * bool * list (list arc) * verdict.
Section Gen.
Variable comp : cnet -> (nat -> nat) -> res cond.
Variable chk : cnet -> cond -> res verdict.
Definition fi_check (x : res cnet) (y : res ((nat -> option nat) * (nat -> option nat))) (k : nat) : res fi_out :=
  net <- x ;; ns <- y ;;
  c <- comp net (fi_idx (snd ns)) ;;
  v <- chk net c ;;
  Ok (map (snd ns) (seq 0 k), in_range c, map (fun t => tr_pre (net_trans net (fi_idx (snd ns) t))) (seq 0 k), v).
Lemma fi_split : forall x y k ts b arcs v, fi_check x y k = Ok (ts, b, arcs, v) ->
  exists net pnum tnum c, x = Ok net /\ y = Ok (pnum, tnum) /\ map tnum (seq 0 k) = ts /\ comp net (fi_idx tnum) = Ok c /\ in_range c = b /\
    map (fun t => tr_pre (net_trans net (fi_idx tnum t))) (seq 0 k) = arcs /\ chk net c = Ok v.
Proof.
  intros x y k ts b arcs v H. unfold fi_check in H. destruct x as [net| | |]; try discriminate H. destruct y as [[pnum tnum]| | |]; try discriminate H. cbn [bind snd] in H.
  destruct (comp net (fi_idx tnum)) as [c| | |] eqn:E; try discriminate H. cbn [bind] in H.
  destruct (chk net c) as [w| | |] eqn:K; try discriminate H. cbn [bind] in H. injection H as <- <- <- <-.
  exists net, pnum, tnum, c. auto 10.
Qed.

Lemma fi_case2 : forall x y v, fi_check x y 2 = Ok ([Some 0; Some 1], true, [[mkArc 0 1 false]; [mkArc 0 1 false; mkArc 1 1 false]], v) ->
  exists net pnum tnum tidx c, x = Ok net /\ y = Ok (pnum, tnum) /\
  (forall t, t < 2 -> tnum t = Some (tidx t)) /\ Forall (fun t => t < 2 /\ takes net (tidx t)) [0; 1] /\
  comp net tidx = Ok c /\ in_range c = true /\ chk net c = Ok v.
Proof.
  intros x y v H. destruct (fi_split _ _ _ _ _ _ _ H) as (net & pnum & tnum & c & E1 & E2 & E3 & E4 & E5 & E6 & E7).
  exists net, pnum, tnum, (fi_idx tnum), c. split; [exact E1|]. split; [exact E2|]. cbn [map seq] in E3, E6. assert (T0 := f_equal (fun l => nth 0 l None) E3). assert (T1 := f_equal (fun l => nth 1 l None) E3).
  assert (A0 := f_equal (fun l => nth 0 l []) E6). assert (A1 := f_equal (fun l => nth 1 l []) E6). cbn [nth] in T0, T1, A0, A1.
  split; [|split; [|split; [exact E4|split; [exact E5|exact E7]]]].
  - intros t Lt. unfold fi_idx. destruct t as [|[|t]]; [rewrite T0; reflexivity|rewrite T1; reflexivity|lia].
  - constructor; [|constructor; [|constructor]]; (split; [lia|]); unfold takes.
    + rewrite A0. eexists. split; [left; reflexivity|]. split; reflexivity.
    + rewrite A1. eexists. split; [left; reflexivity|]. split; reflexivity.
Qed.
Lemma fi_case1 : forall x y v, fi_check x y 1 = Ok ([Some 0], true, [[]], v) ->
  exists net pnum tnum tidx c, x = Ok net /\ y = Ok (pnum, tnum) /\
  (forall t, t < 1 -> tnum t = Some (tidx t)) /\ comp net tidx = Ok c /\ in_range c = true /\ chk net c = Ok v.
Proof.
  intros x y v H. destruct (fi_split _ _ _ _ _ _ _ H) as (net & pnum & tnum & c & E1 & E2 & E3 & E4 & E5 & E6 & E7).
  exists net, pnum, tnum, (fi_idx tnum), c. split; [exact E1|]. split; [exact E2|]. cbn [map seq] in E3. assert (T0 := f_equal (fun l => nth 0 l None) E3). cbn [nth] in T0.
  split; [|split; [exact E4|split; [exact E5|exact E7]]]. intros t Lt. unfold fi_idx. destruct t as [|t]; [rewrite T0; reflexivity|lia].
Qed.
End Gen.
Definition fz_q : fquery := QEF (FAnd [FFire 0; FFire 1]).
Lemma fz_check : fi_check (fun net i => qcompile net i fz_q) (fun net c => check_fireability net 20 (fun _ => false) (fun _ _ => 0) 20 c) (ignorant_net fz ig_name 10) (numbers fz ig_name 10) 2 =
  Ok ([Some 0; Some 1], true, [[mkArc 0 1 false]; [mkArc 0 1 false; mkArc 1 1 false]], Unsatisfied).
Proof. vm_compute. reflexivity. Qed.
Lemma fu_check : fi_check (fun net i => qcompile net i (QEF (FFire 0))) (fun net c => check_fireability net 20 (fun _ => false) (fun _ _ => 0) 20 c) (ignorant_net fu ig_name 10) (numbers fu ig_name 10) 1 =
  Ok ([Some 0], true, [[]], Satisfied).
Proof. vm_compute. reflexivity. Qed.

Lemma fz_case : exists net pnum tnum tidx c, ignorant_net fz ig_name 10 = Ok net /\ numbers fz ig_name 10 = Ok (pnum, tnum) /\
  (forall t, t < length (cn_trs fz) -> tnum t = Some (tidx t)) /\ Forall (fun t => t < length (cn_trs fz) /\ takes net (tidx t)) (qtrans fz_q) /\
  qcompile net tidx fz_q = Ok c /\ in_range c = true /\ check_fireability net 20 (fun _ => false) (fun _ _ => 0) 20 c = Ok Unsatisfied.
Proof. exact (fi_case2 _ _ _ _ _ fz_check). Qed.

Lemma fu_never : ~ fmeans fu (QEF (FFire 0)).
Proof.
  intros (M & _ & M' & tr & b & H & EN & _). cbn in H. inversion H; subst. destruct EN as (_ & G & _). specialize (G _ eq_refl). cbn [gval] in G. rewrite value_eqb_same in G. discriminate G.
Qed.
Lemma fu_case : exists net pnum tnum tidx c, ignorant_net fu ig_name 10 = Ok net /\ numbers fu ig_name 10 = Ok (pnum, tnum) /\
  (forall t, t < length (cn_trs fu) -> tnum t = Some (tidx t)) /\
  qcompile net tidx (QEF (FFire 0)) = Ok c /\ in_range c = true /\ check_fireability net 20 (fun _ => false) (fun _ _ => 0) 20 c = Ok Satisfied.
Proof. exact (fi_case1 _ _ _ _ _ fu_check). Qed.
