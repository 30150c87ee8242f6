(** Concrete nets for C37: a case for the theorems, and the refutations. *)
From Verif Require Import Base BaseLemmas ColSyntax ColSpec ColModel ExpSyntax ExpSpec ExpModel ExpShow.

(** Colours {a, b} and pairs of them.  t0 takes x from p0 when there are fewer than two
    tokens in p2 and puts the pair (x, x++) in p1; t1 takes a pair of different colours
    back; t2 takes two x without one b from p2. *)
Definition en_types : list tdecl := [TEnum 1; TEnum 2; TProd [1; 1]].
Definition en : cpn := mkCpn en_types [0; 1; 2] [1; 1]
  [ mkCP 1 (Some (AAdd [ANum [EUser 1 0] 1; ANum [EUser 1 1] 2]));
    mkCP 2 None;
    mkCP 1 (Some (AScal (ANum [EUser 1 1] 1) 2)) ]
  [ mkCT None [(0, ANum [EVar 0] 1)] [(1, ANum [ETup [EVar 0; ESucc (EVar 0)]] 1)] 0%Z;
    mkCT (Some (GOr (GNe (EVar 0) (EVar 1)) (GLt (EVar 0) (EVar 1)))) [(1, ANum [ETup [EVar 0; EVar 1]] 1)]
          [(0, ANum [EVar 1] 1)] 0%Z;
    mkCT None [(2, ASub (ANum [EVar 0] 2) (ANum [EUser 1 1] 1))] [] 0%Z ]
  [ (2, 0, 2%N) ].
Definition en_q : kquery := KQAnd [KQLt (TLit 1) (TPlace 1); KQNot KQDead; KQEq (TPlace 2) (TLit 0)].
Definition en_inv : kquery := KQOr [KQLe (TPlace 0) (TLit 3); KQFire 2].

Definition run {C} (g : knet -> kmark -> C -> res (gout C)) (s : knet -> C) n pk qt q : res sresult :=
  net <- build n ;; search net (g net) (s net) pk qt q (30 * 100).
Definition summary (r : res sresult) : res (bool * bool * option nat) := x <- r ;; Ok (sr_answer x, sr_full x, sr_id x).
Lemma run_inv : forall {C} (g : knet -> kmark -> C -> res (gout C)) s n pk qt q x, summary (run g s n pk qt q) = Ok x ->
  exists net r, build n = Ok net /\ search net (g net) (s net) pk qt q (30 * 100) = Ok r /\ sr_answer r = fst (fst x) /\ sr_full r = snd (fst x) /\ sr_id r = snd x.
Proof.
  intros C g s n pk qt q x H. unfold summary, run in H. destruct (build n) as [net| | |]; try discriminate. cbn [bind] in H.
  exists net. destruct (search net (g net) (s net) pk qt q (30 * 100)) as [r| | |]; try discriminate. exists r. cbn [bind] in H. inversion H; subst. auto 6.
Qed.

Lemma small_types : forall tab k, forallb (fun ty => (length (values tab ty) <? k)%nat) (seq 0 (length tab)) = true ->
  (N.of_nat k < 4294967296)%N -> (0 < k)%nat -> forall ty, (N.of_nat (length (values tab ty)) < 4294967296)%N.
Proof.
  intros tab k H K P ty. destruct (Nat.lt_ge_cases ty (length tab)) as [L|L].
  - rewrite forallb_forall in H. specialize (H ty ltac:(apply in_seq; lia)). apply Nat.ltb_lt in H. lia.
  - unfold values. apply nth_error_None in L. rewrite L. cbn. lia.
Qed.

Lemma etab : forall n, cn_types n = en_types -> cn_map n = [0; 1; 2] -> tab_ok n.
Proof.
  intros n E1 E2. unfold tab_ok. rewrite E1, E2. split; [reflexivity|]. repeat split.
  - intros ty k H. do 3 (destruct ty; [cbn in H; inversion H; subst; lia|]). destruct ty; discriminate.
  - intros ty cs c H I. do 3 (destruct ty; [cbn in H; inversion H; subst; cbn in I; intuition; subst; cbn; lia|]). destruct ty; discriminate.
  - intros t1 t2 cs H1 H2. do 3 (destruct t1; [cbn in H1; try discriminate|]); [|destruct t1; discriminate].
    do 3 (destruct t2; [cbn in H2; try discriminate|]); [auto|destruct t2; discriminate].
  - intros ty cs H. do 3 (destruct ty; [cbn; auto|]). destruct ty; discriminate.
Qed.

Lemma en_ok : cpn_ok en.
Proof.
  split; [apply etab; reflexivity|]. split; [|split; [|split]].
  - intros v ty H. do 2 (destruct v; [cbn in H; inversion H; subst; eexists; reflexivity|]). destruct v; discriminate.
  - intros p pl H. destruct p as [|[|[|p]]]; cbn in H; try discriminate; [..|destruct p; discriminate]; inversion H; subst; (split; [eexists; reflexivity|]); intros a A; inversion A; subst.
    + repeat split; try discriminate; cbn; try lia; repeat constructor; try discriminate; cbn; auto.
    + repeat split; try discriminate; cbn; try lia; repeat constructor; cbn; auto.
  - intros t tr H. destruct t as [|[|[|t]]]; cbn in H; [..|destruct t; discriminate]; inversion H; subst.
    + split; [discriminate|]. split; repeat constructor; eexists; (split; [reflexivity|]); cbn.
      * repeat split; try discriminate. repeat constructor.
      * repeat split; try discriminate. constructor; [|constructor]. exists [1; 1]. cbn. repeat split; auto.
    + split.
      * intros g E. inversion E; subst. cbn. split; [exists 1; auto|]. exists 1. unfold esize. cbn. repeat split; auto; lia.
      * split; repeat constructor; eexists; (split; [reflexivity|]); cbn.
        -- repeat split; try discriminate. constructor; [|constructor]. exists [1; 1]. cbn. repeat split; auto.
        -- repeat split; try discriminate; repeat constructor; try discriminate.
    + split; [discriminate|]. split; repeat constructor. eexists; (split; [reflexivity|]); cbn.
      repeat split; try discriminate; repeat constructor.
  - intros p t w [H|[]]. inversion H; subst. cbn. lia.
Qed.

Lemma en_exp : exp_ok en.
Proof.
  split; [|split].
  - intros v ty H. do 2 (destruct v; [cbn in H; inversion H; subst; cbn; lia|]). destruct v; discriminate.
  - apply (small_types _ 5); [reflexivity|reflexivity|lia].
  - intros t tr H. destruct t as [|[|[|t]]]; cbn in H; [..|destruct t; discriminate]; inversion H; subst;
      (split; [repeat constructor; intros []|]).
    3: { split; [|constructor]. constructor; [|constructor]. cbn. split; [split; discriminate|]. split; [split; [auto|split; [auto|]]|].
         - right. left. repeat constructor.
         - intros es E; discriminate. }
    all: split; repeat constructor; cbn; try discriminate; auto; intros es E; cbn in E; inversion E; subst; cbn; discriminate.
Qed.

Lemma en_query : query_ok en_q /\ query_ok en_inv.
Proof. cbn. repeat split; lia. Qed.

Lemma en_case : exists net r1 r2 r3 r4, cpn_ok en /\ exp_ok en /\ build en = Ok net /\ query_ok en_q /\ query_ok en_inv /\
  search net (fixed_gen net) (0, 0) (fun f => f) QEF en_q (30 * 100) = Ok r1 /\ sr_answer r1 = true /\ sr_id r1 = Some 23 /\
  search net (fixed_gen net) (0, 0) (fun _ => 0) QAG en_inv (30 * 100) = Ok r2 /\ sr_answer r2 = true /\ sr_full r2 = true /\
  search net (even_gen net false) (even0 net) (fun f => f) QEF en_q (30 * 100) = Ok r3 /\ sr_answer r3 = true /\ sr_id r3 = Some 13 /\
  search net (even_gen net false) (even0 net) (fun f => f) QAG en_inv (30 * 100) = Ok r4 /\ sr_answer r4 = true /\ sr_full r4 = true.
Proof.
  destruct (run_inv fixed_gen (fun _ => (0, 0)) en (fun f => f) QEF en_q (true, true, Some 23) ltac:(vm_compute; reflexivity)) as (net & r1 & B & S1 & A1 & _ & I1).
  destruct (run_inv fixed_gen (fun _ => (0, 0)) en (fun _ => 0) QAG en_inv (true, true, None) ltac:(vm_compute; reflexivity)) as (net2 & r2 & B2 & S2 & A2 & F2 & _).
  destruct (run_inv (fun net => even_gen net false) even0 en (fun f => f) QEF en_q (true, true, Some 13) ltac:(vm_compute; reflexivity)) as (net3 & r3 & B3 & S3 & A3 & _ & I3).
  destruct (run_inv (fun net => even_gen net false) even0 en (fun f => f) QAG en_inv (true, true, None) ltac:(vm_compute; reflexivity)) as (net4 & r4 & B4 & S4 & A4 & F4 & _).
  rewrite B in B2, B3, B4. inversion B2; inversion B3; inversion B4; subst. destruct en_query.
  exists net4, r1, r2, r3, r4. pose proof en_ok. pose proof en_exp. cbn [fst snd] in *. repeat (split; [assumption|]). assumption.
Qed.

(** ** The default generator reads past the end of the transitions *)
Lemma even_bounds : exists n net pick qt q fuel, cpn_ok n /\ exp_ok n /\ query_ok q /\ build n = Ok net /\
  search net (even_gen net true) (even0 net) pick qt q fuel = UB.
Proof.
  assert (H : run (fun net => even_gen net true) even0 en (fun f => f) QEF en_q = UB) by (vm_compute; reflexivity). unfold run in H.
  destruct (build en) as [net| | |] eqn:B; try discriminate. cbn [bind] in H.
  exists en, net, (fun f => f), QEF, en_q, (30 * 100). split; [exact en_ok|]. split; [exact en_exp|]. split; [exact (proj1 en_query)|]. auto.
Qed.

(** ** More than 65535 bytes for a marking *)
Definition bn : cpn := mkCpn [TEnum 1] [0] [] (repeat (mkCP 0 None) (N.to_nat 65536)) [] [].
Lemma dot_tab : forall n, cn_types n = [TEnum 1] -> tab_ok n.
Proof.
  intros n E1. unfold tab_ok. rewrite E1. split; [reflexivity|]. repeat split.
  - intros ty k H. destruct ty; [cbn in H; inversion H; subst; lia|]. destruct ty; discriminate.
  - intros ty cs c H I. destruct ty; [discriminate|]. destruct ty; discriminate.
  - intros t1 t2 cs H1 H2. destruct t1; [discriminate|destruct t1; discriminate].
  - intros ty cs H. destruct ty; [discriminate|]. destruct ty; discriminate.
Qed.
Lemma rep_ok : forall k, let n := mkCpn [TEnum 1] [0] [] (repeat (mkCP 0 None) k) [] [] in cpn_ok n /\ exp_ok n.
Proof.
  intros k n. split.
  - split; [apply dot_tab; reflexivity|]. split; [|split; [|split]].
    + intros [|v] ty H; discriminate.
    + intros p pl H. cbn [n cn_pls] in H. apply nth_error_In, repeat_spec in H. subst. split; [eexists; reflexivity|discriminate].
    + intros [|t] tr H; discriminate.
    + intros p t w [].
  - split; [|split].
    + intros [|v] ty H; discriminate.
    + apply (small_types _ 5); [reflexivity|reflexivity|lia].
    + intros [|t] tr H; discriminate.
Qed.
Lemma not_full : exists n net pick qt q fuel r, cpn_ok n /\ exp_ok n /\ query_ok q /\ build n = Ok net /\
  search net (fixed_gen net) (0, 0) pick qt q fuel = Ok r /\ sr_answer r = false /\ holds n qt q.
Proof.
  assert (H : summary (run fixed_gen (fun _ => (0, 0)) bn (fun f => f) QAG (KQAnd [])) = Ok (false, false, None)) by (vm_compute; reflexivity).
  destruct (run_inv _ _ _ _ _ _ _ H) as (net & r & B & S & A & _).
  exists bn, net, (fun f => f), QAG, (KQAnd []), (30 * 100), r. split; [apply rep_ok|]. split; [apply rep_ok|]. split; [cbn; auto|]. split; [exact B|]. split; [exact S|].
  split; [exact A|]. intros M _. cbn. auto.
Qed.

(** ** A tuple of constants from types of different sizes *)
Definition tn : cpn := mkCpn [TEnum 1; TEnum 2; TEnum 5; TProd [1; 2]] [0; 1; 2; 3] [2] [mkCP 3 None; mkCP 0 (Some (ANum [EDot] 1))]
  [ mkCT None [(1, ANum [EDot] 1)] [(0, ANum [ETup [EUser 1 0; EUser 2 4]] 1)] 0%Z;
    mkCT (Some (GEq (EVar 0) (EUser 2 4))) [(0, ANum [ETup [EUser 1 0; EVar 0]] 1)] [] 0%Z ] [].
Lemma ttab : tab_ok tn.
Proof.
  unfold tab_ok. cbn [tn cn_types cn_map]. split; [reflexivity|]. repeat split.
  - intros ty k H. do 4 (destruct ty; [cbn in H; inversion H; subst; lia|]). destruct ty; discriminate.
  - intros ty cs c H I. do 4 (destruct ty; [cbn in H; inversion H; subst; cbn in I; intuition; subst; cbn; lia|]). destruct ty; discriminate.
  - intros t1 t2 cs H1 H2. do 4 (destruct t1; [cbn in H1; try discriminate|]); [|destruct t1; discriminate].
    do 4 (destruct t2; [cbn in H2; try discriminate|]); [auto|destruct t2; discriminate].
  - intros ty cs H. do 4 (destruct ty; [cbn; auto|]). destruct ty; discriminate.
Qed.
Lemma tn_ok : cpn_ok tn.
Proof.
  split; [exact ttab|]. split; [|split; [|split]].
  - intros v ty H. destruct v; [cbn in H; inversion H; subst; eexists; reflexivity|]. destruct v; discriminate.
  - intros p pl H. destruct p as [|[|p]]; cbn in H; try discriminate; [..|destruct p; discriminate]; inversion H; subst; (split; [eexists; reflexivity|]); intros a A; inversion A; subst.
    repeat split; try discriminate; cbn; try lia; repeat constructor; cbn; auto.
  - intros t tr H. destruct t as [|[|t]]; cbn in H; [..|destruct t; discriminate]; inversion H; subst.
    + split; [discriminate|]. split; repeat constructor; eexists; (split; [reflexivity|]); cbn.
      * repeat split; try discriminate. repeat constructor.
      * repeat split; try discriminate. constructor; [|constructor]. exists [1; 2]. cbn. unfold esize. cbn. repeat split; auto; lia.
    + split.
      * intros g E. inversion E; subst. exists 2. cbn. unfold esize. cbn. repeat split; auto; lia.
      * split; repeat constructor; eexists; (split; [reflexivity|]); cbn.
        repeat split; try discriminate. constructor; [|constructor]. exists [1; 2]. cbn. unfold esize. cbn. repeat split; auto; lia.
  - intros p t w [].
Qed.

Definition after (n : cpn) (M : cmark) (t : nat) (s : assignment) : cmark := fun p v =>
  match nth_error (cn_trs n) t with
  | Some tr => (M p v - moved n s (ct_in tr) p v + moved n s (ct_out tr) p v)%N
  | None => M p v
  end.
Lemma step_after : forall n M t tr s, nth_error (cn_trs n) t = Some tr -> cenabled n M t tr s -> cstep n M t (after n M t s).
Proof. intros n M t tr s E C. exists tr, s. split; auto. split; auto. intros p v. unfold after. rewrite E. reflexivity. Qed.

(** Tokens at one colour only: enough to look there. *)
Lemma at_one : forall (f g : nat -> value -> N) p0 v0, (forall p v, p <> p0 \/ v <> v0 -> f p v = 0%N) -> (f p0 v0 <= g p0 v0)%N -> forall p v, (f p v <= g p v)%N.
Proof.
  intros f g p0 v0 H L p v. assert (D : {v = v0} + {v <> v0}) by (decide equality; [apply Nat.eq_dec|apply (list_eq_dec Nat.eq_dec)]).
  destruct (Nat.eq_dec p p0) as [->|]; [destruct D as [->|]|]; auto; rewrite H by auto; lia.
Qed.
Lemma value_eqb_ne : forall u v, u <> v -> value_eqb u v = false.
Proof.
  intros [i|l] [j|m] H; cbn; auto.
  - apply Nat.eqb_neq. congruence.
  - destruct (list_eq_dec Nat.eq_dec l m); congruence.
Qed.
Lemma value_eqb_same : forall u, value_eqb u u = true.
Proof. intros [i|l]; cbn; [apply Nat.eqb_refl|]. destruct (list_eq_dec Nat.eq_dec l l); congruence. Qed.
(** What one arc with one tuple moves. *)
Lemma moved_one : forall n s p0 e k p v, p <> p0 \/ v <> cval (cn_types n) (cn_vars n) s e -> moved n s [(p0, ANum [e] k)] p v = 0%N.
Proof.
  intros n s p0 e k p v H. unfold moved. cbn [map fst snd sumN mval]. destruct (Nat.eqb_spec p0 p) as [->|]; [|reflexivity].
  destruct H as [H|H]; [congruence|]. rewrite value_eqb_ne by congruence. reflexivity.
Qed.

Lemma const_tuple : exists n net pick qt q fuel r, cpn_ok n /\ query_ok q /\ build n = Ok net /\
  search net (fixed_gen net) (0, 0) pick qt q fuel = Ok r /\ sr_full r = true /\ sr_answer r = false /\ holds n qt q.
Proof.
  destruct (run_inv fixed_gen (fun _ => (0, 0)) tn (fun f => f) QEF (KQFire 1) (false, true, None) ltac:(vm_compute; reflexivity)) as (net & r & B & S & A & F & _).
  exists tn, net, (fun f => f), QEF, (KQFire 1), (30 * 100), r. split; [exact tn_ok|]. split; [cbn; auto|]. split; [exact B|]. split; [exact S|].
  split; [exact F|]. split; [exact A|]. set (s := fun _ : nat => VE 4).
  assert (BI : binds tn s) by (intros v ty H; destruct v; [cbn in H; inversion H; subst; unfold vtyped, s; cbn; lia|destruct v; discriminate]).
  exists (after tn (cinit tn) 0 s). split.
  - exists [0]. econstructor; [|constructor]. eapply step_after; [reflexivity|]. split; [exact BI|]. split; [discriminate|]. split; [|intros p w []].
    cbn [ct_in]. apply at_one with (p0 := 1) (v0 := VE 0); [intros p v H; apply moved_one; exact H|vm_compute; discriminate].
  - eexists. eapply step_after; [reflexivity|]. split; [exact BI|]. split; [|split; [|intros p w []]].
    + intros g E. inversion E; subst. reflexivity.
    + cbn [ct_in]. apply at_one with (p0 := 0) (v0 := VT [0; 4]); [intros p v H; apply moved_one; exact H|vm_compute; discriminate].
Qed.

(** ** A subtraction of a colour that is not there *)
Definition hn : cpn := mkCpn en_types [0; 1; 2] [] [mkCP 1 (Some (ANum [EUser 1 0] 2))]
  [ mkCT None [(0, ASub (ANum [EUser 1 0] 2) (ANum [EUser 1 1] 1))] [] 0%Z] [].
Lemma hn_ok : cpn_ok hn.
Proof.
  split; [apply etab; reflexivity|]. split; [|split; [|split]].
  - intros [|v] ty H; discriminate.
  - intros p pl H. destruct p as [|p]; cbn in H; try discriminate; [..|destruct p; discriminate]; inversion H; subst; (split; [eexists; reflexivity|]); intros a A; inversion A; subst.
    repeat split; try discriminate; cbn; try lia; repeat constructor; cbn; auto.
  - intros t tr H. destruct t as [|t]; cbn in H; [..|destruct t; discriminate]; inversion H; subst.
    split; [discriminate|]. split; repeat constructor; eexists; (split; [reflexivity|]); cbn. repeat split; try discriminate; repeat constructor.
  - intros p t w [].
Qed.
Lemma subtract : exists n net pick qt q fuel r, cpn_ok n /\ query_ok q /\ build n = Ok net /\
  search net (fixed_gen net) (0, 0) pick qt q fuel = Ok r /\ sr_full r = true /\ sr_answer r = false /\ holds n qt q.
Proof.
  destruct (run_inv fixed_gen (fun _ => (0, 0)) hn (fun f => f) QEF (KQFire 0) (false, true, None) ltac:(vm_compute; reflexivity)) as (net & r & B & S & A & F & _).
  exists hn, net, (fun f => f), QEF, (KQFire 0), (30 * 100), r. split; [exact hn_ok|]. split; [cbn; auto|]. split; [exact B|]. split; [exact S|].
  split; [exact F|]. split; [exact A|]. exists (cinit hn). split; [exists []; constructor|].
  eexists. eapply step_after with (s := fun _ => VE 0); [reflexivity|]. split; [intros [|v] ty H; discriminate|]. split; [discriminate|]. split; [|intros p w []].
  cbn [ct_in]. apply at_one with (p0 := 0) (v0 := VE 0); [|vm_compute; discriminate]. intros p v H.
  unfold moved. cbn [map fst snd sumN mval cval]. destruct (Nat.eqb_spec 0 p) as [<-|]; [|reflexivity]. destruct H as [H|H]; [congruence|].
  rewrite (value_eqb_ne (VE 0) v) by congruence. reflexivity.
Qed.

(** ** Two input arcs from one place *)
Definition kn2 : cpn := mkCpn [TEnum 1] [0] [] [mkCP 0 (Some (ANum [EDot] 1))]
  [ mkCT None [(0, ANum [EDot] 1); (0, ANum [EDot] 1)] [] 0%Z] [].
Lemma kn2_ok : cpn_ok kn2.
Proof.
  split; [apply dot_tab; reflexivity|]. split; [|split; [|split]].
  - intros [|v] ty H; discriminate.
  - intros p pl H. destruct p as [|p]; cbn in H; try discriminate; [..|destruct p; discriminate]; inversion H; subst; (split; [eexists; reflexivity|]); intros a A; inversion A; subst.
    repeat split; try discriminate; cbn; try lia; repeat constructor; cbn; auto.
  - intros t tr H. destruct t as [|t]; cbn in H; [..|destruct t; discriminate]; inversion H; subst.
    split; [discriminate|]. split; repeat constructor; eexists; (split; [reflexivity|]); cbn; repeat split; try discriminate; repeat constructor.
  - intros p t w [].
Qed.
Lemma kn2_dead : forall t M, ~ cstep kn2 (cinit kn2) t M.
Proof.
  intros t M (tr & s & E & (_ & _ & C & _) & _). destruct t as [|t]; [|destruct t; discriminate]. cbn in E. inversion E; subst.
  specialize (C 0 (VE 0)). vm_compute in C. congruence.
Qed.
Lemma same_place : exists n net pick qt q fuel r, cpn_ok n /\ query_ok q /\ build n = Ok net /\
  search net (fixed_gen net) (0, 0) pick qt q fuel = Ok r /\ sr_full r = true /\ sr_answer r = true /\ ~ holds n qt q.
Proof.
  destruct (run_inv fixed_gen (fun _ => (0, 0)) kn2 (fun f => f) QEF (KQFire 0) (true, true, Some 0) ltac:(vm_compute; reflexivity)) as (net & r & B & S & A & F & _).
  exists kn2, net, (fun f => f), QEF, (KQFire 0), (30 * 100), r. split; [exact kn2_ok|]. split; [cbn; auto|]. split; [exact B|]. split; [exact S|].
  split; [exact F|]. split; [exact A|]. intros (M & [ts R] & M' & Q). inversion R; subst.
  - exact (kn2_dead _ _ Q).
  - exact (kn2_dead _ _ H).
Qed.

(** ** A negative number in the query *)
Lemma negative_number : exists n net pick qt q fuel r, cpn_ok n /\ exp_ok n /\ build n = Ok net /\
  search net (fixed_gen net) (0, 0) pick qt q fuel = Ok r /\ sr_full r = true /\ sr_answer r = true /\ ~ holds n qt q.
Proof.
  destruct (run_inv fixed_gen (fun _ => (0, 0)) en (fun f => f) QEF (KQLt (TPlace 0) (TLit (-1))) (true, true, Some 0) ltac:(vm_compute; reflexivity)) as (net & r & B & S & A & F & _).
  exists en, net, (fun f => f), QEF, (KQLt (TPlace 0) (TLit (-1))), (30 * 100), r. split; [exact en_ok|]. split; [exact en_exp|]. split; [exact B|]. split; [exact S|].
  split; [exact F|]. split; [exact A|]. intros (M & _ & Q). cbn [qholds tval] in Q. lia.
Qed.
