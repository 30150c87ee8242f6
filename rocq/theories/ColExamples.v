(** Concrete coloured nets for C34: a case for the theorems, and the refutations. *)
From Verif Require Import Base BaseLemmas NetSpec NetModel BuilderModel BuilderSpec BuilderMain
  ColSyntax ColSpec ColModel ColRadix ColEval ColGen ColCorr ColUnfold ColMain ColFinal.
From Coq Require Import Permutation Cantor.

(** Injective names. *)
Definition xenc (u : uname) : nat :=
  match u with
  | UCol p c => Cantor.to_nat (0, Cantor.to_nat (p, c))
  | USum p => Cantor.to_nat (1, p)
  | UOrph p => Cantor.to_nat (2, p)
  end.
Definition xenct (t i : nat) : nat := Cantor.to_nat (t, i).

Lemma to_nat_inj : forall a b, Cantor.to_nat a = Cantor.to_nat b -> a = b.
Proof. intros a b H. rewrite <- (Cantor.cancel_of_to a), <- (Cantor.cancel_of_to b), H. reflexivity. Qed.
Lemma xenc_inj : forall u v, xenc u = xenc v -> u = v.
Proof.
  intros [p c|p|p] [q d|q|q] H; cbn [xenc] in H; apply to_nat_inj in H; try discriminate; injection H as H; try (subst; reflexivity).
  apply (to_nat_inj (p, c) (q, d)) in H. congruence.
Qed.
Lemma xenct_inj : forall t i t' i', xenct t i = xenct t' i' -> t = t' /\ i = i'.
Proof. intros t i t' i' H. apply (to_nat_inj (t, i) (t', i')) in H. inversion H; auto. Qed.

(** Colours {a, b} and pairs of them.  t0 takes x from p0, not more than two tokens being
    in p2, and puts the pair (x, x++) in p1; t1 takes a pair (x, y) with x <> y or x < y
    and puts y back and x once more. *)
Definition xt : list tdecl := [TEnum 1; TEnum 2; TProd [1; 1]].
Definition xn : cpn := mkCpn xt [0; 1; 2] [1; 1]
  [ mkCP 1 (Some (AAdd [ANum [EUser 1 0] 1; ANum [EUser 1 1] 2]));
    mkCP 2 None;
    mkCP 1 (Some (AScal (ANum [EUser 1 1] 1) 2)) ]
  [ mkCT None [(0, ANum [EVar 0] 1)] [(1, ANum [ETup [EVar 0; ESucc (EVar 0)]] 1)] 0%Z;
    mkCT (Some (GOr (GNe (EVar 0) (EVar 1)) (GLt (EVar 0) (EVar 1)))) [(1, ANum [ETup [EVar 0; EVar 1]] 1)]
          [(0, AAdd [ANum [EVar 1] 1; ANum [EVar 0] 1])] 0%Z ]
  [ (2, 0, 3%N) ].
Definition xvs (t : nat) : list nat := match t with 0 => [0] | _ => [1; 0] end.

Ltac cases_nth := repeat match goal with
  | H : nth_error _ ?i = Some _ |- _ => is_var i; destruct i; cbn in H; [inversion H; clear H; subst|]
  | H : nth_error [] _ = Some _ |- _ => discriminate
  | H : nth_error _ ?i = Some _ |- _ => is_var i; destruct i; discriminate
  | H : None = Some _ |- _ => discriminate
  end.

Lemma xtab : forall n, cn_types n = xt -> cn_map n = [0; 1; 2] -> tab_ok n.
Proof.
  intros n E1 E2. unfold tab_ok. rewrite E1, E2. split; [reflexivity|]. repeat split.
  - intros ty k H. do 3 (destruct ty; [cbn in H; inversion H; subst; lia|]). destruct ty; discriminate.
  - intros ty cs c H I. do 3 (destruct ty; [cbn in H; inversion H; subst; cbn in I; intuition; subst; cbn; lia|]). destruct ty; discriminate.
  - intros t1 t2 cs H1 H2. do 3 (destruct t1; [cbn in H1; try discriminate|]); [|destruct t1; discriminate].
    do 3 (destruct t2; [cbn in H2; try discriminate|]); [auto|destruct t2; discriminate].
  - intros ty cs H. do 3 (destruct ty; [cbn; auto|]). destruct ty; discriminate.
Qed.

Lemma xn_ok : cpn_ok xn.
Proof.
  split; [apply xtab; reflexivity|]. split; [|split; [|split]].
  - intros v ty H. do 2 (destruct v; [cbn in H; inversion H; subst; eexists; reflexivity|]). destruct v; discriminate.
  - intros p pl H. destruct p as [|[|[|p]]]; cbn in H; try discriminate; [..|destruct p; discriminate]; inversion H; subst; (split; [eexists; reflexivity|]); intros a A; inversion A; subst.
    + repeat split; try discriminate; cbn; try lia; repeat constructor; try discriminate; cbn; auto.
    + repeat split; try discriminate; cbn; try lia; repeat constructor; cbn; auto.
  - intros t tr H. destruct t as [|[|t]]; cbn in H; [..|destruct t; discriminate]; inversion H; subst.
    + split; [discriminate|]. split; repeat constructor; eexists; (split; [reflexivity|]); cbn.
      * repeat split; try discriminate. repeat constructor.
      * repeat split; try discriminate. constructor; [|constructor]. exists [1; 1]. cbn. repeat split; auto.
    + split.
      * intros g E. inversion E; subst. cbn. split; [exists 1; auto|]. exists 1. unfold esize. cbn. repeat split; auto; lia.
      * split; repeat constructor; eexists; (split; [reflexivity|]); cbn.
        -- repeat split; try discriminate. constructor; [|constructor]. exists [1; 1]. cbn. repeat split; auto.
        -- repeat split; try discriminate; repeat constructor; try discriminate.
  - intros p t w [H|[]]. inversion H; subst. cbn. lia.
Qed.

Lemma xn_vs : forall t tr, nth_error (cn_trs xn) t = Some tr -> forall v, In v (xvs t) <-> In v (tvars tr).
Proof.
  intros t tr H v. do 2 (destruct t; [cbn in H; inversion H; subst; cbn; intuition|]). destruct t; discriminate.
Qed.

Lemma xn_separate : separate xn.
Proof.
  intros p t w tr e [H|[]] TR IN. inversion H; subst. cbn in TR. inversion TR; subst. cbn in IN. intuition. discriminate.
Qed.

Definition xn_calls : list call := match naive_unfold xn xenc xenct xvs with Ok (s, _) => u_calls s | _ => [] end.

(** ** A place with an inhibitor arc that is seen before its ordinary arcs *)

(** p1 has one token of each colour; t0 is inhibited by p1 and is unfolded first; t1 takes
    colour a from p1. *)
Definition yn : cpn := mkCpn xt [0; 1; 2] []
  [ mkCP 0 (Some (ANum [EDot] 1));
    mkCP 1 (Some (ANum [EUser 1 0; EUser 1 1] 1)) ]
  [ mkCT None [(0, ANum [EDot] 1)] [] 0%Z;
    mkCT None [(1, ANum [EUser 1 0] 1)] [] 0%Z ]
  [ (1, 0, 2%N) ].

Lemma yn_ok : cpn_ok yn.
Proof.
  split; [apply xtab; reflexivity|]. split; [|split; [|split]].
  - intros [|v] ty H; discriminate.
  - intros p pl H. destruct p as [|[|p]]; cbn in H; try discriminate; [..|destruct p; discriminate]; inversion H; subst; (split; [eexists; reflexivity|]); intros a A; inversion A; subst.
    + repeat split; try discriminate; cbn; try lia; repeat constructor.
    + repeat split; try discriminate; cbn; try lia; repeat constructor; cbn; auto.
  - intros t tr H. destruct t as [|[|t]]; cbn in H; [..|destruct t; discriminate]; inversion H; subst.
    + split; [discriminate|]. split; repeat constructor; eexists; (split; [reflexivity|]); cbn.
      repeat split; try discriminate. repeat constructor.
    + split; [discriminate|]. split; repeat constructor; eexists; (split; [reflexivity|]); cbn.
      repeat split; try discriminate. repeat constructor.
  - intros p t w [H|[]]. inversion H; subst. cbn. lia.
Qed.
Lemma yn_separate : separate yn.
Proof.
  intros p t w tr e [H|[]] TR IN. inversion H; subst. cbn in TR. inversion TR; subst. cbn in IN. intuition. discriminate.
Qed.
Lemma yn_vs : forall t tr, nth_error (cn_trs yn) t = Some tr -> forall v : nat, In v [] <-> In v (tvars tr).
Proof.
  intros t tr H v. do 2 (destruct t; [cbn in H; inversion H; subst; cbn; intuition|]). destruct t; discriminate.
Qed.

Lemma perm2 : forall {A} (a b : A) l, Permutation l [a; b] -> l = [a; b] \/ l = [b; a].
Proof.
  intros A a b l H. apply Permutation_sym in H. pose proof (Permutation_length H) as L.
  destruct l as [|x [|y [|z l]]]; try discriminate. clear L. apply Permutation_length_2_inv in H.
  destruct H as [H|H]; inversion H; subst; auto.
Qed.

Lemma inhibiting_query : exists n enc enct vs s gens p,
  cpn_ok n /\ separate n /\ (forall u v, enc u = enc v -> u = v) /\
  (forall t i t' i', enct t i = enct t' i' -> t = t' /\ i = i') /\
  (forall t tr, nth_error (cn_trs n) t = Some tr -> forall v, In v (vs t) <-> In v (tvars tr)) /\
  naive_unfold n enc enct vs = Ok (s, gens) /\ p < length (cn_pls n) /\
  forall names, Permutation names (map snd (pnames s p)) ->
    (forall us, place_query names = Ok us -> sumU enc (init_of (u_calls s)) us <> total n (cinit n) p) /\
    sumU enc (init_of (u_calls s)) (bounds_query names) <> total n (cinit n) p.
Proof.
  exists yn, xenc, xenct, (fun _ => []).
  destruct (naive_unfold yn xenc xenct (fun _ => [])) as [[s gens]| | |] eqn:E; try (vm_compute in E; discriminate).
  exists s, gens, 1. split; [exact yn_ok|]. split; [exact yn_separate|]. split; [exact xenc_inj|]. split; [exact xenct_inj|].
  split; [exact yn_vs|]. split; [reflexivity|]. split; [cbn; lia|].
  intros names P.
  assert (E1 : map snd (pnames s 1) = [USum 1; UCol 1 0]).
  { assert (H : (r <- naive_unfold yn xenc xenct (fun _ => []) ;; Ok (map snd (pnames (fst r) 1))) = Ok [USum 1; UCol 1 0]) by (vm_compute; reflexivity).
    rewrite E in H. cbn in H. congruence. }
  assert (E2 : init_of (u_calls s) (xenc (USum 1)) = 2%N /\ init_of (u_calls s) (xenc (UCol 1 0)) = 1%N).
  { assert (H : (r <- naive_unfold yn xenc xenct (fun _ => []) ;; Ok (init_of (u_calls (fst r)) (xenc (USum 1)), init_of (u_calls (fst r)) (xenc (UCol 1 0)))) = Ok (2%N, 1%N)) by (vm_compute; reflexivity).
    rewrite E in H. cbn in H. inversion H; auto. }
  assert (E3 : total yn (cinit yn) 1 = 2%N) by (vm_compute; reflexivity).
  rewrite E1 in P. destruct E2 as [E2 E4]. rewrite E3. unfold sumU, bounds_query.
  apply perm2 in P. destruct P as [->| ->]; split.
  - intros us H. cbn in H. inversion H; subst. cbn [map sumN]. rewrite E2, E4. lia.
  - cbn [map sumN]. rewrite E2, E4. lia.
  - intros us H. cbn in H. inversion H; subst. cbn [map sumN]. rewrite E4. lia.
  - cbn [map sumN]. rewrite E2, E4. lia.
Qed.

(** ** An input arc and an inhibitor arc from one place to one transition *)
Definition zn : cpn := mkCpn xt [0; 1; 2] []
  [ mkCP 0 (Some (ANum [EDot] 1)) ]
  [ mkCT None [(0, ANum [EDot] 1)] [] 0%Z ]
  [ (0, 0, 2%N) ].
Lemma zn_ok : cpn_ok zn.
Proof.
  split; [apply xtab; reflexivity|]. split; [|split; [|split]].
  - intros [|v] ty H; discriminate.
  - intros p pl H. destruct p as [|p]; cbn in H; try discriminate; [..|destruct p; discriminate]; inversion H; subst; (split; [eexists; reflexivity|]); intros a A; inversion A; subst.
    repeat split; try discriminate; cbn; try lia; repeat constructor.
  - intros t tr H. destruct t as [|t]; cbn in H; [..|destruct t; discriminate]; inversion H; subst.
    split; [discriminate|]. split; repeat constructor; eexists; (split; [reflexivity|]); cbn.
    repeat split; try discriminate. repeat constructor.
  - intros p t w [H|[]]. inversion H; subst. cbn. lia.
Qed.
Lemma zn_vs : forall t tr, nth_error (cn_trs zn) t = Some tr -> forall v : nat, In v [] <-> In v (tvars tr).
Proof.
  intros t tr H v. do 1 (destruct t; [cbn in H; inversion H; subst; cbn; intuition|]). destruct t; discriminate.
Qed.

Lemma both_arcs : exists n enc enct vs s gens M,
  cpn_ok n /\ (forall u v, enc u = enc v -> u = v) /\
  (forall t i t' i', enct t i = enct t' i' -> t = t' /\ i = i') /\
  (forall t tr, nth_error (cn_trs n) t = Some tr -> forall v, In v (vs t) <-> In v (tvars tr)) /\
  cstep n (cinit n) 0 M /\
  naive_unfold n enc enct vs = Ok (s, gens) /\ do_calls b_empty (u_calls s) = Throw.
Proof.
  exists zn, xenc, xenct, (fun _ => []).
  destruct (naive_unfold zn xenc xenct (fun _ => [])) as [[s gens]| | |] eqn:E; try (vm_compute in E; discriminate).
  exists s, gens, (fun p v => (cinit zn p v - moved zn (fun _ => VE 0%nat) [(0%nat, ANum [EDot] 1)] p v + moved zn (fun _ => VE 0%nat) [] p v)%N).
  split; [exact zn_ok|]. split; [exact xenc_inj|]. split; [exact xenct_inj|]. split; [exact zn_vs|]. split; [|split; [reflexivity|]].
  - exists (mkCT None [(0, ANum [EDot] 1)] [] 0%Z), (fun _ => VE 0). split; [reflexivity|]. split; [|reflexivity].
    split; [|split; [|split]].
    + intros [|v] ty H; discriminate.
    + discriminate.
    + intros p v. unfold moved, cinit. cbn. destruct p as [|p]; cbn; [|lia]. destruct v as [i|l]; cbn; [destruct i; cbn; lia|lia].
    + intros p w [H|[]]. inversion H; subst. vm_compute. reflexivity.
  - assert (H : (r <- naive_unfold zn xenc xenct (fun _ => []) ;; do_calls b_empty (u_calls (fst r))) = Throw) by (vm_compute; reflexivity).
    rewrite E in H. exact H.
Qed.
