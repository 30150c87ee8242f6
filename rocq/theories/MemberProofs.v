(** The linear forms give the value of an expression along every firing sequence. *)
From Verif Require Import Base BaseLemmas NetSpec NetModel NetProofs PqlSyntax PqlSpec LpSpec SimpSpec MemberModel LpModel.
Set Implicit Arguments.

(** * Sums *)
Lemma sumto_ext : forall n f g, (forall i, i < n -> f i = g i) -> sumto n f = sumto n g.
Proof. induction n; cbn; intros; [reflexivity|]. rewrite (IHn f g), H; auto. Qed.
Lemma sumto_add : forall n f g, sumto n (fun i => f i + g i)%Z = (sumto n f + sumto n g)%Z.
Proof. induction n; cbn; intros; [reflexivity|]. rewrite IHn. lia. Qed.
Lemma sumto_zero : forall n, sumto n (fun _ => 0%Z) = 0%Z.
Proof. induction n; cbn; [reflexivity|]. lia. Qed.
Lemma sumto_at : forall n f k, k < n -> sumto n (fun i => if Nat.eqb i k then f i else 0%Z) = f k.
Proof.
  induction n; intros f k H; [lia|]. cbn. destruct (Nat.eqb_spec n k) as [->|E].
  - rewrite (@sumto_ext k _ (fun _ => 0%Z)); [rewrite sumto_zero; lia|]. intros i Hi. destruct (Nat.eqb_spec i k); [lia|reflexivity].
  - rewrite IHn by lia. lia.
Qed.
Lemma sumto_front : forall n f, sumto (S n) f = (f 0%nat + sumto n (fun i => f (S i)))%Z.
Proof. induction n; intros f; [cbn; lia|]. change (sumto (S (S n)) f) with (sumto (S n) f + f (S n))%Z. rewrite IHn. cbn [sumto]. lia. Qed.

(** * Effect of firings *)
Definition effect (net : cnet) (t p : nat) : Z :=
  (Z.of_N (weight_at (tr_post (net_trans net t)) p) - Z.of_N (weight_at (tr_pre (net_trans net t)) p))%Z.
Lemma to_pnet_nth : forall net t tr, nth_error (pn_trans (to_pnet net)) t = Some tr -> t < cn_ntrans net /\ tr = net_trans net t.
Proof.
  intros net t tr H. unfold to_pnet in H. cbn [pn_trans] in H.
  assert (Hl : t < length (map (net_trans net) (seq 0 (cn_ntrans net)))) by (apply nth_error_Some; congruence).
  rewrite map_length, seq_length in Hl. split; [exact Hl|].
  rewrite nth_error_map in H. rewrite (nth_error_nth' _ 0) in H by (rewrite seq_length; exact Hl). rewrite seq_nth in H by exact Hl. cbn in H. congruence.
Qed.
Lemma run_length : forall net m w m', run net m w m' -> length m' = length m.
Proof. intros net m w m' R. induction R as [|m t m1 w m2 (tr & _ & _ & L & _) R IH]; congruence. Qed.
Lemma run_effect : forall net m w m', run (to_pnet net) m w m' -> forall p, p < length m ->
  Z.of_N (tokens m' p) = (Z.of_N (tokens m p) + sumto (cn_ntrans net) (fun t => effect net t p * occ w t))%Z.
Proof.
  intros net m w m' R. induction R as [m|m t m1 w m2 (tr & Ht & _ & L & F) R IH]; intros p Hp.
  - rewrite (@sumto_ext _ _ (fun _ => 0%Z)); [rewrite sumto_zero; lia|]. intros i _. unfold occ. cbn. lia.
  - apply to_pnet_nth in Ht. destruct Ht as (Ht & ->). rewrite IH by congruence. destruct (F p Hp) as (F1 & F2). rewrite F2.
    rewrite (@sumto_ext _ (fun i => effect net i p * occ (t :: w) i)%Z (fun i => (if Nat.eqb i t then effect net i p else 0) + effect net i p * occ w i)%Z).
    + rewrite sumto_add, (@sumto_at _ (fun i => effect net i p)) by exact Ht. unfold effect at 2. lia.
    + intros i _. unfold occ. cbn [count_occ]. destruct (Nat.eq_dec t i) as [->|E].
      * rewrite Nat.eqb_refl. lia.
      * destruct (Nat.eqb_spec i t); [congruence|]. lia.
Qed.
Lemma occ_nonneg : forall w t, (0 <= occ w t)%Z.
Proof. intros. unfold occ. lia. Qed.

(** * Linear forms *)
Lemma lin_zero : forall v i x, forallb (Z.eqb 0) v = true -> lin i v x = 0%Z.
Proof. induction v as [|z v IH]; intros i x H; cbn [forallb lin] in *; [reflexivity|]. apply andb_prop in H. destruct H as (H & G). apply Z.eqb_eq in H. rewrite IH by exact G. subst z. lia. Qed.
Lemma lin_add : forall a b i x, lin i (vop Z.add a b) x = (lin i a x + lin i b x)%Z.
Proof.
  induction a as [|z a IH]; intros b i x.
  - revert i. induction b as [|y b IHb]; intros i; cbn [vop lin]; [reflexivity|]. rewrite IHb. cbn [lin]. lia.
  - destruct b as [|y b]; cbn [vop lin]; [lia|]. rewrite IH. lia.
Qed.
Lemma lin_sub : forall a b i x, lin i (vop Z.sub a b) x = (lin i a x - lin i b x)%Z.
Proof.
  induction a as [|z a IH]; intros b i x.
  - revert i. induction b as [|y b IHb]; intros i; cbn [vop lin]; [reflexivity|]. rewrite IHb. cbn [lin]. lia.
  - destruct b as [|y b]; cbn [vop lin]; [lia|]. rewrite IH. lia.
Qed.
Lemma lin_scale : forall v k i x, lin i (map (fun z => z * k)%Z v) x = (lin i v x * k)%Z.
Proof. induction v as [|z v IH]; intros k i x; cbn [map lin]; [reflexivity|]. rewrite IH. lia. Qed.
Lemma lin_same : forall a b i x, veq a b = true -> lin i a x = lin i b x.
Proof.
  induction a as [|z a IH]; intros b i x H.
  - cbn [veq] in H. rewrite (lin_zero b i x H). reflexivity.
  - destruct b as [|y b]; cbn [veq] in H.
    + rewrite (lin_zero (z :: a) i x H). reflexivity.
    + apply andb_prop in H. destruct H as (H & G). apply Z.eqb_eq in H. cbn [lin]. rewrite (IH b _ _ G). congruence.
Qed.
Lemma lin_sumto : forall n v i x, length v = n -> lin i v x = sumto n (fun t => nth t v 0 * x (i + t)%nat)%Z.
Proof.
  induction n; intros v i x H; destruct v as [|z v]; try discriminate; [reflexivity|]. rewrite sumto_front. cbn [lin nth].
  rewrite Nat.add_0_r, (IHn v (S i) x) by (cbn in H; lia). f_equal. apply sumto_ext. intros j _. rewrite Nat.add_succ_r. reflexivity.
Qed.
Lemma lin_sign : forall v i x, (forall t, (0 <= x t)%Z) ->
  (forallb (fun z => Z.leb z 0) v = true -> (lin i v x <= 0)%Z) /\ (forallb (Z.leb 0) v = true -> (0 <= lin i v x)%Z).
Proof.
  induction v as [|z v IH]; intros i x H; cbn [forallb lin]; [lia|]. destruct (IH (S i) x H) as (A & B). specialize (H i).
  split; intros G; apply andb_prop in G; destruct G as (G & G2); apply Z.leb_le in G; [specialize (A G2)|specialize (B G2)]; nia.
Qed.

(** value of a form *)
Definition mval (mb : member) (x : nat -> Z) : Z := (mb_const mb + lin 0 (mb_vars mb) x)%Z.
Lemma mval_add : forall a b x, mval (mb_add a b) x = (mval a x + mval b x)%Z.
Proof. intros. unfold mval, mb_add. cbn [mb_const mb_vars]. rewrite lin_add. lia. Qed.
Lemma mval_sub : forall a b x, mval (mb_sub a b) x = (mval a x - mval b x)%Z.
Proof. intros. unfold mval, mb_sub. cbn [mb_const mb_vars]. rewrite lin_sub. lia. Qed.
Lemma mval_mul : forall a b x, mb_ok (mb_mul a b) = true -> mb_ok a = true /\ mb_ok b = true /\ mval (mb_mul a b) x = (mval a x * mval b x)%Z.
Proof.
  intros a b x. unfold mb_mul. destruct (negb (mb_zero a) && negb (mb_zero b)) eqn:E; cbn [mb_ok]; [discriminate|].
  intros H. apply andb_prop in H. destruct H as (H1 & H2). split; [exact H1|]. split; [exact H2|].
  unfold mval. cbn [mb_const mb_vars]. unfold mb_scale. unfold mb_zero in *.
  destruct (forallb (Z.eqb 0) (mb_vars a)) eqn:Ea; destruct (forallb (Z.eqb 0) (mb_vars b)) eqn:Eb; cbn in E; try discriminate; cbn [Bool.eqb negb].
  - rewrite (lin_zero _ 0 x Ea), (lin_zero _ 0 x Eb). cbn [lin]. lia.
  - rewrite lin_scale, (lin_zero _ 0 x Ea). lia.
  - rewrite lin_scale, (lin_zero _ 0 x Eb). lia.
Qed.

Lemma i32_id : forall z, int32 z = true -> i32 z = z.
Proof.
  intros z H. unfold int32 in H. apply andb_prop in H. destruct H as (A & B). apply Z.leb_le in A. apply Z.ltb_lt in B.
  unfold i32. rewrite Z.mod_small by lia. lia.
Qed.

(** * The members of expressions *)
Section Net.

  Lemma arc_at_weight : forall l p, NoDup (map arc_place (map inv_arc l)) -> arc_at l p = weight_at (map inv_arc l) p.
  Proof.
    induction l as [|iv l IH]; intros p H; [reflexivity|]. cbn [map] in H. inversion H as [|? ? H1 H2]; subst.
    unfold weight_at. cbn [arc_at map filter]. unfold inv_arc at 1 2. cbn [arc_place arc_inhib].
    assert (Z0 : iv_place iv = p -> weight_at (map inv_arc l) p = 0%N).
    { intros E. unfold weight_at. replace (filter _ (map inv_arc l)) with (@nil arc); [reflexivity|]. symmetry.
      assert (G : forall a, In a (map inv_arc l) -> (arc_place a =? p) = false).
      { intros a Ha. apply Nat.eqb_neq. intros E2. apply H1. change (arc_place (inv_arc iv)) with (iv_place iv). rewrite E, <- E2. apply in_map. exact Ha. }
      revert G. generalize (map inv_arc l). intros q G. induction q as [|a q IHq]; [reflexivity|]. cbn [filter]. rewrite (G a (or_introl eq_refl)). cbn [andb]. apply IHq. intros b Hb. apply G. right. exact Hb. }
    destruct (Nat.eqb_spec (iv_place iv) p) as [E|E]; cbn [andb].
    - specialize (Z0 E). unfold weight_at in Z0. destruct (iv_inhib iv); cbn [negb map sumN]; [rewrite Z0; reflexivity|]. unfold inv_arc at 1. cbn [arc_weight]. rewrite Z0. lia.
    - rewrite IH by exact H2. reflexivity.
  Qed.
  Lemma out_at_weight : forall l p, NoDup (map arc_place (map out_arc_of l)) -> out_at l p = weight_at (map out_arc_of l) p.
  Proof.
    induction l as [|iv l IH]; intros p H; [reflexivity|]. cbn [map] in H. inversion H as [|? ? H1 H2]; subst.
    unfold weight_at. cbn [out_at map filter]. unfold out_arc_of at 1 2. cbn [arc_place arc_inhib].
    assert (Z0 : iv_place iv = p -> weight_at (map out_arc_of l) p = 0%N).
    { intros E. unfold weight_at. replace (filter _ (map out_arc_of l)) with (@nil arc); [reflexivity|]. symmetry.
      assert (G : forall a, In a (map out_arc_of l) -> (arc_place a =? p) = false).
      { intros a Ha. apply Nat.eqb_neq. intros E2. apply H1. change (arc_place (out_arc_of iv)) with (iv_place iv). rewrite E, <- E2. apply in_map. exact Ha. }
      revert G. generalize (map out_arc_of l). intros q G. induction q as [|a q IHq]; [reflexivity|]. cbn [filter]. rewrite (G a (or_introl eq_refl)). cbn [andb]. apply IHq. intros b Hb. apply G. right. exact Hb. }
    destruct (Nat.eqb_spec (iv_place iv) p) as [E|E]; cbn [andb negb].
    - specialize (Z0 E). unfold weight_at in Z0. cbn [map sumN]. unfold out_arc_of at 1. cbn [arc_weight]. rewrite Z0. lia.
    - rewrite IH by exact H2. reflexivity.
  Qed.
  Variable net : cnet.
  Hypothesis L : layout net.
  Lemma slices : forall t, t < cn_ntrans net -> exists a b, rd (cn_transitions net) t = Ok a /\ rd (cn_transitions net) (S t) = Ok b /\
    net_trans net t = mkTrans (map inv_arc (slice (cn_invs net) (fst a) (snd a))) (map out_arc_of (slice (cn_invs net) (snd a) (fst b))).
  Proof.
    intros t Ht. unfold rd. destruct (nth_error (cn_transitions net) t) as [a|] eqn:Ea.
    2:{ apply nth_error_None in Ea. rewrite (ly_len_tr L) in Ea. lia. }
    destruct (nth_error (cn_transitions net) (S t)) as [b|] eqn:Eb.
    2:{ apply nth_error_None in Eb. rewrite (ly_len_tr L) in Eb. lia. }
    exists a, b. split; [reflexivity|]. split; [reflexivity|]. unfold net_trans.
    rewrite (nth_error_nth _ _ (0, 0) Ea), (nth_error_nth _ _ (0, 0) Eb). reflexivity.
  Qed.
  Lemma trans_wf : forall t, t < cn_ntrans net -> wf_trans (cn_places net) (net_trans net t).
  Proof. intros t Ht. apply (ly_wf L). cbn [to_pnet pn_trans]. apply in_map, in_seq. lia. Qed.
  Lemma arcs_effect : forall t p, t < cn_ntrans net -> exists o i, out_arc net t p = Ok o /\ in_arc net p t = Ok i /\ (Z.of_N o - Z.of_N i)%Z = effect net t p.
  Proof.
    intros t p Ht. destruct (slices Ht) as (a & b & Ea & Eb & E). destruct (trans_wf Ht) as (_ & _ & D1 & D2). rewrite E in D1, D2. cbn [tr_pre tr_post] in D1, D2.
    unfold out_arc, in_arc. rewrite Ea, Eb. cbn [bind]. eexists. eexists. split; [reflexivity|]. split; [reflexivity|].
    unfold effect. rewrite E. cbn [tr_pre tr_post]. rewrite arc_at_weight, out_at_weight by assumption. reflexivity.
  Qed.
  Lemma place_row_ok : forall p k t, t + k <= cn_ntrans net -> place_row net p t k = Ok (map (fun i => effect net i p) (seq t k)).
  Proof.
    intros p. induction k as [|k IH]; intros t H; [reflexivity|]. cbn [place_row seq map].
    destruct (@arcs_effect t p) as (o & i & Eo & Ei & E); [lia|]. rewrite Eo. cbn [bind]. rewrite Ei. cbn [bind]. rewrite IH by lia. cbn [bind]. rewrite E. reflexivity.
  Qed.
  Variable m0 : list N.
  Hypothesis Hm0 : length m0 = cn_places net.
  Lemma member_for_place_ok : forall p, p < cn_places net -> member_for_place net m0 p = Ok (mkMember (map (fun i => effect net i p) (seq 0 (cn_ntrans net))) (Z.of_N (tokens m0 p)) true).
  Proof.
    intros p Hp. unfold member_for_place. rewrite place_row_ok by lia. cbn [bind]. unfold rd. rewrite (nth_error_nth' m0 0%N) by lia. reflexivity.
  Qed.

  Variable w : list nat.
  Variable m : list N.
  Hypothesis R : run (to_pnet net) m0 w m.
  Notation good mb z := (mb_ok mb = true -> mval mb (occ w) = z).

  Lemma place_val : forall p, p < cn_places net ->
    mval (mkMember (map (fun i => effect net i p) (seq 0 (cn_ntrans net))) (Z.of_N (tokens m0 p)) true) (occ w) = Z.of_N (tokens m p).
  Proof.
    intros p Hp. rewrite (run_effect R) by lia. unfold mval. cbn [mb_const mb_vars]. f_equal.
    rewrite (@lin_sumto (cn_ntrans net)) by (rewrite map_length, seq_length; reflexivity). apply sumto_ext. intros t Ht.
    rewrite (nth_indep _ 0%Z (effect net 0 p)) by (rewrite map_length, seq_length; exact Ht).
    rewrite (map_nth (fun i => effect net i p)), seq_nth by exact Ht. reflexivity.
  Qed.
  Lemma int_val : forall z, int32 z = true -> mval (member_int z) (occ w) = z.
  Proof. intros z H. unfold mval, member_int. cbn [mb_const mb_vars lin]. rewrite i32_id by exact H. lia. Qed.

  Definition ogood (neutral : Z) (acc : option member) (z : Z) : Prop :=
    match acc with None => z = neutral | Some mb => good mb z end.
  Section Fold.
    Variable op : member -> member -> member.
    Variable zop : Z -> Z -> Z.
    Variable neutral : Z.
    Hypothesis op_ok : forall a b, mb_ok (op a b) = true -> mb_ok a = true /\ mb_ok b = true /\ mval (op a b) (occ w) = zop (mval a (occ w)) (mval b (occ w)).
    Hypothesis zop_neutral : forall z, zop neutral z = z.
    Hypothesis zop_neutral_r : forall z, zop z neutral = z.
    Hypothesis zop_assoc : forall x y z, zop (zop x y) z = zop x (zop y z).
    Lemma fold_first_ok : forall acc mb z y, ogood neutral acc z -> good mb y -> ogood neutral (fold_first op acc mb) (zop z y).
    Proof.
      intros [a|] mb z y A B; cbn [fold_first ogood] in *.
      - intros H. destruct (op_ok _ _ H) as (H1 & H2 & E). rewrite E, (A H1), (B H2). reflexivity.
      - subst z. rewrite zop_neutral. exact B.
    Qed.
    Lemma fold_places_ok : forall ids acc z, forallb (fun p => p <? cn_places net) ids = true -> ogood neutral acc z ->
      exists acc', fold_places net m0 op acc ids = Ok acc' /\ ogood neutral acc' (zop z (fold_right zop neutral (map (fun p => Z.of_N (tokens m p)) ids))) /\ (acc <> None \/ ids <> [] -> acc' <> None).
    Proof.
      induction ids as [|p ids IH]; intros acc z H A.
      - exists acc. cbn. rewrite zop_neutral_r. split; [reflexivity|]. split; [exact A|tauto].
      - cbn [forallb] in H. apply andb_prop in H. destruct H as (H & G). apply Nat.ltb_lt in H. cbn [fold_places]. rewrite member_for_place_ok by exact H. cbn [bind].
        edestruct IH as (acc' & E & P & Q); [exact G|apply fold_first_ok; [exact A|intros _; apply place_val; exact H]|].
        exists acc'. split; [exact E|]. split; [cbn [map fold_right]; rewrite <- zop_assoc; exact P|]. intros _. apply Q. left. destruct acc; discriminate.
    Qed.
    Lemma fold_exprs_ok : forall es acc z, Forall (fun e => exists mb, constraint net m0 e = Ok mb /\ good mb (den m e)) es -> ogood neutral acc z ->
      exists acc', fold_exprs (constraint net m0) op acc es = Ok acc' /\ ogood neutral acc' (zop z (fold_right zop neutral (map (den m) es))) /\ (acc <> None \/ es <> [] -> acc' <> None).
    Proof.
      induction es as [|e es IH]; intros acc z H A.
      - exists acc. cbn. rewrite zop_neutral_r. split; [reflexivity|]. split; [exact A|tauto].
      - inversion H as [|? ? (mb & E1 & G1) H2]; subst. cbn [fold_exprs]. rewrite E1. cbn [bind].
        edestruct IH as (acc' & E & P & Q); [exact H2|apply fold_first_ok; [exact A|exact G1]|].
        exists acc'. split; [exact E|]. split; [cbn [map fold_right]; rewrite <- zop_assoc; exact P|]. intros _. apply Q. left. destruct acc; discriminate.
    Qed.
    Lemma comm_ok : forall c ids es, int32 c = true -> forallb (fun p => p <? cn_places net) ids = true ->
      Forall (fun e => exists mb, constraint net m0 e = Ok mb /\ good mb (den m e)) es ->
      exists mb, (a <- fold_places net m0 op (start neutral c ids es) ids ;; a <- fold_exprs (constraint net m0) op a es ;; Ok (finish a)) = Ok mb /\
        good mb (zop (zop c (fold_right zop neutral (map (fun p => Z.of_N (tokens m p)) ids))) (fold_right zop neutral (map (den m) es))).
    Proof.
      intros c ids es Hc Hi He.
      assert (S0 : ogood neutral (start neutral c ids es) c /\ (start neutral c ids es <> None \/ ids <> [] \/ es <> [])).
      { unfold start. destruct (Z.eqb_spec c neutral) as [E|E]; cbn [negb orb].
        - destruct ids; [destruct es|]; cbn [ogood]; (split; [try exact E; intros _; apply int_val; exact Hc|]); [left; discriminate| |]; right; [right|left]; discriminate.
        - split; [intros _; apply int_val; exact Hc|left; discriminate]. }
      destruct S0 as (S1 & S2). destruct (fold_places_ok ids _ _ Hi S1) as (a1 & E1 & P1 & Q1). rewrite E1. cbn [bind].
      destruct (fold_exprs_ok _ _ He P1) as (a2 & E2 & P2 & Q2). rewrite E2. cbn [bind]. exists (finish a2). split; [reflexivity|].
      destruct a2 as [a2|]; [exact P2|]. cbn. discriminate.
    Qed.
  End Fold.

  Lemma fold_sub_ok : forall es acc z, Forall (fun e => exists mb, constraint net m0 e = Ok mb /\ good mb (den m e)) es -> good acc z ->
    exists mb, fold_sub (constraint net m0) acc es = Ok mb /\ good mb (z - fold_right Z.add 0 (map (den m) es))%Z.
  Proof.
    induction es as [|e es IH]; intros acc z H A.
    - exists acc. cbn. rewrite Z.sub_0_r. auto.
    - inversion H as [|? ? (mb & E1 & G1) H2]; subst. cbn [fold_sub]. rewrite E1. cbn [bind].
      edestruct (IH (mb_sub acc mb) (z - den m e)%Z) as (mb' & E & P); [exact H2| |].
      + intros Ho. rewrite mval_sub. unfold mb_sub in Ho. cbn [mb_ok] in Ho. apply andb_prop in Ho. rewrite A, G1 by tauto. reflexivity.
      + exists mb'. split; [exact E|]. cbn [map fold_right]. rewrite Z.sub_add_distr. exact P.
  Qed.

  Theorem constraint_ok : forall e, expr_ok (cn_places net) e = true -> exists mb, constraint net m0 e = Ok mb /\ good mb (den m e).
  Proof.
    assert (F : forall es, Forall (fun e => expr_ok (cn_places net) e = true -> exists mb, constraint net m0 e = Ok mb /\ good mb (den m e)) es ->
      forallb (expr_ok (cn_places net)) es = true -> Forall (fun e => exists mb, constraint net m0 e = Ok mb /\ good mb (den m e)) es).
    { intros es H G. rewrite forallb_forall in G. rewrite Forall_forall in *. auto. }
    induction e using expr_ind'; cbn [expr_ok]; intros H0.
    - exists (member_int z). split; [reflexivity|]. intros _. apply int_val. exact H0.
    - apply Nat.ltb_lt in H0. cbn [constraint]. rewrite member_for_place_ok by exact H0. eexists. split; [reflexivity|]. intros _. apply place_val. exact H0.
    - apply IHe. exact H0.
    - destruct (IHe H0) as (mb & E & G). cbn [constraint]. rewrite E. cbn [bind]. eexists. split; [reflexivity|]. intros Ho.
      destruct (mval_mul mb (member_int (-1)) (occ w) Ho) as (O1 & _ & V). rewrite V, (G O1), int_val by reflexivity. cbn [den]. lia.
    - apply andb_prop in H0. destruct H0 as (H1 & H2). destruct (IHe H1) as (mb & E & G). cbn [constraint]. rewrite E. cbn [bind].
      destruct (fold_sub_ok _ (F _ H H2) G) as (mb' & E' & G'). exists mb'. split; [exact E'|exact G'].
    - apply andb_prop in H0. destruct H0 as (H0 & H2). apply andb_prop in H0. destruct H0 as (H0 & H1). cbn [constraint den].
      destruct (@comm_ok mb_add Z.add 0%Z) with (c := c) (ids := ids) (es := es) as (mb & E & G); auto; try (intros; lia).
      { intros a b Ho. unfold mb_add in Ho. cbn [mb_ok] in Ho. apply andb_prop in Ho. split; [tauto|]. split; [tauto|]. apply mval_add. }
      exists mb. split; [exact E|exact G].
    - apply andb_prop in H0. destruct H0 as (H0 & H2). apply andb_prop in H0. destruct H0 as (H0 & H1). cbn [constraint den].
      destruct (@comm_ok mb_mul Z.mul 1%Z) with (c := c) (ids := ids) (es := es) as (mb & E & G); auto; try (intros; lia).
      { intros a b Ho. apply mval_mul. exact Ho. }
      exists mb. split; [exact E|exact G].
  Qed.
End Net.

(** * Trivial comparisons *)
Lemma trivial_ok : forall strict a b r x, (forall t, (0 <= x t)%Z) -> int32 (mb_const a) = true -> int32 (mb_const b) = true ->
  trivial_lt strict a b = Some r ->
  (if strict then (mval a x < mval b x)%Z else (mval a x <= mval b x)%Z) <-> r = true.
Proof.
  intros strict a b r x Hx Ha Hb. unfold trivial_lt, cmp_int. rewrite !i32_id by assumption. unfold mval.
  destruct (mb_same a b) eqn:Es.
  { rewrite (lin_same _ _ 0 x Es). intros H. injection H as <-. destruct strict; [rewrite Z.ltb_lt|rewrite Z.leb_le]; lia. }
  unfold mb_type. pose proof (lin_zero (mb_vars a) 0 x) as Za. pose proof (lin_zero (mb_vars b) 0 x) as Zb.
  destruct (lin_sign (mb_vars a) 0 x Hx) as (Na & Pa). destruct (lin_sign (mb_vars b) 0 x Hx) as (Nb & Pb).
  destruct (forallb (Z.eqb 0) (mb_vars a)); destruct (forallb (Z.eqb 0) (mb_vars b));
  destruct (forallb (fun v => Z.leb v 0) (mb_vars a)); destruct (forallb (fun v => Z.leb v 0) (mb_vars b));
  destruct (forallb (Z.leb 0) (mb_vars a)); destruct (forallb (Z.leb 0) (mb_vars b)); try discriminate;
  repeat match goal with H : true = true -> _ |- _ => specialize (H eq_refl) end;
  destruct strict;
  try (destruct (Z.ltb_spec (mb_const a) (mb_const b))); try (destruct (Z.leb_spec (mb_const a) (mb_const b)));
  intros H'; try discriminate; injection H' as <-; split; intros; try discriminate; try reflexivity; lia.
Qed.
