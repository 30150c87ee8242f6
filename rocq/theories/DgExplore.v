(** The invariant when a configuration is explored. *)
From Verif Require Import Base BaseLemmas DgSpec DgModel DgInv DgOps DgSteps DgAssign.
Set Implicit Arguments.

Lemma somes_upd : forall l k i, nth_error l k = Some (Some i) -> somes l = S (somes (upd l k None)).
Proof.
  unfold somes. induction l as [|o l IH]; intros [|k] i H; cbn in *; try discriminate.
  - injection H as ->. reflexivity.
  - destruct o; cbn; rewrite (IH k i H); reflexivity.
Qed.
Lemma somes_0 : forall l k o, somes l = 0 -> nth_error l k = Some o -> o = None.
Proof.
  unfold somes. induction l as [|x l IH]; intros [|k] o H E; cbn in *; try discriminate; destruct x; cbn in *; try lia; try congruence.
  apply (IH k o H E).
Qed.
Lemma somes_map : forall ids, somes (map (@Some nat) ids) = length ids.
Proof. unfold somes. induction ids; cbn; auto. Qed.
Lemma occ_remove : forall R i j, occ (remove Nat.eq_dec i R) j = if Nat.eq_dec i j then 0 else occ R j.
Proof.
  induction R as [|x R IH]; intros i j; cbn [remove].
  - destruct (Nat.eq_dec i j); reflexivity.
  - destruct (Nat.eq_dec i x) as [->|Hn]; rewrite ?occ_cons, IH; destruct (Nat.eq_dec x j); try destruct (Nat.eq_dec i j); try congruence; lia.
Qed.
Lemma occ_nodup : forall l i, NoDup l -> In i l -> occ l i = 1.
Proof. intros l i H Hi. apply (proj1 (NoDup_count_occ' Nat.eq_dec l) H i Hi). Qed.
Lemma remove_occ : forall R i H j, NoDup R -> In i R -> occ (R ++ H) j = occ (i :: remove Nat.eq_dec i R ++ H) j.
Proof.
  intros R i H j Hn Hi. rewrite occ_cons, !occ_app, occ_remove. destruct (Nat.eq_dec i j) as [<-|Hij]; [|lia]. rewrite (occ_nodup i Hn Hi). lia.
Qed.
Lemma in_remove_iff : forall i j R, In j (remove Nat.eq_dec i R) <-> In j R /\ j <> i.
Proof. intros i j R. split; [apply in_remove|]. intros (H1 & H2). apply in_in_remove; auto. Qed.
Lemma nodup_remove : forall i R, NoDup R -> NoDup (remove Nat.eq_dec i R).
Proof.
  intros i R H. apply (NoDup_count_occ' Nat.eq_dec). intros j Hj. apply in_remove_iff in Hj. change (occ (remove Nat.eq_dec i R) j = 1). rewrite occ_remove.
  destruct (Nat.eq_dec i j); [destruct Hj; congruence|]. apply occ_nodup; [exact H|apply Hj].
Qed.

Section Explore.
  Variable conf : Type.
  Variable ceq : forall a b : conf, {a = b} + {a <> b}.
  Variable g : graph conf.
  Variable val : conf -> Prop.
  Variable depth : conf -> nat.
  Variable addr : nat -> nat.
  Variable init : conf.
  Hypothesis Hsol : solution g val.
  Hypothesis Hlev : leveled g init depth.
  Notation st := (st conf).
  Notation edge := (edge conf).
  Notation Sem := (Sem g val depth).
  Notation Inv := (Inv g val depth).
  Notation okW := (okW val).
  Notation settles := (settles val).

  (** * The loop over the targets *)
  Lemma scan_spec : forall (s : st) ts last ts' allOne hasCZ last', scan s ts last = (ts', allOne, hasCZ, last') ->
    incl ts' ts /\ (forall t, In t ts -> In t ts' \/ asg_of s t = One) /\
    (allOne = true -> forall t, In t ts -> asg_of s t = One) /\
    (hasCZ = true -> exists t, In t ts' /\ asg_of s t = CZero) /\
    (hasCZ = false -> forall t, In t ts' -> undone s t) /\
    (last' = last \/ exists t, In t ts' /\ last' = Some t) /\
    (last <> None -> last' <> None) /\
    (allOne = false -> hasCZ = false -> last' <> None).
  Proof.
    intros s. induction ts as [|t ts IH]; intros last ts' a z last' H; cbn [scan] in H.
    - injection H as <- <- <- <-. split; [apply incl_refl|]. split; [intros t []|]. split; [intros _ t []|]. split; [discriminate|]. split; [intros _ t []|]. split; [auto|]. split; [auto|discriminate].
    - assert (U : forall a0 last0, asg_of s t = a0 -> undone s t -> 
        (let q := scan s ts last0 in (t :: fst (fst (fst q)), false, snd (fst q), snd q)) = (ts', a, z, last') -> last0 <> None -> (last0 = last \/ last0 = Some t) ->
        incl ts' (t :: ts) /\ (forall x, In x (t :: ts) -> In x ts' \/ asg_of s x = One) /\ (a = true -> forall x, In x (t :: ts) -> asg_of s x = One) /\
        (z = true -> exists x, In x ts' /\ asg_of s x = CZero) /\ (z = false -> forall x, In x ts' -> undone s x) /\
        (last' = last \/ exists x, In x ts' /\ last' = Some x) /\ (last <> None -> last' <> None) /\ (a = false -> z = false -> last' <> None)).
      { intros a0 last0 E Hu Hq Hl0 Hl. cbn zeta in Hq. destruct (scan s ts last0) as [[[ts1 a1] z1] l1] eqn:Eq. cbn in Hq. injection Hq as <- <- <- <-.
        destruct (IH _ _ _ _ _ Eq) as (I1 & I2 & I3 & I4 & I5 & I6 & I7 & I8).
        split; [intros x [<-|Hx]; [left; reflexivity|right; auto]|]. split; [intros x [<-|Hx]; [left; left; reflexivity|destruct (I2 x Hx); [left; right; assumption|right; assumption]]|].
        split; [discriminate|]. split; [intros Hz; destruct (I4 Hz) as (x & X1 & X2); exists x; split; [right; exact X1|exact X2]|].
        split; [intros Hz x [<-|Hx]; [exact Hu|auto]|]. split; [|split; [auto|auto]].
        destruct I6 as [->|(x & X1 & X2)]; [|right; exists x; split; [right; exact X1|exact X2]]. destruct Hl as [Hl|Hl]; rewrite Hl; [left; reflexivity|right; exists t; split; [left; reflexivity|reflexivity]]. }
      assert (NN : forall a0, match last with None => Some t | Some l => if asg_eq (asg_of s l) Unknown && asg_eq a0 Zero then Some t else last end <> None)
        by (intros a0; destruct last; [destruct (asg_eq (asg_of s c) Unknown && asg_eq a0 Zero)|]; discriminate).
      assert (NL : forall a0, match last with None => Some t | Some l => if asg_eq (asg_of s l) Unknown && asg_eq a0 Zero then Some t else last end = last \/
        match last with None => Some t | Some l => if asg_eq (asg_of s l) Unknown && asg_eq a0 Zero then Some t else last end = Some t)
        by (intros a0; destruct last; [destruct (asg_eq (asg_of s c) Unknown && asg_eq a0 Zero)|]; auto).
      destruct (asg_of s t) eqn:E.
      + eapply U; [reflexivity|unfold undone; rewrite E; reflexivity|exact H|apply NN|apply NL].
      + eapply U; [reflexivity|unfold undone; rewrite E; reflexivity|exact H|apply NN|apply NL].
      + destruct (IH _ _ _ _ _ H) as (I1 & I2 & I3 & I4 & I5 & I6 & I7 & I8).
        split; [intros x Hx; right; auto|]. split; [intros x [<-|Hx]; [right; exact E|auto]|]. split; [intros Ha x [<-|Hx]; [exact E|auto]|].
        split; [exact I4|]. split; [exact I5|]. split; [exact I6|]. split; [exact I7|exact I8].
      + injection H as <- <- <- <-. split; [apply incl_refl|]. split; [auto|]. split; [discriminate|].
        split; [intros _; exists t; split; [left; reflexivity|exact E]|]. split; [discriminate|]. split; [auto|]. split; [auto|discriminate].
  Qed.

  (** * Truth *)
  Lemma none_left : forall own H X s c, Inv own H X s -> asg_of s c = Zero -> nsuccs s c = 0 -> ~ val c.
  Proof.
    intros own H X s c (_ & B) Hc Hn Hv. apply (sol_fix Hsol) in Hv. destruct Hv as (h & Hh & Hf). apply In_nth_error in Hh. destruct Hh as (k & Hk).
    destruct (b_own B c Hc) as (Hlen & Hs). rewrite Hn in Hs. assert (Ho : exists o, nth_error (own c) k = Some o).
    { destruct (nth_error (own c) k) as [o|] eqn:Eo; [eauto|]. apply nth_error_None in Eo. apply nth_lt in Hk. lia. }
    destruct Ho as (o & Ho). assert (o = None) by (eapply somes_0; [symmetry; exact Hs|exact Ho]). subst o.
    assert (G := b_block B c k Hc Hk Ho). unfold blocked in G. unfold fires in Hf. destruct (h_neg h).
    - destruct Hf as (t & T1 & T2). apply T2. apply (b_one B). auto.
    - destruct G as (t & T1 & T2). apply (b_czero B t T2). auto.
  Qed.
  Lemma fires_one : forall own H X s c h e, Inv own H X s -> In h (g c) -> edge_ok s c h e -> e_neg e = false -> (forall t, In t (e_tgts e) -> asg_of s t = One) -> val c.
  Proof.
    intros own H X s c h e (_ & B) Hh (O1 & O2 & O3 & O4 & O5) Hn Ha. apply (sol_fix Hsol). exists h. split; [exact Hh|]. unfold fires. rewrite <- O2, Hn.
    intros t Ht. apply (b_one B). destruct (O5 t Ht); auto.
  Qed.
  Lemma fires_neg : forall (s : st) c h e t, In h (g c) -> edge_ok s c h e -> e_neg e = true -> In t (e_tgts e) -> ~ val t -> val c.
  Proof.
    intros s c h e t Hh (O1 & O2 & O3 & O4 & O5) Hn Ht Hv. apply (sol_fix Hsol). exists h. split; [exact Hh|]. unfold fires. rewrite <- O2, Hn. exists t. auto.
  Qed.

  (** * Handled edges *)
  Definition disown (own : conf -> list (option nat)) (c : conf) (k : nat) : conf -> list (option nat) :=
    fun x => if ceq x c then upd (own c) k None else own x.
  Definition mark (s : st) (i : nat) (e : edge) (c : conf) (n : nat) : st :=
    set_edge (set_cfg ceq s c (mkCfg (c_asg (s_cfg s c)) n (c_dist (s_cfg s c)) (c_deps (s_cfg s c)))) i
      (mkEdge (e_src e) (e_tgts e) (e_neg e) (e_status e) (e_processed e) true (e_ref e)).

  Lemma mark_ok : forall own H X s i e c k h n, Inv own H X s -> In i X -> ed s i = Some e -> e_src e = Some c -> asg_of s c = Zero ->
    nth_error (own c) k = Some (Some i) -> nth_error (g c) k = Some h -> blocked s h -> nsuccs s c = S n ->
    Inv (disown own c k) H X (mark s i e c n).
  Proof.
    intros own H X s i e c k h n ((L & R) & B) Hi E Es Hc Hk Hh Hb Hn. set (s' := mark s i e c n).
    assert (M : mem H s i) by (right; right; right; left; apply (b_X B); exact Hi). destruct (mem_ref ceq R M) as (e2 & E6 & E7 & E8). rewrite E in E6. injection E6 as <-.
    set (e' := mkEdge (e_src e) (e_tgts e) (e_neg e) (e_status e) (e_processed e) true (e_ref e)) in *.
    assert (Ei : ed s' i = Some e') by (unfold s', mark; eapply ed_set; exact E).
    assert (En : forall j, j <> i -> ed s' j = ed s j) by (intros j Hj; unfold s', mark; rewrite ed_set_ne by exact Hj; reflexivity).
    assert (A0 : forall x, asg_of s' x = asg_of s x) by (intros x; unfold s', mark, asg_of; cbn; destruct (ceq x c) as [->|]; reflexivity).
    assert (D0 : forall x, deps s' x = deps s x) by (intros x; unfold s', mark, deps; cbn; destruct (ceq x c) as [->|]; reflexivity).
    assert (I0 : forall x, dist s' x = dist s x) by (intros x; unfold s', mark, dist; cbn; destruct (ceq x c) as [->|]; reflexivity).
    assert (N0 : forall x, x <> c -> nsuccs s' x = nsuccs s x) by (intros x Hx; unfold s', mark, nsuccs; cbn; destruct (ceq x c) as [->|]; congruence).
    assert (N1 : nsuccs s' c = n) by (unfold s', mark, nsuccs; cbn; destruct (ceq c c); [reflexivity|congruence]).
    assert (Mm : forall j, mem H s' j -> mem H s j).
    { intros j [K|[K|[K|[K|(x & K)]]]]; [left|right; left|right; right; left|right; right; right; left|right; right; right; right; exists x; rewrite D0 in K]; exact K. }
    assert (Ow : forall x k' j, nth_error (disown own c k x) k' = Some (Some j) -> nth_error (own x) k' = Some (Some j) /\ (x = c -> k' <> k)).
    { intros x k' j Hj. unfold disown in Hj. destruct (ceq x c) as [->|Hx]; [|split; [exact Hj|contradiction]]. destruct (Nat.eq_dec k k') as [->|Hkk].
      - rewrite (nth_upd_some _ _ None Hk) in Hj. discriminate.
      - rewrite nth_upd_ne in Hj by exact Hkk. split; [exact Hj|congruence]. }
    assert (Oi : forall x k' j, asg_of s x = Zero -> nth_error (disown own c k x) k' = Some (Some j) -> j <> i).
    { intros x k' j Hx Hj ->. destruct (Ow x k' i Hj) as (K1 & K2). destruct (ceq x c) as [->|Hxc].
      - apply (K2 eq_refl). apply (b_inj B c k' k Hc K1 Hk).
      - assert (Hh' : exists h', nth_error (g x) k' = Some h').
        { destruct (nth_error (g x) k') as [h'|] eqn:Eh; [eauto|]. apply nth_error_None in Eh. rewrite <- (proj1 (b_own B x Hx)) in Eh. apply nth_lt in K1. lia. }
        destruct Hh' as (h' & Hh'). destruct (b_edge B x k' Hx Hh' K1) as (ei & F1 & (F2 & _) & _). rewrite E in F1. injection F1 as <-. congruence. }
    split.
    - exists L. apply Refs_step with (L := L) (H := H) (s := s) (i := i) (e' := e'); auto; try (solve [apply R]).
      + intros x Hx. rewrite D0. apply (r_Ld R x Hx).
      + apply (mem_rec ceq R M).
      + intros j _. unfold tot. rewrite (depsum_same L s s' j) by (intros x _; rewrite D0; reflexivity). reflexivity.
      + cbn. rewrite E7. f_equal. unfold tot. rewrite (depsum_same L s s' i) by (intros x _; rewrite D0; reflexivity). reflexivity.
      + intros Hs. apply (r_status R i E Hs).
    - split; try (solve [apply B]).
      + intros j Mj. destruct (b_live B (Mm j Mj)) as (ej & x & E1 & E2 & E3 & E4 & E5). destruct (Nat.eq_dec j i) as [->|Hnj].
        * rewrite E in E1. injection E1 as <-. exists e', x. rewrite A0. split; [exact Ei|]. split; [exact E2|]. split; [exact E3|]. split; [exact E4|]. right. left. reflexivity.
        * exists ej, x. rewrite (En j Hnj), A0. split; [exact E1|]. split; [exact E2|]. split; [exact E3|]. split; [exact E4|].
          destruct E5 as [E5|[E5|(k' & E5)]]; auto. right. right. exists k'. unfold disown. destruct (ceq x c) as [->|]; [|exact E5].
          rewrite nth_upd_ne; [exact E5|]. intros <-. rewrite Hk in E5. congruence.
      + intros x Hx. rewrite A0 in Hx. destruct (b_own B x Hx) as (K1 & K2). unfold disown. destruct (ceq x c) as [->|Hxc].
        * rewrite len_upd. split; [exact K1|]. rewrite N1. rewrite (somes_upd _ _ Hk) in K2. lia.
        * rewrite (N0 x Hxc). auto.
      + intros x k' h' j Hx Hh' Hj. rewrite A0 in Hx. assert (Hji := Oi x k' j Hx Hj). destruct (Ow x k' j Hj) as (K1 & _).
        destruct (b_edge B x k' Hx Hh' K1) as (ej & E1 & (O1 & O2 & O3 & O4 & O5) & E3). exists ej. rewrite (En j Hji). split; [exact E1|]. split.
        * unfold edge_ok. repeat split; auto. intros t Ht. rewrite A0. auto.
        * destruct E3 as [E3|[E3|[E3|(P1 & P2)]]]; [left; exact E3|right; left; exact E3|right; right; left; exact E3|]. right. right. right. split; [exact P1|].
          destruct (e_neg ej).
          -- destruct P2 as (P2 & P3). split; [exact P2|]. intros t Ht. rewrite A0. auto.
          -- destruct P2 as ((t & Ht & Hz) & P3). split; [exists t; rewrite A0; auto|]. intros y Hy. unfold undone. rewrite A0. apply P3. exact Hy.
      + intros x k' h' Hx Hh' Hk'. rewrite A0 in Hx. assert (G : blocked s h').
        { unfold disown in Hk'. destruct (ceq x c) as [->|Hxc]; [|apply (b_block B x k' Hx Hh' Hk')]. destruct (Nat.eq_dec k k') as [<-|Hkk]; [congruence|].
          rewrite nth_upd_ne in Hk' by exact Hkk. apply (b_block B c k' Hx Hh' Hk'). }
        unfold blocked in *. destruct (h_neg h'); [intros t Ht; rewrite A0; auto|]. destruct G as (t & G1 & G2). exists t. rewrite A0. auto.
      + intros x k1 k2 j Hx H1 H2. rewrite A0 in Hx. apply (b_inj B x k1 k2 Hx (proj1 (Ow x k1 j H1)) (proj1 (Ow x k2 j H2))).
      + intros x Hx. rewrite A0 in Hx. apply (b_one B x Hx).
      + intros x Hx. rewrite A0 in Hx. apply (b_czero B x Hx).
      + intros x. rewrite I0. apply B.
      + intros x Hx. rewrite A0 in Hx. rewrite I0. apply (b_dist1 B x Hx).
      + intros x Hx. rewrite D0 in Hx. rewrite I0. apply (b_dist2 B x Hx).
      + intros j ej t Hj Ej Hneg x Hx. rewrite D0 in Hj. destruct (Nat.eq_dec j i) as [->|Hnj].
        * rewrite Ei in Ej. injection Ej as <-. apply (b_deps B i t Hj E Hneg x Hx).
        * rewrite (En j Hnj) in Ej. apply (b_deps B j t Hj Ej Hneg x Hx).
      + intros x k' j ej t Hx Hj Ej Hneg Hp Ht Hu. rewrite A0 in Hx. unfold undone in Hu. rewrite A0 in Hu. rewrite D0. assert (Hji := Oi x k' j Hx Hj).
        rewrite (En j Hji) in Ej. eapply (b_pdeps B); [exact Hx|apply (Ow x k' j Hj)|exact Ej|exact Hneg|exact Hp|exact Ht|exact Hu].
      + intros j ej Hj Ej. destruct (Nat.eq_dec j i) as [->|Hnj].
        * rewrite Ei in Ej. injection Ej as <-. intros x _ _ K. discriminate.
        * rewrite (En j Hnj) in Ej. assert (K := b_W B j Hj Ej). intros x G1 G2 G3 G4 G5 t Ht. rewrite A0 in *. eapply K; eauto.
      + intros j ej Hj Ej. destruct (Nat.eq_dec j i) as [->|Hnj].
        * rewrite Ei in Ej. injection Ej as <-. intros x _ K. discriminate.
        * rewrite (En j Hnj) in Ej. assert (K := b_D B j Hj Ej). intros x G1 G2 G3 G4. rewrite A0 in G4. rewrite (@decided_same conf s s' _ A0). eapply K; eauto.
      + intros j ej Ej Hr Hp Hj. destruct (Nat.eq_dec j i) as [->|Hnj]; [contradiction|]. rewrite (En j Hnj) in Ej. destruct (b_un B j Ej Hr Hp Hj) as (U1 & U2 & U3 & U4).
        split; [exact U1|]. split; [exact U2|]. split; [|exact U4]. intros x. rewrite D0. apply U3.
  Qed.
End Explore.
