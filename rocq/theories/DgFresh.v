(** Exploration of a configuration: its new edges. *)
From Verif Require Import Base BaseLemmas DgSpec DgModel DgInv DgOps DgSteps DgAssign DgExplore.
Set Implicit Arguments.

Section Fresh.
  Variable conf : Type.
  Variable ceq : forall a b : conf, {a = b} + {a <> b}.
  Variable g : graph conf.
  Variable val : conf -> Prop.
  Variable depth : conf -> nat.
  Variable addr : nat -> nat.
  Variable init : conf.
  Hypothesis Hsol : solution g val.
  Hypothesis Hlev : leveled g init depth.
  Notation st := (st conf).
  Notation edge := (edge conf).
  Notation Sem := (Sem g val depth).
  Notation Inv := (Inv g val depth).
  Notation okW := (okW val).
  Notation settles := (settles val).
  Notation mark := (mark ceq).
  Notation disown := (disown ceq).

  (** what happens to the rest while [c] is explored: [H] are the edges held outside *)
  Record ex (c : conf) (H : list nat) (s s' : st) : Prop := {
    x_cfg : forall x, x <> c -> s_cfg s' x = s_cfg s x;
    x_W : forall q, In q H -> In q (s_W s') -> In q (s_W s);
    x_N : s_N s' = s_N s;
    x_D : incl (s_D s) (s_D s');
    x_sem : forall q e, In q H -> ed s q = Some e -> exists e', ed s' q = Some e' /\ sem e' = sem e;
    x_c : (asg_of s' c = Zero /\ deps s' c = deps s c) \/
      (done (asg_of s' c) = true /\ forall q e x, In q H -> In q (deps s c) -> ed s q = Some e -> e_src e = Some x -> x <> c -> undone s x -> In q (s_D s'))
  }.
  Lemma ex_trans : forall c H s s1 s2, ex c H s s1 -> asg_of s1 c = Zero -> ex c H s1 s2 -> ex c H s s2.
  Proof.
    intros c H s s1 s2 [A1 A2 A3 A4 A5 A6] Hz [B1 B2 B3 B4 B5 B6]. split.
    - intros x Hx. rewrite B1, A1; auto.
    - auto.
    - congruence.
    - eapply incl_tran; eauto.
    - intros q e Hq E. destruct (A5 q e Hq E) as (e1 & E1 & F1). destruct (B5 q e1 Hq E1) as (e2 & E2 & F2). exists e2. split; [exact E2|congruence].
    - destruct A6 as [(_ & A6)|(A6 & _)]; [|rewrite Hz in A6; discriminate]. destruct B6 as [(B6 & B7)|(B6 & B7)]; [left; split; congruence|]. right. split; [exact B6|].
      intros q e x Hq Hd E Hx Hn Hu. destruct (A5 q e Hq E) as (e1 & E1 & F1). apply (B7 q e1 x Hq); [congruence|exact E1|rewrite (sem_src F1); exact Hx|exact Hn|].
      unfold undone, asg_of in *. rewrite (A1 x Hn). exact Hu.
  Qed.

  Definition fresh (c : conf) (s : st) (i : nat) : Prop :=
    exists e, ed s i = Some e /\ e_src e = Some c /\ e_ref e = 1%Z /\ e_processed e = false /\ e_handled e = false.

  (** the new edges [R] that are still held *)
  Record trying (c : conf) (ids R H : list nat) (s : st) : Prop := {
    t_nodup : NoDup R;
    t_disj : forall i, In i R -> ~ In i H;
    t_fresh : forall i, In i R -> fresh c s i;
    t_cover : forall i, In i ids -> In i R \/ In i (s_rec s)
  }.

  Lemma assign_ex : forall H Hx c s s' , (forall x, x <> c -> s_cfg s' x = s_cfg s x) -> done (asg_of s' c) = true -> keeps Hx (deps s c) s s' -> incl H Hx ->
    (forall j e x, In j (deps s c) -> ed s j = Some e -> e_src e = Some x -> undone s x -> x <> c -> In j (s_D s')) -> ex c H s s'.
  Proof.
    intros H Hx c s s' A1 A2 [K1 K2 K3 K4 K5 K6 K7] HI A3. split; auto.
    - intros q _ Hq. congruence.
    - intros q e Hq E. apply K7; [|exact E]. right. right. right. left. auto.
    - right. split; [exact A2|]. intros q e x _ Hd E Es Hn Hu. eapply A3; eauto.
  Qed.
  Lemma set_ex : forall c H (s : st) i e', asg_of s c = Zero -> ~ In i H -> ex c H s (set_edge s i e').
  Proof.
    intros c H s i e' Hz Hi. split; auto using incl_refl.
    intros q e Hq E. exists e. rewrite ed_set_ne; [auto|]. intros ->. contradiction.
  Qed.

  Lemma keeps_trying : forall c ids own H R X s s', Inv own (R ++ H) X s -> trying c ids R H s -> keeps (R ++ H) (deps s c) s s' -> trying c ids R H s'.
  Proof.
    intros c ids own H R X s s' I [T1 T2 T3 T4] [K1 K2 K3 K4 K5 K6 K7]. split; auto.
    - intros i Hi. destruct (T3 i Hi) as (e & E1 & E2 & E3 & E4). exists e. split; [|auto]. rewrite K6; [exact E1|].
      assert (Hi' : In i (R ++ H)) by (apply in_or_app; auto). apply (only_held ceq i I Hi' E1 E3).
    - intros i Hi. destruct (T4 i Hi) as [K|K]; auto.
  Qed.

  (** the new edge [i] is blocked *)
  Lemma handle_new : forall own c ids R H X s i e k h, Inv own (R ++ H) (R ++ X) s -> trying c ids R H s -> incl X H -> asg_of s c = Zero ->
    In i R -> ed s i = Some e -> nth_error (own c) k = Some (Some i) -> nth_error (g c) k = Some h -> blocked s h ->
    exists own' s', handle ceq true s i = Ok s' /\ Inv own' (remove Nat.eq_dec i R ++ H) (remove Nat.eq_dec i R ++ X) s' /\
      trying c ids (remove Nat.eq_dec i R) H s' /\ ex c H s s' /\ In i (s_rec s').
  Proof.
    intros own c ids R H X s i e k h I T HX Hc Hi E Hk Hh Hb. set (R' := remove Nat.eq_dec i R).
    destruct (t_fresh T i Hi) as (e0 & E0 & Es & Hr & Hp & Hhd). rewrite E in E0. injection E0 as <-.
    assert (HiH : In i (R ++ H)) by (apply in_or_app; auto).
    assert (M : mem (R ++ H) s i) by (right; right; right; left; exact HiH).
    destruct (get_ok ceq I M) as (e0 & c0 & G & E0 & Es0 & _). rewrite E in E0. injection E0 as <-. rewrite Es in Es0. injection Es0 as <-.
    assert (B := proj2 I). destruct (b_own B c Hc) as (Hlen & Hns).
    assert (Hn : exists n, nsuccs s c = S n) by (rewrite Hns, (somes_upd _ _ Hk); eauto). destruct Hn as (n & Hn).
    assert (HiX : In i (R ++ X)) by (apply in_or_app; auto).
    assert (I1 := @mark_ok conf ceq g val depth own (R ++ H) (R ++ X) s i e c k h n I HiX E Es Hc Hk Hh Hb Hn).
    set (own' := disown own c k) in *. set (s1 := mark s i e c n) in *.
    set (e1 := mkEdge (e_src e) (e_tgts e) (e_neg e) (e_status e) (e_processed e) true (e_ref e)).
    assert (E1 : ed s1 i = Some e1) by (unfold s1, DgExplore.mark; eapply ed_set; exact E).
    assert (En1 : forall j, j <> i -> ed s1 j = ed s j) by (intros j Hj; unfold s1, DgExplore.mark; rewrite ed_set_ne by exact Hj; reflexivity).
    destruct (only_held ceq i I HiH E Hr) as (NL & ND & _ & Hst).
    assert (Dd1 : forall x, deps s1 x = deps s x) by (intros x; unfold s1, DgExplore.mark, deps; cbn; destruct (ceq x c) as [->|]; reflexivity).
    assert (A1 : forall x, asg_of s1 x = asg_of s x) by (intros x; unfold s1, DgExplore.mark, asg_of; cbn; destruct (ceq x c) as [->|]; reflexivity).
    assert (X1 : incl (R' ++ X) (R ++ X)).
    { intros j Hj. apply in_app_or in Hj. apply in_or_app. destruct Hj as [Hj|Hj]; [left; apply in_remove_iff in Hj; apply Hj|auto]. }
    assert (I2 : Inv own' (R ++ H) (R' ++ X) s1).
    { eapply (@Inv_X conf g val depth own' _ (R ++ X) (R' ++ X) s1 I1 X1). intros j ej Hj Hj' Ej. assert (j = i).
      { apply in_app_or in Hj. destruct Hj as [Hj|Hj]; [|exfalso; apply Hj'; apply in_or_app; auto]. destruct (Nat.eq_dec j i); [assumption|]. exfalso. apply Hj'. apply in_or_app. left. apply in_remove_iff. auto. }
      subst j. rewrite E1 in Ej. injection Ej as <-. split; [intros x _ K; discriminate|]. right.
      split; [intros K; apply NL; right; left; exact K|]. split; [intros K; apply NL; right; right; exact K|]. split; [intros x; rewrite Dd1; apply ND|].
      assert (K : occ (s_W s) i = 0) by (apply occ_nin; intros K; apply NL; left; exact K). change (s_W s1) with (s_W s). lia. }
    assert (HH : forall j, occ (R ++ H) j = occ (i :: R' ++ H) j) by (intros j; apply remove_occ; [apply T|exact Hi]).
    assert (HX' : incl (R' ++ X) (R' ++ H)) by (apply incl_app; [apply incl_appl, incl_refl|apply incl_appr; exact HX]).
    assert (I3 := @unref_ok conf ceq g val depth own' (R ++ H) (R' ++ H) (R' ++ X) s1 i e1 I2 HH HX' E1).
    set (s2 := unref s1 i e1) in *.
    assert (E2 : ed s2 i = Some (set_ref e1 0)) by (unfold s2, unref; replace 0%Z with (e_ref e1 - 1)%Z by (cbn; lia); eapply ed_set; exact E1).
    assert (En2 : forall j, j <> i -> ed s2 j = ed s j) by (intros j Hj; unfold s2, unref; rewrite ed_set_ne by exact Hj; apply En1; exact Hj).
    assert (S2 : s2 = set_edge (set_cfg ceq s c (mkCfg (c_asg (s_cfg s c)) n (c_dist (s_cfg s c)) (c_deps (s_cfg s c)))) i
                        (mkEdge (e_src e) (e_tgts e) (e_neg e) (e_status e) (e_processed e) true (e_ref e - 1))).
    { unfold s2, unref, s1, DgExplore.mark, set_edge. cbn. rewrite upd_upd. reflexivity. }
    assert (Fr : forall j, In j R' -> fresh c s2 j).
    { intros j Hj. apply in_remove_iff in Hj. destruct (t_fresh T j (proj1 Hj)) as (ej & F1 & F2). exists ej. rewrite (En2 j (proj2 Hj)). auto. }
    assert (X2 : ex c H s s2).
    { split; auto using incl_refl.
      - intros x Hx. unfold s2, unref, s1, DgExplore.mark. cbn. destruct (ceq x c); [congruence|reflexivity].
      - intros q eq Hq Eq. exists eq. rewrite En2; [auto|]. intros ->. apply (t_disj T i Hi Hq).
      - left. split; [rewrite <- (A1 c) in Hc; exact Hc|apply Dd1]. }
    assert (Hfin : exists s3, (if Nat.eqb n 0 then final_assign ceq s2 c CZero else Ok s2) = Ok s3 /\ Inv own' (R' ++ H) (R' ++ X) s3 /\ ex c H s s3 /\
      (forall j, In j R' -> fresh c s3 j) /\ incl (s_rec s) (s_rec s3) /\ ed s3 i = Some (set_ref e1 0)).
    { assert (Hc2 : asg_of s2 c = Zero) by (rewrite <- (A1 c) in Hc; exact Hc).
      destruct (Nat.eqb_spec n 0) as [->|Hn0].
      - assert (Hv : ~ val c).
        { eapply (none_left Hsol c I3); [exact Hc2|]. unfold nsuccs, s2, unref, s1, DgExplore.mark. cbn. destruct (ceq c c); [reflexivity|congruence]. }
        destruct (@final_assign_ok conf ceq g val depth addr own' (R' ++ H) (R' ++ X) s2 c CZero I3 Hc2 (or_intror (conj eq_refl Hv))) as (s3 & F1 & F2 & F3 & F4 & F5 & F6 & F7).
        exists s3. split; [exact F1|]. split; [exact F2|]. split; [|split; [|split]].
        + eapply ex_trans; [exact X2|exact Hc2|]. eapply assign_ex; [exact F3|rewrite F4; reflexivity|exact F6|apply incl_appr, incl_refl|exact F7].
        + intros j Hj. destruct (Fr j Hj) as (ej & K1 & K2 & K3 & K4). exists ej. split; [|auto]. rewrite (k_ed F6); [exact K1|].
          assert (HjH : In j (R' ++ H)) by (apply in_or_app; auto). apply (only_held ceq j I3 HjH K1 K3).
        + exact (k_rec F6).
        + rewrite (k_ed F6); [exact E2|]. change (deps s2 c) with (deps s1 c). rewrite Dd1. apply ND.
      - exists s2. split; [reflexivity|]. split; [exact I3|]. split; [exact X2|]. split; [exact Fr|]. split; [apply incl_refl|exact E2]. }
    destruct Hfin as (s3 & F1 & F2 & F3 & F4 & F5 & F6).
    destruct (@release_ok conf ceq g val depth own' (R' ++ H) (R' ++ X) s3 i _ F2 F6 eq_refl) as (s4 & G1 & G2 & G3 & G4 & G5 & G6 & G7 & G8 & G9).
    exists own', s4. split.
    - unfold handle. rewrite G. cbn [bind fst snd]. unfold nsuccs in Hn. rewrite Hn. destruct (Z.ltb_spec (e_ref e) 1); [lia|].
      rewrite <- S2, F1. cbn [bind]. rewrite (rd_ok _ _ F6). cbn [bind]. cbn [e_ref set_ref]. exact G1.
    - split; [exact G2|]. split; [split|split].
      + apply nodup_remove. apply T.
      + intros j Hj. apply in_remove_iff in Hj. apply (t_disj T j (proj1 Hj)).
      + intros j Hj. destruct (F4 j Hj) as (ej & K1 & K2). exists ej. rewrite G8; [auto|]. apply in_remove_iff in Hj. apply Hj.
      + intros j Hj. rewrite G7. destruct (Nat.eq_dec j i) as [->|Hji]; [right; left; reflexivity|]. destruct (t_cover T j Hj) as [K|K]; [left; apply in_remove_iff; auto|right; right; auto].
      + destruct F3 as [A B' C D' E' F']. split.
        * intros x Hx. rewrite G3. auto.
        * intros q Hq. rewrite G4. auto.
        * congruence.
        * rewrite G6. exact D'.
        * intros q eq Hq Eq. rewrite G8; [auto|]. intros ->. apply (t_disj T i Hi Hq).
        * unfold asg_of, deps. rewrite G3, G6. exact F'.
      + rewrite G7. left. reflexivity.
  Qed.

  Lemma owner : forall own H X s i, Inv own H X s -> forall e c, mem H s i -> ed s i = Some e -> e_src e = Some c -> e_handled e = false -> asg_of s c = Zero ->
    exists k h, nth_error (own c) k = Some (Some i) /\ nth_error (g c) k = Some h /\ In h (g c) /\ edge_ok s c h e.
  Proof.
    intros own H X s i I e c M E Es Hh Hc. destruct (get_ok ceq I M) as (e0 & c0 & G & E0 & Es0 & _ & _ & K). rewrite E in E0. injection E0 as <-.
    rewrite Es in Es0. injection Es0 as <-. rewrite Hc in K. destruct K as [K|[K|(k & K)]]; [discriminate|congruence|]. assert (B := proj2 I).
    assert (Hg : exists h, nth_error (g c) k = Some h).
    { destruct (nth_error (g c) k) as [h|] eqn:Eh; [eauto|]. apply nth_error_None in Eh. rewrite <- (proj1 (b_own B c Hc)) in Eh. apply nth_lt in K. lia. }
    destruct Hg as (h & Hg). exists k, h. split; [exact K|]. split; [exact Hg|]. split; [eapply nth_error_In; exact Hg|].
    destruct (b_edge B c k Hc Hg K) as (e1 & E1 & O & _). rewrite E in E1. injection E1 as <-. exact O.
  Qed.

  Lemma check_new : forall own c ids R H X s i, Inv own (R ++ H) (R ++ X) s -> trying c ids R H s -> incl X H -> asg_of s c = Zero -> In i R ->
    exists own' R' s', check_only ceq addr s i = Ok s' /\ Inv own' (R' ++ H) (R' ++ X) s' /\ incl R' R /\ (forall j, In j R -> j <> i -> In j R') /\ trying c ids R' H s' /\ ex c H s s'.
  Proof.
    intros own c ids R H X s i I T HX Hc Hi.
    destruct (t_fresh T i Hi) as (e & E & Es & Hr & Hp & Hhd).
    assert (HiH : In i (R ++ H)) by (apply in_or_app; auto). assert (HiX : In i (R ++ X)) by (apply in_or_app; auto).
    assert (M : mem (R ++ H) s i) by (right; right; right; left; exact HiH).
    destruct (get_ok ceq I M) as (e0 & c0 & G & E0 & Es0 & _). rewrite E in E0. injection E0 as <-. rewrite Es in Es0. injection Es0 as <-.
    destruct (scan s (e_tgts e) None) as [[[ts allOne] hasCZ] last] eqn:Eq. destruct (scan_spec _ _ _ Eq) as (C1 & C2 & C3 & C4 & C5 & C6 & _ & C8).
    set (e1 := mkEdge (e_src e) ts (e_neg e) (e_status e) (e_processed e) (e_handled e) (e_ref e)).
    set (s1 := set_edge s i e1).
    assert (E1 : ed s1 i = Some e1) by (eapply ed_set; exact E).
    assert (En1 : forall j, j <> i -> ed s1 j = ed s j) by (intros j Hj; apply ed_set_ne; exact Hj).
    destruct (only_held ceq i I HiH E Hr) as (NL & ND & _ & Hst).
    assert (I1 : Inv own (R ++ H) (R ++ X) s1).
    { apply edge_change with (e := e); auto.
      - intros K. exfalso. apply NL. left. exact K.
      - cbn. congruence. }
    assert (T1 : trying c ids R H s1).
    { destruct T as [T1 T2 T3 T4]. split; auto. intros j Hj. destruct (Nat.eq_dec j i) as [->|Hn].
      - exists e1. split; [exact E1|]. cbn. auto.
      - destruct (T3 j Hj) as (ej & K). exists ej. rewrite (En1 j Hn). exact K. }
    assert (X1 : ex c H s s1) by (apply set_ex; [exact Hc|apply (t_disj T i Hi)]).
    assert (A1 : forall x, asg_of s1 x = asg_of s x) by reflexivity.
    assert (Hh1 : e_handled e1 = false) by (exact Hhd). assert (Es1 : e_src e1 = Some c) by (exact Es).
    assert (M1 : mem (R ++ H) s1 i) by (right; right; right; left; exact HiH).
    destruct (@owner own (R ++ H) (R ++ X) s1 i I1 e1 c M1 E1 Es1 Hh1 Hc) as (k & h & Hk & Hg & Hin & O).
    assert (Hhandle : blocked s1 h -> exists own' R' s', (s0 <- handle ceq true s1 i ;; e <- rd (s_edges s0) i ;; (if (e_ref e =? 0)%Z then release s0 i else Ok s0)) = Ok s' /\
      Inv own' (R' ++ H) (R' ++ X) s' /\ incl R' R /\ (forall j, In j R -> j <> i -> In j R') /\ trying c ids R' H s' /\ ex c H s s').
    { intros Hb. destruct (@handle_new own c ids R H X s1 i e1 k h I1 T1 HX Hc Hi E1 Hk Hg Hb) as (own' & s2 & F1 & F2 & F3 & F4 & F5).
      exists own', (remove Nat.eq_dec i R), s2. rewrite F1. cbn [bind]. destruct F2 as ((L2 & R2) & B2). destruct (r_rec R2 i F5) as (e2 & K1 & K2 & _).
      rewrite (rd_ok _ _ K1). cbn [bind]. rewrite K2. cbn. split; [reflexivity|]. split; [split; [exists L2; exact R2|exact B2]|]. split; [intros j Hj; apply in_remove_iff in Hj; apply Hj|].
      split; [intros j Hj Hn; apply in_remove_iff; auto|].
      split; [exact F3|]. eapply ex_trans; [exact X1|exact Hc|exact F4]. }
    assert (Hone : val c -> exists own' R' s', (s0 <- final_assign ceq s1 c One ;; e <- rd (s_edges s0) i ;; (if (e_ref e =? 0)%Z then release s0 i else Ok s0)) = Ok s' /\
      Inv own' (R' ++ H) (R' ++ X) s' /\ incl R' R /\ (forall j, In j R -> j <> i -> In j R') /\ trying c ids R' H s' /\ ex c H s s').
    { intros Hv. destruct (@final_assign_ok conf ceq g val depth addr own (R ++ H) (R ++ X) s1 c One I1 Hc (or_introl (conj eq_refl Hv))) as (s2 & F1 & F2 & F3 & F4 & F5 & F6 & F7).
      exists own, R, s2. rewrite F1. cbn [bind]. assert (E2 : ed s2 i = Some e1) by (rewrite (k_ed F6); [exact E1|]; apply ND).
      rewrite (rd_ok _ _ E2). cbn [bind]. unfold e1 at 1. cbn [e_ref]. rewrite Hr. cbn. split; [reflexivity|]. split; [exact F2|]. split; [apply incl_refl|]. split; [auto|].
      split; [eapply keeps_trying; [exact I1|exact T1|exact F6]|]. eapply ex_trans; [exact X1|exact Hc|].
      eapply assign_ex; [exact F3|rewrite F4; reflexivity|exact F6|apply incl_appr, incl_refl|exact F7]. }
    assert (Hskip : exists own' R' s', (s0 <- Ok s1 ;; e <- rd (s_edges s0) i ;; (if (e_ref e =? 0)%Z then release s0 i else Ok s0)) = Ok s' /\
      Inv own' (R' ++ H) (R' ++ X) s' /\ incl R' R /\ (forall j, In j R -> j <> i -> In j R') /\ trying c ids R' H s' /\ ex c H s s').
    { exists own, R, s1. cbn [bind]. rewrite (rd_ok _ _ E1). cbn [bind]. unfold e1 at 1. cbn [e_ref]. rewrite Hr. cbn. split; [reflexivity|]. split; [exact I1|]. split; [apply incl_refl|]. split; [auto|]. split; [exact T1|exact X1]. }
    unfold check_only, check_edge. rewrite G. cbn [bind fst snd]. rewrite Eq. cbn [fst snd]. fold e1. fold s1. rewrite Hhd, Hc. cbn [done negb].
    assert (Hsimp : forall (m : res st), (s0 <- m ;; e <- rd (s_edges s0) i ;; (let s2 := if (0 <? e_ref e)%Z && false then set_edge s0 i (mkEdge (e_src e) (e_tgts e) (e_neg e) (e_status e) true (e_handled e) (e_ref e)) else s0 in
       if (e_ref e =? 0)%Z then release s2 i else Ok s2)) = (s0 <- m ;; e <- rd (s_edges s0) i ;; (if (e_ref e =? 0)%Z then release s0 i else Ok s0))).
    { intros [s0| | |]; cbn [bind]; try reflexivity. destruct (rd (s_edges s0) i) as [e2| | |]; cbn [bind]; try reflexivity. rewrite andb_false_r. reflexivity. }
    rewrite Hsimp. destruct O as (O1 & O2 & O3 & O4 & O5). cbn [e1 e_src e_neg e_handled e_tgts] in O1, O2, O3, O4, O5.
    assert (O : edge_ok s1 c h e1) by (unfold edge_ok; auto).
    assert (Hne : e_neg e1 = e_neg e) by reflexivity.
    destruct (e_neg e) eqn:Eneg.
    - destruct allOne.
      + apply Hhandle. unfold blocked. rewrite <- O2. intros t Ht. destruct (O5 t Ht) as [K|K]; [|exact K]. apply C3; auto.
      + destruct hasCZ.
        * apply Hone. destruct (C4 eq_refl) as (t & T2 & T3). eapply (fires_neg Hsol t Hin O); [exact Hne|exact T2|]. apply (b_czero (proj2 I1) t T3).
        * destruct last as [t|]; [exact Hskip|exfalso; apply C8; reflexivity].
    - destruct allOne.
      + apply Hone. eapply (fires_one Hsol I1 Hin O); [exact Hne|]. intros t Ht. apply C3; auto.
      + destruct hasCZ.
        * apply Hhandle. unfold blocked. rewrite <- O2. destruct (C4 eq_refl) as (t & T2 & T3). exists t. split; [apply O4; exact T2|exact T3].
        * destruct last; exact Hskip.
  Qed.

  Lemma try_all_ok : forall l own c ids R H X s, Inv own (R ++ H) (R ++ X) s -> trying c ids R H s -> incl X H -> asg_of s c = Zero ->
    (forall i, In i l -> In i R) -> NoDup l ->
    exists own' R' s', try_all ceq addr s c l = Ok s' /\ Inv own' (R' ++ H) (R' ++ X) s' /\ incl R' R /\ trying c ids R' H s' /\ ex c H s s'.
  Proof.
    induction l as [|i l IH]; intros own c ids R H X s I T HX Hc Hl Hnd.
    - exists own, R, s. split; [reflexivity|]. split; [exact I|]. split; [apply incl_refl|]. split; [exact T|]. split; auto using incl_refl. intros q e _ E. exists e. auto.
    - inversion Hnd as [|? ? Hil Hnd']; subst.
      destruct (@check_new own c ids R H X s i I T HX Hc (Hl i (or_introl eq_refl))) as (own1 & R1 & s1 & F1 & F2 & F3 & F4 & F5 & F6).
      cbn [try_all]. rewrite F1. cbn [bind]. destruct (done (asg_of s1 c)) eqn:Hd; [exists own1, R1, s1; auto|].
      assert (Hc1 : asg_of s1 c = Zero) by (destruct (x_c F6) as [(K & _)|(K & _)]; congruence).
      destruct (IH own1 c ids R1 H X s1 F2 F5 HX Hc1) as (own2 & R2 & s2 & G1 & G2 & G2' & G3 & G4); [|exact Hnd'|].
      { intros j Hj. apply F4; [apply Hl; right; exact Hj|]. intros ->. contradiction. }
      exists own2, R2, s2. split; [exact G1|]. split; [exact G2|]. split; [eapply incl_tran; eauto|]. split; [exact G3|]. eapply ex_trans; eauto.
  Qed.
End Fresh.
