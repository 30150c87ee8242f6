(** The local algorithm: steps of the loop and the answer. *)
From Verif Require Import Base BaseLemmas DgSpec DgModel DgInv DgOps DgSteps DgAssign DgNew DgSearch LocModel LocInv.
Set Implicit Arguments.

Section Loc.
  Variable conf : Type.
  Variable ceq : forall a b : conf, {a = b} + {a <> b}.
  Variable g : graph conf.
  Variable val : conf -> Prop.
  Variable depth : conf -> nat.
  Variable addr : nat -> nat.
  Variable init : conf.
  Hypothesis Hsol : solution g val.
  Hypothesis Hlev : leveled g init depth.
  Notation st := (st conf).
  Notation edge := (edge conf).
  Notation LSem := (LSem g val depth).
  Notation LInv := (LInv g val depth).
  Notation matches := (matches g).
  Notation lokW := (lokW val).
  Arguments l_live {conf g val depth H Y s} _ i _. Arguments l_edge {conf g val depth H Y s} _ c h _ _. Arguments l_one {conf g val depth H Y s} _ c _.
  Arguments l_cz {conf g val depth H Y s} _ c _. Arguments l_dist {conf g val depth H Y s} _ c. Arguments l_dist1 {conf g val depth H Y s} _ c _.
  Arguments l_W {conf g val depth H Y s} _ i e _ _. Arguments l_D {conf g val depth H Y s} _ i e _ _. Arguments l_N {conf g val depth H Y s} _ i e _ _.
  Arguments l_deps {conf g val depth H Y s} _ i e t _ _. Arguments l_un {conf g val depth H Y s} _.

  (** ** Dependencies *)
  Lemma add_dep : forall Y s i e c h t, LInv [] Y s -> In i Y -> ed s i = Some e -> matches e c h -> In t (e_tgts e) -> asg_of s t <> One ->
    exists s', add_dependency ceq addr s t i = Ok s' /\ LInv [] Y s' /\ (forall x, asg_of s' x = asg_of s x) /\
      s_W s' = s_W s /\ s_N s' = s_N s /\ s_D s' = s_D s /\ In i (deps s' t) /\ (exists e', ed s' i = Some e' /\ sem e' = sem e) /\ dist s' t = depth t.
  Proof.
    intros Y s i e c h t I Hi E Me Ht Hn. destruct (lget I (or_intror Hi)) as (e0 & c0 & h0 & G & E0 & Me0 & Hr0 & Hu). rewrite E in E0. injection E0 as <-.
    assert (c0 = c) as -> by (destruct Me as (A & _), Me0 as (A0 & _); congruence). destruct I as ((L & R & Ex) & B). destruct (Ex i Hi) as (e1 & E1 & E7). rewrite E in E1. injection E1 as <-.
    assert (Hdep : depth t = depth c + (if e_neg e then 1 else 0)) by (destruct Me as (_ & M2 & M3 & M4); rewrite M4; apply (lev_depth Hlev c h t M2); rewrite <- M3; exact Ht).
    unfold add_dependency. replace (asg_eq (c_asg (s_cfg s t)) One) with false by (symmetry; apply asg_eq_no; exact Hn).
    rewrite G. cbn [bind fst snd].
    set (sd := c_dist (s_cfg s c) + (if e_neg e then 1 else 0)). assert (Hsd : sd = depth t) by (unfold sd; rewrite Hdep; f_equal; apply (l_dist1 B c Hu)).
    destruct (@insert_spec addr i (c_deps (s_cfg s t))) as (S1 & S2). set (p := insert addr i (c_deps (s_cfg s t))) in *.
    set (v := mkCfg (c_asg (s_cfg s t)) (c_nsuccs (s_cfg s t)) (Nat.max sd (c_dist (s_cfg s t))) (fst p)).
    set (e' := if snd p then set_ref e (e_ref e + 1) else e).
    set (s' := mkSt (s_cfg (set_cfg ceq s t v)) (upd (s_edges s) i e') (s_rec s) (s_W s) (s_N s) (s_D s)).
    assert (Es' : (if snd p then set_edge (set_cfg ceq s t v) i (set_ref e (e_ref e + 1)) else set_cfg ceq s t v) = s').
    { unfold s', e'. destruct (snd p); [reflexivity|]. unfold set_cfg. cbn. f_equal. clear - E. unfold ed in E. revert i E. induction (s_edges s) as [|y l IH]; intros [|i] E; cbn in *; try congruence.
      f_equal. apply IH. exact E. }
    rewrite Es'. exists s'. split; [reflexivity|]. clear Es'.
    assert (A0 : forall x, asg_of s' x = asg_of s x) by (intros x; unfold asg_of; cbn; destruct (ceq x t) as [->|]; reflexivity).
    assert (D0 : forall x, deps s' x = if ceq x t then fst p else deps s x) by (intros x; unfold deps; cbn; destruct (ceq x t) as [->|]; reflexivity).
    assert (I0 : forall x, x <> t -> dist s' x = dist s x) by (intros x Hx; unfold dist; cbn; destruct (ceq x t) as [->|]; congruence).
    assert (I1 : dist s' t = depth t).
    { unfold dist. cbn. destruct (ceq t t); [|congruence]. cbn. rewrite Hsd. assert (K := l_dist B t). unfold dist in K. lia. }
    assert (Sm : sem e' = sem e) by (unfold e'; destruct (snd p); reflexivity).
    assert (Ei : ed s' i = Some e') by (eapply nth_upd_some; exact E).
    assert (En : forall j, j <> i -> ed s' j = ed s j) by (intros j Hj; apply nth_upd_ne; congruence).
    assert (Di : forall x, incl (deps s x) (deps s' x)).
    { intros x j Hj. rewrite D0. destruct (ceq x t) as [->|]; [|exact Hj]. apply occ_in. rewrite S2. apply occ_in in Hj. unfold deps in Hj. lia. }
    assert (Dj : forall x j, In j (deps s' x) -> In j (deps s x) \/ (j = i /\ x = t)).
    { intros x j Hj. rewrite D0 in Hj. destruct (ceq x t) as [->|]; [|auto]. destruct (Nat.eq_dec i j) as [->|Hnj]; [auto|]. left. apply occ_in in Hj. rewrite S2 in Hj. apply occ_in. unfold deps.
      destruct (Nat.eq_dec i j); [congruence|]. destruct (snd p); lia. }
    assert (Mm : forall j, lv [] Y s' j -> lv [] Y s j).
    { intros j [[K|[K|[K|[K|(x & K)]]]]|K]; [left; left|left; right; left|left; right; right; left|destruct K| |right]; try exact K. apply Dj in K.
      destruct K as [K|(-> & _)]; [left; right; right; right; right; exists x; exact K|right; exact Hi]. }
    assert (Sn : forall ej j, ed s' j = Some ej -> exists e0, ed s j = Some e0 /\ sem ej = sem e0).
    { intros ej j Ej. destruct (Nat.eq_dec j i) as [->|Hnj]; [rewrite Ei in Ej; injection Ej as <-; exists e; auto|]. rewrite (En j Hnj) in Ej. exists ej. auto. }
    assert (Hf : forall ej j, ed s j = Some ej -> exists e0, ed s' j = Some e0 /\ sem e0 = sem ej /\ ((0 <= e_ref ej)%Z -> (0 <= e_ref e0)%Z)).
    { intros ej j Ej. destruct (Nat.eq_dec j i) as [->|Hnj]; [|exists ej; rewrite (En j Hnj); auto]. rewrite E in Ej. injection Ej as <-. exists e'. split; [exact Ei|]. split; [exact Sm|].
      unfold e'. destruct (snd p); cbn; lia. }
    split; [split|].
    - set (L' := if in_dec ceq t L then L else t :: L). exists L'.
      assert (NL : NoDup L') by (unfold L'; destruct (in_dec ceq t L); [apply R|constructor; [assumption|apply R]]).
      assert (Ht' : In t L') by (unfold L'; destruct (in_dec ceq t L); [assumption|left; reflexivity]).
      assert (Tt : forall j, depsum L' s j = depsum L s j).
      { intros j. unfold L'. destruct (in_dec ceq t L) as [K|K]; [reflexivity|]. cbn. rewrite (r_Ld R t K). reflexivity. }
      assert (Tc : forall j, depsum L' s' j = depsum L s j + (if snd p then (if Nat.eq_dec i j then 1 else 0) else 0)).
      { intros j. assert (T : depsum L' s' j + occ (deps s t) j = depsum L' s j + occ (deps s' t) j).
        { apply depsum_change; auto. intros x Hx. rewrite D0. destruct (ceq x t); congruence. }
        rewrite Tt in T. rewrite (D0 t) in T. destruct (ceq t t); [|congruence]. rewrite S2 in T. unfold deps in T. lia. }
      assert (Tn : forall j, j <> i -> tot L' [] s' j = tot L [] s j).
      { intros j Hj. unfold tot. rewrite Tc. cbn [s' s_W s_N s_D]. destruct (snd p); [destruct (Nat.eq_dec i j); [congruence|]|]; lia. }
      assert (Ti : e_ref e' = Z.of_nat (tot L' [] s' i)).
      { unfold tot. rewrite Tc. cbn [s' s_W s_N s_D]. destruct (Nat.eq_dec i i); [|congruence]. unfold tot in E7. unfold e'. destruct (snd p); cbn [e_ref set_ref]; lia. }
      split.
      + apply (@Refs_step conf L [] s L' [] s' i e' R NL); auto.
        * intros x Hx. rewrite D0. destruct (ceq x t) as [->|]; [contradiction|]. apply (r_Ld R). intros K. apply Hx. unfold L'. destruct (in_dec ceq t L); [exact K|right; exact K].
        * apply (@ref_nonneg_rec conf L [] s i e R E Hr0).
        * intros Hs. assert (K : 0 < e_status e) by (unfold e' in Hs; destruct (snd p); exact Hs). exact (r_status R i E K).
      + intros j Hj. destruct (Nat.eq_dec j i) as [->|Hnj]; [exists e'; auto|]. destruct (Ex j Hj) as (ej & K1 & K2). exists ej. rewrite (En j Hnj), (Tn j Hnj). auto.
    - split.
      + intros j K. destruct (l_live B j (Mm j K)) as (ej & x & hx & K1 & K2 & K3 & K4). destruct (Hf ej j K1) as (e2 & F1 & F2 & F3). exists e2, x, hx. split; [exact F1|]. split; [exact (matches_sem F2 K2)|]. split; [auto|]. rewrite A0. exact K4.
      + intros x hx Hx Hh. rewrite A0 in Hx. destruct (l_edge B x hx Hx Hh) as [(K1 & K2)|(j & ej & Ej & Mj & K)]; [left; split; [exact K1|intros y Hy; rewrite A0; auto]|]. right. destruct (Hf ej j Ej) as (e2 & F1 & F2 & F3). exists j, e2. split; [exact F1|]. split; [exact (matches_sem F2 Mj)|].
        destruct K as [K|[K|[K|[K|[K|(K1 & y & K2 & K3 & K4)]]]]]; unfold held, wait; auto 7. do 5 right. rewrite (sem_neg F2), (sem_tgts F2). split; [exact K1|]. exists y. rewrite A0. split; [exact K2|]. split; [exact K3|]. apply Di. exact K4.
      + intros x Hx. rewrite A0 in Hx. destruct (l_one B x Hx) as (K1 & K2). split; [exact K1|]. rewrite D0. destruct (ceq x t) as [->|]; [congruence|exact K2].
      + intros x. rewrite A0. apply (l_cz B).
      + intros x. destruct (ceq x t) as [->|Hx]; [rewrite I1; lia|]. rewrite (I0 x Hx). apply (l_dist B).
      + intros x Hx. rewrite A0 in Hx. destruct (ceq x t) as [->|Hxt]; [exact I1|]. rewrite (I0 x Hxt). apply (l_dist1 B x Hx).
      + intros j ej Hj Ej. destruct (Sn ej j Ej) as (e2 & F1 & F2). pose proof (l_W B j e2 Hj F1) as K. intros K1 K2 x y. rewrite !A0, (sem_src F2), (sem_tgts F2). rewrite (sem_neg F2) in K1. rewrite (sem_proc F2) in K2. apply K; assumption.
      + intros j ej Hj Ej. destruct (Sn ej j Ej) as (e2 & F1 & F2). pose proof (l_D B j e2 Hj F1) as K. intros K1 y. rewrite A0, (sem_tgts F2). rewrite (sem_neg F2) in K1. apply K; assumption.
      + intros j ej Hj Ej. destruct (Sn ej j Ej) as (e2 & F1 & F2). destruct (l_N B j e2 Hj F1) as (K1 & K2). split; [rewrite (sem_neg F2); exact K1|]. intros y. rewrite A0, (sem_tgts F2). apply K2.
      + intros j ej y Hj Ej. destruct (Sn ej j Ej) as (e2 & F1 & F2). rewrite (sem_tgts F2). apply Dj in Hj. destruct Hj as [Hj|(-> & ->)]; [exact (l_deps B j e2 y Hj F1)|]. rewrite E in F1. injection F1 as <-. exact Ht.
      + intros j ej Ej Hrj Hp Hj. assert (Hnj : j <> i) by congruence. rewrite (En j Hnj) in Ej. destruct (l_un B j ej Ej Hrj Hp Hj) as (K1 & K2 & K3 & K4). repeat split; auto. intros x Hx. apply Dj in Hx. destruct Hx as [Hx|(-> & _)]; [exact (K3 x Hx)|congruence].
    - split; [exact A0|]. split; [reflexivity|]. split; [reflexivity|]. split; [reflexivity|]. split; [rewrite D0; destruct (ceq t t); [exact S1|congruence]|]. split; [exists e'; auto|exact I1].
  Qed.

  (** ** Exploration *)
  Lemma explore_begin : forall Y s c, LInv [] Y s -> (forall i, In i Y -> mem [] s i) -> asg_of s c = Unknown -> dist s c = depth c ->
    exists s1 ids, new_edges s c (g c) = Ok (s1, ids) /\ NoDup ids /\
      let s2 := set_cfg ceq s1 c (mkCfg Zero (c_nsuccs (s_cfg s c)) (c_dist (s_cfg s c)) (c_deps (s_cfg s c))) in
      LInv ids Y s2 /\ (forall x, asg_of s2 x = if ceq x c then Zero else asg_of s x) /\ (forall x, deps s2 x = deps s x) /\ s_W s2 = s_W s /\ s_N s2 = s_N s /\ s_D s2 = s_D s /\
      (forall i, In i ids -> ~ mem [] s i /\ exists h, ed s2 i = Some (brand_new c h)) /\ (forall i, ~ In i ids -> ed s2 i = ed s i).
  Proof.
    intros Y s c ((L & R & Ex) & B) HY Hc Hdist. destruct (@new_edges_ok conf (g c) L [] s c R) as (s1 & ids & F1 & F2 & F3 & F4 & F5 & F6 & F7 & F8 & F9 & F10 & F11). rewrite app_nil_r in F2.
    exists s1, ids. split; [exact F1|]. split; [exact F8|].
    assert (Nm : forall i, In i ids -> ~ mem [] s i) by (intros i Hi; rewrite (mem_tot ceq i R), (F9 i Hi); lia).
    assert (NY : forall i, In i Y -> ~ In i ids) by (intros i Hi K; exact (Nm i K (HY i Hi))).
    set (s2 := set_cfg ceq s1 c (mkCfg Zero (c_nsuccs (s_cfg s c)) (c_dist (s_cfg s c)) (c_deps (s_cfg s c)))). cbn zeta.
    assert (A0 : forall x, asg_of s2 x = if ceq x c then Zero else asg_of s x) by (intros x; unfold s2; rewrite asg_set; destruct (ceq x c); [reflexivity|unfold asg_of; rewrite F3; reflexivity]).
    assert (D0 : forall x, deps s2 x = deps s x) by (intros x; unfold s2; rewrite deps_set; destruct (ceq x c) as [->|]; [reflexivity|unfold deps; rewrite F3; reflexivity]).
    assert (I0 : forall x, dist s2 x = dist s x) by (intros x; unfold s2; rewrite dist_set; destruct (ceq x c) as [->|]; [reflexivity|unfold dist; rewrite F3; reflexivity]).
    assert (W2 : s_W s2 = s_W s) by exact F4. assert (N2 : s_N s2 = s_N s) by exact F5. assert (D2 : s_D s2 = s_D s) by exact F6.
    assert (Ids : forall i, In i ids -> exists h, ed s2 i = Some (brand_new c h) /\ In h (g c)).
    { intros i Hi. apply In_nth_error in Hi. destruct Hi as (k & Hk). destruct (nth_error (g c) k) as [h|] eqn:Eh.
      - exists h. split; [eapply F10; eauto|eapply nth_error_In; exact Eh].
      - apply nth_error_None in Eh. apply nth_lt in Hk. lia. }
    assert (En : forall i, ~ In i ids -> ed s2 i = ed s i) by (intros i Hi; apply (F11 i Hi)).
    assert (Lo : forall j, lv ids Y s2 j -> In j ids \/ (~ In j ids /\ lv [] Y s j)).
    { intros j K. destruct (in_dec Nat.eq_dec j ids) as [Hj|Hj]; [auto|]. right. split; [exact Hj|]. destruct K as [[K|[K|[K|[K|(x & K)]]]]|K]; unfold lv, mem; rewrite ?W2, ?N2, ?D2 in *; auto 7; [contradiction|]. rewrite D0 in K. left. do 4 right. exists x. exact K. }
    assert (Mn : forall j, mem [] s j -> ~ In j ids) by (intros j K1 K2; exact (Nm j K2 K1)).
    assert (AO : forall x, asg_of s x = One -> asg_of s2 x = One) by (intros x Hx; rewrite A0; destruct (ceq x c) as [->|]; congruence).
    assert (AK : forall x, asg_of s x <> Unknown -> asg_of s2 x = asg_of s x) by (intros x Hx; rewrite A0; destruct (ceq x c) as [->|]; congruence).
    split; [split|].
    - exists L. split.
      + apply (@Refs_same conf L ids s1 L ids s2 F2 (r_L R)); auto.
        * intros x Hx. rewrite D0. apply (r_Ld R x Hx).
        * intros j. unfold tot. rewrite (@depsum_same conf L s1 s2 j); [reflexivity|]. intros x _. rewrite D0. unfold deps. rewrite F3. reflexivity.
      + intros j Hj. destruct (Ex j Hj) as (ej & E1 & E2). exists ej. rewrite (En j (NY j Hj)). split; [exact E1|]. rewrite E2. unfold tot. rewrite W2, N2, D2. rewrite (@depsum_same conf L s s2 j) by (intros x _; rewrite D0; reflexivity). rewrite (proj1 (occ_nin ids j) (NY j Hj)). reflexivity.
    - split.
      + intros j K. destruct (Lo j K) as [Hj|(Hj & K')].
        * destruct (Ids j Hj) as (h & E & Hh). exists (brand_new c h), c, h. split; [exact E|]. split; [repeat split; auto|]. split; [cbn; lia|]. rewrite A0. destruct (ceq c c); congruence.
        * destruct (l_live B j K') as (e & x & h & E & Me & Hr & Ha). exists e, x, h. rewrite (En j Hj). split; [exact E|]. split; [exact Me|]. split; [exact Hr|]. rewrite (AK x Ha). exact Ha.
      + intros x h Hx Hh. destruct (ceq x c) as [->|Hn].
        * right. apply In_nth_error in Hh. destruct Hh as (k & Hk). destruct (nth_error ids k) as [i|] eqn:Ei; [|apply nth_error_None in Ei; apply nth_lt in Hk; lia].
          exists i, (brand_new c h). split; [apply (F10 k h i Hk Ei)|]. split; [repeat split; auto; apply nth_error_In in Hk; exact Hk|]. left. apply nth_error_In in Ei. exact Ei.
        * assert (Hz : asg_of s x = Zero) by (rewrite A0 in Hx; destruct (ceq x c); congruence). destruct (l_edge B x h Hz Hh) as [(K1 & K2)|(i & e & E & Me & K)]; [left; split; [exact K1|intros t Ht; apply AO; auto]|].
          right. exists i, e. assert (Hi : ~ In i ids). { destruct (held_lv K) as [M|M]; [exact (Mn i M)|exact (NY i M)]. } rewrite (En i Hi). split; [exact E|]. split; [exact Me|].
          destruct K as [[]|[K|[K|[K|[K|(K1 & t & K2 & K3 & K4)]]]]]; unfold held, wait; rewrite ?W2, ?N2, ?D2; auto 7. do 5 right. split; [exact K1|]. exists t. rewrite D0. rewrite (AK t) by congruence. auto.
      + intros x Hx. rewrite D0. rewrite A0 in Hx. destruct (ceq x c); [discriminate|]. apply (l_one B x Hx).
      + intros x. rewrite A0. destruct (ceq x c); [discriminate|apply (l_cz B)].
      + intros x. rewrite I0. apply (l_dist B).
      + intros x Hx. rewrite I0. rewrite A0 in Hx. destruct (ceq x c) as [->|]; [exact Hdist|apply (l_dist1 B x Hx)].
      + intros i e Hi E K1 K2 x t Hx Hz Ht. rewrite W2 in Hi. rewrite (En i) in E by (apply Mn; left; exact Hi).
        destruct (ceq x c) as [->|Hn].
        * exfalso. assert (M : lv [] Y s i) by (left; left; exact Hi). destruct (l_live B i M) as (e2 & x2 & h2 & G1 & (G2 & _) & _ & G3). congruence.
        * rewrite A0 in Hz. destruct (ceq x c); [congruence|]. destruct (l_W B i e Hi E K1 K2 x t Hx Hz Ht) as [K|K]; [left; apply AO; exact K|right; exact K].
      + intros i e Hi E K1 t Ht. rewrite D2 in Hi. rewrite (En i) in E by (apply Mn; right; right; left; exact Hi). apply AO. exact (l_D B i e Hi E K1 t Ht).
      + intros i e Hi E. rewrite N2 in Hi. rewrite (En i) in E by (apply Mn; right; left; exact Hi). destruct (l_N B i e Hi E) as (K1 & K2). split; [exact K1|]. intros t Ht. rewrite (AK t (K2 t Ht)). exact (K2 t Ht).
      + intros i e t Hi E. rewrite D0 in Hi. rewrite (En i) in E by (apply Mn; right; right; right; right; exists t; exact Hi). exact (l_deps B i e t Hi E).
      + intros i e E Hr Hp Hi. rewrite W2, N2, D2. destruct (in_dec Nat.eq_dec i ids) as [K|K].
        * assert (M := Nm i K). split; [intros X; apply M; right; left; exact X|]. split; [intros X; apply M; right; right; left; exact X|]. split; [intros x X; rewrite D0 in X; apply M; do 4 right; exists x; exact X|].
          assert (~ In i (s_W s)) as X by (intros X; apply M; left; exact X). apply occ_nin in X. lia.
        * rewrite (En i K) in E. destruct (l_un B i e E Hr Hp Hi) as (K1 & K2 & K3 & K4). repeat split; auto. intros x. rewrite D0. apply K3.
    - split; [exact A0|]. split; [exact D0|]. split; [exact W2|]. split; [exact N2|]. split; [exact D2|]. split; [|exact En]. intros i Hi. split; [exact (Nm i Hi)|]. destruct (Ids i Hi) as (h & E & _). exists h. exact E.
  Qed.
  Lemma explore_loop : forall l Y s c, LInv l Y s -> NoDup l -> asg_of s c = Zero -> (forall i, In i Y -> ~ In i l) ->
    (forall i, In i l -> ~ mem [] s i /\ exists h, ed s i = Some (brand_new c h)) ->
    exists s', each (@explore_push conf) l s = Ok s' /\ LInv [] Y s' /\ (forall x, s_cfg s' x = s_cfg s x) /\ s_N s' = s_N s /\ s_D s' = s_D s /\
      (forall i, ~ In i l -> ed s' i = ed s i /\ (In i (s_W s') -> In i (s_W s))).
  Proof.
    induction l as [|i l IH]; intros Y s c I Nd Hc HY Hl; cbn [each].
    - exists s. split; [reflexivity|]. split; [exact I|]. do 3 (split; [reflexivity|]). intros i _. auto.
    - inversion Nd as [|? ? Nd1 Nd2]; subst. destruct (Hl i (or_introl eq_refl)) as (Nm & h & E).
      assert (M : mem (i :: l) s i) by (right; right; right; left; left; reflexivity). destruct (lget I (or_introl M)) as (e0 & c0 & h0 & G & E0 & Me & _ & _). rewrite E in E0. injection E0 as <-.
      assert (c0 = c) as -> by (destruct Me as (A & _); cbn in A; congruence).
      unfold explore_push at 1, push_edge. rewrite G. cbn [bind fst snd]. rewrite Hc. cbn [brand_new e_status e_processed e_neg done orb andb Nat.ltb Nat.leb bind].
      set (s1 := set_lists (set_edge s i (set_push (brand_new c h) 1)) (s_W s ++ [i]) (s_N s) (s_D s)).
      assert (nW : ~ In i (s_W s)) by (intros K; apply Nm; left; exact K). assert (nN : ~ In i (s_N s)) by (intros K; apply Nm; right; left; exact K). assert (nD : ~ In i (s_D s)) by (intros K; apply Nm; right; right; left; exact K).
      assert (nP : forall x, ~ In i (deps s x)) by (intros x K; apply Nm; do 4 right; exists x; exact K).
      assert (I1 : LInv (i :: l) Y s1).
      { apply (@push_gen conf ceq g val depth (i :: l) Y s i (brand_new c h) 1 (s_W s ++ [i]) (s_N s) (s_D s) I (or_introl (or_introl eq_refl)) E); auto.
        - intros j Hj. rewrite occ_snoc. destruct (Nat.eq_dec i j); [congruence|]. lia.
        - rewrite occ_snoc. destruct (Nat.eq_dec i i); [lia|congruence].
        - intros K. apply in_or_app. left. exact K.
        - intros _. right. intros _ K. discriminate K.
        - right. right. split; [exact nN|]. split; [exact nD|]. split; [exact nP|]. rewrite occ_snoc. destruct (Nat.eq_dec i i); [|congruence]. apply occ_nin in nW. lia. }
      destruct (@drop_gen conf ceq g val depth (i :: l) l Y s1 i I1) as (s2 & F1 & F2 & F3 & F4 & F5 & F6 & F7 & F8); [reflexivity|intros K; exact (HY i K (or_introl eq_refl))| |].
      { intros e1 c1 h1 E1 M1 Hz. right. right. right. left. cbn. apply in_or_app. right. left. reflexivity. }
      change (set_lists (set_edge s i (set_push {| e_src := Some c; e_tgts := h_targets h; e_neg := h_neg h; e_status := 0; e_processed := false; e_handled := false; e_ref := 1 |} 1)) (s_W s ++ [i]) (s_N s) (s_D s)) with s1. rewrite F1. cbn [bind].
      assert (Ed : forall j, j <> i -> ed s2 j = ed s j). { intros j Hj. rewrite (F7 j Hj). exact (@ed_set_ne conf s i j _ Hj). }
      destruct (IH Y s2 c F2 Nd2) as (s3 & G1 & G2 & G3 & G4 & G5 & G6).
      + unfold asg_of. rewrite F3. exact Hc.
      + intros j Hj K. exact (HY j Hj (or_intror K)).
      + intros j Hj. assert (Hn : j <> i) by congruence. destruct (Hl j (or_intror Hj)) as (K1 & K2). split; [|rewrite (Ed j Hn); exact K2]. intros [K|[K|[K|[K|(x & K)]]]].
        * rewrite F4 in K. cbn in K. apply in_app_or in K. destruct K as [K|[K|[]]]; [apply K1; left; exact K|congruence].
        * rewrite F5 in K. apply K1. right. left. exact K.
        * rewrite F6 in K. apply K1. right. right. left. exact K.
        * destruct K.
        * apply K1. do 4 right. exists x. unfold deps in *. rewrite F3 in K. exact K.
      + exists s3. split; [exact G1|]. split; [exact G2|]. split; [intros x; rewrite G3, F3; reflexivity|]. split; [rewrite G4, F5; reflexivity|]. split; [rewrite G5, F6; reflexivity|].
        intros j Hj. destruct (G6 j) as (K1 & K2); [intros K; apply Hj; right; exact K|]. assert (Hn : j <> i) by (intros ->; apply Hj; left; reflexivity). split; [rewrite K1; apply Ed; exact Hn|]. intros K. apply K2 in K. rewrite F4 in K. cbn in K. apply in_app_or in K. destruct K as [K|[K|[]]]; [exact K|congruence].
  Qed.
  Lemma explore_ok : forall Y s c, LInv [] Y s -> (forall i, In i Y -> mem [] s i) -> asg_of s c = Unknown -> dist s c = depth c ->
    exists s', explore_local ceq g s c = Ok s' /\ LInv [] Y s' /\ (forall x, asg_of s' x = if ceq x c then Zero else asg_of s x) /\ (forall x, deps s' x = deps s x) /\
      (forall i, In i Y -> ed s' i = ed s i /\ (In i (s_W s') -> In i (s_W s))).
  Proof.
    intros Y s c I HY Hc Hd. destruct (explore_begin I HY Hc Hd) as (s1 & ids & F1 & F2 & F3 & F4 & F5 & F6 & F7 & F8 & F9 & F10). unfold explore_local. unfold asg_of in Hc. rewrite Hc. cbn [asg_eq negb]. rewrite F1. cbn [bind fst snd].
    set (s2 := set_cfg ceq s1 c (mkCfg Zero (c_nsuccs (s_cfg s c)) (c_dist (s_cfg s c)) (c_deps (s_cfg s c)))) in *.
    assert (NY : forall i, In i Y -> ~ In i ids) by (intros i Hi K; destruct (F9 i K) as (K1 & _); exact (K1 (HY i Hi))).
    destruct (@explore_loop ids Y s2 c F3 F2) as (s3 & G1 & G2 & G3 & G4 & G5 & G6).
    - rewrite F4. destruct (ceq c c); congruence.
    - exact NY.
    - intros i Hi. destruct (F9 i Hi) as (K1 & K2). split; [|exact K2]. intros M. apply K1. unfold mem in *. rewrite F6, F7, F8 in M. destruct M as [M|[M|[M|[M|(x & M)]]]]; auto. do 4 right. exists x. rewrite F5 in M. exact M.
    - exists s3. split; [exact G1|]. split; [exact G2|]. split; [intros x; unfold asg_of at 1; rewrite G3; apply F4|]. split; [intros x; unfold deps at 1; rewrite G3; apply F5|].
      intros i Hi. destruct (G6 i (NY i Hi)) as (K1 & K2). split; [rewrite K1; apply F10; exact (NY i Hi)|]. intros K. apply K2 in K. rewrite F6 in K. exact K.
  Qed.

  (** ** Taking an edge from a list *)
  Definition popped (s : st) (i : nat) (e : edge) (W D : list nat) : st :=
    set_lists (set_edge s i (mkEdge (e_src e) (e_tgts e) (e_neg e) 0 (e_processed e) (e_handled e) (e_ref e - 1))) W (s_N s) D.
  Definition split_ok (s : st) (i : nat) (W D : list nat) : Prop :=
    (forall j, occ W j + occ D j + occ [i] j = occ (s_W s) j + occ (s_D s) j) /\ (forall j, occ W j <= occ (s_W s) j /\ occ D j <= occ (s_D s) j).
  Lemma popped_refs : forall L s i e W D, Refs L [] s -> mem [] s i -> ed s i = Some e -> split_ok s i W D ->
    Refs L [] (popped s i e W D) /\ exact_ref L [] (popped s i e W D) i /\ (forall j, j <> i -> tot L [] (popped s i e W D) j = tot L [] s j).
  Proof.
    intros L s i e W D R M E (Ho & Hle). set (e1 := mkEdge (e_src e) (e_tgts e) (e_neg e) 0 (e_processed e) (e_handled e) (e_ref e - 1)). set (s1 := popped s i e W D).
    assert (E1 : ed s1 i = Some e1) by (exact (@ed_set conf s i e e1 E)).
    assert (En : forall j, j <> i -> ed s1 j = ed s j) by (intros j Hj; exact (@ed_set_ne conf s i j e1 Hj)).
    destruct (mem_ref ceq R M) as (e2 & E2 & E3 & E4). rewrite E in E2. injection E2 as <-.
    assert (Tn : forall j, j <> i -> tot L [] s1 j = tot L [] s j).
    { intros j Hj. unfold tot. change (depsum L s1 j) with (depsum L s j). cbn [s1 popped set_lists set_edge s_W s_N s_D]. specialize (Ho j). rewrite occ_one in Ho. destruct (Nat.eq_dec i j); [congruence|]. lia. }
    assert (Ti : S (tot L [] s1 i) = tot L [] s i).
    { unfold tot. change (depsum L s1 i) with (depsum L s i). cbn [s1 popped set_lists set_edge s_W s_N s_D]. specialize (Ho i). rewrite occ_one in Ho. destruct (Nat.eq_dec i i); [|congruence]. lia. }
    assert (Hx : e_ref e1 = Z.of_nat (tot L [] s1 i)) by (cbn [e1 e_ref]; lia).
    assert (Hns : forall j, j <> i -> (In j (s_W s) -> In j W) /\ (In j (s_D s) -> In j D)).
    { intros j Hj. specialize (Ho j). specialize (Hle j). rewrite occ_one in Ho. destruct (Nat.eq_dec i j); [congruence|]. split; intros K; apply occ_in in K; apply occ_in; lia. }
    split; [|split; [exists e1; auto|exact Tn]].
    apply (@Refs_step conf L [] s L [] s1 i e1 R (r_L R) (r_Ld R)); auto.
    - eapply (mem_rec ceq); eauto.
    - cbn. lia.
    - intros j Hj Kj. destruct (Hns j Hj) as (N1 & N2). destruct Kj as [Kj|[Kj|Kj]]; [left; exact (N1 Kj)|right; left; exact Kj|right; right; exact (N2 Kj)].
  Qed.
  Definition pop_fact (s : st) (i : nat) : Prop :=
    exists e, ed s i = Some e /\ (lokW s e \/ lokD s e) /\ (e_processed e = true \/ ~ In i (s_W s)).
  Lemma popped_ok : forall s i e W D, LInv [] [] s -> In i (s_W s) \/ In i (s_D s) -> ed s i = Some e -> split_ok s i W D ->
    LInv [] [i] (popped s i e W D) /\ pop_fact (popped s i e W D) i.
  Proof.
    intros s i e W D ((L & R & _) & B) Hi E Sp. assert (M : mem [] s i) by (destruct Hi as [K|K]; [left; exact K|right; right; left; exact K]).
    destruct (popped_refs R M E Sp) as (R1 & X1 & _). set (s1 := popped s i e W D) in *. destruct Sp as (Ho & Hle).
    set (e1 := mkEdge (e_src e) (e_tgts e) (e_neg e) 0 (e_processed e) (e_handled e) (e_ref e - 1)).
    assert (E1 : ed s1 i = Some e1) by (exact (@ed_set conf s i e e1 E)).
    assert (En : forall j, j <> i -> ed s1 j = ed s j) by (intros j Hj; exact (@ed_set_ne conf s i j e1 Hj)).
    destruct (mem_ref ceq R M) as (e2 & E2 & E3 & E4). rewrite E in E2. injection E2 as <-.
    assert (HW : forall j, In j W -> In j (s_W s)) by (intros j Hj; apply occ_in in Hj; apply occ_in; specialize (Hle j); lia).
    assert (HD : forall j, In j D -> In j (s_D s)) by (intros j Hj; apply occ_in in Hj; apply occ_in; specialize (Hle j); lia).
    assert (Hns : forall j, j <> i -> (In j (s_W s) -> In j W) /\ (In j (s_D s) -> In j D)).
    { intros j Hj. specialize (Ho j). specialize (Hle j). rewrite occ_one in Ho. destruct (Nat.eq_dec i j); [congruence|]. split; intros K; apply occ_in in K; apply occ_in; lia. }
    assert (Lv : forall j, lv [] [i] s1 j -> lv [] [] s j).
    { intros j [[K|[K|[K|[[]|(x & K)]]]]|[<-|[]]]; left; unfold mem; [left; exact (HW j K)|right; left; exact K|right; right; left; exact (HD j K)|do 4 right; exists x; exact K|exact M]. }
    split; [split|].
    - exists L. split; [exact R1|]. intros j [<-|[]]. exact X1.
    - apply (@frame conf g val depth [] [] s [] [i] s1 B); auto.
      + intros j K. split; [exact (Lv j K)|]. intros ej Ej. destruct (Nat.eq_dec j i) as [->|Hn].
        * rewrite E in Ej. injection Ej as <-. exists e1. split; [exact E1|]. split; [reflexivity|]. cbn. lia.
        * exists ej. rewrite (En j Hn). split; [exact Ej|]. split; [reflexivity|]. destruct (l_live B j (Lv j K)) as (e2 & c2 & h2 & A1 & _ & A2 & _). congruence.
      + intros j ej c h Ej Mj Hc [[]|[[]|K]]. right. destruct (Nat.eq_dec j i) as [->|Hn]; [right; left; left; reflexivity|]. destruct (Hns j Hn) as (N1 & N2). right. right. destruct K as [K|[K|[K|K]]]; unfold wait; [left; exact (N1 K)|right; left; exact (N2 K)|auto|do 3 right; exact K].
      + intros j ej Ej Hrj Hp Hj. assert (Hn : j <> i) by (intros ->; apply Hj; left; reflexivity). rewrite (En j Hn) in Ej. destruct (l_un B j ej Ej Hrj Hp (fun f => f)) as (A1 & A2 & A3 & A4). split; [exact A1|]. split; [intros K; apply A2, HD; exact K|]. split; [exact A3|]. destruct (Hle j) as (Hle1 & _). cbn [s1 popped set_lists s_W]. lia.
    - exists e1. split; [exact E1|]. split.
      + destruct Hi as [Hi|Hi]; [left; exact (l_W B i e Hi E)|right; exact (l_D B i e Hi E)].
      + change (e_processed e = true \/ ~ In i W). destruct (e_processed e) eqn:Hp; [auto|right]. assert (Hr : (0 <= e_ref e)%Z) by lia. destruct (l_un B i e E Hr Hp (fun f => f)) as (A1 & A2 & A3 & A4). apply occ_nin. apply occ_nin in A2. specialize (Ho i). rewrite occ_one in Ho. destruct (Nat.eq_dec i i); [|congruence]. lia.
  Qed.
  Definition gettable (s : st) : Prop := forall i, mem [] s i -> exists e c, ed s i = Some e /\ e_src e = Some c.
  Lemma get_of : forall L s i, Refs L [] s -> gettable s -> mem [] s i -> exists e c, get s i = Ok (e, c) /\ ed s i = Some e /\ e_src e = Some c.
  Proof.
    intros L s i R Gt M. destruct (Gt i M) as (e & c & E & Es). destruct (mem_ref ceq R M) as (e2 & E2 & E3 & _). rewrite E in E2. injection E2 as <-. exists e, c. split; [|auto]. unfold get. rewrite (rd_ok _ _ E). cbn [bind]. rewrite Es. destruct (Z.ltb_spec (e_ref e) 0); [lia|reflexivity].
  Qed.
  Lemma pop_cases : forall L s k, Refs L [] s -> gettable s ->
    (pop s k = Ok None /\ s_W s = [] /\ s_D s = []) \/
    exists i e W D, pop s k = Ok (Some (i, popped s i e W D)) /\ (In i (s_W s) \/ In i (s_D s)) /\ ed s i = Some e /\ split_ok s i W D.
  Proof.
    intros L s k R Gt. unfold pop. destruct (rev (s_D s)) as [|i d] eqn:Er.
    - assert (HD : s_D s = []) by (rewrite <- (rev_involutive (s_D s)), Er; reflexivity). destruct (s_W s) as [|w ws] eqn:EW; [left; auto|]. right.
      set (l := w :: ws) in *. set (n := k mod length l). set (i := nth n l 0). assert (Hn : n < length l) by (apply Nat.mod_upper_bound; discriminate).
      assert (Hsp : l = firstn n l ++ i :: skipn (S n) l).
      { rewrite <- (firstn_skipn n l) at 1. f_equal. apply skipn_nth. exact Hn. }
      assert (Hi : In i (s_W s)) by (rewrite EW, Hsp; apply in_elt). assert (M : mem [] s i) by (left; exact Hi).
      destruct (get_of R Gt M) as (e & c & G & E & _). fold l. fold n. fold i. rewrite G. cbn [bind fst].
      assert (Oc : forall j, occ l j = occ (firstn n l) j + occ [i] j + occ (skipn (S n) l) j).
      { intros j. rewrite Hsp at 1. rewrite occ_app, occ_cons, occ_one. destruct (Nat.eq_dec i j); lia. }
      exists i, e, (firstn n l ++ skipn (S n) l), (s_D s). split; [reflexivity|]. split; [left; rewrite <- EW; exact Hi|]. split; [exact E|]. split; intros j; rewrite EW, occ_app, (Oc j); lia.
    - right. assert (HD : s_D s = rev d ++ [i]) by (rewrite <- (rev_involutive (s_D s)), Er; reflexivity). assert (Hi : In i (s_D s)) by (rewrite HD; apply in_elt).
      assert (M : mem [] s i) by (right; right; left; exact Hi). destruct (get_of R Gt M) as (e & c & G & E & _). rewrite G. cbn [bind fst].
      exists i, e, (s_W s), (rev d). split; [reflexivity|]. split; [right; exact Hi|]. split; [exact E|]. split; intros j; rewrite HD, occ_app; lia.
  Qed.

  (** ** Moving edges out of N *)
  Definition moved (s : st) (N A B : list nat) : st := set_lists s (s_W s ++ A) N (s_D s ++ B).
  Lemma moved_refs : forall L s N A B, Refs L [] s -> (forall j, occ (s_N s) j = occ N j + occ A j + occ B j) -> Refs L [] (moved s N A B).
  Proof.
    intros L s N A B R Ho. set (s1 := moved s N A B).
    assert (Tot : forall j, tot L [] s1 j = tot L [] s j).
    { intros j. unfold tot. change (depsum L s1 j) with (depsum L s j). cbn [s1 moved set_lists s_W s_N s_D]. rewrite !occ_app. specialize (Ho j). lia. }
    assert (HN : forall j, In j (s_N s) -> In j N \/ In j A \/ In j B).
    { intros j Hj. apply occ_in in Hj. rewrite Ho in Hj. rewrite !occ_in. lia. }
    apply (@Refs_same conf L [] s L [] s1 R (r_L R) (r_Ld R)); auto. intros j [K|[K|K]]; unfold lists; cbn [s1 moved set_lists s_W s_N s_D]; rewrite !in_app_iff; [auto| |auto]. destruct (HN j K) as [K'|[K'|K']]; auto.
  Qed.
  Lemma moved_mem : forall s N A B j, (forall j, occ (s_N s) j = occ N j + occ A j + occ B j) -> mem [] (moved s N A B) j -> mem [] s j.
  Proof.
    intros s N A B j Ho K. assert (HN : In j N \/ In j A \/ In j B -> In j (s_N s)) by (intros Hj; apply occ_in; rewrite Ho; rewrite !occ_in in Hj; lia).
    destruct K as [K|[K|[K|[[]|(x & K)]]]]; cbn [moved set_lists s_W s_N s_D] in K; unfold mem; rewrite ?in_app_iff in K; try tauto. do 4 right. exists x. exact K.
  Qed.
  Lemma moved_ok : forall s N A B, LInv [] [] s -> (forall j, occ (s_N s) j = occ N j + occ A j + occ B j) ->
    (forall j e, In j A -> ed s j = Some e -> lokW s e) -> (forall j e, In j B -> ed s j = Some e -> lokD s e) -> LInv [] [] (moved s N A B).
  Proof.
    intros s N A B ((L & R & _) & Bs) Ho HA HB. split; [exists L; split; [exact (@moved_refs L s N A B R Ho)|intros j []]|]. set (s1 := moved s N A B).
    assert (HN : forall j, In j (s_N s) -> In j N \/ In j A \/ In j B).
    { intros j Hj. apply occ_in in Hj. rewrite Ho in Hj. rewrite !occ_in. lia. }
    assert (HN' : forall j, In j N \/ In j A \/ In j B -> In j (s_N s)).
    { intros j Hj. apply occ_in. rewrite Ho. rewrite !occ_in in Hj. lia. }
    apply (@frame conf g val depth [] [] s [] [] s1 Bs); cbn [s1 moved set_lists s_W s_N s_D].
    - reflexivity.
    - intros j [K|[]]. assert (Lv : lv [] [] s j) by (left; exact (@moved_mem s N A B j Ho K)). split; [exact Lv|]. intros e E. exists e. split; [exact E|]. split; [reflexivity|]. destruct (l_live Bs j Lv) as (e2 & c2 & h2 & A1 & _ & A2 & _). congruence.
    - intros j e Hj E. apply in_app_or in Hj. destruct Hj as [Hj|Hj]; eauto.
    - intros j e Hj E. apply in_app_or in Hj. destruct Hj as [Hj|Hj]; eauto.
    - intros j e Hj E. left. apply HN'. auto.
    - intros j e c h E Me Hc [[]|[[]|K]]. right. right. right. unfold wait. change (s_W s1) with (s_W s ++ A). change (s_D s1) with (s_D s ++ B). change (s_N s1) with N. rewrite !in_app_iff. destruct K as [K|[K|[K|K]]]; [auto|auto| |do 3 right; exact K]. destruct (HN j K) as [K'|[K'|K']]; auto 6.
    - intros j e Ej Hr Hp Hj. destruct (l_un Bs j e Ej Hr Hp Hj) as (U1 & U2 & U3 & U4). change (s_W s1) with (s_W s ++ A). change (s_D s1) with (s_D s ++ B). change (s_N s1) with N. split; [intros K; apply U1, HN'; auto|].
      split; [rewrite in_app_iff; intros [K|K]; [exact (U2 K)|apply U1, HN'; auto]|]. split; [exact U3|]. rewrite occ_app. assert (occ A j = 0) by (apply occ_nin; intros K; apply U1, HN'; auto). lia.
  Qed.
  Lemma trivial_total : forall L s, Refs L [] s -> gettable s -> forall n l, length l <= n -> incl l (s_N s) ->
    exists N B, trivial s l = Ok (N, B) /\ (forall j, occ l j = occ N j + occ B j) /\ forall j e, In j B -> ed s j = Some e -> decided s (e_tgts e) = true.
  Proof.
    intros L s R Gt. induction n as [|n IH]; intros l Hl Hin.
    - destruct l; [|cbn in Hl; lia]. exists [], []. split; [reflexivity|]. split; [reflexivity|intros j e []].
    - destruct l as [|i l]; [exists [], []; split; [reflexivity|split; [reflexivity|intros j e []]]|].
      assert (M : mem [] s i) by (right; left; apply Hin; left; reflexivity). destruct (get_of R Gt M) as (e & c & G & E & _). cbn [trivial]. rewrite G. cbn [bind fst].
      assert (Hin' : incl l (s_N s)) by (intros x Hx; apply Hin; right; exact Hx).
      destruct (decided s (e_tgts e)) eqn:Ed.
      + destruct l as [|k l].
        * exists [], [i]. split; [reflexivity|]. split; [intros j; reflexivity|]. intros j ej [<-|[]] Ej. congruence.
        * destruct (IH l) as (N & B & F1 & F2 & F3); [cbn in Hl; lia|intros x Hx; apply Hin'; right; exact Hx|]. exists (k :: N), (i :: B). rewrite F1. split; [reflexivity|]. split.
          -- intros j. rewrite !occ_cons, F2. lia.
          -- intros j ej [<-|Hj] Ej; [congruence|eauto].
      + destruct (IH l) as (N & B & F1 & F2 & F3); [cbn in Hl; lia|exact Hin'|]. exists (i :: N), B. rewrite F1. split; [reflexivity|]. split; [|exact F3]. intros j. rewrite !occ_cons, F2. lia.
  Qed.
  Lemma max_distance_total : forall L s, Refs L [] s -> gettable s -> forall l, incl l (s_N s) ->
    exists m, max_distance s l = Ok m /\ forall i e c, In i l -> ed s i = Some e -> e_src e = Some c -> undone s c -> dist s c <= m.
  Proof.
    intros L s R Gt. induction l as [|i l IH]; intros Hin; cbn [max_distance].
    - exists 0. split; [reflexivity|]. intros i e c [].
    - assert (M : mem [] s i) by (right; left; apply Hin; left; reflexivity). destruct (get_of R Gt M) as (e & c & G & E & Es). rewrite G. cbn [bind fst snd].
      destruct IH as (m & F1 & F2); [intros x Hx; apply Hin; right; exact Hx|]. rewrite F1. cbn [bind]. eexists. split; [reflexivity|].
      intros j ej cj [<-|Hj] Ej Ecj Hu.
      + rewrite E in Ej. injection Ej as <-. rewrite Es in Ecj. injection Ecj as <-. unfold undone in Hu. rewrite Hu. unfold dist. lia.
      + specialize (F2 j ej cj Hj Ej Ecj Hu). destruct (done (asg_of s c)); lia.
  Qed.
  Lemma release_neg_total : forall L s d, Refs L [] s -> gettable s -> forall n l, length l <= n -> incl l (s_N s) ->
    exists N A, release_neg s d l = Ok (N, A) /\ (forall j, occ l j = occ N j + occ A j) /\
      forall j e c, In j A -> ed s j = Some e -> e_src e = Some c -> undone s c -> d <= dist s c.
  Proof.
    intros L s d R Gt. induction n as [|n IH]; intros l Hl Hin.
    - destruct l; [|cbn in Hl; lia]. exists [], []. split; [reflexivity|]. split; [reflexivity|intros j e c []].
    - destruct l as [|i l]; [exists [], []; split; [reflexivity|split; [reflexivity|intros j e c []]]|].
      assert (M : mem [] s i) by (right; left; apply Hin; left; reflexivity). destruct (get_of R Gt M) as (e & c & G & E & Es). cbn [release_neg]. rewrite G. cbn [bind fst snd].
      assert (Hin' : incl l (s_N s)) by (intros x Hx; apply Hin; right; exact Hx).
      destruct ((d <=? c_dist (s_cfg s c)) || done (asg_of s c)) eqn:Ed.
      + assert (Hd : undone s c -> d <= dist s c) by (intros Hu; unfold undone in Hu; rewrite Hu, orb_false_r in Ed; apply Nat.leb_le in Ed; exact Ed).
        assert (Hi : forall ej cj, ed s i = Some ej -> e_src ej = Some cj -> undone s cj -> d <= dist s cj) by (intros ej cj Ej Ecj Hu; rewrite E in Ej; injection Ej as <-; rewrite Es in Ecj; injection Ecj as <-; auto).
        destruct l as [|k l].
        * exists [], [i]. split; [reflexivity|]. split; [intros j; reflexivity|]. intros j ej cj [<-|[]]; eauto.
        * destruct (IH l) as (N & B & F1 & F2 & F3); [cbn in Hl; lia|intros x Hx; apply Hin'; right; exact Hx|]. exists (k :: N), (i :: B). rewrite F1. split; [reflexivity|]. split.
          -- intros j. rewrite !occ_cons, F2. lia.
          -- intros j ej cj [<-|Hj]; eauto.
      + destruct (IH l) as (N & B & F1 & F2 & F3); [cbn in Hl; lia|exact Hin'|]. exists (i :: N), B. rewrite F1. split; [reflexivity|]. split; [|exact F3]. intros j. rewrite !occ_cons, F2. lia.
  Qed.

  (** ** Nothing left to do: the unfounded configurations *)
  Lemma unfounded : forall s (Q : nat -> Prop), LInv [] [] s -> s_W s = [] -> s_D s = [] ->
    (forall i e c, In i (s_N s) -> ed s i = Some e -> e_src e = Some c -> asg_of s c = Zero -> ~ Q (depth c)) ->
    forall c, asg_of s c = Zero -> Q (depth c) -> ~ val c.
  Proof.
    intros s Q (_ & B) HW HD HQ c Hc Hq. apply (sol_least Hsol (fun x => asg_of s x = Zero /\ Q (depth x))); [|auto].
    clear c Hc Hq. intros c (Hc & Hq) h Hh. unfold stuck. destruct (l_edge B c h Hc Hh) as [(K1 & K2)|(i & e & E & (M1 & M2 & M3 & M4) & K)].
    - rewrite K1. intros t Ht. apply (l_one B t (K2 t Ht)).
    - destruct K as [[]|[[]|[K|[K|[K|(K1 & t & K2 & K3 & K4)]]]]]; [rewrite HW in K; destruct K|rewrite HD in K; destruct K|exfalso; exact (HQ i e c K E M1 Hc Hq)|].
      rewrite <- M4, K1. rewrite M3 in K2. exists t. split; [exact K2|]. left. split; [exact K3|]. rewrite (lev_depth Hlev c h t Hh K2), <- M4, K1, Nat.add_0_r. exact Hq.
  Qed.
  Lemma live_gettable : forall Y s, LInv [] Y s -> gettable s.
  Proof. intros Y s (_ & B) i M. destruct (l_live B i (or_introl M)) as (e & c & h & E & (Es & _) & _). exists e, c. auto. Qed.
  Lemma negations_total : forall L s, Refs L [] s -> gettable s -> exists s', negations s = Ok s' /\ Refs L [] s' /\ gettable s' /\ (forall x, s_cfg s' x = s_cfg s x).
  Proof.
    intros L s R Gt. destruct (@trivial_total L s R Gt (length (s_N s)) (s_N s) (le_n _) (incl_refl _)) as (N & B & F1 & F2 & F3).
    unfold negations, trivial_negation. rewrite F1. cbn [bind fst snd].
    assert (Eq : set_lists s (s_W s) N (s_D s ++ B) = moved s N [] B) by (unfold moved; rewrite app_nil_r; reflexivity). rewrite Eq.
    assert (Ho : forall j, occ (s_N s) j = occ N j + occ [] j + occ B j) by (intros j; rewrite F2; cbn; lia).
    assert (R1 := @moved_refs L s N [] B R Ho). assert (G1 : gettable (moved s N [] B)) by (intros j Mj; exact (Gt j (@moved_mem s N [] B j Ho Mj))).
    set (s1 := moved s N [] B) in *. destruct (s_D s1) as [|x xs] eqn:ED; [|exists s1; split; [reflexivity|auto]].
    destruct (@max_distance_total L s1 R1 G1 (s_N s1) (incl_refl _)) as (m & H1 & H2). destruct (@release_neg_total L s1 m R1 G1 (length (s_N s1)) (s_N s1) (le_n _) (incl_refl _)) as (N' & A' & K1 & K2 & K3).
    unfold release_negation_edges. rewrite H1. cbn [bind]. rewrite K1. cbn [bind fst snd]. assert (Eq2 : set_lists s1 (s_W s1 ++ A') N' (s_D s1) = moved s1 N' A' []) by (unfold moved; rewrite app_nil_r; reflexivity). rewrite Eq2.
    assert (Ho2 : forall j, occ (s_N s1) j = occ N' j + occ A' j + occ [] j) by (intros j; rewrite K2; cbn; lia).
    eexists. split; [reflexivity|]. split; [exact (@moved_refs L s1 N' A' [] R1 Ho2)|]. split; [|reflexivity]. intros j Mj. exact (G1 j (@moved_mem s1 N' A' [] j Ho2 Mj)).
  Qed.
  Lemma negations_ok : forall s, LInv [] [] s -> s_W s = [] -> s_D s = [] -> exists s', negations s = Ok s' /\ LInv [] [] s' /\ (forall x, s_cfg s' x = s_cfg s x).
  Proof.
    intros s I HW HD. assert (Gt := live_gettable I). destruct I as ((L & R & X) & Bs). assert (I : LInv [] [] s) by (split; [exists L; auto|exact Bs]).
    destruct (@trivial_total L s R Gt (length (s_N s)) (s_N s) (le_n _) (incl_refl _)) as (N & B & F1 & F2 & F3).
    unfold negations, trivial_negation. rewrite F1. cbn [bind fst snd].
    assert (Eq : set_lists s (s_W s) N (s_D s ++ B) = moved s N [] B) by (unfold moved; rewrite app_nil_r; reflexivity). rewrite Eq.
    assert (Ho : forall j, occ (s_N s) j = occ N j + occ [] j + occ B j) by (intros j; rewrite F2; cbn; lia).
    assert (I1 : LInv [] [] (moved s N [] B)).
    { apply moved_ok; auto; [intros j e []|]. intros j e Hj E _. destruct (proj1 (decided_spec s (e_tgts e)) (F3 j e Hj E)) as [K|(t & _ & K)]; [exact K|]. exfalso. exact (l_cz Bs t K). }
    set (s1 := moved s N [] B) in *. destruct (s_D s1) as [|x xs] eqn:ED; [|exists s1; split; [reflexivity|split; [exact I1|reflexivity]]].
    assert (G1 := live_gettable I1). assert (J1 := I1). destruct J1 as ((L1 & R1 & _) & B1).
    destruct (@max_distance_total L1 s1 R1 G1 (s_N s1) (incl_refl _)) as (m & H1 & H2). destruct (@release_neg_total L1 s1 m R1 G1 (length (s_N s1)) (s_N s1) (le_n _) (incl_refl _)) as (N' & A' & K1 & K2 & K3).
    unfold release_negation_edges. rewrite H1. cbn [bind]. rewrite K1. cbn [bind fst snd]. assert (Eq2 : set_lists s1 (s_W s1 ++ A') N' (s_D s1) = moved s1 N' A' []) by (unfold moved; rewrite app_nil_r; reflexivity). rewrite Eq2.
    assert (Ho2 : forall j, occ (s_N s1) j = occ N' j + occ A' j + occ [] j) by (intros j; rewrite K2; cbn; lia).
    eexists. split; [reflexivity|]. split; [|reflexivity]. apply moved_ok; auto; [|intros j e []].
    assert (Unf : forall x, asg_of s1 x = Zero -> m < depth x -> ~ val x).
    { apply (@unfounded s1 (fun d => m < d) I1); [cbn; rewrite HW; reflexivity|exact ED|]. intros i e c Hi E Es Hc Hlt. assert (Hu : undone s1 c) by (unfold undone; rewrite Hc; reflexivity).
      specialize (H2 i e c Hi E Es Hu). rewrite (l_dist1 B1 c) in H2 by (rewrite Hc; discriminate). lia. }
    intros j e Hj E P1 P2 c t P3 P4 P5. assert (HjN : In j (s_N s1)) by (apply occ_in; rewrite K2; apply occ_in in Hj; lia).
    assert (Lv : lv [] [] s1 j) by (left; right; left; exact HjN). destruct (l_live B1 j Lv) as (e2 & c2 & h & E2 & (M1 & M2 & M3 & M4) & _ & _). rewrite E in E2. injection E2 as <-. assert (c2 = c) as -> by congruence.
    destruct (l_N B1 j e HjN E) as (_ & Q). specialize (Q t P5). destruct (asg_of s1 t) eqn:Et; [congruence|right|left; reflexivity|exfalso; exact (l_cz B1 t Et)].
    apply (Unf t Et). rewrite M3 in P5. rewrite (lev_depth Hlev c h t M2 P5), <- M4, P1. assert (Hu : undone s1 c) by (unfold undone; rewrite P4; reflexivity). specialize (K3 j e c Hj E P3 Hu). rewrite (l_dist1 B1 c) in K3 by (rewrite P4; discriminate). lia.
  Qed.

  (** ** The end of the work on an edge *)
  Lemma finish_ok : forall s i e c h, LInv [] [i] s -> ed s i = Some e -> matches e c h -> (asg_of s c = Zero -> closed_neg s h \/ wait s i e) -> (e_processed e = true \/ e_neg e = false \/ ~ In i (s_W s)) ->
    exists s', (e <- rd (s_edges s) i ;; let e := mkEdge (e_src e) (e_tgts e) (e_neg e) (e_status e) true (e_handled e) (e_ref e) in let s := set_edge s i e in
      if (e_ref e =? 0)%Z then release s i else Ok s) = Ok s' /\ LInv [] [] s' /\ (forall x, s_cfg s' x = s_cfg s x).
  Proof.
    intros s i e c h ((L & R & X) & B) E Me Hw Hp. rewrite (rd_ok _ _ E). cbn [bind]. cbn zeta.
    set (e1 := mkEdge (e_src e) (e_tgts e) (e_neg e) (e_status e) true (e_handled e) (e_ref e)). set (s1 := set_edge s i e1).
    destruct (X i (or_introl eq_refl)) as (e2 & E2 & Hr). rewrite E in E2. injection E2 as <-.
    assert (E1 : ed s1 i = Some e1) by (exact (@ed_set conf s i e e1 E)).
    assert (En : forall j, j <> i -> ed s1 j = ed s j) by (intros j Hj; exact (@ed_set_ne conf s i j e1 Hj)).
    assert (Fw : forall j ej, ed s j = Some ej -> exists ej', ed s1 j = Some ej' /\ e_src ej' = e_src ej /\ e_tgts ej' = e_tgts ej /\ e_neg ej' = e_neg ej /\ e_ref ej' = e_ref ej).
    { intros j ej Ej. destruct (Nat.eq_dec j i) as [->|Hn]; [rewrite E in Ej; injection Ej as <-; exists e1; auto|exists ej; rewrite (En j Hn); auto]. }
    assert (Bw : forall j ej', ed s1 j = Some ej' -> exists ej, ed s j = Some ej /\ e_src ej' = e_src ej /\ e_tgts ej' = e_tgts ej /\ e_neg ej' = e_neg ej /\ e_ref ej' = e_ref ej /\ (e_processed ej' = e_processed ej \/ j = i)).
    { intros j ej Ej. destruct (Nat.eq_dec j i) as [->|Hn]; [rewrite E1 in Ej; injection Ej as <-; exists e; auto 7|exists ej; rewrite (En j Hn) in Ej; auto 7]. }
    assert (R1 : Refs L [] s1).
    { apply (@Refs_step conf L [] s L [] s1 i e1 R (r_L R) (r_Ld R)); auto.
      - apply (@ref_nonneg_rec conf L [] s i e R E). lia.
      - intros Hs. exact (r_status R i E Hs). }
    assert (Lv : forall j, lv [] [] s1 j -> lv [] [i] s j) by (intros j [K|[]]; left; exact K).
    assert (I1 : LInv [] [] s1).
    { split; [exists L; split; [exact R1|intros j []]|]. split; try (solve [apply B]).
      - intros j K. destruct (l_live B j (Lv j K)) as (ej & x & hx & K1 & (K2 & K3 & K4 & K5) & K6 & K7). destruct (Fw j ej K1) as (ej' & A1 & A2 & A3 & A4 & A5). exists ej', x, hx. split; [exact A1|]. split; [repeat split; congruence|]. split; [lia|exact K7].
      - intros x hx Hx Hh. destruct (l_edge B x hx Hx Hh) as [K|(j & ej & Ej & Mj & K)]; [left; exact K|].
        assert (Hk : closed_neg s hx \/ wait s j ej).
        { destruct K as [[]|[[<-|[]]|K]]; [|right; exact K]. rewrite E in Ej. injection Ej as <-. destruct Mj as (M1 & M2 & M3 & M4), Me as (N1 & N2 & N3 & N4). assert (x = c) as -> by congruence. destruct (Hw Hx) as [(K1 & K2)|K]; [left|right; exact K]. split; [congruence|]. rewrite <- M3, N3. exact K2. }
        destruct Hk as [Hk|Hk]; [left; exact Hk|right]. destruct (Fw j ej Ej) as (ej' & A1 & A2 & A3 & A4 & A5). exists j, ej'. split; [exact A1|]. split; [destruct Mj as (M1 & M2 & M3 & M4); repeat split; congruence|]. right. right. unfold wait in *. rewrite A3, A4. exact Hk.
      - intros j ej' Hj Ej. destruct (Bw j ej' Ej) as (ej & A1 & A2 & A3 & A4 & A5 & A6). intros K1 K2 x t K3 K4 K5. rewrite A2 in K3. rewrite A3 in K5. rewrite A4 in K1. destruct A6 as [A6|Eji]; [rewrite A6 in K2; exact (l_W B j ej Hj A1 K1 K2 x t K3 K4 K5)|subst j].
        rewrite E in A1. injection A1 as <-. destruct Hp as [Hp|[Hp|Hp]]; [exact (l_W B i e Hj E K1 Hp x t K3 K4 K5)|congruence|contradiction].
      - intros j ej' Hj Ej. destruct (Bw j ej' Ej) as (ej & A1 & A2 & A3 & A4 & A5 & A6). pose proof (l_D B j ej Hj A1) as K. unfold lokD in *. rewrite A3, A4. exact K.
      - intros j ej' Hj Ej. destruct (Bw j ej' Ej) as (ej & A1 & A2 & A3 & A4 & A5 & A6). pose proof (l_N B j ej Hj A1) as K. unfold lokN in *. rewrite A3, A4. exact K.
      - intros j ej' t Hj Ej. destruct (Bw j ej' Ej) as (ej & A1 & A2 & A3 & A4 & A5 & A6). rewrite A3. exact (l_deps B j ej t Hj A1).
      - intros j ej' Ej Hrj Hpj _. assert (Hn : j <> i) by (intros ->; rewrite E1 in Ej; injection Ej as <-; discriminate Hpj). rewrite (En j Hn) in Ej. apply (l_un B j ej' Ej Hrj Hpj). intros [K|[]]; congruence. }
    change (e_ref e1) with (e_ref e). destruct (Z.eqb_spec (e_ref e) 0) as [Hz|Hz].
    - destruct (@release_gen conf ceq g val depth [] [] s1 i e1 I1 E1 Hz (fun f => f)) as (s' & F1 & F2 & F3 & _). exists s'. split; [exact F1|]. split; [exact F2|]. intros x. rewrite F3. reflexivity.
    - exists s1. split; [reflexivity|]. split; [exact I1|reflexivity].
  Qed.
  Lemma last_spec : forall (s : st) ts l, match last_undecided s ts l with
    | None => l = None /\ forall t, In t ts -> asg_of s t = One
    | Some t => (l = Some t) \/ (In t ts /\ asg_of s t <> One) end.
  Proof.
    intros s. induction ts as [|t ts IH]; intros l; cbn [last_undecided]; [destruct l; [left; reflexivity|split; [reflexivity|intros t []]]|].
    destruct (asg_eq (asg_of s t) One) eqn:Ea; specialize (IH (if asg_eq (asg_of s t) One then l else Some t)); rewrite Ea in IH.
    - apply asg_eq_spec in Ea. destruct (last_undecided s ts l) as [x|]; [destruct IH as [IH|(IH1 & IH2)]; [left; exact IH|right; split; [right; exact IH1|exact IH2]]|]. destruct IH as (K1 & K2). split; [exact K1|]. intros y [<-|Hy]; auto.
    - assert (Hn : asg_of s t <> One) by (intros K; apply asg_eq_spec in K; congruence). destruct (last_undecided s ts (Some t)) as [x|]; [|destruct IH; discriminate]. destruct IH as [IH|(IH1 & IH2)]; [injection IH as <-; right; split; [left; reflexivity|exact Hn]|right; split; [right; exact IH1|exact IH2]].
  Qed.
  Lemma work_ok : forall s i, LInv [] [i] s -> pop_fact s i -> exists s', work ceq g addr s i = Ok s' /\ LInv [] [] s' /\ (forall x, asg_of s x <> Unknown -> asg_of s' x <> Unknown).
  Proof.
    intros s i I (e & E & Hok & Hpr). assert (Hi : In i [i]) by (left; reflexivity). destruct (lget I (or_intror Hi)) as (e0 & c & h & G & E0 & Me & Hr & Hu). rewrite E in E0. injection E0 as <-.
    unfold work. rewrite G. cbn [bind fst snd].
    (* it suffices to reach a state from which the end of the work is right *)
    assert (Fin : forall r s1 e1, r = Ok s1 -> LInv [] [i] s1 -> ed s1 i = Some e1 -> sem e1 = sem e -> (asg_of s1 c = Zero -> closed_neg s1 h \/ wait s1 i e1) -> (e_processed e = true \/ e_neg e = false \/ ~ In i (s_W s1)) -> (forall x, asg_of s x <> Unknown -> asg_of s1 x <> Unknown) ->
      exists s', (s0 <- r ;; (e0 <- rd (s_edges s0) i ;; let e0 := mkEdge (e_src e0) (e_tgts e0) (e_neg e0) (e_status e0) true (e_handled e0) (e_ref e0) in let s0 := set_edge s0 i e0 in
        if (e_ref e0 =? 0)%Z then release s0 i else Ok s0)) = Ok s' /\ LInv [] [] s' /\ (forall x, asg_of s x <> Unknown -> asg_of s' x <> Unknown)).
    { intros r s1 e1 -> I1 E1 Sm K1 K2 K3. cbn [bind]. assert (M1 : matches e1 c h) by (exact (matches_sem Sm Me)). destruct (@finish_ok s1 i e1 c h I1 E1 M1 K1) as (s' & F1 & F2 & F3); [rewrite (sem_proc Sm), (sem_neg Sm); exact K2|]. exists s'. split; [exact F1|]. split; [exact F2|]. intros x Hx. unfold asg_of. rewrite F3. exact (K3 x Hx). }
    assert (As : forall (Hv : val c), ~ In i (deps s c) -> exists s', (s0 <- assign_one ceq s c ;; (e0 <- rd (s_edges s0) i ;; let e0 := mkEdge (e_src e0) (e_tgts e0) (e_neg e0) (e_status e0) true (e_handled e0) (e_ref e0) in let s0 := set_edge s0 i e0 in
        if (e_ref e0 =? 0)%Z then release s0 i else Ok s0)) = Ok s' /\ LInv [] [] s' /\ (forall x, asg_of s x <> Unknown -> asg_of s' x <> Unknown)).
    { intros Hv Hd. destruct (@assign_one_ok conf ceq g val depth addr init Hlev [i] s c I Hu Hv) as (s1 & F1 & F2 & F3 & F4 & F5); [intros j [<-|[]]; exact Hd|]. destruct (F5 i Hi) as (e1 & e2 & K1 & K2 & K3). rewrite E in K1. injection K1 as <-. apply (Fin _ s1 e2 F1 F2 K2 K3).
      - intros Hz. rewrite F3 in Hz. destruct (ceq c c); congruence.
      - rewrite F4. tauto.
      - intros x Hx. rewrite F3. destruct (ceq x c); [discriminate|exact Hx]. }
    assert (B := proj2 I). assert (Lvd : forall t, In t (e_tgts e) -> depth t = depth c + (if e_neg e then 1 else 0)) by (intros t Ht; destruct Me as (_ & M2 & M3 & M4); rewrite M4; apply (lev_depth Hlev c h t M2); rewrite <- M3; exact Ht).
    pose proof (last_spec s (e_tgts e) None) as Ls. destruct (last_undecided s (e_tgts e) None) as [t|].
    - destruct Ls as [Ls|(Ht & Hn)]; [discriminate|].
      (* adding the dependency and exploring *)
      assert (Add : exists s1 s2 e2, add_dependency ceq addr s t i = Ok s1 /\ (if asg_eq (asg_of s1 t) Unknown then explore_local ceq g s1 t else Ok s1) = Ok s2 /\ LInv [] [i] s2 /\ ed s2 i = Some e2 /\ sem e2 = sem e /\
        asg_of s2 t = Zero /\ In i (deps s2 t) /\ (In i (s_W s2) -> In i (s_W s)) /\ (forall x, asg_of s x <> Unknown -> asg_of s2 x <> Unknown)).
      { destruct (@add_dep [i] s i e c h t I Hi E Me Ht Hn) as (s1 & F1 & F2 & F3 & F4 & F5 & F6 & F7 & (e1 & F8 & F9) & F10). exists s1. destruct (asg_eq (asg_of s1 t) Unknown) eqn:Ea.
        - apply asg_eq_spec in Ea. destruct (@explore_ok [i] s1 t F2) as (s2 & H1 & H2 & H3 & H4 & H5); [intros j [<-|[]]; do 4 right; exists t; exact F7|exact Ea|exact F10|]. destruct (H5 i Hi) as (H6 & H7). exists s2, e1. split; [exact F1|]. split; [exact H1|]. split; [exact H2|]. split; [rewrite H6; exact F8|]. split; [exact F9|]. split; [rewrite H3; destruct (ceq t t); congruence|]. split; [rewrite H4; exact F7|]. split; [intros K; rewrite <- F4; exact (H7 K)|]. intros x Hx. rewrite H3. destruct (ceq x t); [discriminate|rewrite F3; exact Hx].
        - exists s1, e1. split; [exact F1|]. split; [reflexivity|]. split; [exact F2|]. split; [exact F8|]. split; [exact F9|]. split; [|split; [exact F7|split; [rewrite F4; auto|intros x Hx; rewrite F3; exact Hx]]]. rewrite F3. rewrite F3 in Ea. destruct (asg_of s t) eqn:Et; [discriminate|reflexivity|congruence|exfalso; exact (l_cz B t Et)]. }
      destruct (e_neg e) eqn:En.
      + destruct (e_processed e) eqn:Ep.
        * apply As.
          -- destruct (asg_of s c) eqn:Ec; [congruence| |exact (proj1 (l_one B c Ec))|exfalso; exact (l_cz B c Ec)].
             assert (Nv : ~ val t). { destruct Hok as [Hok|Hok]; [|exfalso; exact (Hn (Hok En t Ht))]. destruct (Hok En Ep c t (proj1 Me) Ec Ht) as [K|K]; [congruence|exact K]. }
             apply (sol_fix Hsol). exists h. destruct Me as (M1 & M2 & M3 & M4). split; [exact M2|]. unfold fires. rewrite <- M4, En. exists t. rewrite <- M3. auto.
          -- intros K. apply (l_deps B i e c) in K; [|exact E]. apply Lvd in K. lia.
        * destruct Add as (s1 & s2 & e2 & A1 & A2 & A3 & A4 & A5 & A6 & A7 & A8 & A9). rewrite A1. cbn [bind]. rewrite A2. cbn [bind].
          destruct (lget A3 (or_intror Hi)) as (e3 & c3 & h3 & G3 & E3 & Me3 & _ & _). rewrite A4 in E3. injection E3 as <-.
          assert (Tg : e_tgts e2 = [t]). { destruct Me as (M1 & M2 & M3 & M4). destruct (lev_neg Hlev c h M2) as (y & Ey); [congruence|]. rewrite (sem_tgts A5), M3, Ey in *. destruct Ht as [->|[]]. reflexivity. }
          assert (Dc : decided (set_edge s2 i (set_push e2 3)) (e_tgts e2) = false). { destruct (decided _ _) eqn:Ed; [|reflexivity]. rewrite Tg in Ed. apply decided_spec in Ed. change (asg_of s2 t = Zero) in A6. destruct Ed as [Ed|(y & [<-|[]] & Ed)]; [specialize (Ed t (or_introl eq_refl))|]; change (asg_of (set_edge s2 i (set_push e2 3)) t) with (asg_of s2 t) in Ed; congruence. }
          assert (KN : lokN s2 e2). { split; [rewrite (sem_neg A5); exact En|]. intros y. rewrite Tg. intros [<-|[]]. congruence. }
          assert (I3 := @push_N conf ceq g val depth addr [] [i] s2 i e2 3 A3 (or_intror Hi) A4 KN (or_intror Hi)).
          eapply (Fin _ (set_lists (set_edge s2 i (set_push e2 3)) (s_W s2) (s_N s2 ++ [i]) (s_D s2)) (set_push e2 3)); [|exact I3|exact (@ed_set conf s2 i e2 (set_push e2 3) A4)|exact A5| | |exact A9].
          -- unfold push_negation. rewrite G3. cbn [bind fst]. rewrite Dc. reflexivity.
          -- intros _. right. right. right. left. cbn. apply in_or_app. right. left. reflexivity.
          -- right. right. cbn. intros K. apply A8 in K. destruct Hpr as [Hpr|Hpr]; [congruence|contradiction].
      + destruct Add as (s1 & s2 & e2 & A1 & A2 & A3 & A4 & A5 & A6 & A7 & A8 & A9). rewrite A1. cbn [bind]. apply (Fin _ s2 e2 A2 A3 A4 A5); [|auto|exact A9].
        intros _. right. do 3 right. rewrite (sem_neg A5), (sem_tgts A5). split; [exact En|]. exists t. auto.
    - destruct Ls as (_ & Ls). destruct (e_neg e) eqn:En.
      + eapply (Fin _ s e eq_refl I E eq_refl); [|destruct Hpr; auto|auto]. intros _. left. destruct Me as (M1 & M2 & M3 & M4). split; [congruence|]. rewrite <- M3. exact Ls.
      + apply As.
        * apply (sol_fix Hsol). exists h. destruct Me as (M1 & M2 & M3 & M4). split; [exact M2|]. unfold fires. rewrite <- M4, En, <- M3. intros t Ht. exact (proj1 (l_one B t (Ls t Ht))).
        * intros K. assert (Hc := l_deps B i e c K E). apply Ls in Hc. rewrite (proj2 (l_one B c Hc)) in K. exact K.
  Qed.

  (** ** The search *)
  Definition right_answer (r : res bool) : Prop :=
    match r with Ok b => b = true <-> val init | NoFuel => True | _ => False end.
  Variable choice : nat -> nat.
  (** once the answer is known *)
  Lemma loop_known : forall fuel L s, Refs L [] s -> gettable s -> asg_of s init = One -> val init -> right_answer (local_loop ceq g addr init choice fuel s).
  Proof.
    induction fuel as [|f IH]; intros L s R Gt Ho Hv; [exact Logic.I|]. cbn [local_loop].
    assert (Step : forall s1, Refs L [] s1 -> gettable s1 -> asg_of s1 init = One -> right_answer (s2 <- negations s1 ;; if empty s2 then Ok (asg_eq (asg_of s2 init) One) else local_loop ceq g addr init choice f s2)).
    { intros s1 R1 G1 H1. destruct (negations_total R1 G1) as (s2 & F1 & F2 & F3 & F4). rewrite F1. cbn [bind]. assert (H2 : asg_of s2 init = One) by (unfold asg_of; rewrite F4; exact H1). destruct (empty s2); [cbn; rewrite H2; cbn; tauto|]. exact (IH L s2 F2 F3 H2 Hv). }
    destruct (pop_cases (choice f) R Gt) as [(P1 & _)|(i & e & W & D & P1 & P2 & P3 & P4)]; rewrite P1; cbn [bind]; [apply Step; auto|].
    assert (M : mem [] s i) by (destruct P2 as [K|K]; [left; exact K|right; right; left; exact K]).
    assert (Ha : asg_of (popped s i e W D) init = One) by exact Ho. rewrite Ha. cbn [asg_eq]. apply Step; [exact (proj1 (popped_refs R M P3 P4))| |exact Ha].
    destruct P4 as (Hq & Hle). intros j Mj. assert (Mj' : mem [] s j). { destruct Mj as [K|[K|[K|[[]|(x & K)]]]]; cbn [popped set_lists s_W s_N s_D] in K; unfold mem; [left; apply occ_in in K; apply occ_in; specialize (Hle j); lia|right; left; exact K|right; right; left; apply occ_in in K; apply occ_in; specialize (Hle j); lia|do 4 right; exists x; exact K]. }
    destruct (Gt j Mj') as (ej & cj & K1 & K2). destruct (Nat.eq_dec j i) as [->|Hn].
    - exists (mkEdge (e_src e) (e_tgts e) (e_neg e) 0 (e_processed e) (e_handled e) (e_ref e - 1)), cj. split; [exact (@ed_set conf s i e _ P3)|]. rewrite P3 in K1. injection K1 as <-. exact K2.
    - exists ej, cj. split; [|exact K2]. rewrite <- K1. exact (@ed_set_ne conf s i j _ Hn).
  Qed.
  Lemma loop_ok : forall fuel s, LInv [] [] s -> asg_of s init <> Unknown -> right_answer (local_loop ceq g addr init choice fuel s).
  Proof.
    induction fuel as [|f IH]; intros s I Hi; [exact Logic.I|]. assert (Gt := live_gettable I). assert (J := I). destruct J as ((L & R & _) & B).
    destruct (asg_eq (asg_of s init) One) eqn:Ho.
    - apply asg_eq_spec in Ho. exact (loop_known (S f) R Gt Ho (proj1 (l_one B init Ho))).
    - cbn [local_loop]. destruct (pop_cases (choice f) R Gt) as [(P1 & P2 & P3)|(i & e & W & D & P1 & P2 & P3 & P4)]; rewrite P1; cbn [bind].
      + destruct (negations_ok I P2 P3) as (s2 & F1 & F2 & F3). rewrite F1. cbn [bind]. assert (Ha : asg_of s2 init = asg_of s init) by (unfold asg_of; rewrite F3; reflexivity). destruct (empty s2) eqn:He; [|apply IH; [exact F2|congruence]].
        cbn. rewrite Ha, Ho. split; [discriminate|]. intros Hv. exfalso. unfold empty in He. destruct (s_W s2) eqn:EW; [|discriminate]. destruct (s_N s2) eqn:EN; [|discriminate]. destruct (s_D s2) eqn:ED; [|discriminate].
        refine (@unfounded s2 (fun _ => True) F2 EW ED _ init _ Logic.I Hv); [intros j ej cj Hj; rewrite EN in Hj; destruct Hj|]. rewrite Ha. destruct (asg_of s init) eqn:E; [congruence|reflexivity|discriminate|exfalso; exact (l_cz B init E)].
      + destruct (@popped_ok s i e W D I P2 P3 P4) as (I1 & Pf). change (asg_of (popped s i e W D) init) with (asg_of s init). rewrite Ho. destruct (work_ok I1 Pf) as (s2 & F1 & F2 & F3). rewrite F1. cbn [bind]. apply IH; [exact F2|]. apply F3. exact Hi.
  Qed.
  Lemma start_inv : LInv [] [] (st_init conf).
  Proof.
    split.
    - exists []. split; [|intros i []]. split; cbn.
      + intros i Hi. unfold tot in Hi. cbn in Hi. lia.
      + intros i [].
      + constructor.
      + constructor.
      + reflexivity.
      + intros i e E. destruct i; discriminate E.
    - assert (A : forall c, asg_of (st_init conf) c = Unknown) by reflexivity. split; try (solve [intros; rewrite A in *; discriminate]).
      + intros i [[[]|[[]|[[]|[[]|(c & [])]]]]|[]].
      + intros c. cbn. lia.
      + intros c Hc. rewrite A in Hc. congruence.
      + intros i e [].
      + intros i e [].
      + intros i e [].
      + intros i e t [].
      + intros i e E. destruct i; discriminate E.
  Qed.
  Lemma local_search_ok : forall fuel, right_answer (local_search ceq g addr init choice fuel).
  Proof.
    intros fuel. unfold local_search. destruct (@explore_ok [] (st_init conf) init start_inv) as (s & F1 & F2 & F3 & F4 & F5); [intros i []|reflexivity|cbn; symmetry; apply (lev_init Hlev)|].
    rewrite F1. cbn [bind]. assert (Hz : asg_of s init = Zero) by (rewrite F3; destruct (ceq init init); congruence). destruct (empty s) eqn:He; [|apply loop_ok; [exact F2|congruence]].
    cbn. rewrite Hz. cbn. split; [discriminate|]. intros Hv. exfalso. unfold empty in He. destruct (s_W s) eqn:EW; [|discriminate]. destruct (s_N s) eqn:EN; [|discriminate]. destruct (s_D s) eqn:ED; [|discriminate].
    refine (@unfounded s (fun _ => True) F2 EW ED _ init Hz Logic.I Hv). intros j ej cj Hj. rewrite EN in Hj. destruct Hj.
  Qed.
End Loc.
