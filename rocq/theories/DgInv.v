(** Invariant of the certain-zero algorithm. *)
From Verif Require Import Base BaseLemmas DgSpec DgModel.
Set Implicit Arguments.

Definition occ (l : list nat) (i : nat) : nat := count_occ Nat.eq_dec l i.
Lemma occ_app : forall l r i, occ (l ++ r) i = occ l i + occ r i.
Proof. intros. apply count_occ_app. Qed.
Lemma occ_cons : forall x l i, occ (x :: l) i = (if Nat.eq_dec x i then 1 else 0) + occ l i.
Proof. intros. unfold occ. cbn. destruct (Nat.eq_dec x i); reflexivity. Qed.
Lemma occ_in : forall l i, In i l <-> 0 < occ l i.
Proof. intros l i. apply count_occ_In. Qed.
Lemma occ_nin : forall l i, ~ In i l <-> occ l i = 0.
Proof. intros l i. apply count_occ_not_In. Qed.
Lemma occ_one : forall i j, occ [i] j = if Nat.eq_dec i j then 1 else 0.
Proof. intros. unfold occ. cbn. destruct (Nat.eq_dec i j); reflexivity. Qed.

Lemma nth_upd_eq : forall A (l : list A) i x, i < length l -> nth_error (upd l i x) i = Some x.
Proof. induction l as [|y l IH]; intros [|i] x H; cbn in *; try lia; auto. apply IH. lia. Qed.
Lemma nth_upd_ne : forall A (l : list A) i j x, i <> j -> nth_error (upd l i x) j = nth_error l j.
Proof. induction l as [|y l IH]; intros [|i] [|j] x H; cbn; auto; try lia. Qed.
Lemma len_upd : forall A (l : list A) i x, length (upd l i x) = length l.
Proof. induction l as [|y l IH]; intros [|i] x; cbn; auto. Qed.
Lemma rd_ok : forall A (l : list A) i x, nth_error l i = Some x -> rd l i = Ok x.
Proof. intros A l i x H. unfold rd. rewrite H. reflexivity. Qed.
Lemma nth_lt : forall A (l : list A) i x, nth_error l i = Some x -> i < length l.
Proof. intros A l i x H. apply nth_error_Some. congruence. Qed.
Lemma nth_upd_some : forall A (l : list A) i x y, nth_error l i = Some x -> nth_error (upd l i y) i = Some y.
Proof. intros A l i x y H. apply nth_upd_eq. eapply nth_lt; eauto. Qed.

Lemma asg_eq_spec : forall a b, asg_eq a b = true <-> a = b.
Proof. intros [] []; cbn; split; congruence. Qed.
Lemma asg_eq_no : forall a b, asg_eq a b = false <-> a <> b.
Proof. intros [] []; cbn; split; congruence. Qed.

Section Inv.
  Variable conf : Type.
  Variable ceq : forall a b : conf, {a = b} + {a <> b}.
  Variable g : graph conf.
  Variable val : conf -> Prop.
  Variable depth : conf -> nat.
  Notation st := (st conf).
  Notation edge := (edge conf).

  Definition ed (s : st) (i : nat) : option edge := nth_error (s_edges s) i.
  Definition deps (s : st) (c : conf) : list nat := c_deps (s_cfg s c).
  Definition dist (s : st) (c : conf) : nat := c_dist (s_cfg s c).
  Definition nsuccs (s : st) (c : conf) : nat := c_nsuccs (s_cfg s c).
  Definition undone (s : st) (c : conf) : Prop := done (asg_of s c) = false.

  (** * References *)
  Definition depsum (L : list conf) (s : st) (i : nat) : nat :=
    fold_right plus 0 (map (fun c => occ (deps s c) i) L).
  Definition tot (L : list conf) (H : list nat) (s : st) (i : nat) : nat :=
    occ (s_W s) i + occ (s_N s) i + occ (s_D s) i + occ H i + depsum L s i.
  Record Refs (L : list conf) (H : list nat) (s : st) : Prop := {
    r_occ : forall i, 0 < tot L H s i -> exists e, ed s i = Some e /\ e_ref e = Z.of_nat (tot L H s i);
    r_rec : forall i, In i (s_rec s) -> exists e, ed s i = Some e /\ e_ref e = (-1)%Z /\ e_status e = 0 /\
      e_processed e = false /\ e_handled e = false;
    r_nodup : NoDup (s_rec s);
    r_L : NoDup L;
    r_Ld : forall c, ~ In c L -> deps s c = [];
    r_status : forall i e, ed s i = Some e -> 0 < e_status e -> In i (s_W s) \/ In i (s_N s) \/ In i (s_D s)
  }.

  Lemma depsum_0 : forall L s i, (forall c, In c L -> ~ In i (deps s c)) -> depsum L s i = 0.
  Proof.
    induction L as [|c L IH]; intros s i H; cbn; [reflexivity|]. rewrite (proj1 (occ_nin _ _) (H c (or_introl eq_refl))).
    apply IH. intros x Hx. apply H. right. exact Hx.
  Qed.
  Lemma depsum_in : forall L s i c, In c L -> In i (deps s c) -> 0 < depsum L s i.
  Proof.
    induction L as [|x L IH]; intros s i c Hc Hi; [destruct Hc|]. cbn. destruct Hc as [->|Hc].
    - apply occ_in in Hi. lia.
    - specialize (IH s i c Hc Hi). unfold depsum in IH. lia.
  Qed.
  Lemma depsum_same : forall L s s' i, (forall c, In c L -> occ (deps s' c) i = occ (deps s c) i) -> depsum L s' i = depsum L s i.
  Proof.
    induction L as [|c L IH]; intros s s' i H; cbn; [reflexivity|]. rewrite (H c) by (left; reflexivity).
    f_equal. apply IH. intros x Hx. apply H. right. exact Hx.
  Qed.
  Lemma depsum_change : forall L s s' i c, NoDup L -> In c L -> (forall x, x <> c -> deps s' x = deps s x) ->
    depsum L s' i + occ (deps s c) i = depsum L s i + occ (deps s' c) i.
  Proof.
    induction L as [|x L IH]; intros s s' i c Hn Hc H; [destruct Hc|]. inversion Hn as [|? ? Hx Hn']; subst. cbn. destruct Hc as [->|Hc].
    - fold (depsum L s' i) (depsum L s i). assert (depsum L s' i = depsum L s i); [|lia].
      apply depsum_same. intros y Hy. rewrite H; [reflexivity|]. intros ->. contradiction.
    - rewrite (H x) by (intros ->; contradiction). fold (depsum L s' i) (depsum L s i). specialize (IH s s' i c Hn' Hc H). lia.
  Qed.

  (** [i] is referenced *)
  Definition mem (H : list nat) (s : st) (i : nat) : Prop :=
    In i (s_W s) \/ In i (s_N s) \/ In i (s_D s) \/ In i H \/ exists c, In i (deps s c).
  Lemma mem_tot : forall L H s i, Refs L H s -> (mem H s i <-> 0 < tot L H s i).
  Proof.
    intros L H s i R. unfold tot. split.
    - intros [M|[M|[M|[M|(c & M)]]]]; try (apply occ_in in M; lia). assert (0 < depsum L s i); [|lia].
      apply depsum_in with c; [|exact M]. destruct (in_dec ceq c L) as [Hc|Hc]; [exact Hc|]. rewrite (r_Ld R c Hc) in M. destruct M.
    - intros T. destruct (in_dec Nat.eq_dec i (s_W s)) as [M|M1]; [left; exact M|]. destruct (in_dec Nat.eq_dec i (s_N s)) as [M|M2]; [right; left; exact M|].
      destruct (in_dec Nat.eq_dec i (s_D s)) as [M|M3]; [right; right; left; exact M|]. destruct (in_dec Nat.eq_dec i H) as [M|M4]; [right; right; right; left; exact M|].
      right. right. right. right. rewrite occ_nin in M1, M2, M3, M4. assert (T' : 0 < depsum L s i) by lia. clear T M1 M2 M3 M4 R. unfold depsum in T'.
      induction L as [|c L IH]; cbn in T'; [lia|]. destruct (in_dec Nat.eq_dec i (deps s c)) as [M|M]; [exists c; exact M|]. apply occ_nin in M. apply IH. lia.
  Qed.

  (** * Meaning *)
  Definition edge_ok (s : st) (c : conf) (h : hedge conf) (e : edge) : Prop :=
    e_src e = Some c /\ e_neg e = h_neg h /\ e_handled e = false /\ incl (e_tgts e) (h_targets h) /\
    forall t, In t (h_targets h) -> In t (e_tgts e) \/ asg_of s t = One.
  Definition waiting (s : st) (i : nat) (e : edge) : Prop :=
    In i (s_W s) \/ In i (s_D s) \/
    (e_processed e = true /\
     if e_neg e then In i (s_N s) /\ (forall t, In t (e_tgts e) -> asg_of s t <> Unknown)
     else (exists t, In t (e_tgts e) /\ asg_of s t = Zero) /\ (forall t, In t (e_tgts e) -> undone s t)).
  Definition blocked (s : st) (h : hedge conf) : Prop :=
    if h_neg h then forall t, In t (h_targets h) -> asg_of s t = One
    else exists t, In t (h_targets h) /\ asg_of s t = CZero.
  Definition somes (l : list (option nat)) : nat :=
    length (filter (fun o => match o with Some _ => true | None => false end) l).
  Definition sem (e : edge) := (e_src e, e_tgts e, e_neg e, e_processed e, e_handled e).
  Definition okW (s : st) (e : edge) : Prop :=
    forall c, e_neg e = true -> e_processed e = true -> e_handled e = false -> e_src e = Some c -> asg_of s c = Zero ->
      forall t, In t (e_tgts e) -> asg_of s t <> Unknown /\ (asg_of s t = One \/ ~ val t).
  Definition okD (s : st) (e : edge) : Prop :=
    forall c, e_neg e = true -> e_handled e = false -> e_src e = Some c -> asg_of s c = Zero -> decided s (e_tgts e) = true.
  (** an edge that was never processed is referenced at most once, by W *)
  Definition unproc (X : list nat) (s : st) : Prop :=
    forall i e, ed s i = Some e -> (0 <= e_ref e)%Z -> e_processed e = false -> ~ In i X ->
      ~ In i (s_N s) /\ ~ In i (s_D s) /\ (forall c, ~ In i (deps s c)) /\ occ (s_W s) i <= 1.

  Record Sem (own : conf -> list (option nat)) (H X : list nat) (s : st) : Prop := {
    b_live : forall i, mem H s i -> exists e c, ed s i = Some e /\ e_src e = Some c /\ (0 <= e_ref e)%Z /\ asg_of s c <> Unknown /\
      (done (asg_of s c) = true \/ e_handled e = true \/ exists k, nth_error (own c) k = Some (Some i));
    b_own : forall c, asg_of s c = Zero -> length (own c) = length (g c) /\ nsuccs s c = somes (own c);
    b_edge : forall c k h i, asg_of s c = Zero -> nth_error (g c) k = Some h -> nth_error (own c) k = Some (Some i) ->
      exists e, ed s i = Some e /\ edge_ok s c h e /\ (In i X \/ waiting s i e);
    b_block : forall c k h, asg_of s c = Zero -> nth_error (g c) k = Some h -> nth_error (own c) k = Some None -> blocked s h;
    b_inj : forall c k k' i, asg_of s c = Zero -> nth_error (own c) k = Some (Some i) -> nth_error (own c) k' = Some (Some i) -> k = k';
    b_X : incl X H;
    b_one : forall c, asg_of s c = One -> val c;
    b_czero : forall c, asg_of s c = CZero -> ~ val c;
    b_dist : forall c, dist s c <= depth c;
    b_dist1 : forall c, asg_of s c <> Unknown -> dist s c = depth c;
    b_dist2 : forall c, deps s c <> [] -> dist s c = depth c;
    b_deps : forall i e t, In i (deps s t) -> ed s i = Some e -> e_neg e = true -> forall x, In x (e_tgts e) -> x = t;
    b_pdeps : forall c k i e t, asg_of s c = Zero -> nth_error (own c) k = Some (Some i) -> ed s i = Some e -> e_neg e = false ->
      e_processed e = true -> In t (e_tgts e) -> undone s t -> In i (deps s t);
    b_W : forall i e, In i (s_W s) -> ed s i = Some e -> okW s e;
    b_D : forall i e, In i (s_D s) -> ed s i = Some e -> okD s e;
    b_un : unproc X s
  }.

  Lemma decided_same : forall (s s' : st) ts, (forall t, asg_of s' t = asg_of s t) -> decided s' ts = decided s ts.
  Proof.
    intros s s' ts H. unfold decided. f_equal.
    - induction ts as [|t ts IH]; cbn; [reflexivity|]. rewrite H, IH. reflexivity.
    - induction ts as [|t ts IH]; cbn; [reflexivity|]. rewrite H, IH. reflexivity.
  Qed.
  Lemma decided_spec : forall (s : st) ts, decided s ts = true <-> (forall t, In t ts -> asg_of s t = One) \/ exists t, In t ts /\ asg_of s t = CZero.
  Proof.
    intros s ts. unfold decided. rewrite orb_true_iff, forallb_forall, existsb_exists. split; intros [H|(t & H1 & H2)].
    - left. intros t Ht. apply asg_eq_spec. auto.
    - right. exists t. rewrite asg_eq_spec in H2. auto.
    - left. intros t Ht. apply asg_eq_spec. auto.
    - right. exists t. rewrite asg_eq_spec. auto.
  Qed.

  Lemma sem_src : forall e e', sem e' = sem e -> e_src e' = e_src e.
  Proof. intros e e' H. unfold sem in H. congruence. Qed.
  Lemma sem_tgts : forall e e', sem e' = sem e -> e_tgts e' = e_tgts e.
  Proof. intros e e' H. unfold sem in H. congruence. Qed.
  Lemma sem_neg : forall e e', sem e' = sem e -> e_neg e' = e_neg e.
  Proof. intros e e' H. unfold sem in H. congruence. Qed.
  Lemma sem_proc : forall e e', sem e' = sem e -> e_processed e' = e_processed e.
  Proof. intros e e' H. unfold sem in H. congruence. Qed.
  Lemma sem_hand : forall e e', sem e' = sem e -> e_handled e' = e_handled e.
  Proof. intros e e' H. unfold sem in H. congruence. Qed.

  (** Changes of reference counts, status and lists only. *)
  Lemma Sem_frame : forall own H X s H' X' s', Sem own H X s ->
    (forall c, s_cfg s' c = s_cfg s c) ->
    (forall i, mem H' s' i -> mem H s i) ->
    (forall i e, mem H' s' i -> ed s i = Some e -> exists e', ed s' i = Some e' /\ sem e' = sem e /\ (0 <= e_ref e')%Z) ->
    (forall i e, In i (s_W s') -> ed s i = Some e -> In i (s_W s) \/ okW s e) ->
    (forall i e, In i (s_D s') -> ed s i = Some e -> In i (s_D s) \/ okD s e) ->
    (forall i e c, In i X -> ed s i = Some e -> e_src e = Some c -> e_handled e = false -> asg_of s c = Zero -> In i X' \/ In i (s_W s') \/ In i (s_D s')) ->
    (forall i, In i (s_W s) -> In i X' \/ In i (s_W s') \/ In i (s_D s')) ->
    (forall i, In i (s_D s) -> In i X' \/ In i (s_W s') \/ In i (s_D s')) ->
    (forall i, In i (s_N s) -> In i X' \/ In i (s_N s') \/ In i (s_W s') \/ In i (s_D s')) ->
    incl X' H' -> unproc X' s' ->
    Sem own H' X' s'.
  Proof.
    intros own H X s H' X' s' B Fc Fm Fe FW FD FX PW PD PN HX HU.
    assert (Ea : forall c, asg_of s' c = asg_of s c) by (intros c; unfold asg_of; rewrite Fc; reflexivity).
    assert (Ed : forall c, deps s' c = deps s c) by (intros c; unfold deps; rewrite Fc; reflexivity).
    assert (Ei : forall c, dist s' c = dist s c) by (intros c; unfold dist; rewrite Fc; reflexivity).
    assert (Back : forall i e', mem H' s' i -> ed s' i = Some e' -> exists e, ed s i = Some e /\ sem e' = sem e).
    { intros i e' M E. destruct (b_live B (Fm i M)) as (e & c & E1 & _). destruct (Fe i e M E1) as (e2 & E2 & E3 & _). exists e. split; [exact E1|congruence]. }
    assert (Own : forall c k h i, asg_of s c = Zero -> nth_error (g c) k = Some h -> nth_error (own c) k = Some (Some i) ->
      mem H' s' i /\ exists e, ed s i = Some e /\ edge_ok s c h e /\
        (In i X' \/ In i (s_W s') \/ In i (s_D s') \/
        (e_processed e = true /\ if e_neg e then In i (s_N s') /\ (forall t, In t (e_tgts e) -> asg_of s t <> Unknown)
         else (exists t, In t (e_tgts e) /\ asg_of s t = Zero) /\ (forall t, In t (e_tgts e) -> undone s t)))).
    { intros c k h i Hc Hh Hk. destruct (b_edge B c k Hc Hh Hk) as (e & E1 & O & Wt). assert (O' := O). destruct O' as (O1 & O2 & O3 & O4 & O5).
      assert (G : In i X' \/ In i (s_W s') \/ In i (s_D s') \/
        (e_processed e = true /\ if e_neg e then In i (s_N s') /\ (forall t, In t (e_tgts e) -> asg_of s t <> Unknown)
         else (exists t, In t (e_tgts e) /\ asg_of s t = Zero) /\ (forall t, In t (e_tgts e) -> undone s t))).
      { destruct Wt as [Wt|[Wt|[Wt|(P1 & P2)]]].
        - destruct (FX i e c Wt E1 O1 O3 Hc) as [G|[G|G]]; auto.
        - destruct (PW i Wt) as [G|[G|G]]; auto.
        - destruct (PD i Wt) as [G|[G|G]]; auto.
        - destruct (e_neg e) eqn:En; [|auto]. destruct P2 as (P2 & P3). destruct (PN i P2) as [G|[G|[G|G]]]; auto 6. }
      split; [|exists e; auto].
      destruct G as [G|[G|[G|(P1 & P2)]]].
      - right. right. right. left. apply HX. exact G.
      - left. exact G.
      - right. right. left. exact G.
      - destruct (e_neg e) eqn:En; [right; left; apply P2|]. destruct P2 as ((t & Ht & Hz) & _). right. right. right. right. exists t. rewrite Ed.
        eapply (b_pdeps B); [exact Hc|exact Hk|exact E1|exact En|exact P1|exact Ht|]. unfold undone. rewrite Hz. reflexivity. }
    assert (Hnth : forall c k i, asg_of s c = Zero -> nth_error (own c) k = Some (Some i) -> exists h, nth_error (g c) k = Some h).
    { intros c k i Hc Hk. destruct (nth_error (g c) k) as [h|] eqn:E; [eauto|]. apply nth_error_None in E. rewrite <- (proj1 (b_own B c Hc)) in E.
      apply nth_lt in Hk. lia. }
    split.
    - intros i M. destruct (b_live B (Fm i M)) as (e & c & E1 & E2 & E3 & E4 & E5). destruct (Fe i e M E1) as (e' & E1' & Es & Hr).
      exists e', c. rewrite (sem_src Es), (sem_hand Es), Ea. auto.
    - intros c Hc. rewrite Ea in Hc. unfold nsuccs. rewrite Fc. apply (b_own B c Hc).
    - intros c k h i Hc Hh Hk. rewrite Ea in Hc. destruct (Own c k h i Hc Hh Hk) as (M & e & E1 & (O1 & O2 & O3 & O4 & O5) & G).
      destruct (Fe i e M E1) as (e' & E1' & Es & Hr). exists e'. split; [exact E1'|]. split.
      + unfold edge_ok. rewrite (sem_src Es), (sem_neg Es), (sem_hand Es), (sem_tgts Es). split; [exact O1|]. split; [exact O2|]. split; [exact O3|]. split; [exact O4|].
        intros t Ht. rewrite Ea. auto.
      + destruct G as [G|[G|[G|(P1 & P2)]]]; [left; exact G|right; left; exact G|right; right; left; exact G|].
        right. right. right. rewrite (sem_proc Es), (sem_neg Es), (sem_tgts Es). split; [exact P1|]. destruct (e_neg e).
        * destruct P2 as (P2 & P3). split; [exact P2|]. intros t Ht. rewrite Ea. auto.
        * destruct P2 as ((t & Ht & Hz) & P3). split; [exists t; rewrite Ea; auto|]. intros x Hx. unfold undone. rewrite Ea. apply P3. exact Hx.
    - intros c k h Hc Hh Hk. rewrite Ea in Hc. assert (G := b_block B c k Hc Hh Hk). unfold blocked in *. destruct (h_neg h).
      + intros t Ht. rewrite Ea. auto.
      + destruct G as (t & G1 & G2). exists t. rewrite Ea. auto.
    - intros c k k' i Hc. rewrite Ea in Hc. apply (b_inj B c k k' Hc).
    - exact HX.
    - intros c Hc. rewrite Ea in Hc. apply (b_one B c Hc).
    - intros c Hc. rewrite Ea in Hc. apply (b_czero B Hc).
    - intros c. rewrite Ei. apply (b_dist B).
    - intros c Hc. rewrite Ea in Hc. rewrite Ei. apply (b_dist1 B c Hc).
    - intros c Hc. rewrite Ed in Hc. rewrite Ei. apply (b_dist2 B c Hc).
    - intros i e' t Hi E' Hn x Hx. assert (M : mem H' s' i) by (right; right; right; right; exists t; exact Hi). rewrite Ed in Hi.
      destruct (Back i e' M E') as (e & E & Es). rewrite (sem_neg Es) in Hn. rewrite (sem_tgts Es) in Hx. eapply (b_deps B); eauto.
    - intros c k i e' t Hc Hk E' Hn Hp Ht Hu. rewrite Ea in Hc. rewrite Ed. unfold undone in Hu. rewrite Ea in Hu.
      destruct (Hnth c k i Hc Hk) as (h & Hh). destruct (Own c k h i Hc Hh Hk) as (M & _).
      destruct (Back i e' M E') as (e & E & Es). rewrite (sem_neg Es) in Hn. rewrite (sem_tgts Es) in Ht. rewrite (sem_proc Es) in Hp.
      eapply (b_pdeps B); [exact Hc|exact Hk|exact E|exact Hn|exact Hp|exact Ht|exact Hu].
    - intros i e' Hi E'. assert (M : mem H' s' i) by (left; exact Hi). destruct (Back i e' M E') as (e & E & Es).
      assert (G : okW s e) by (destruct (FW i e Hi E) as [G|G]; [eapply (b_W B); eauto|exact G]). intros c. unfold okW in G.
      rewrite (sem_neg Es), (sem_proc Es), (sem_hand Es), (sem_src Es), (sem_tgts Es), Ea. intros G1 G2 G3 G4 G5 t Ht. rewrite Ea. eapply G; eauto.
    - intros i e' Hi E'. assert (M : mem H' s' i) by (right; right; left; exact Hi). destruct (Back i e' M E') as (e & E & Es).
      assert (G : okD s e) by (destruct (FD i e Hi E) as [G|G]; [eapply (b_D B); eauto|exact G]). intros c. unfold okD in G.
      rewrite (sem_neg Es), (sem_hand Es), (sem_src Es), (sem_tgts Es), Ea. intros G1 G2 G3 G4. rewrite (@decided_same s s' _ Ea). eapply G; eauto.
    - exact HU.
  Qed.
End Inv.
