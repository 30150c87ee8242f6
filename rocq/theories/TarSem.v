(** Firing, place by place, and the meaning of the queries. *)
From Verif Require Import Base BaseLemmas NetSpec NetModel NetProofs PqlSyntax PqlSpec PqlModel PqlProofs RangeSpec RangeModel RangeProofs StubModel StubMain
  QueryModel BuilderModel BuilderSpec BuilderMain StubProofs TarModel TarSpec TarVec.
From Coq Require Import Sorted.

Lemma ft_cons : forall iv l p, first_tokens (iv :: l) p = if Nat.eqb (iv_place iv) p then iv_tokens iv else first_tokens l p.
Proof. intros iv l p. unfold first_tokens. cbn [find]. destruct (Nat.eqb (iv_place iv) p); reflexivity. Qed.
Lemma ft_out : forall l p, ~ In p (map iv_place l) -> first_tokens l p = 0%N.
Proof.
  induction l as [|iv l IH]; intros p H; [reflexivity|]. rewrite ft_cons. cbn in H. destruct (Nat.eqb_spec (iv_place iv) p); [tauto|]. apply IH. tauto.
Qed.
Lemma ft_in : forall l iv, NoDup (map iv_place l) -> In iv l -> first_tokens l (iv_place iv) = iv_tokens iv.
Proof.
  induction l as [|x l IH]; intros iv N H; [destruct H|]. rewrite ft_cons. cbn [map] in N. inversion N as [|? ? N1 N2]; subst. destruct H as [->|H]; [rewrite Nat.eqb_refl; reflexivity|].
  destruct (Nat.eqb_spec (iv_place x) (iv_place iv)) as [E|]; [|apply IH; assumption]. exfalso. apply N1. rewrite E. apply in_map. exact H.
Qed.
Lemma ft_pos : forall l p, (0 < first_tokens l p)%N -> exists iv, In iv l /\ iv_place iv = p.
Proof.
  induction l as [|x l IH]; intros p H; [cbn in H; lia|]. rewrite ft_cons in H. destruct (Nat.eqb_spec (iv_place x) p); [exists x; split; [left; reflexivity|assumption]|].
  destruct (IH p H) as (iv & A & B). exists iv. split; [right; exact A|exact B].
Qed.
Lemma ft_weight : forall l p, NoDup (map iv_place l) -> (forall iv, In iv l -> iv_inhib iv = false) -> weight_at (map inv_arc l) p = first_tokens l p.
Proof.
  induction l as [|x l IH]; intros p N I; [reflexivity|]. cbn [map] in *. inversion N as [|? ? N1 N2]; subst. rewrite weight_at_cons, ft_cons. cbn [inv_arc arc_place arc_inhib arc_weight].
  rewrite (I x (or_introl eq_refl)), IH by (auto; intros; apply I; right; assumption). cbn [negb]. rewrite andb_true_r. destruct (Nat.eqb_spec (iv_place x) p) as [<-|]; [rewrite ft_out by exact N1; lia|lia].
Qed.
Lemma ft_weight_out : forall l p, NoDup (map iv_place l) -> weight_at (map out_arc_of l) p = first_tokens l p.
Proof.
  induction l as [|x l IH]; intros p N; [reflexivity|]. cbn [map] in *. inversion N as [|? ? N1 N2]; subst. rewrite weight_at_cons, ft_cons. cbn [out_arc_of arc_place arc_inhib arc_weight].
  rewrite IH by auto. cbn [negb]. rewrite andb_true_r. destruct (Nat.eqb_spec (iv_place x) p) as [<-|]; [rewrite ft_out by exact N1; lia|lia].
Qed.

Section Net.
  Variable net : cnet.
  Hypothesis L : layout net.
  Hypothesis P0 : 0 < cn_places net.
  Hypothesis D : dirs_ok net.
  Hypothesis So : sorted_arcs net.
  Hypothesis NI : has_inhib net = false.
  Notation P := (to_pnet net).
  Notation np := (cn_places net).
  Notation nt := (cn_ntrans net).
  Notation pre := (in_slice net).
  Notation post := (out_slice net).

  Lemma no_inhib : forall t iv, t < nt -> In iv (pre t) -> iv_inhib iv = false.
  Proof.
    intros t iv Ht H. destruct (iv_inhib iv) eqn:E; [|reflexivity]. exfalso. unfold has_inhib, all_trans in NI.
    assert (X : existsb (fun t => existsb iv_inhib (pre t)) (seq 0 nt) = true); [|congruence].
    apply existsb_exists. exists t. split; [apply in_seq; lia|]. apply existsb_exists. exists iv. auto.
  Qed.
  Lemma pre_nodup : forall t, t < nt -> NoDup (map iv_place (pre t)).
  Proof. intros t Ht. destruct (@wf_net_trans net L t Ht) as (_ & _ & A & _). rewrite pre_slice, map_map in A. exact A. Qed.
  Lemma post_nodup : forall t, t < nt -> NoDup (map iv_place (post t)).
  Proof. intros t Ht. destruct (@wf_net_trans net L t Ht) as (_ & _ & _ & A). rewrite post_slice, map_map in A. exact A. Qed.
  Lemma pre_place : forall t iv, t < nt -> In iv (pre t) -> iv_place iv < np.
  Proof. intros t iv Ht H. destruct (@wf_net_trans net L t Ht) as (A & _). apply (A (inv_arc iv)). rewrite pre_slice. apply in_map. exact H. Qed.
  Lemma post_place : forall t iv, t < nt -> In iv (post t) -> iv_place iv < np.
  Proof. intros t iv Ht H. destruct (@wf_net_trans net L t Ht) as (_ & A & _). apply (A (out_arc_of iv)). rewrite post_slice. apply in_map. exact H. Qed.
  Lemma strict_of : forall l, StronglySorted le l -> NoDup l -> StronglySorted lt l.
  Proof.
    intros l S N. induction S as [|x l S IH F]; constructor; inversion N as [|? ? N1 N2]; subst; [auto|]. rewrite Forall_forall in *. intros y Hy. specialize (F y Hy).
    destruct (Nat.eq_dec x y); [subst; contradiction|lia].
  Qed.
  Lemma pre_sorted : forall t, t < nt -> StronglySorted lt (map iv_place (pre t)).
  Proof. intros t Ht. destruct (So t Ht) as (B & _). rewrite pre_slice, map_map in B. apply strict_of; [exact B|apply pre_nodup; exact Ht]. Qed.
  Lemma post_sorted : forall t, t < nt -> StronglySorted lt (map iv_place (post t)).
  Proof. intros t Ht. destruct (So t Ht) as (_ & B). rewrite post_slice, map_map in B. apply strict_of; [exact B|apply post_nodup; exact Ht]. Qed.

  (** tokens consumed and produced *)
  Notation wi t p := (first_tokens (pre t) p).
  Notation wo t p := (first_tokens (post t) p).
  Lemma enabled_ft : forall t m, t < nt -> (enabled (net_trans net t) m <-> forall p, (wi t p <= tokens m p)%N).
  Proof.
    intros t m Ht. unfold enabled. rewrite pre_slice. split.
    - intros H p. destruct (N.eq_dec (wi t p) 0) as [E|E]; [lia|]. destruct (ft_pos (pre t) p ltac:(lia)) as (iv & A & B).
      specialize (H (inv_arc iv) (in_map inv_arc _ _ A)). unfold arc_ok in H. cbn [inv_arc arc_inhib arc_place arc_weight] in H. rewrite (no_inhib t iv Ht A), B in H.
      rewrite <- B, (ft_in (pre t) iv (pre_nodup t Ht) A), B. exact H.
    - intros H a Ia. apply in_map_iff in Ia. destruct Ia as (iv & <- & A). unfold arc_ok. cbn [inv_arc arc_inhib arc_place arc_weight]. rewrite (no_inhib t iv Ht A).
      rewrite <- (ft_in (pre t) iv (pre_nodup t Ht) A). apply H.
  Qed.
  Lemma step_ft : forall m t m', step P m t m' -> length m = np -> t < nt /\ length m' = np /\ (forall p, (wi t p <= tokens m p)%N) /\
    forall p, tokens m' p = (tokens m p - wi t p + wo t p)%N.
  Proof.
    intros m t m' (tr & E & (En & Le & F)) Hm. apply net_trans_inv in E. destruct E as (Ht & ->). split; [exact Ht|]. split; [lia|].
    pose proof (proj1 (enabled_ft t m Ht) En) as En'. split; [exact En'|]. intros p. destruct (Nat.lt_ge_cases p np) as [Hp|Hp].
    - destruct (F p ltac:(lia)) as (A & B). rewrite pre_slice, ft_weight in B by (auto using pre_nodup; intros; eapply no_inhib; eauto). rewrite post_slice, ft_weight_out in B by (auto using post_nodup). exact B.
    - unfold tokens. rewrite !nth_overflow by lia. rewrite !ft_out; [reflexivity| |]; intros X; apply in_map_iff in X; destruct X as (iv & <- & X); [apply post_place in X|apply pre_place in X]; lia.
  Qed.
  Lemma step_mk : forall m t m', t < nt -> length m = np -> length m' = np -> (forall p, (wi t p <= tokens m p)%N) -> (forall p, tokens m' p = (tokens m p - wi t p + wo t p)%N) -> step P m t m'.
  Proof.
    intros m t m' Ht Hm Hm' En F. exists (net_trans net t). split; [apply net_trans_in; exact Ht|]. split; [apply enabled_ft; assumption|]. split; [lia|]. intros p Hp.
    rewrite pre_slice, ft_weight by (auto using pre_nodup; intros; eapply no_inhib; eauto). rewrite post_slice, ft_weight_out by (auto using post_nodup). split; [apply En|apply F].
  Qed.
  (** the direction of an arc *)
  Lemma dir_ft : forall t iv, t < nt -> In iv (pre t) \/ In iv (post t) -> iv_dir iv = Z.sgn (Z.of_N (wo t (iv_place iv)) - Z.of_N (wi t (iv_place iv))).
  Proof.
    intros t iv Ht H. pose proof (D t iv Ht H) as E. rewrite pre_slice, ft_weight in E by (auto using pre_nodup; intros; eapply no_inhib; eauto). rewrite post_slice, ft_weight_out in E by (auto using post_nodup). exact E.
  Qed.

  (** ** Triples *)
  Definition tri (v : rvec) (t : nat) (w : rvec) : Prop :=
    forall p x, (x <= rmax)%N -> (wi t p <= x)%N -> (x - wi t p + wo t p <= rmax)%N -> in_range (rg v p) x -> in_range (rg w p) (x - wi t p + wo t p)%N.
  Lemma tri_step : forall v t w m m', sorted_vec v -> sorted_vec w -> tri v t w -> step P m t m' -> length m = np -> fits m -> fits m' ->
    in_vec v (tokens m) -> in_vec w (tokens m').
  Proof.
    intros v t w m m' Sv Sw T St Hm F F' I. destruct (step_ft m t m' St Hm) as (_ & _ & A & B). apply in_vec_rg; [exact Sw|]. intros p. pose proof (F' p) as F1. rewrite B in *.
    apply T; [exact (F p)|apply A|exact F1|]. apply in_vec_rg; assumption.
  Qed.
  Lemma tri_post : forall v t w w', (forall p x, (x <= rmax)%N -> in_range (rg w p) x -> in_range (rg w' p) x) -> tri v t w -> tri v t w'.
  Proof. intros v t w w' H T p x A B C I. apply H; [exact C|]. apply T; assumption. Qed.
  Lemma tri_ext : forall v t w v' w', (forall p, rg v' p = rg v p) -> (forall p, rg w' p = rg w p) -> tri v t w -> tri v' t w'.
  Proof. intros v t w v' w' A B T p x. rewrite A, B. apply T. Qed.

  (** ** The query *)
  Notation ev := (evaluate (net_deadb net)).
  Lemma deadb_spec : forall m, length m = np -> (net_deadb net m = true <-> dead P m).
  Proof. intros m Hm. destruct (@deadlocked_spec net m L P0 Hm) as (b & E & B). unfold net_deadb. rewrite E. exact B. Qed.
  Lemma dead_ft : forall m, dead P m <-> forall t, t < nt -> exists p, (tokens m p < wi t p)%N.
  Proof.
    intros m. unfold dead. split.
    - intros H t Ht. assert (X : ~ enabled (net_trans net t) m) by (apply (H t); apply net_trans_in; exact Ht).
      destruct (existsb (fun iv => (tokens m (iv_place iv) <? iv_tokens iv)%N) (pre t)) eqn:E.
      + apply existsb_exists in E. destruct E as (iv & A & B). apply N.ltb_lt in B. exists (iv_place iv). rewrite (ft_in (pre t) iv (pre_nodup t Ht) A). exact B.
      + exfalso. apply X. apply enabled_ft; [exact Ht|]. intros p. destruct (N.eq_dec (wi t p) 0) as [Z|Z]; [lia|]. destruct (ft_pos (pre t) p ltac:(lia)) as (iv & A & B). subst p.
        rewrite (ft_in (pre t) iv (pre_nodup t Ht) A). apply N.le_ngt. intros F. assert (Y : existsb (fun iv => (tokens m (iv_place iv) <? iv_tokens iv)%N) (pre t) = true); [|congruence].
        apply existsb_exists. exists iv. split; [exact A|apply N.ltb_lt; exact F].
    - intros H t tr E. apply net_trans_inv in E. destruct E as (Ht & ->). rewrite enabled_ft by exact Ht. destruct (H t Ht) as (p & Hp). intros X. specialize (X p). lia.
  Qed.
End Net.

Lemma separate_atomic : forall c, separate c -> atomic c = true.
Proof.
  induction c using cond_ind'; cbn [separate atomic]; try tauto; try reflexivity.
  - intros (A & _). apply forallb_forall. rewrite Forall_forall in H. intros x Hx. apply H; [exact Hx|]. rewrite fr_and in A. auto.
  - intros (A & _). apply forallb_forall. rewrite Forall_forall in H. intros x Hx. apply H; [exact Hx|]. rewrite fr_and in A. auto.
Qed.
Lemma cps_places : forall c, separate c -> cond_places c = compared c.
Proof.
  induction c using cond_ind'; cbn [separate cond_places compared]; try tauto; try reflexivity.
  - intros (A & _). rewrite fr_and in A. rewrite Forall_forall in H. induction l as [|x l IH]; [reflexivity|]. cbn [flat_map]. rewrite (H x (or_introl eq_refl) (A x (or_introl eq_refl))). rewrite IH; [reflexivity| |]; intros; [apply H|apply A]; auto; right; assumption.
  - intros (A & _). rewrite fr_and in A. rewrite Forall_forall in H. induction l as [|x l IH]; [reflexivity|]. cbn [flat_map]. rewrite (H x (or_introl eq_refl) (A x (or_introl eq_refl))). rewrite IH; [reflexivity| |]; intros; [apply H|apply A]; auto; right; assumption.
Qed.
Lemma dead_mention : forall c, has_dead c = true <-> mentions_dead c.
Proof.
  induction c using cond_ind'; cbn [has_dead mentions_dead]; try (split; [discriminate|tauto]); try tauto.
  - rewrite Forall_forall in H. rewrite existsb_exists, fr_or. split; intros (x & A & B); exists x; split; auto; apply (H x A); exact B.
  - rewrite Forall_forall in H. rewrite existsb_exists, fr_or. split; intros (x & A & B); exists x; split; auto; apply (H x A); exact B.
Qed.
