(** The siphon-trap test is right. *)
From Verif Require Import Base BaseLemmas NetSpec NetModel NetProofs StubModel AntiModel AntiProofs LpBase StModel StSpec
  BuilderModel BuilderSpec BuilderMain SearchExamples.
From Coq Require Import Lia Sorted.

(** ** Sorted vectors *)
Notation asc := (StronglySorted lt).
Lemma span_ok : forall p l, asc l -> fst (span p l) ++ snd (span p l) = l /\ (forall x, In x (fst (span p l)) -> x < p) /\ (forall x, In x (snd (span p l)) -> p <= x).
Proof.
  intros p. induction l as [|x l IH]; intros A; [cbn; split; [reflexivity|split; intros ? []]|]. inversion A as [|? ? A1 A2]; subst. cbn [span]. destruct (Nat.ltb_spec x p) as [H|H].
  - destruct (IH A1) as (E & B & C). destruct (span p l) as [a b]. cbn [fst snd] in *. split; [cbn; congruence|]. split; [|exact C]. intros y [<-|Hy]; auto.
  - cbn [fst snd app]. split; [reflexivity|]. split; [intros ? []|]. intros y [<-|Hy]; [exact H|]. rewrite Forall_forall in A2. specialize (A2 y Hy). lia.
Qed.
Lemma asc_app : forall a b, asc (a ++ b) <-> asc a /\ asc b /\ (forall x y, In x a -> In y b -> x < y).
Proof.
  induction a as [|x a IH]; intros b; cbn [app]; [split; [intros H; split; [constructor|split; [exact H|intros ? ? []]]|tauto]|]. split.
  - intros H. inversion H as [|? ? H1 H2]; subst. apply IH in H1. destruct H1 as (A & B & C). rewrite Forall_forall in H2. split; [constructor; [exact A|apply Forall_forall; intros y Hy; apply H2, in_or_app; auto]|]. split; [exact B|]. intros y z [<-|Hy] Hz; [apply H2, in_or_app; auto|auto].
  - intros (A & B & C). inversion A as [|? ? A1 A2]; subst. constructor; [apply IH; split; [exact A1|split; [exact B|intros; apply C; [right|]; assumption]]|]. rewrite Forall_forall in *. intros y Hy. apply in_app_or in Hy. destruct Hy as [Hy|Hy]; [auto|apply C; [left; reflexivity|exact Hy]].
Qed.
Lemma asc_filter : forall f l, asc l -> asc (filter f l).
Proof.
  intros f l H. induction H as [|x l H IH F]; [constructor|]. cbn [filter]. destruct (f x); [|exact IH]. constructor; [exact IH|]. rewrite Forall_forall in *. intros y Hy. apply filter_In in Hy. apply F. apply Hy.
Qed.
Lemma asc_without : forall l i, asc l -> asc (without_nth i l) /\ (forall x, In x (without_nth i l) -> In x l).
Proof.
  induction l as [|x l IH]; intros i A; [destruct i; split; auto|]. inversion A as [|? ? A1 A2]; subst. destruct i as [|i]; cbn [without_nth]; [split; [exact A1|intros; right; assumption]|]. destruct (IH i A1) as (B & C). split.
  - constructor; [exact B|]. rewrite Forall_forall in *. intros y Hy. apply A2, C, Hy.
  - intros y [<-|Hy]; [left; reflexivity|right; apply C, Hy].
Qed.
Lemma asc_nodup : forall l, asc l -> NoDup l.
Proof. intros l H. induction H as [|x l H IH F]; constructor; [|exact IH]. rewrite Forall_forall in F. intros X. specialize (F x X). lia. Qed.
Lemma without_length : forall l i, i < length l -> S (length (without_nth i l)) = length l.
Proof. induction l as [|x l IH]; intros [|i] H; cbn [without_nth length] in *; try lia. rewrite IH by lia. reflexivity. Qed.
Lemma count_without : forall (f : nat -> bool) l i, i < length l -> length (filter f l) = length (filter f (without_nth i l)) + (if f (nth i l 0) then 1 else 0).
Proof.
  intros f. induction l as [|x l IH]; intros [|i] H; cbn [without_nth length filter nth] in *; try lia.
  - destruct (f x); cbn [length]; lia.
  - specialize (IH i ltac:(lia)). destruct (f x); cbn [length]; lia.
Qed.

Section Net.
  Variable net : cnet.
  Variable rnd : nat -> nat.
  Variable late : nat -> bool.
  Hypothesis L : layout net.
  Hypothesis So : sorted_arcs net.
  Hypothesis Acc : forall t, t < cn_ntrans net -> accepted net t = true.
  Notation P := (to_pnet net).
  Notation m0 := (cn_init net).
  Notation mk := (marked net).

  (** ** Arcs *)
  Lemma in_places : forall t iv, t < cn_ntrans net -> In iv (in_slice net t) -> iv_place iv < cn_places net.
  Proof. intros t iv Ht H. destruct (@wf_net_trans net L t Ht) as (A & _). apply (A (inv_arc iv)). apply (in_map inv_arc) in H. exact H. Qed.
  Lemma in_asc : forall t, t < cn_ntrans net -> asc (map iv_place (in_slice net t)).
  Proof.
    intros t Ht. destruct (@wf_net_trans net L t Ht) as (_ & _ & A & _). destruct (So t Ht) as (B & _). change (tr_pre (net_trans net t)) with (map inv_arc (in_slice net t)) in A, B. rewrite map_map in A, B. apply strict; assumption.
  Qed.
  Definition produces (t : nat) (X : nat -> Prop) : Prop := exists iv, In iv (out_slice net t) /\ X (iv_place iv).
  Definition consumes (t : nat) (X : nat -> Prop) : Prop := exists iv, In iv (in_slice net t) /\ X (iv_place iv).
  Lemma post_arcs : forall t (X : nat -> Prop), (exists a, In a (tr_post (net_trans net t)) /\ X (arc_place a)) <-> produces t X.
  Proof.
    intros t X. change (tr_post (net_trans net t)) with (map out_arc_of (out_slice net t)). split.
    - intros (a & Ha & Hx). apply in_map_iff in Ha. destruct Ha as (iv & <- & Ha). exists iv. auto.
    - intros (iv & Ha & Hx). exists (out_arc_of iv). split; [apply in_map; exact Ha|exact Hx].
  Qed.
  Lemma pre_arcs : forall t (X : nat -> Prop), (exists a, In a (tr_pre (net_trans net t)) /\ X (arc_place a)) <-> consumes t X.
  Proof.
    intros t X. change (tr_pre (net_trans net t)) with (map inv_arc (in_slice net t)). split.
    - intros (a & Ha & Hx). apply in_map_iff in Ha. destruct Ha as (iv & <- & Ha). exists iv. auto.
    - intros (iv & Ha & Hx). exists (inv_arc iv). split; [apply in_map; exact Ha|exact Hx].
  Qed.
  Definition mem (l : list nat) : nat -> Prop := fun p => In p l.
  Definition pp_ok (l : list nat) (pp : tset * tset) : Prop := forall t, (fst pp t = true <-> produces t (mem l)) /\ (snd pp t = true <-> consumes t (mem l)).
  Lemma at_place_ok : forall p l, at_place p l = true <-> exists iv, In iv l /\ iv_place iv = p.
  Proof. intros p l. unfold at_place. rewrite existsb_exists. split; intros (iv & A & B); exists iv; (split; [exact A|]); [apply Nat.eqb_eq|apply Nat.eqb_eq]; exact B. Qed.
  Lemma extend_ok : forall p l l' pp, pp_ok l pp -> (forall x, In x l' <-> x = p \/ In x l) -> pp_ok l' (extend net p pp).
  Proof.
    intros p l l' pp H E t. destruct (H t) as (A & B). unfold extend. cbn [fst snd]. rewrite !orb_true_iff, !at_place_ok, A, B. unfold produces, consumes, mem. split; split.
    - intros [(iv & X & Y)|(iv & X & Y)]; exists iv; (split; [exact X|]); apply E; auto.
    - intros (iv & X & Y). apply E in Y. destruct Y as [Y|Y]; [right|left]; exists iv; auto.
    - intros [(iv & X & Y)|(iv & X & Y)]; exists iv; (split; [exact X|]); apply E; auto.
    - intros (iv & X & Y). apply E in Y. destruct Y as [Y|Y]; [right|left]; exists iv; auto.
  Qed.
  Lemma pp_none : pp_ok [] (no_trans, no_trans).
  Proof. intros t. unfold produces, consumes, mem. cbn. split; split; try discriminate; intros (iv & _ & []). Qed.
  Lemma extend_all_ok : forall l, pp_ok l (extend_all net l).
  Proof.
    intros l. unfold extend_all. assert (X : forall l1 l0 pp, pp_ok l0 pp -> pp_ok (rev l1 ++ l0) (fold_left (fun s p => extend net p s) l1 pp)).
    { induction l1 as [|p l1 IH]; intros l0 pp H; cbn [fold_left rev app]; [exact H|]. rewrite <- app_assoc. apply (IH ([p] ++ l0)). apply (extend_ok p l0); [exact H|]. intros x. cbn. split; intros [E|E]; auto. }
    specialize (X l [] _ pp_none). intros t. destruct (X t) as (A & B). rewrite A, B. unfold produces, consumes, mem.
    split; split; intros (iv & Y & Z); exists iv; (split; [exact Y|]); rewrite app_nil_r in *; [apply in_rev|apply in_rev in Z|apply in_rev|apply in_rev in Z]; try exact Z; rewrite <- in_rev; exact Z.
  Qed.
  Lemma difference_nil : forall (a b : tset), difference net a b = [] -> forall t, t < cn_ntrans net -> a t = true -> b t = true.
  Proof.
    intros a b H t Ht Ha. destruct (b t) eqn:Hb; [reflexivity|exfalso]. assert (X : In t (difference net a b)); [|rewrite H in X; exact X]. apply filter_In. split; [apply in_seq; lia|]. rewrite Ha, Hb. reflexivity.
  Qed.
  Lemma difference_in : forall (a b : tset) t, In t (difference net a b) -> t < cn_ntrans net /\ a t = true /\ b t = false.
  Proof. intros a b t H. apply filter_In in H. destruct H as (A & B). apply in_seq in A. apply andb_true_iff in B. destruct B as (B & C). apply negb_true_iff in C. split; [lia|auto]. Qed.

  (** ** Sets all of whose siphons contain a marked trap *)
  Definition has_trap (X : nat -> Prop) : Prop := exists T, trap P T /\ (forall p, T p -> X p) /\ marked_set m0 T.
  Definition covered (l : list nat) : Prop := forall X, siphon P X -> (forall p, In p l -> X p) -> has_trap X.
  Lemma covered_sub : forall l l', covered l -> (forall p, In p l -> In p l') -> covered l'.
  Proof. intros l l' C H X Sx Hx. apply C; auto. Qed.
  Lemma covered_trap : forall l, has_trap (mem l) -> covered l.
  Proof. intros l (T & A & B & C) X _ Hx. exists T. split; [exact A|]. split; [intros p Hp; apply Hx, B, Hp|exact C]. Qed.
  Definition chain_ok (s : st) : Prop := well (st_chain s) /\ forall l, In l (chain_of (st_chain s) 0) -> covered l.
  Lemma chain_insert : forall c k k' l, chain_ok (mkSt c k) -> asc l -> covered l -> chain_ok (mkSt (fst (insert c 0 l)) k').
  Proof.
    intros c k k' l (W & C) A Cl. cbn [st_chain] in *. split; cbn [st_chain]; [apply insert_well; assumption|]. intros x Hx. rewrite insert_chain in Hx. destruct (Nat.eqb 0 0 && negb (subsumed c 0 l)); [|apply C; exact Hx].
    apply in_app_or in Hx. destruct Hx as [Hx|[<-|[]]]; [apply filter_In in Hx; apply C; apply Hx|exact Cl].
  Qed.
  Lemma mk_tokens : forall p, mk p = true <-> (0 < tokens m0 p)%N.
  Proof. intros p. unfold marked. rewrite negb_true_iff, N.eqb_neq. lia. Qed.

  (** ** Greatest traps *)
  Definition num (l : list nat) : nat := length (filter mk l).
  Lemma num_app : forall a b, num (a ++ b) = num a + num b.
  Proof. intros a b. unfold num. rewrite filter_app, app_length. reflexivity. Qed.
  Lemma num_cons : forall x l, num (x :: l) = (if mk x then 1 else 0) + num l.
  Proof. intros x l. unfold num. cbn [filter]. destruct (mk x); reflexivity. Qed.
  Definition others (arcs : list invariant) (x : nat) : bool := negb (at_place x arcs).
  Lemma others_cons : forall a arcs x, others (a :: arcs) x = negb (Nat.eqb (iv_place a) x) && others arcs x.
  Proof. intros a arcs x. unfold others, at_place. cbn [existsb]. apply negb_orb. Qed.
  Lemma filter_id : forall (f : nat -> bool) l, (forall x, In x l -> f x = true) -> filter f l = l.
  Proof. intros f l H. induction l as [|x l IH]; [reflexivity|]. cbn [filter]. rewrite H by (left; reflexivity). rewrite IH; [reflexivity|]. intros; apply H; right; assumption. Qed.
  Lemma num_filter : forall f l, num (filter f l) <= num l.
  Proof. intros f. induction l as [|x l IH]; [cbn; lia|]. cbn [filter]. rewrite num_cons. destruct (f x); [rewrite num_cons|]; lia. Qed.
  Lemma cut_ok : forall arcs rest k, asc (map iv_place arcs) -> asc rest ->
    (exists l, cut net arcs rest (k + num rest) = Ok (l, 0, true)) /\ k + num (filter (others arcs) rest) = 0 \/
    cut net arcs rest (k + num rest) = Ok (filter (others arcs) rest, k + num (filter (others arcs) rest), false).
  Proof.
    induction arcs as [|a arcs IH]; intros rest k Aa Ar; cbn [cut].
    - right. rewrite filter_id by reflexivity. reflexivity.
    - cbn [map] in Aa. inversion Aa as [|? ? Aa1 Aa2]; subst. rewrite Forall_forall in Aa2.
      assert (Hi : forall x, x <= iv_place a -> others arcs x = true).
      { intros x Hx. unfold others. destruct (at_place x arcs) eqn:E; [|reflexivity]. apply at_place_ok in E. destruct E as (iv & Hiv & E). specialize (Aa2 (iv_place iv) (in_map _ _ _ Hiv)). lia. }
      destruct (span_ok (iv_place a) rest Ar) as (E & B & C). destruct (span (iv_place a) rest) as [small big]. cbn [fst snd] in *. subst rest. apply asc_app in Ar. destruct Ar as (As & Ab & Asb).
      assert (Fs : forall x, In x small -> others (a :: arcs) x = true) by (intros x Hx; rewrite others_cons, Hi by (specialize (B x Hx); lia); specialize (B x Hx); destruct (Nat.eqb_spec (iv_place a) x); [lia|reflexivity]).
      rewrite num_app, filter_app, (filter_id _ _ Fs).
      destruct big as [|x big']; [right; cbn [filter]; rewrite app_nil_r; change (num []) with 0; rewrite Nat.add_0_r; reflexivity|].
      assert (Step : forall big1 k1, asc big1 -> (forall y, In y big1 -> iv_place a < y) -> k1 = k + num small ->
        (exists l, (r <- cut net arcs big1 (k1 + num big1) ;; Ok (small ++ fst (fst r), snd (fst r), snd r)) = Ok (l, 0, true)) /\ k + num (small ++ filter (others (a :: arcs)) big1) = 0 \/
        (r <- cut net arcs big1 (k1 + num big1) ;; Ok (small ++ fst (fst r), snd (fst r), snd r)) = Ok (small ++ filter (others (a :: arcs)) big1, k + num (small ++ filter (others (a :: arcs)) big1), false)).
      { intros big1 k1 A1 B1 ->. assert (Ef : filter (others (a :: arcs)) big1 = filter (others arcs) big1). { apply filter_ext_in. intros y Hy. rewrite others_cons. specialize (B1 y Hy). destruct (Nat.eqb_spec (iv_place a) y); [lia|reflexivity]. }
        rewrite Ef. destruct (IH big1 (k + num small) Aa1 A1) as [((l & X) & Z)|X]; rewrite X; cbn [bind fst snd]; [left; split; [eauto|rewrite num_app; lia]|right]. rewrite num_app, Nat.add_assoc. reflexivity. }
      inversion Ab as [|? ? Ab1 Ab2]; subst. rewrite Forall_forall in Ab2. destruct (Nat.eqb_spec x (iv_place a)) as [Ex|Ex].
      + subst x. assert (Ff : filter (others (a :: arcs)) (iv_place a :: big') = filter (others (a :: arcs)) big') by (cbn [filter]; rewrite others_cons, Nat.eqb_refl; reflexivity). rewrite Ff, num_cons.
        destruct (mk (iv_place a)).
        * replace (k + (num small + (1 + num big'))) with (S (k + num small + num big')) by lia. destruct (k + num small + num big') as [|c] eqn:Ec; [left; split; [eauto|rewrite num_app; pose proof (num_filter (others (a :: arcs)) big'); lia]|]. rewrite <- Ec. apply Step; auto.
        * replace (k + (num small + (0 + num big'))) with (k + num small + num big') by lia. apply Step; auto.
      + replace (k + (num small + num (x :: big'))) with (k + num small + num (x :: big')) by lia. apply Step; [exact Ab| |reflexivity]. specialize (C x (or_introl eq_refl)). intros y [<-|Hy]; [lia|]. specialize (Ab2 y Hy). lia.
  Qed.
  Definition spare (diff : list nat) (x : nat) : bool := forallb (fun t => others (in_slice net t) x) diff.
  Lemma filter_filter : forall (f g : nat -> bool) l, filter f (filter g l) = filter (fun x => g x && f x) l.
  Proof. intros f g l. induction l as [|x l IH]; [reflexivity|]. cbn [filter]. destruct (g x); cbn [filter andb]; [destruct (f x); rewrite IH; reflexivity|exact IH]. Qed.
  Lemma cut_all_ok : forall diff l, (forall t, In t diff -> t < cn_ntrans net) -> asc l ->
    (exists l', cut_all net diff l (num l) = Ok (l', 0, true)) /\ num (filter (spare diff) l) = 0 \/
    cut_all net diff l (num l) = Ok (filter (spare diff) l, num (filter (spare diff) l), false).
  Proof.
    induction diff as [|t diff IH]; intros l Hd A; cbn [cut_all]; [right; rewrite filter_id by reflexivity; reflexivity|].
    assert (E0 : filter (spare (t :: diff)) l = filter (spare diff) (filter (others (in_slice net t)) l)) by (rewrite filter_filter; reflexivity). rewrite E0.
    destruct (cut_ok (in_slice net t) l 0 (in_asc t (Hd t (or_introl eq_refl))) A) as [((l' & E) & Z)|E]; cbn [Nat.add] in E; rewrite E; cbn [bind fst snd].
    - left. split; [eauto|]. cbn [Nat.add] in Z. pose proof (num_filter (spare diff) (filter (others (in_slice net t)) l)). lia.
    - apply IH; [intros u Hu; apply Hd; right; exact Hu|apply asc_filter; exact A].
  Qed.
  Lemma trap_list : forall l pp, pp_ok l pp -> (forall p, In p l -> p < cn_places net) -> difference net (snd pp) (fst pp) = [] -> trap P (mem l).
  Proof.
    intros l pp H Hl D. split; [exact Hl|]. intros t tr Ht. apply (@net_trans_inv net) in Ht. destruct Ht as (Ht & ->). rewrite pre_arcs, post_arcs. intros X. apply H. apply (difference_nil _ _ D t Ht). apply H. exact X.
  Qed.
  Lemma num_marked : forall l, 0 < num l -> marked_set m0 (mem l).
  Proof.
    intros l H. unfold num in H. destruct (filter mk l) as [|x r] eqn:E; [cbn in H; lia|]. assert (Hx : In x (filter mk l)) by (rewrite E; left; reflexivity). apply filter_In in Hx. exists x. split; [apply Hx|apply mk_tokens, Hx].
  Qed.
  Lemma marked_num : forall l, has_trap (mem l) -> 0 < num l.
  Proof.
    intros l (T & _ & T2 & p & Tp & Hp). apply T2 in Tp. apply mk_tokens in Hp. unfold num. assert (X : In p (filter mk l)) by (apply filter_In; split; [exact Tp|exact Hp]). destruct (filter mk l); [destruct X|cbn; lia].
  Qed.
  Lemma compute_trap_ok : forall fuel l pp s, asc l -> (forall p, In p l -> p < cn_places net) -> pp_ok l pp -> chain_ok s -> length l < fuel ->
    exists r s', compute_trap net rnd fuel l pp (num l) s = Ok (r, s') /\ chain_ok s' /\ (0 < r <-> has_trap (mem l)).
  Proof.
    induction fuel as [|f IH]; intros l pp s A Hp Hpp C F; [lia|]. cbn [compute_trap]. destruct l as [|x0 l0]; [exists 0, s; split; [reflexivity|]; split; [exact C|]; split; [lia|intros (T & _ & T2 & p & Tp & _); destruct (T2 p Tp)]|]. set (l := x0 :: l0) in *.
    destruct (difference net (snd pp) (fst pp)) as [|d ds] eqn:D.
    - pose proof (trap_list l pp Hpp Hp D) as T. destruct (Nat.ltb_spec 0 (num l)) as [Hc|Hc]; [|exists (num l), s; split; [reflexivity|split; [exact C|]]; split; [lia|intros H; pose proof (marked_num _ H); lia]].
      assert (Tr : has_trap (mem l)) by (exists (mem l); split; [exact T|]; split; [auto|apply num_marked; exact Hc]).
      set (i := rnd (st_clock s) mod length l). assert (Hi : i < length l) by (apply Nat.mod_upper_bound; unfold l; discriminate).
      assert (C1 : chain_ok (mkSt (fst (insert (st_chain s) 0 l)) (S (st_clock s)))) by (apply (chain_insert _ (st_clock s)); [destruct s; exact C|exact A|apply covered_trap; exact Tr]).
      destruct (negb (mk (nth i l 0)) || (1 <? num l)); [|eexists _, _; split; [reflexivity|]; split; [exact C1|tauto]].
      pose proof (count_without mk l i Hi) as Cw. fold (num l) in Cw. fold (num (without_nth i l)) in Cw. pose proof (without_length l i Hi) as Lw. destruct (asc_without l i A) as (Aw & Sw).
      replace (num l - (if mk (nth i l 0) then 1 else 0)) with (num (without_nth i l)) by lia.
      destruct (IH (without_nth i l) (extend_all net (without_nth i l)) (mkSt (fst (insert (st_chain s) 0 l)) (S (st_clock s))) Aw (fun p Hq => Hp p (Sw p Hq)) (extend_all_ok _) C1) as (r & s' & E & C' & _); [lia|]. rewrite E. cbn [bind snd].
      eexists _, _. split; [reflexivity|]. split; [exact C'|tauto].
    - assert (Dd : forall t, In t (d :: ds) -> t < cn_ntrans net /\ snd pp t = true /\ fst pp t = false) by (intros t Ht; rewrite <- D in Ht; apply difference_in in Ht; exact Ht).
      set (l' := filter (spare (d :: ds)) l).
      assert (Cutl : forall T, trap P T -> (forall p, T p -> mem l p) -> forall p, T p -> mem l' p).
      { intros T (_ & T1) T2 p Tp. apply filter_In. split; [apply T2; exact Tp|]. apply forallb_forall. intros t Ht. destruct (Dd t Ht) as (D1 & _ & D3). unfold others. destruct (at_place p (in_slice net t)) eqn:Ep; [exfalso|reflexivity]. apply at_place_ok in Ep. destruct Ep as (iv & I1 & I2).
        assert (X : exists a, In a (tr_post (net_trans net t)) /\ T (arc_place a)) by (apply (T1 t _ (@net_trans_in net t D1)), pre_arcs; exists iv; split; [exact I1|rewrite I2; exact Tp]). apply post_arcs in X. destruct X as (iv' & X1 & X2). assert (Y : fst pp t = true) by (apply Hpp; exists iv'; split; [exact X1|apply T2; exact X2]). congruence. }
      assert (Same : has_trap (mem l) <-> has_trap (mem l')).
      { split; intros (T & T1 & T2 & T3); exists T; (split; [exact T1|]); (split; [|exact T3]); [apply Cutl; assumption|intros p Tp; apply T2 in Tp; unfold mem, l' in Tp; apply filter_In in Tp; apply Tp]. }
      destruct (cut_all_ok (d :: ds) l) as [((l1 & E) & Z)|E]; [intros t Ht; apply (Dd t Ht)|exact A| |]; rewrite E; cbn [bind fst snd]; fold l'.
      + fold l' in Z. exists 0, s. split; [reflexivity|]. split; [exact C|]. rewrite Same. split; [lia|intros H; pose proof (marked_num _ H); lia].
      + destruct (Nat.eqb_spec (length l') 0) as [Z|Z]; [|destruct (Nat.eqb_spec (num l') 0) as [Z'|Z']]; cbn [orb].
        * destruct l'; [|discriminate]. cbn. exists 0, s. split; [reflexivity|]. split; [exact C|]. rewrite Same. split; [lia|intros H; pose proof (marked_num _ H) as K; cbn in K; lia].
        * exists 0, s. split; [reflexivity|]. split; [exact C|]. rewrite Same. split; [lia|intros H; pose proof (marked_num _ H); lia].
        * assert (A' : asc l') by (apply asc_filter; exact A). assert (Sub : forall x, In x l' -> In x l) by (intros x Hx; apply filter_In in Hx; apply Hx).
          assert (Lt : length l' < length l).
          { destruct (Dd d (or_introl eq_refl)) as (Hd1 & Hd2 & _). apply Hpp in Hd2. destruct Hd2 as (iv & I1 & I2).
            assert (Nin : ~ In (iv_place iv) l'). { intros X. apply filter_In in X. destruct X as (_ & X). unfold spare in X. rewrite forallb_forall in X. specialize (X d (or_introl eq_refl)). unfold others in X. apply negb_true_iff in X. assert (Y : at_place (iv_place iv) (in_slice net d) = true) by (apply at_place_ok; exists iv; auto). congruence. }
            apply (NoDup_incl_length (l := iv_place iv :: l') (l' := l)); [constructor; [exact Nin|apply asc_nodup; exact A']|]. intros y [<-|Hy]; [exact I2|apply Sub; exact Hy]. }
          destruct (IH l' (extend_all net l') s A' (fun p Hq => Hp p (Sub p Hq)) (extend_all_ok _) C) as (r & s' & E' & C1 & T); [lia|]. exists r, s'. split; [exact E'|]. split; [exact C1|]. rewrite Same. exact T.
  Qed.

  (** ** Siphons *)
  Definition st_ok (has_st : nat -> bool) : Prop := forall p, has_st p = true -> covered [p].
  Definition never_late : Prop := forall k, late k = false.
  (** Some siphon around the set has no marked trap. *)
  Definition broken (l : list nat) : Prop := exists X, siphon P X /\ (forall p, In p l -> X p) /\ ~ has_trap X.
  Lemma broken_sub : forall l l', broken l' -> (forall p, In p l -> In p l') -> broken l.
  Proof. intros l l' (X & A & B & C) H. exists X. split; [exact A|]. split; [intros p Hp; apply B, H, Hp|exact C]. Qed.
  Definition rec_ok (n : nat) (rec : list nat -> tset * tset -> st -> res (bool * st)) : Prop :=
    forall l pp s, asc l -> (forall p, In p l -> p < cn_places net) -> pp_ok l pp -> chain_ok s -> n <= length l ->
      exists r s', rec l pp s = Ok (r, s') /\ chain_ok s' /\ (r = true -> covered l) /\ (r = false -> never_late -> broken l).
  Lemma grow_ok : forall rec has_st pp l0 arcs before after s, rec_ok (S (length l0)) rec -> st_ok has_st -> pp_ok l0 pp -> before ++ after = l0 -> asc l0 -> (forall p, In p l0 -> p < cn_places net) -> chain_ok s ->
    asc (map iv_place arcs) -> (forall iv, In iv arcs -> iv_place iv < cn_places net) -> (forall x iv, In x before -> In iv arcs -> x < iv_place iv) ->
    exists r s', grow net rec has_st pp arcs before after s = Ok (r, s') /\ chain_ok s' /\ (r = true -> forall iv, In iv arcs -> ~ In (iv_place iv) l0 -> covered (iv_place iv :: l0)) /\ (r = false -> never_late -> broken l0).
  Proof.
    intros rec has_st pp l0. induction arcs as [|a arcs IH]; intros before after s R Hs Hpp El Al Hl C Aa Ha Hb; cbn [grow]; [exists true, s; split; [reflexivity|]; split; [exact C|split; [intros _ iv []|discriminate]]|].
    cbn [map] in Aa. inversion Aa as [|? ? Aa1 Aa2]; subst. rewrite Forall_forall in Aa2. set (l0 := before ++ after) in *. pose proof Al as Al0. apply asc_app in Al0. destruct Al0 as (Ab & Af & Abf).
    destruct (span_ok (iv_place a) after Af) as (E & B & D). destruct (span (iv_place a) after) as [x y]. cbn [fst snd] in *.
    assert (E' : (before ++ x) ++ y = l0) by (rewrite <- app_assoc, E; reflexivity).
    assert (Hb' : forall z iv, In z (before ++ x) -> In iv (a :: arcs) -> z < iv_place iv).
    { intros z iv Hz Hiv. apply in_app_or in Hz. destruct Hz as [Hz|Hz]; [apply Hb; assumption|]. specialize (B z Hz). destruct Hiv as [<-|Hiv]; [exact B|]. specialize (Aa2 (iv_place iv) (in_map _ _ _ Hiv)). lia. }
    assert (Next : forall s1, chain_ok s1 -> (~ In (iv_place a) l0 -> covered (iv_place a :: l0)) ->
      exists r s', grow net rec has_st pp arcs (before ++ x) y s1 = Ok (r, s') /\ chain_ok s' /\ (r = true -> forall iv, In iv (a :: arcs) -> ~ In (iv_place iv) l0 -> covered (iv_place iv :: l0)) /\ (r = false -> never_late -> broken l0)).
    { intros s1 C1 Ca. destruct (IH (before ++ x) y s1 R Hs Hpp E' Al Hl C1 Aa1) as (r & s' & X & Y & Z & Z'); [intros; apply Ha; right; assumption|intros z iv Hz Hiv; apply Hb'; [exact Hz|right; exact Hiv]|].
      exists r, s'. split; [exact X|]. split; [exact Y|]. split; [intros Hr iv [<-|Hiv]; [exact Ca|apply Z; assumption]|exact Z']. }
    destruct (match y with [] => false | z :: _ => Nat.eqb z (iv_place a) end) eqn:Ey; cbn [orb].
    - destruct y as [|z y]; [discriminate|]. apply Nat.eqb_eq in Ey. subst z. apply Next; [exact C|]. intros N. exfalso. apply N. rewrite <- E'. apply in_or_app. right. left. reflexivity.
    - destruct (has_st (iv_place a)) eqn:Eh.
      + apply Next; [exact C|]. intros _. apply (covered_sub [iv_place a]); [apply Hs; exact Eh|]. intros p [<-|[]]. left. reflexivity.
      + assert (Gy : forall z, In z y -> iv_place a < z).
        { assert (Ay : asc y) by (rewrite <- E' in Al; apply asc_app in Al; apply Al). destruct y as [|w y]; [intros z []|]. apply Nat.eqb_neq in Ey. specialize (D w (or_introl eq_refl)). inversion Ay as [|? ? _ Ay2]; subst. rewrite Forall_forall in Ay2. intros z [<-|Hz]; [lia|]. specialize (Ay2 z Hz). lia. }
        assert (In1 : forall z, In z ((before ++ x) ++ iv_place a :: y) <-> z = iv_place a \/ In z l0). { intros z. rewrite <- E', !in_app_iff. cbn [In]. split; [intros [[H|H]|[H|H]]; auto|intros [H|[[H|H]|H]]; auto]. }
        destruct (R ((before ++ x) ++ iv_place a :: y) (extend net (iv_place a) pp) s) as (r & s' & X & Y & Z & Z').
        * rewrite <- E' in Al. apply asc_app in Al. destruct Al as (A1 & A2 & A3). apply asc_app. split; [exact A1|]. split; [constructor; [exact A2|apply Forall_forall; exact Gy]|]. intros u v Hu [<-|Hv]; [apply (Hb' u a Hu); left; reflexivity|apply A3; assumption].
        * intros p Hp. apply In1 in Hp. destruct Hp as [->|Hp]; [apply Ha; left; reflexivity|apply Hl; exact Hp].
        * apply (extend_ok (iv_place a) l0); [exact Hpp|exact In1].
        * exact C.
        * rewrite <- E', !app_length. cbn [length]. lia.
        * rewrite X. cbn [bind fst snd]. destruct r; [|exists false, s'; split; [reflexivity|]; split; [exact Y|split; [discriminate|]]; intros _ NL; apply (broken_sub l0 _ (Z' eq_refl NL)); intros p Hp; apply In1; auto]. apply Next; [exact Y|]. intros _. eapply covered_sub; [apply Z; reflexivity|]. intros p Hp. apply In1 in Hp. destruct Hp as [->|Hp]; [left; reflexivity|right; exact Hp].
  Qed.
  Lemma siphon_trap_ok : forall has_st, st_ok has_st -> forall fuel, rec_ok (S (cn_places net) - fuel) (siphon_trap net rnd late fuel has_st) \/ fuel = 0.
  Proof.
    intros has_st Hs. induction fuel as [|f IH]; [right; reflexivity|left]. intros l pp s A Hl Hpp C Hn. cbn [siphon_trap].
    assert (C1 : chain_ok (mkSt (st_chain s) (S (st_clock s)))) by exact C. destruct (late (st_clock s)) eqn:La; [eexists _, _; split; [reflexivity|]; split; [exact C1|split; [discriminate|intros _ NL; rewrite NL in La; discriminate]]|].
    destruct (subsumed (st_chain s) 0 l) eqn:Su; cbn [st_chain]; rewrite ?Su.
    { eexists _, _. split; [reflexivity|]. split; [exact C1|]. split; [|discriminate]. intros _. apply subsumed_ok in Su; [|apply C|exact A]. destruct Su as (x & Hx & Sx). apply (covered_sub x); [apply C; exact Hx|exact Sx]. }
    assert (Len : length l <= cn_places net). { rewrite <- (seq_length (cn_places net) 0). apply NoDup_incl_length; [apply asc_nodup; exact A|]. intros p Hp. apply in_seq. specialize (Hl p Hp). lia. }
    destruct (difference net (fst pp) (snd pp)) as [|t ds] eqn:D.
    - assert (Sl : siphon P (mem l)). { split; [exact Hl|]. intros t tr Ht. apply (@net_trans_inv net) in Ht. destruct Ht as (Ht & ->). rewrite pre_arcs, post_arcs. intros X. apply Hpp. apply (difference_nil _ _ D t Ht). apply Hpp. exact X. }
      assert (Br : ~ has_trap (mem l) -> broken l) by (intros H; exists (mem l); split; [exact Sl|split; [auto|exact H]]).
      fold (num l). destruct (Nat.eqb_spec (num l) 0) as [Z|Z]; [eexists _, _; split; [reflexivity|]; split; [exact C1|split; [discriminate|intros _ _; apply Br; intros H; pose proof (marked_num _ H); lia]]|].
      destruct (compute_trap_ok (S (length l)) l pp (mkSt (st_chain s) (S (st_clock s))) A Hl Hpp C1) as (r & s' & E & C' & T); [lia|]. rewrite E. cbn [bind fst snd]. eexists _, _. split; [reflexivity|]. split; [exact C'|]. split.
      { intros Hr. apply covered_trap. apply T. destruct (Nat.eqb_spec r 0); [discriminate|lia]. }
      intros Hr _. apply Br. rewrite <- T. destruct (Nat.eqb_spec r 0); [lia|discriminate].
    - assert (Hd : In t (difference net (fst pp) (snd pp))) by (rewrite D; left; reflexivity). apply difference_in in Hd. destruct Hd as (Ht & Hf & Hsn).
      assert (Nin : forall iv, In iv (in_slice net t) -> ~ In (iv_place iv) l). { intros iv Hiv X. assert (Y : snd pp t = true) by (apply Hpp; exists iv; auto). congruence. }
      assert (Rec : rec_ok (S (length l)) (siphon_trap net rnd late f has_st)).
      { destruct IH as [IH|IH]; [intros l1 pp1 s1 X1 X2 X3 X4 X5; apply IH; auto; lia|]. subst f. intros l1 pp1 s1 X1 X2 _ _ X5. exfalso.
        assert (length l1 <= cn_places net); [|lia]. rewrite <- (seq_length (cn_places net) 0). apply NoDup_incl_length; [apply asc_nodup; exact X1|]. intros p Hp. apply in_seq. specialize (X2 p Hp). lia. }
      destruct (grow_ok _ has_st pp l (in_slice net t) [] l (mkSt (st_chain s) (S (st_clock s))) Rec Hs Hpp eq_refl A Hl C1 (in_asc t Ht) (fun iv Hiv => in_places t iv Ht Hiv) ltac:(intros x iv [])) as (r & s' & E & C' & T & T').
      rewrite E. cbn [bind fst snd]. destruct r; [|eexists _, _; split; [reflexivity|]; split; [exact C'|split; [discriminate|exact T']]].
      assert (Cv : covered l).
      { intros X Sx Hx. destruct (proj2 Sx t (net_trans net t) (@net_trans_in net t Ht)) as (a & Ha & Xa).
        - apply post_arcs. apply Hpp in Hf. destruct Hf as (iv & I1 & I2). exists iv. split; [exact I1|apply Hx; exact I2].
        - assert (X1 : consumes t X) by (apply pre_arcs; exists a; auto). destruct X1 as (iv & I1 & I2). apply (T eq_refl iv I1 (Nin iv I1) X Sx). intros p [<-|Hp]; auto. }
      eexists _, _. split; [reflexivity|]. split; [|split; [intros _; exact Cv|discriminate]]. apply (chain_insert _ (st_clock s')); [destruct s'; exact C'|exact A|exact Cv].
  Qed.
  Lemma solve_places_ok : forall n p has_st s, p + n = cn_places net -> st_ok has_st -> (forall q, q < p -> covered [q]) -> chain_ok s ->
    exists r, solve_places net rnd late n p has_st s = Ok r /\ (r = true -> forall q, q < cn_places net -> covered [q]) /\ (r = false -> never_late -> exists q, q < cn_places net /\ broken [q]).
  Proof.
    induction n as [|n IH]; intros p has_st s Hn Hs Hq C; cbn [solve_places]; [exists true; split; [reflexivity|]; split; [|discriminate]; intros _ q Hq'; apply Hq; lia|].
    destruct (siphon_trap_ok has_st Hs (S (cn_places net))) as [R|R]; [|discriminate]. destruct (R [p] (extend net p (no_trans, no_trans)) s) as (r & s' & E & C' & T & T').
    - repeat constructor.
    - intros q [<-|[]]. lia.
    - apply (extend_ok p []); [apply pp_none|]. intros x. cbn. split; [intros [H|[]]; auto|intros [H|[]]; auto].
    - exact C.
    - lia.
    - rewrite E. cbn [bind fst snd]. destruct r; [|exists false; split; [reflexivity|split; [discriminate|]]; intros _ NL; exists p; split; [lia|apply T'; auto]]. apply IH; [lia| | |exact C'].
      + intros q H. apply orb_true_iff in H. destruct H as [H|H]; [apply Nat.eqb_eq in H; subst q; apply T; reflexivity|apply Hs; exact H].
      + intros q H. destruct (Nat.eq_dec q p) as [->|Ne]; [apply T; reflexivity|apply Hq; lia].
  Qed.
End Net.

Theorem solve_ok : forall net rnd late, layout net -> sorted_arcs net ->
  exists r, solve net rnd late = Ok r /\
    (r = true -> (forall t, t < cn_ntrans net -> accepted net t = true) /\ siphon_trap_property (to_pnet net) (cn_init net)) /\
    ((forall k, late k = false) -> 0 < cn_places net -> (forall t, t < cn_ntrans net -> accepted net t = true) -> siphon_trap_property (to_pnet net) (cn_init net) -> r = true).
Proof.
  intros net rnd late L So. unfold solve. destruct (Nat.eqb_spec (cn_places net) 0) as [Z|Z]; [exists false; split; [reflexivity|split; [discriminate|lia]]|].
  destruct (forallb (accepted net) (seq 0 (cn_ntrans net))) eqn:F; cbn [negb].
  2:{ exists false. split; [reflexivity|]. split; [discriminate|]. intros _ _ A _. rewrite <- F. apply forallb_forall. intros t Ht. apply in_seq in Ht. apply A. lia. }
  destruct (solve_places_ok net rnd late L So (cn_places net) 0 (fun _ => false) (mkSt [] 0)) as (r & E & T & T'); [lia|intros p H; discriminate|intros q H; lia|split; [intros k s H; destruct k; destruct H|intros l []]|].
  exists r. split; [exact E|]. split.
  - intros Hr. split; [intros t Ht; rewrite forallb_forall in F; apply F, in_seq; lia|]. intros X Sx (p & Hp). apply (T Hr p (proj1 Sx p Hp) X Sx). intros q [<-|[]]. exact Hp.
  - intros NL _ _ SP. destruct r; [reflexivity|exfalso]. destruct (T' eq_refl NL) as (q & Hq & X & A & B & C). apply C. apply SP; [exact A|]. exists q. apply B. left. reflexivity.
Qed.

(** ** From siphons and traps to deadlocks *)
Lemma weight_at_in : forall l a, In a l -> arc_inhib a = false -> (arc_weight a <= weight_at l (arc_place a))%N.
Proof.
  induction l as [|b l IH]; intros a H I; [destruct H|]. rewrite weight_at_cons. destruct H as [->|H]; [rewrite Nat.eqb_refl, I; cbn [negb andb]; lia|]. specialize (IH a H I). destruct (Nat.eqb (arc_place b) (arc_place a) && negb (arc_inhib b)); lia.
Qed.
Lemma weight_at_none : forall l p, (forall a, In a l -> arc_place a <> p) -> weight_at l p = 0%N.
Proof. induction l as [|b l IH]; intros p H; [reflexivity|]. rewrite weight_at_cons, IH by (intros; apply H; right; assumption). destruct (Nat.eqb_spec (arc_place b) p) as [E|E]; [exfalso; apply (H b); [left; reflexivity|exact E]|reflexivity]. Qed.
Definition plain (n : pnet) : Prop := forall t tr, nth_error (pn_trans n) t = Some tr ->
  tr_pre tr <> [] /\ (forall a, In a (tr_pre tr) -> arc_inhib a = false /\ arc_weight a = 1%N) /\ (forall a, In a (tr_post tr) -> arc_weight a = 1%N).
Lemma trap_stays : forall n X, wf_pnet n -> plain n -> trap n X -> forall m w m', run n m w m' -> length m = pn_places n -> marked_set m X -> length m' = pn_places n /\ marked_set m' X.
Proof.
  intros n X W Pl (Tx & T) m w m' R. induction R as [m|m t m1 w m2 (tr & Ht & (En & Len & F)) R IH]; intros Hl (p & Xp & Hp); [split; [exact Hl|exists p; auto]|]. apply IH; [congruence|].
  destruct (Pl t tr Ht) as (_ & _ & P2). destruct (W tr (nth_error_In _ _ Ht)) as (_ & W2 & _).
  assert (Dec : (exists a, In a (tr_pre tr) /\ X (arc_place a)) \/ weight_at (tr_pre tr) p = 0%N).
  { destruct (weight_at (tr_pre tr) p) eqn:E; [right; reflexivity|left]. destruct (existsb (fun a => Nat.eqb (arc_place a) p) (tr_pre tr)) eqn:Ex.
    - apply existsb_exists in Ex. destruct Ex as (a & Ha & Ea). apply Nat.eqb_eq in Ea. exists a. split; [exact Ha|rewrite Ea; exact Xp].
    - rewrite weight_at_none in E; [discriminate|]. intros a Ha Ea. assert (Y : existsb (fun a => Nat.eqb (arc_place a) p) (tr_pre tr) = true) by (apply existsb_exists; exists a; split; [exact Ha|apply Nat.eqb_eq; exact Ea]). congruence. }
  destruct Dec as [H|H].
  - destruct (T t tr Ht H) as (a & Ha & Xa). exists (arc_place a). split; [exact Xa|]. destruct (W2 a Ha) as (Ra & Ia). destruct (F (arc_place a)) as (_ & E); [rewrite Hl; exact Ra|]. pose proof (weight_at_in _ _ Ha Ia) as K. rewrite (P2 a Ha) in K. lia.
  - exists p. split; [exact Xp|]. destruct (F p) as (_ & E); [rewrite Hl; apply Tx; exact Xp|]. lia.
Qed.
Theorem property_no_deadlock : forall n m0, wf_pnet n -> plain n -> length m0 = pn_places n -> pn_trans n <> [] -> siphon_trap_property n m0 ->
  forall m, reachable n m0 m -> ~ dead n m.
Proof.
  intros n m0 W Pl Hl Ne SP m (w & R) D. set (X := fun p => p < pn_places n /\ tokens m p = 0%N).
  assert (K : forall t tr, nth_error (pn_trans n) t = Some tr -> exists a, In a (tr_pre tr) /\ X (arc_place a)).
  { intros t tr Ht. destruct (Pl t tr Ht) as (_ & P1 & _). destruct (W tr (nth_error_In _ _ Ht)) as (W1 & _).
    destruct (existsb (fun a => (tokens m (arc_place a) =? 0)%N) (tr_pre tr)) eqn:Ex.
    - apply existsb_exists in Ex. destruct Ex as (a & Ha & Ea). apply N.eqb_eq in Ea. exists a. split; [exact Ha|]. split; [apply W1; exact Ha|exact Ea].
    - exfalso. apply (D t tr Ht). intros a Ha. destruct (P1 a Ha) as (I & Wt). unfold arc_ok. rewrite I, Wt. assert (Z : tokens m (arc_place a) <> 0%N); [|lia]. intros Z. assert (Y : existsb (fun a => (tokens m (arc_place a) =? 0)%N) (tr_pre tr) = true) by (apply existsb_exists; exists a; split; [exact Ha|apply N.eqb_eq; exact Z]). congruence. }
  destruct (SP X) as (T & T1 & T2 & T3).
  - split; [intros p Hp; apply Hp|]. intros t tr Ht _. apply (K t tr Ht).
  - destruct (pn_trans n) as [|tr l] eqn:E; [contradiction|]. destruct (K 0 tr eq_refl) as (a & _ & Ha). exists (arc_place a). exact Ha.
  - destruct (trap_stays n T W Pl T1 m0 w m R Hl T3) as (_ & (p & Tp & Hp)). destruct (T2 p Tp) as (_ & Z). lia.
Qed.
Lemma accepted_plain : forall net, (forall t, t < cn_ntrans net -> accepted net t = true) <-> plain (to_pnet net).
Proof.
  intros net. split.
  - intros A t tr Ht. apply (@net_trans_inv net) in Ht. destruct Ht as (Ht & ->). specialize (A t Ht). unfold accepted in A. apply andb_true_iff in A. destruct A as (A & A3). apply andb_true_iff in A. destruct A as (A1 & A2). rewrite forallb_forall in A2, A3.
    change (tr_pre (net_trans net t)) with (map inv_arc (in_slice net t)). change (tr_post (net_trans net t)) with (map out_arc_of (out_slice net t)). split; [destruct (in_slice net t); [discriminate|discriminate]|]. split.
    + intros a Ha. apply in_map_iff in Ha. destruct Ha as (iv & <- & Ha). specialize (A2 iv Ha). apply andb_true_iff in A2. destruct A2 as (X & Y). apply negb_true_iff in X. apply N.eqb_eq in Y. split; assumption.
    + intros a Ha. apply in_map_iff in Ha. destruct Ha as (iv & <- & Ha). apply N.eqb_eq. apply (A3 iv Ha).
  - intros A t Ht. destruct (A t _ (@net_trans_in net t Ht)) as (A1 & A2 & A3). change (tr_pre (net_trans net t)) with (map inv_arc (in_slice net t)) in *. change (tr_post (net_trans net t)) with (map out_arc_of (out_slice net t)) in *.
    unfold accepted. apply andb_true_iff. split; [apply andb_true_iff; split|].
    + destruct (in_slice net t); [contradiction|reflexivity].
    + apply forallb_forall. intros iv Hiv. destruct (A2 (inv_arc iv) (in_map _ _ _ Hiv)) as (X & Y). cbn [inv_arc arc_inhib arc_weight] in *. rewrite X, Y. reflexivity.
    + apply forallb_forall. intros iv Hiv. apply N.eqb_eq. apply (A3 (out_arc_of iv) (in_map _ _ _ Hiv)).
Qed.
Theorem solve_sound : forall net rnd late, layout net -> sorted_arcs net -> length (cn_init net) = cn_places net -> 0 < cn_ntrans net ->
  solve net rnd late = Ok true -> forall m, reachable (to_pnet net) (cn_init net) m -> ~ dead (to_pnet net) m.
Proof.
  intros net rnd late L So Hl Hn E. destruct (solve_ok net rnd late L So) as (r & E' & T & _). rewrite E in E'. injection E' as <-. destruct (T eq_refl) as (Acc & SP).
  apply property_no_deadlock; [apply (ly_wf L)| |exact Hl| |exact SP].
  - apply accepted_plain. exact Acc.
  - unfold to_pnet. cbn [pn_trans]. destruct (cn_ntrans net); [lia|discriminate].
Qed.

Theorem solve_exact : forall net rnd late, layout net -> sorted_arcs net ->
  exists r, solve net rnd late = Ok r /\ (r = true -> siphon_trap_property (to_pnet net) (cn_init net)) /\
    ((forall k, late k = false) -> 0 < cn_places net -> plain (to_pnet net) -> siphon_trap_property (to_pnet net) (cn_init net) -> r = true).
Proof.
  intros net rnd late L So. destruct (solve_ok net rnd late L So) as (r & E & A & B). exists r. split; [exact E|]. split; [intros H; apply A; exact H|]. intros H1 H2 H3. apply B; auto. apply accepted_plain. exact H3.
Qed.
Theorem built_ok : forall cs b reorder net ids tids,
  weights_pos cs -> do_calls b_empty cs = Ok b -> (exists p, is_place cs p) -> make_net b reorder = Ok (net, ids, tids) ->
  layout net /\ sorted_arcs net /\ length (cn_init net) = cn_places net.
Proof.
  intros cs b reorder net ids tids W B Pl M. destruct (@builder_correct cs b reorder W B Pl) as (net' & ids' & tids' & pidx & tidx & Hm & Hr). rewrite M in Hm. injection Hm as <- <- <-.
  split; [apply Hr|]. split; [eapply builder_sorted; eassumption|]. apply Hr.
Qed.

(** ** Concrete nets *)
Definition nx_calls : list call := [CPlace 10 1; CPlace 11 2].
Definition nx_builder : builder := match do_calls b_empty nx_calls with Ok b => b | _ => b_empty end.
Definition nx_net : cnet := match make_net nx_builder false with Ok (n, _, _) => n | _ => mkCnet 0 0 [] [] [] [] [] end.
Lemma made : forall cs b, do_calls b_empty cs = Ok b -> weights_pos cs -> (exists p, is_place cs p) ->
  exists net ids tids, make_net b false = Ok (net, ids, tids) /\ layout net /\ sorted_arcs net /\ length (cn_init net) = cn_places net.
Proof.
  intros cs b B W Pl. destruct (@builder_correct cs b false W B Pl) as (net & ids & tids & pidx & tidx & Hm & _). exists net, ids, tids. split; [exact Hm|]. eapply built_ok; eassumption.
Qed.
Lemma nx_good : layout nx_net /\ sorted_arcs nx_net /\ length (cn_init nx_net) = cn_places nx_net.
Proof.
  assert (Pl : exists p, is_place nx_calls p) by (exists 10; left; reflexivity). assert (W : weights_pos nx_calls) by (repeat constructor; lia).
  destruct (made nx_calls nx_builder eq_refl W Pl) as (net & ids & tids & Hm & H). unfold nx_net. rewrite Hm. exact H.
Qed.
Lemma sx_good : layout sx_net /\ sorted_arcs sx_net /\ length (cn_init sx_net) = cn_places sx_net.
Proof.
  assert (Pl : exists p, is_place sx_calls p) by (exists 10; left; reflexivity). assert (W : weights_pos sx_calls) by (repeat constructor; lia).
  destruct (made sx_calls sx_builder eq_refl W Pl) as (net & ids & tids & Hm & H). unfold sx_net. rewrite Hm. exact H.
Qed.
Theorem no_transitions : exists net rnd late, layout net /\ sorted_arcs net /\ length (cn_init net) = cn_places net /\
  solve net rnd late = Ok true /\ dead (to_pnet net) (cn_init net).
Proof.
  exists nx_net, (fun k => k), (fun _ => false).
  destruct nx_good as (A & B & C). split; [exact A|]. split; [exact B|]. split; [exact C|]. split; [vm_compute; reflexivity|].
  intros t tr Ht. vm_compute in Ht. destruct t; discriminate.
Qed.
Lemma lock_net : layout sx_net /\ sorted_arcs sx_net /\ length (cn_init sx_net) = cn_places sx_net /\ 0 < cn_ntrans sx_net /\
  solve sx_net (fun k => k) (fun _ => false) = Ok true /\ solve sx_net (fun k => k) (fun k => Nat.leb 2 k) = Ok false.
Proof.
  destruct sx_good as (A & B & C). split; [exact A|]. split; [exact B|]. split; [exact C|]. split; [vm_compute; repeat constructor|]. split; vm_compute; reflexivity.
Qed.
