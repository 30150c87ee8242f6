(** The compiled arc expressions denote multisets; bounds used to skip transitions (C37). *)
From Verif Require Import Base BaseLemmas ColSyntax ColSpec ColModel ColRadix ExpModel ExpSet ExpCodec.

(** The multiset of a compiled expression. *)
Fixpoint den (b : binding) (e : carc) (c : nat) : Z :=
  match e with
  | KAdd l r => (den b l c + den b r c)%Z
  | KSub l r => Z.max 0 (den b l c - den b r c)
  | KConst m => ms_get m c
  | KColl sizes s k => if Nat.eqb (pseq_num b sizes s) c then Z.of_N k else 0%Z
  end.

(** The expression belongs to a place with the component sizes [sizes]. *)
Fixpoint kok (sizes : list nat) (e : carc) : Prop :=
  match e with
  | KAdd l r | KSub l r => kok sizes l /\ kok sizes r
  | KConst m => wf (prod sizes) m /\ small m
  | KColl sz s _ => sz = sizes /\ length s = length sizes
  end.

Lemma color_offset_lt : forall b off s, 0 < s -> color_offset b off s < s.
Proof. intros. unfold color_offset. pose proof (Z.mod_pos_bound (Z.of_nat b + off) (Z.of_nat s)). lia. Qed.

Lemma pseq_fits : forall b sizes s, Forall (fun s => 0 < s) sizes -> length s = length sizes ->
  fits (map (fun xs => pcol_val b (fst xs) (snd xs)) (combine s sizes)) sizes.
Proof.
  intros b sizes s F. revert s. induction F as [|z sizes P F IH]; intros [|x s] L; cbn in *; try discriminate; constructor.
  - cbn. destruct x; cbn; apply color_offset_lt; auto.
  - apply IH. lia.
Qed.
Lemma pseq_lt : forall b sizes s, Forall (fun s => 0 < s) sizes -> length s = length sizes -> pseq_num b sizes s < prod sizes.
Proof. intros. apply seq_lt. apply pseq_fits; auto. Qed.

Lemma den_nonneg : forall b sizes e c, kok sizes e -> (0 <= den b e c)%Z.
Proof.
  induction e; intros c K; cbn in *.
  - destruct K. specialize (IHe1 c H). specialize (IHe2 c H0). lia.
  - lia.
  - destruct K as [W _]. eapply wf_get; eauto.
  - destruct (_ =? _); lia.
Qed.

Section Sizes.
Variable sizes : list nat.
Hypothesis SP : Forall (fun s => 0 < s) sizes.
Notation size := (prod sizes).

Lemma signed_ok : forall k z, signed_count k = Ok z -> z = Z.of_N k.
Proof. intros k z H. unfold signed_count in H. destruct (Z.of_N k <=? i32max)%Z; inversion H; auto. Qed.

Lemma card_mono : forall m out, wf size m -> wf size out -> (forall c, (ms_get m c <= ms_get out c)%Z) -> small out -> small m.
Proof.
  intros m out [P _] [P' _] H S. unfold small in *. rewrite (pre_card _ _ P). rewrite (pre_card _ _ P') in S.
  pose proof (sum_to_le size _ _ (fun c _ => H c)). lia.
Qed.

Lemma consume_ok : forall out y, wf size out -> wf size y ->
  wf size (fix_neg (ms_minus out y)) /\ forall c, ms_get (fix_neg (ms_minus out y)) c = Z.max 0 (ms_get out c - ms_get y c).
Proof.
  intros out y [PO NO] [PY NY]. destruct (ms_minus_ok size out y PO PY) as [P G]. destruct (fix_neg_ok size _ P) as [W G2].
  split; [exact W|]. intros c. rewrite G2. destruct G as [[E1 E2]|G]; [|rewrite G; auto].
  rewrite E2. unfold ms_get. rewrite E1. cbn. pose proof (get_nonneg (ms_counts y) c NY). lia.
Qed.

Lemma ev_ok : forall b e op out m, kok sizes e -> wf size out -> ev b op e out = Ok m ->
  wf size m /\
  (forall c, ms_get m c = match op with
                          | Eval => den b e c
                          | Produce => (ms_get out c + den b e c)%Z
                          | Consume => Z.max 0 (ms_get out c - den b e c)
                          end) /\
  (small out -> small m).
Proof.
  induction e as [l IHl r IHr|l IHl r IHr|k|sz s k]; intros op out m K W H; cbn [kok] in K.
  - destruct K as [K1 K2]. destruct op; cbn [ev] in H.
    + binv H x E1. binv H y E2. destruct (IHl _ _ _ K1 (wf0 _) E1) as (W1 & G1 & S1).
      destruct (IHr _ _ _ K2 (wf0 _) E2) as (W2 & G2 & S2). destruct W1 as [P1 N1], W2 as [P2 N2].
      destruct (ms_plus_ok size x y m P1 P2 H) as (P & G & N & S).
      split; [split; auto|]. split; [intros c; rewrite G, G1, G2; reflexivity|].
      intros _. apply S, S1. unfold small, i32max. cbn. lia.
    + binv H x E1. destruct (IHl _ _ _ K1 W E1) as (W1 & G1 & S1). destruct (IHr _ _ _ K2 W1 H) as (W2 & G2 & S2).
      split; [auto|]. split; [|auto]. intros c. rewrite G2, G1. cbn. lia.
    + binv H x E1. binv H y E2. destruct (IHl _ _ _ K1 W E1) as (W1 & G1 & S1). destruct (IHr _ _ _ K2 W1 E2) as (W2 & G2 & S2).
      inversion H; subst. destruct W2 as [P2 N2]. destruct (fix_neg_ok size _ P2) as [W3 G3].
      assert (G : forall c, ms_get (fix_neg y) c = Z.max 0 (ms_get out c - den b (KAdd l r) c)).
      { intros c. rewrite G3, G2, G1. cbn [den]. pose proof (den_nonneg b sizes r c K2). lia. }
      split; [auto|]. split; [exact G|]. intros S. apply (card_mono _ out); auto. intros c. rewrite G.
      pose proof (wf_get _ _ c W). cbn. pose proof (den_nonneg b sizes l c K1). pose proof (den_nonneg b sizes r c K2). lia.
  - destruct K as [K1 K2].
    assert (X : exists x y, ev b Eval l ms0 = Ok x /\ ev b Consume r x = Ok y /\
      match op with Eval => Ok y | Produce => ms_plus out y | Consume => Ok (fix_neg (ms_minus out y)) end = Ok m).
    { cbn [ev] in H. binv H x E1. binv H y E2. eauto. }
    clear H. destruct X as (x & y & E1 & E2 & H).
    destruct (IHl _ _ _ K1 (wf0 _) E1) as (W1 & G1 & S1). destruct (IHr _ _ _ K2 W1 E2) as (W2 & G2 & S2).
    assert (G : forall c, ms_get y c = den b (KSub l r) c) by (intros c; rewrite G2, G1; reflexivity).
    assert (SY : small y) by (apply S2, S1; unfold small, i32max; cbn; lia).
    destruct op.
    + inversion H; subst. auto.
    + destruct W as [PO NO], W2 as [PY NY]. destruct (ms_plus_ok size out y m PO PY H) as (P & G' & N & S).
      split; [split; auto|]. split; [|auto]. intros c. rewrite G', G. reflexivity.
    + inversion H; subst. destruct (consume_ok out y W W2) as [W3 G3]. split; [auto|].
      assert (G4 : forall c, ms_get (fix_neg (ms_minus out y)) c = Z.max 0 (ms_get out c - den b (KSub l r) c))
        by (intros c; rewrite G3, G; reflexivity).
      split; [exact G4|]. intros S. apply (card_mono _ out); auto. intros c. rewrite G4. pose proof (wf_get _ _ c W).
      pose proof (wf_get _ _ c W2). rewrite G in *. lia.
  - destruct K as [K1 K2]. destruct op; cbn [ev] in H.
    + inversion H; subst. split; [auto|]. split; [reflexivity|auto].
    + destruct W as [PO NO], K1 as [PY NY]. destruct (ms_plus_ok size out k m PO PY H) as (P & G' & N & S).
      split; [split; auto|]. split; [|auto]. intros c. rewrite G'. reflexivity.
    + inversion H; subst. destruct (consume_ok out k W K1) as [W3 G3]. split; [auto|]. split; [exact G3|].
      intros S. apply (card_mono _ out); auto. intros c. rewrite G3. pose proof (wf_get _ _ c W). pose proof (wf_get _ _ c K1). lia.
  - destruct K as [-> L]. pose proof (pseq_lt b sizes s SP L) as LT. cbn [ev] in H. binv H z EZ. apply signed_ok in EZ. subst z.
    destruct op.
    + destruct (add_count_ok size _ _ _ _ (proj1 (wf0 size)) LT H) as (P & G & N & S).
      split; [split; [auto|apply N; [constructor|lia]]|]. split.
      * intros c. rewrite G. reflexivity.
      * intros _. apply S. unfold small, i32max. cbn. lia.
    + destruct W as [PO NO]. destruct (add_count_ok size _ _ _ _ PO LT H) as (P & G & N & S).
      split; [split; [auto|apply N; [auto|lia]]|]. split; [|auto]. intros c. rewrite G. reflexivity.
    + binv H o EO. inversion H; subst. pose proof W as [PO NO]. destruct (add_count_ok size _ _ _ _ PO LT EO) as (P & G & N & S).
      destruct (fix_neg_ok size _ P) as [W3 G3].
      assert (G4 : forall c, ms_get (fix_neg o) c = Z.max 0 (ms_get out c - den b (KColl sizes s k) c)).
      { intros c. rewrite G3, G. cbn [den]. destruct (_ =? c); lia. }
      split; [auto|]. split; [exact G4|]. intros S'. apply (card_mono _ out); auto. intros c. rewrite G4.
      pose proof (wf_get _ _ c W). cbn [den]. destruct (_ =? c); lia.
Qed.

Lemma is_subset_ok : forall b e m r, kok sizes e -> wf size m -> is_subset b e m = Ok r ->
  (r = true <-> forall c, (den b e c <= ms_get m c)%Z).
Proof.
  intros b e m r K W H. unfold is_subset in H. binv H x E. inversion H; subst. clear H.
  destruct (ev_ok _ _ _ _ _ K (wf0 _) E) as (W1 & G & _). rewrite (ms_leb_ok size x m W1 W).
  split; intros H c; specialize (H c); rewrite G in *; auto.
Qed.

(** ** The minimal and maximal markings *)

Fixpoint nosub (e : carc) : Prop :=
  match e with
  | KAdd l r => nosub l /\ nosub r
  | KSub _ _ => False
  | _ => True
  end.
(** The part without variables and the number of tokens that depend on variables. *)
Fixpoint gpart (e : carc) (c : nat) : Z :=
  match e with
  | KAdd l r => (gpart l c + gpart r c)%Z
  | KSub l _ => gpart l c
  | KConst m => ms_get m c
  | KColl sz s k => if existsb is_var s then 0%Z else if Nat.eqb (pseq_num [] sz s) c then Z.of_N k else 0%Z
  end.
Fixpoint vcount (e : carc) : N :=
  match e with
  | KAdd l r => (vcount l + vcount r)%N
  | KSub l _ => vcount l
  | KConst _ => 0%N
  | KColl _ s k => if existsb is_var s then k else 0%N
  end.
(** No part without variables. *)
Fixpoint gfree (e : carc) : Prop :=
  match e with
  | KAdd l r => gfree l /\ gfree r
  | KSub l _ => gfree l
  | KConst _ => False
  | KColl _ s _ => existsb is_var s = true
  end.
(** Subtractions for which the minimal marking is a lower bound with no negative counts. *)
Fixpoint subok (e : carc) : Prop :=
  match e with
  | KAdd l r => subok l /\ subok r
  | KSub l r => subok l /\ nosub r /\
      (vcount r <> 0%N \/ gfree l \/ (nosub l /\ forall c, (gpart r c <= gpart l c)%Z))
  | _ => True
  end.

Lemma pseq_ground : forall b b' sz s, existsb is_var s = false -> pseq_num b sz s = pseq_num b' sz s.
Proof.
  intros b b' sz s H. unfold pseq_num. f_equal. revert sz. induction s as [|x s IH]; intros [|z sz]; cbn in *; auto.
  destruct x; [discriminate|]. cbn in *. f_equal. auto.
Qed.

Lemma coll_ok : forall s k r, length s = length sizes -> coll_marking sizes s k = Ok r ->
  wf size (fst r) /\ (forall c, ms_get (fst r) c = gpart (KColl sizes s k) c) /\ snd r = vcount (KColl sizes s k) /\
  (existsb is_var s = true -> ms_counts (fst r) = []).
Proof.
  intros s k r L H. unfold coll_marking in H. cbn [gpart vcount]. destruct (existsb is_var s) eqn:V.
  - inversion H; subst. cbn. split; [apply wf0|]. auto.
  - binv H m E. inversion H; subst. cbn [fst snd].
    destruct (add_count_ok size _ _ _ _ (proj1 (wf0 size)) (pseq_lt [] sizes s SP L) E) as (P & G & N & S).
    split; [split; [auto|apply N; [constructor|lia]]|]. split; [|split; [auto|discriminate]].
    intros c. rewrite G. reflexivity.
Qed.

Lemma nosub_max : forall e r, kok sizes e -> nosub e -> max_marking e = Ok r ->
  wf size (fst r) /\ (forall c, ms_get (fst r) c = gpart e c) /\ snd r = vcount e.
Proof.
  induction e as [l IHl r IHr|l IHl r IHr|k|sz s k]; intros m K Q H; cbn [kok nosub] in *.
  - destruct K as [K1 K2], Q as [Q1 Q2]. cbn [max_marking] in H. binv H x E1. binv H y E2. binv H p E3. inversion H; subst.
    destruct (IHl _ K1 Q1 E1) as ([P1 N1] & G1 & V1). destruct (IHr _ K2 Q2 E2) as ([P2 N2] & G2 & V2).
    destruct (ms_plus_ok size _ _ _ P1 P2 E3) as (P & G & N & _). cbn [fst snd gpart vcount]. split; [split; auto|].
    split; [|congruence]. intros c. rewrite G, G1, G2. reflexivity.
  - contradiction.
  - cbn in H. inversion H; subst. cbn. split; [tauto|]. auto.
  - destruct K as [-> L]. cbn [max_marking] in H. destruct (coll_ok _ _ _ L H) as (A & B & C & _). auto.
Qed.

Lemma den_gpart : forall b e c, kok sizes e -> nosub e ->
  (gpart e c <= den b e c <= gpart e c + Z.of_N (vcount e))%Z.
Proof.
  induction e as [l IHl r IHr|l IHl r IHr|k|sz s k]; intros c K Q; cbn [kok nosub den gpart vcount] in *.
  - destruct K as [K1 K2], Q as [Q1 Q2]. specialize (IHl c K1 Q1). specialize (IHr c K2 Q2). lia.
  - contradiction.
  - lia.
  - destruct (existsb is_var s) eqn:V; [destruct (_ =? _); lia|]. rewrite (pseq_ground b [] sz s V).
    destruct (_ =? _); lia.
Qed.

Lemma drop_vars_pre : forall m vc, pre size m ->
  pre size (drop_vars m vc) /\ forall c, (Z.max 0 (ms_get (drop_vars m vc) c) <= Z.max 0 (ms_get m c - Z.of_N vc))%Z.
Proof.
  intros m vc (A & B & C). unfold drop_vars. split; [split; [|split]|]; cbn [ms_counts ms_card].
  - clear - A. revert A. generalize 0. induction (ms_counts m) as [|[d k] l IH]; intros lo A; cbn in *; auto. destruct A. auto.
  - clear - B. induction B; cbn; constructor; auto.
  - rewrite C. unfold sumC. clear. induction (ms_counts m) as [|[d k] l IH]; [cbn; lia|].
    cbn [map snd length]. change (sumZ (k :: map snd l)) with (k + sumZ (map snd l))%Z.
    match goal with |- context [sumZ (?a :: ?t)] => change (sumZ (a :: t)) with (a + sumZ t)%Z end. lia.
  - intros c. unfold ms_get. cbn [ms_counts]. clear. induction (ms_counts m) as [|[d k] l IH]; cbn; [lia|].
    destruct (d =? c); auto. lia.
Qed.

Lemma nosub_min : forall e r, nosub e -> min_marking e = Ok r -> max_marking e = Ok r.
Proof.
  induction e as [l IHl r IHr|l IHl r IHr|k|sz s k]; intros m Q H; cbn [nosub] in *.
  - destruct Q as [Q1 Q2]. cbn [min_marking max_marking] in *. binv H x E1. binv H y E2.
    rewrite (IHl _ Q1 E1), (IHr _ Q2 E2). exact H.
  - contradiction.
  - exact H.
  - exact H.
Qed.

Lemma min_ok : forall e r, kok sizes e -> subok e -> min_marking e = Ok r ->
  wf size (fst r) /\ (forall b c, (ms_get (fst r) c <= den b e c)%Z) /\ (gfree e -> ms_counts (fst r) = []).
Proof.
  induction e as [l IHl r IHr|l IHl r IHr|k|sz s k]; intros m K Q H; cbn [kok subok] in *.
  - destruct K as [K1 K2], Q as [Q1 Q2]. cbn [min_marking] in H. binv H x E1. binv H y E2. binv H p E3. inversion H; subst.
    destruct (IHl _ K1 Q1 E1) as ([P1 N1] & G1 & F1). destruct (IHr _ K2 Q2 E2) as ([P2 N2] & G2 & F2).
    destruct (ms_plus_ok size _ _ _ P1 P2 E3) as (P & G & N & _). cbn [fst gfree den]. split; [split; auto|]. split.
    + intros b c. rewrite G. specialize (G1 b c). specialize (G2 b c). lia.
    + intros [A B]. unfold ms_plus in E3. rewrite (F1 A), (F2 B) in E3. cbn in E3. inversion E3; subst. reflexivity.
  - destruct K as [K1 K2], Q as (Q1 & Q2 & Q3). cbn [min_marking] in H. binv H x E1. binv H y E2. inversion H; subst. clear H.
    cbn [fst gfree den].
    destruct (IHl _ K1 Q1 E1) as ([P1 N1] & G1 & F1). destruct (nosub_max _ _ K2 Q2 E2) as ([P2 N2] & G2 & V2).
    destruct (ms_minus_ok size _ _ P1 P2) as [P G].
    assert (LE : forall b c, (Z.max 0 (ms_get (ms_minus (fst x) (fst y)) c - Z.of_N (vcount r)) <= Z.max 0 (den b l c - den b r c))%Z).
    { intros b c. pose proof (den_gpart b r c K2 Q2). specialize (G1 b c). specialize (G2 c).
      destruct G as [[EC EM]|G].
      - rewrite EM. unfold ms_get. rewrite EC. cbn. lia.
      - rewrite G. lia. }
    destruct (N.eqb_spec (snd y) 0) as [Z0|NZ].
    + split; [split; [exact P|]|].
      * destruct G as [[EC EM]|G]; [rewrite EM; auto|].
        destruct Q3 as [C|[FR|[NL C]]].
        -- congruence.
        -- pose proof (F1 FR) as EC. unfold ms_minus. rewrite EC. rewrite EC. constructor.
        -- pose proof (nosub_min _ _ NL E1) as E1'. destruct (nosub_max _ _ K1 NL E1') as (_ & GX & _).
           apply Forall_forall. intros [c z] I. cbn. destruct P as (A & _ & _). pose proof (in_get _ _ _ _ A I) as GE.
           specialize (G c). unfold ms_get in G at 1. rewrite GE in G. rewrite G, GX, G2. specialize (C c). lia.
      * split.
        -- intros b c. specialize (LE b c). rewrite <- V2, Z0 in LE. cbn [Z.of_N] in LE. lia.
        -- intros FR. pose proof (F1 FR) as EC. unfold ms_minus. rewrite EC. exact EC.
    + destruct (drop_vars_pre _ (snd y) P) as [PD GD]. destruct (fix_neg_ok size _ PD) as [W3 G3]. split; [exact W3|]. split.
      * intros b c. rewrite G3. specialize (GD c). specialize (LE b c). rewrite V2 in GD |- *. lia.
      * intros FR. pose proof (F1 FR) as EC. unfold ms_minus. rewrite EC. unfold fix_neg, drop_vars. cbn. rewrite EC. reflexivity.
  - cbn in H. inversion H; subst. cbn. split; [tauto|]. split; [intros; lia|contradiction].
  - destruct K as [-> L]. cbn [min_marking] in H. destruct (coll_ok _ _ _ L H) as (A & B & C & D).
    split; [auto|]. split; [|auto]. intros b c. rewrite B. apply (den_gpart b (KColl sizes s k) c); cbn; auto.
Qed.

(** ** Numbers of tokens *)

Lemma upper_ok : forall b e, kok sizes e -> (sum_to size (den b e) <= Z.of_N (upper_count e))%Z.
Proof.
  induction e as [l IHl r IHr|l IHl r IHr|k|sz s k]; intros K; cbn [kok upper_count] in *.
  - destruct K as [K1 K2]. specialize (IHl K1). specialize (IHr K2).
    rewrite (sum_to_ext size _ (fun c => (den b l c + den b r c)%Z)) by reflexivity. rewrite sum_to_plus. lia.
  - destruct K as [K1 K2]. specialize (IHl K1).
    pose proof (sum_to_le size (den b (KSub l r)) (den b l)) as Q. etransitivity; [apply Q|auto].
    intros c _. cbn. pose proof (den_nonneg b sizes l c K1). pose proof (den_nonneg b sizes r c K2). lia.
  - destruct K as [[P N] _]. pose proof (pre_card _ _ P) as C. rewrite (sum_to_ext size _ (ms_get k)) by reflexivity. rewrite <- C. lia.
  - destruct K as [-> L]. rewrite (sum_to_ext size _ (fun c => if Nat.eqb (pseq_num b sizes s) c then Z.of_N k else 0%Z)) by reflexivity.
    rewrite sum_to_single by (apply pseq_lt; auto). lia.
Qed.
Lemma min_count_ok : forall b e, kok sizes e -> (Z.of_N (min_count e) <= sum_to size (den b e))%Z.
Proof.
  induction e as [l IHl r IHr|l IHl r IHr|k|sz s k]; intros K; cbn [kok min_count] in *.
  - destruct K as [K1 K2]. specialize (IHl K1). specialize (IHr K2).
    rewrite (sum_to_ext size _ (fun c => (den b l c + den b r c)%Z)) by reflexivity. rewrite sum_to_plus. lia.
  - destruct K as [K1 K2]. specialize (IHl K1). pose proof (upper_ok b r K2) as U.
    pose proof (sum_to_le size (fun c => (den b l c + - den b r c)%Z) (den b (KSub l r))) as Q.
    rewrite sum_to_plus, sum_to_opp in Q.
    assert (Q' : (sum_to size (den b l) + - sum_to size (den b r) <= sum_to size (den b (KSub l r)))%Z) by (apply Q; intros; cbn; lia).
    pose proof (sum_to_le size (fun _ => 0%Z) (den b (KSub l r))) as Q0. rewrite sum_to_zero in Q0.
    assert (Q0' : (0 <= sum_to size (den b (KSub l r)))%Z) by (apply Q0; intros; cbn; lia).
    destruct (N.ltb_spec (min_count l) (upper_count r)); lia.
  - destruct K as [[P N] _]. pose proof (pre_card _ _ P) as C. rewrite (sum_to_ext size _ (ms_get k)) by reflexivity. rewrite C. pose proof (sum_to_le size (fun _ => 0%Z) (ms_get k)) as Q0. rewrite sum_to_zero in Q0.
    assert (Q0' : (0 <= sum_to size (ms_get k))%Z) by (apply Q0; intros; apply get_nonneg; auto). lia.
  - destruct K as [-> L]. rewrite (sum_to_ext size _ (fun c => if Nat.eqb (pseq_num b sizes s) c then Z.of_N k else 0%Z)) by reflexivity.
    rewrite sum_to_single by (apply pseq_lt; auto). lia.
Qed.

(** ** Constraints on variables *)

(** The counts of the collections that are not subtracted or subtracted from are positive. *)
Fixpoint kpos (e : carc) : Prop :=
  match e with
  | KAdd l r => kpos l /\ kpos r
  | KColl _ _ k => k <> 0%N
  | _ => True
  end.

Lemma seq_cons_in : forall s i0 var p index off q, In (Some (index, off, q)) (seq_cons s i0 var p) ->
  q = p /\ exists j, index = i0 + j /\ nth_error s j = Some (PV var off).
Proof.
  induction s as [|x s IH]; intros i0 var p index off q I; cbn in I; [contradiction|].
  assert (G : In (Some (index, off, q)) (seq_cons s (S i0) var p) -> q = p /\ exists j, index = i0 + j /\ nth_error (x :: s) j = Some (PV var off)).
  { intros I'. destruct (IH _ _ _ _ _ _ I') as (E & j & E1 & E2). split; auto. exists (S j). split; [lia|auto]. }
  destruct x as [v o|c o]; [|auto]. destruct (Nat.eqb_spec v var) as [->|]; [|auto]. destruct I as [E|I]; [|auto].
  inversion E; subst. split; auto. exists 0. split; [lia|auto].
Qed.

Lemma var_cons_ok : forall b e var p index off q, kok sizes e -> kpos e -> In (Some (index, off, q)) (var_cons e var p) ->
  q = p /\ exists s c, nth_error s index = Some (PV var off) /\ length s = length sizes /\
                       c = pseq_num b sizes s /\ (0 < den b e c)%Z.
Proof.
  induction e as [l IHl r IHr|l IHl r IHr|k|sz s k]; intros var p index off q K P I; cbn [kok kpos var_cons] in *.
  - destruct K as [K1 K2], P as [P1 P2]. apply in_app_iff in I. destruct I as [I|I].
    + destruct (IHr _ _ _ _ _ K2 P2 I) as (E & s & c & E1 & E2 & E3 & D). split; auto. exists s, c. repeat split; auto.
      cbn. pose proof (den_nonneg b sizes l c K1). lia.
    + destruct (IHl _ _ _ _ _ K1 P1 I) as (E & s & c & E1 & E2 & E3 & D). split; auto. exists s, c. repeat split; auto.
      cbn. pose proof (den_nonneg b sizes r c K2). lia.
  - destruct (existsb _ _); cbn in I; [|contradiction]. destruct I as [I|[]]. discriminate.
  - contradiction.
  - destruct K as [-> L]. destruct (seq_cons_in _ _ _ _ _ _ _ I) as (E & j & E1 & E2). cbn in E1. subst j. split; auto.
    exists s, (pseq_num b sizes s). repeat split; auto. cbn. rewrite Nat.eqb_refl. lia.
Qed.

Lemma pseq_decode : forall b s index var off z, length s = length sizes -> nth_error s index = Some (PV var off) ->
  nth_error sizes index = Some z -> decode sizes (pseq_num b sizes s) index = color_offset (bget b var) off z.
Proof.
  intros b s index var off z L E Z. unfold pseq_num. eapply decode_seq; [apply pseq_fits; auto|].
  rewrite nth_error_map.
  assert (C : nth_error (combine s sizes) index = Some (PV var off, z)).
  { clear - E Z. revert s sizes E Z. induction index; intros [|x s] [|y sizes] E Z; cbn in *; try discriminate; [congruence|auto]. }
  rewrite C. reflexivity.
Qed.

End Sizes.

Lemma offset_inv : forall x off s, 0 < s -> x < s -> color_offset (color_offset x off s) (- off) s = x.
Proof.
  intros x off s P L. unfold color_offset.
  pose proof (Z.mod_pos_bound (Z.of_nat x + off) (Z.of_nat s) ltac:(lia)).
  rewrite Z2Nat.id by lia.
  replace ((Z.of_nat x + off) mod Z.of_nat s + - off)%Z with ((Z.of_nat x + off) mod Z.of_nat s + (- off))%Z by lia.
  rewrite Z.add_mod_idemp_l by lia. replace (Z.of_nat x + off + - off)%Z with (Z.of_nat x) by lia.
  rewrite Z.mod_small by lia. apply Nat2Z.id.
Qed.
