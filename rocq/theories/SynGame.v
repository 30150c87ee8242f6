(** Winning and losing positions of the game of SynSpec: certificates (C35). *)
From Verif Require Import Base BaseLemmas NetSpec NetProofs SynSpec.
From Coq Require Import Wf_nat.

Definition meqb (a b : marking) : bool := if list_eq_dec N.eq_dec a b then true else false.
Definition inb (m : marking) (l : list marking) : bool := existsb (meqb m) l.
Lemma meqb_spec : forall a b, meqb a b = true <-> a = b.
Proof. intros a b. unfold meqb. destruct (list_eq_dec N.eq_dec a b); split; auto; discriminate. Qed.
Lemma inb_spec : forall m l, inb m l = true <-> In m l.
Proof.
  intros m l. unfold inb. rewrite existsb_exists. split.
  - intros (x & I & E). apply meqb_spec in E. subst. auto.
  - intros I. exists m. split; auto. apply meqb_spec. auto.
Qed.

Section Game.
Variable net : pnet.
Variable ctrl : nat -> bool.
Hypothesis WF : wf_pnet net.
Notation mv := (move net ctrl).

(** Steps as lists. *)
Definition sfire (tr : trans) (m : marking) : marking :=
  map (fun p => (tokens m p - weight_at (tr_pre tr) p + weight_at (tr_post tr) p)%N) (seq 0 (length m)).

Lemma sfire_ok : forall tr m, wf_trans (pn_places net) tr -> enabled tr m -> fires tr m (sfire tr m).
Proof.
  intros tr m (_ & _ & ND & _) EN. split; auto. unfold sfire. split; [rewrite map_length, seq_length; auto|].
  intros p P. split; [apply weight_at_le; auto|].
  unfold tokens at 1. set (g := fun p => _ : N). rewrite (nth_indep _ _ (g 0)) by (rewrite map_length, seq_length; auto).
  rewrite map_nth, seq_nth by auto. reflexivity.
Qed.

Definition moves (b : bool) (m : marking) : list (nat * marking) :=
  flat_map (fun t => match nth_error (pn_trans net) t with
                     | Some tr => if enabledb tr m && Bool.eqb (ctrl t) b then [(t, sfire tr m)] else []
                     | None => [] end) (seq 0 (length (pn_trans net))).
Lemma moves_spec : forall b m t m', In (t, m') (moves b m) <-> ctrl t = b /\ step net m t m'.
Proof.
  intros b m t m'. unfold moves. rewrite in_flat_map. split.
  - intros (x & I & H). destruct (nth_error (pn_trans net) x) as [tr|] eqn:E; [|destruct H].
    destruct (enabledb tr m) eqn:En; [|destruct H]. destruct (Bool.eqb (ctrl x) b) eqn:Eb; [|destruct H].
    cbn in H. destruct H as [H|[]]. inversion H; subst. apply Bool.eqb_prop in Eb. split; auto.
    exists tr. split; auto. apply sfire_ok; [apply WF; eapply nth_error_In; eauto|apply enabledb_spec; auto].
  - intros (C & tr & E & F). exists t. split; [apply in_seq; split; [lia|]; apply nth_error_Some; congruence|].
    rewrite E. rewrite (proj2 (enabledb_spec tr m) (proj1 F)), C, Bool.eqb_reflx. cbn. left. f_equal.
    eapply fires_det; eauto. apply sfire_ok; [apply WF; eapply nth_error_In; eauto|apply F].
Qed.

Lemma moves_nil : forall b m, moves b m = [] <-> forall t m', ctrl t = b -> ~ step net m t m'.
Proof.
  intros b m. split.
  - intros E t m' C S. assert (I : In (t, m') (moves b m)) by (apply moves_spec; auto). rewrite E in I. destruct I.
  - intros H. destruct (moves b m) as [|[t m'] l] eqn:E; auto. exfalso.
    assert (I : In (t, m') (moves b m)) by (rewrite E; left; auto). apply moves_spec in I. destruct I as [C S]. eapply H; eauto.
Qed.

(** Going on with a play, preferring environment moves into a set. *)
Definition pref (P : marking -> bool) (s : strategy) (h : list marking) (m : marking) : marking :=
  match find (fun x => P (snd x)) (moves false m) with
  | Some (_, m') => m'
  | None =>
    match s h m with
    | Some t => match find (fun x => Nat.eqb (fst x) t) (moves true m) with
                | Some (_, m') => m'
                | None => match moves false m with (_, m') :: _ => m' | [] => m end
                end
    | None => match moves false m with (_, m') :: _ => m' | [] => m end
    end
  end.
Definition stepcond (s : strategy) (h : list marking) (m m' : marking) : Prop :=
  mv s h m m' \/ ((forall x, ~ mv s h m x) /\ m' = m).
Lemma pref_ok : forall P s h m, stepcond s h m (pref P s h m).
Proof.
  intros P s h m. unfold pref.
  destruct (find (fun x => P (snd x)) (moves false m)) as [[t m']|] eqn:E.
  { left. left. apply find_some in E. destruct E as [I _]. apply moves_spec in I. eauto. }
  assert (D : forall tt, s h m = tt -> (forall t m', tt = Some t -> ~ (ctrl t = true /\ step net m t m')) ->
     stepcond s h m (match moves false m with (_, m') :: _ => m' | [] => m end)).
  { intros tt Es H. destruct (moves false m) as [|[t m'] l] eqn:E1.
    - right. split; auto. intros x [(t & C & S)|(t & Et & C & S)].
      + apply (proj1 (moves_nil false m) E1 t x C S).
      + apply (H t x); auto; congruence.
    - left. left. exists t. apply (moves_spec false). rewrite E1. left; auto. }
  destruct (s h m) as [t|] eqn:Es.
  - destruct (find (fun x => Nat.eqb (fst x) t) (moves true m)) as [[t' m']|] eqn:E1.
    + apply find_some in E1. destruct E1 as [I Q]. apply Nat.eqb_eq in Q. cbn in Q. subst t'. apply moves_spec in I.
      left. right. exists t. tauto.
    + apply (D (Some t)); auto. intros t' m' Et [C S]. inversion Et; subst t'.
      pose proof (find_none _ _ E1 (t, m') (proj2 (moves_spec true m t m') (conj C S))) as F. cbn in F. rewrite Nat.eqb_refl in F. discriminate.
  - apply (D None); auto. discriminate.
Qed.

(** Plays from choices. *)
Fixpoint iter (P : marking -> bool) (s : strategy) (h : list marking) (m : marking) (i : nat) : list marking * marking :=
  match i with
  | O => (h, m)
  | S i' => let x := iter P s h m i' in (fst x ++ [snd x], pref P s (fst x) (snd x))
  end.
Lemma iter_hist : forall P s h m i, fst (iter P s h m i) = h ++ map (fun j => snd (iter P s h m j)) (seq 0 i).
Proof.
  intros P s h m. induction i as [|i IH]; [cbn; rewrite app_nil_r; auto|].
  rewrite seq_S, map_app, app_assoc. cbn [iter fst plus]. rewrite IH. reflexivity.
Qed.
Lemma iter_play : forall P s h m, play_from net ctrl s h m (fun i => snd (iter P s h m i)).
Proof.
  intros P s h m. split; [reflexivity|]. intros i. rewrite <- iter_hist. cbn [iter snd]. apply pref_ok.
Qed.

(** First step of a play. *)
Lemma play_cons : forall s h m m' f, stepcond s h m m' -> play_from net ctrl s (h ++ [m]) m' f ->
  play_from net ctrl s h m (fun i => match i with O => m | S i' => f i' end).
Proof.
  intros s h m m' f SC [F0 F]. split; [reflexivity|]. intros [|i].
  - cbn. rewrite app_nil_r, F0. exact SC.
  - cbn [seq map]. rewrite <- seq_shift, map_map. specialize (F i). rewrite <- app_assoc in F. exact F.
Qed.
Lemma play_tail : forall s h m f, play_from net ctrl s h m f -> play_from net ctrl s (h ++ [m]) (f 1) (fun i => f (S i)).
Proof.
  intros s h m f [F0 F]. split; [reflexivity|]. intros i. specialize (F (S i)). cbn [seq map] in F. rewrite F0, <- seq_shift, map_map in F.
  rewrite <- app_assoc. exact F.
Qed.
Lemma play_first : forall s h m f, play_from net ctrl s h m f -> stepcond s h m (f 1).
Proof. intros s h m f [F0 F]. specialize (F 0). cbn in F. rewrite app_nil_r, F0 in F. exact F. Qed.

Variable good : marking -> bool.
Variable k : N.
Definition withinb (m : marking) : bool := N.eqb k 0 || (sumN m <=? k)%N.
Lemma withinb_spec : forall m, withinb m = true <-> within k m.
Proof. intros m. unfold withinb, within. rewrite orb_true_iff, N.eqb_eq, N.leb_le. tauto. Qed.

(** The strategy that moves to where [P] holds. *)
Definition seek (P : marking -> marking -> bool) : strategy := fun _ m =>
  match find (fun x => P m (snd x)) (moves true m) with
  | Some (t, _) => Some t
  | None => match moves true m with (t, _) :: _ => Some t | [] => None end
  end.
Lemma seek_valid : forall P, valid net ctrl (seek P) /\ memoryless (seek P).
Proof.
  intros P. split; [|intros h h' m; reflexivity].
  intros h m (t & m' & C & S). unfold seek.
  destruct (find (fun x => P m (snd x)) (moves true m)) as [[t1 m1]|] eqn:E.
  - apply find_some in E. destruct E as [I _]. apply moves_spec in I. exists t1, m1. tauto.
  - destruct (moves true m) as [|[t1 m1] l] eqn:E1.
    + exfalso. eapply (proj1 (moves_nil true m)); eauto.
    + exists t1, m1. split; auto. apply (moves_spec true). rewrite E1. left; auto.
Qed.
Lemma seek_move : forall P h m m', mv (seek P) h m m' ->
  (exists t m1, ctrl t = true /\ step net m t m1 /\ P m m1 = true) ->
  (exists t, ctrl t = false /\ step net m t m') \/ (P m m' = true).
Proof.
  intros P h m m' [H|(t & Es & C & S)] (t1 & m1 & C1 & S1 & P1); auto. right.
  unfold seek in Es. destruct (find (fun x => P m (snd x)) (moves true m)) as [[t2 m2]|] eqn:E.
  - inversion Es; subst t2. apply find_some in E. destruct E as [I Q]. apply moves_spec in I. cbn in Q.
    destruct I as [_ S2]. destruct S as (a & Ea & Fa), S2 as (b & Eb & Fb). assert (a = b) by congruence. subst b.
    rewrite (fires_det Fa Fb). exact Q.
  - pose proof (find_none _ _ E (t1, m1) (proj2 (moves_spec true m t1 m1) (conj C1 S1))) as F. cbn in F. congruence.
Qed.

(** *** Safety *)

Definition safe_set (S : list marking) : Prop := forall m, In m S ->
  good m = true /\ within k m /\ (forall t m', ctrl t = false -> step net m t m' -> In m' S) /\
  ((exists t m', ctrl t = true /\ step net m t m') -> exists t m', ctrl t = true /\ step net m t m' /\ In m' S).

Theorem safe_set_wins : forall S m0, safe_set S -> In m0 S ->
  exists s, valid net ctrl s /\ memoryless s /\ wins_safe net ctrl s (fun m => good m = true) k m0.
Proof.
  intros S m0 HS I0. exists (seek (fun _ m' => inb m' S)). destruct (seek_valid (fun _ m' => inb m' S)) as [V M]. split; [|split]; auto.
  intros f [F0 F]. assert (A : forall i, In (f i) S).
  { induction i as [|i IH]; [congruence|]. destruct (HS _ IH) as (_ & _ & HE & HC).
    destruct (F i) as [MV|[_ E]]; [|congruence].
    destruct MV as [(t & C & St)|(t & Es & C & St)]; [eapply HE; eauto|].
    destruct HC as (t1 & m1 & C1 & S1 & I1); [eauto|].
    destruct (seek_move (fun _ m' => inb m' S) _ _ (f (Datatypes.S i)) (or_intror (ex_intro _ t (conj Es (conj C St))))) as [(t2 & C2 & S2)|Q].
    - exists t1, m1. split; [|split]; auto. apply inb_spec. auto.
    - eapply HE; eauto.
    - apply inb_spec. auto. }
  intros i. destruct (HS _ (A i)) as (G & W & _). auto.
Qed.

Inductive lost : marking -> Prop :=
| lost_bad : forall m, (good m = false \/ ~ within k m) -> lost m
| lost_env : forall m t m', ctrl t = false -> step net m t m' -> lost m' -> lost m
| lost_ctrl : forall m, (exists t m', ctrl t = true /\ step net m t m') ->
    (forall t m', ctrl t = true -> step net m t m' -> lost m') -> lost m.

Theorem lost_loses : forall m0, lost m0 -> forall s, valid net ctrl s ->
  ~ wins_safe net ctrl s (fun m => good m = true) k m0.
Proof.
  intros m0 L s V. assert (A : forall h, exists f, play_from net ctrl s h m0 f /\ exists i, good (f i) = false \/ ~ within k (f i)).
  { induction L as [m B|m t m' C St _ IH|m (t & m' & C & St) _ IH]; intros h.
    - exists (fun i => snd (iter (fun _ => false) s h m i)). split; [apply iter_play|]. exists 0. exact B.
    - destruct (IH (h ++ [m])) as (f & PF & i & B). eexists. split; [eapply play_cons; [|exact PF]; left; left; eauto|]. exists (S i). exact B.
    - destruct (V h m) as (t1 & m1 & Es & C1 & S1); [eauto|].
      destruct (IH t1 m1 C1 S1 (h ++ [m])) as (f & PF & i & B). eexists. split; [eapply play_cons; [|exact PF]; left; right; eauto|]. exists (S i). exact B. }
  intros W. destruct (A []) as (f & PF & i & B). destruct (W f PF i) as [G K]. destruct B as [B|B]; [congruence|auto].
Qed.

(** *** Reachability *)

Definition ranked (S : list marking) (r : marking -> nat) : Prop := forall m, In m S -> within k m /\
  (good m = true \/
   (forall t m', ctrl t = false -> step net m t m' -> In m' S /\ r m' < r m) /\
   ((exists t m', ctrl t = true /\ step net m t m') -> exists t m', ctrl t = true /\ step net m t m' /\ In m' S /\ r m' < r m) /\
   (exists t m', step net m t m')).

Theorem ranked_wins : forall S r m0, ranked S r -> In m0 S ->
  exists s, valid net ctrl s /\ memoryless s /\ wins_reach net ctrl s (fun m => good m = true) k m0.
Proof.
  intros S r m0 HS I0. set (P := fun m m' => inb m' S && (r m' <? r m)).
  exists (seek P). destruct (seek_valid P) as [V M]. split; [|split]; auto.
  assert (A : forall n m h f, r m < n -> In m S -> play_from net ctrl (seek P) h m f ->
     exists i, good (f i) = true /\ forall j, j <= i -> within k (f j)).
  { induction n as [|n IH]; intros m h f Rn Im PF; [lia|]. destruct (HS _ Im) as (W & D).
    pose proof (proj1 PF) as F0.
    destruct D as [G|(HE & HC & t0 & m0' & S0)].
    { exists 0. rewrite F0. split; auto. intros j J. replace j with 0 by lia. rewrite F0. auto. }
    pose proof (play_first _ _ _ _ PF) as SC. pose proof (play_tail _ _ _ _ PF) as PT.
    assert (N1 : In (f 1) S /\ r (f 1) < r m).
    { destruct SC as [MV|[No _]].
      - destruct MV as [(t & C & St)|(t & Es & C & St)]; [eapply HE; eauto|].
        destruct HC as (t1 & m1 & C1 & S1 & I1 & R1); [eauto|].
        destruct (seek_move P h m (f 1) (or_intror (ex_intro _ t (conj Es (conj C St))))) as [(t2 & C2 & S2)|Q].
        + exists t1, m1. split; [|split]; auto. unfold P. apply andb_true_iff. split; [apply inb_spec; auto|apply Nat.ltb_lt; auto].
        + eapply HE; eauto.
        + unfold P in Q. apply andb_true_iff in Q. rewrite inb_spec, Nat.ltb_lt in Q. exact Q.
      - exfalso. destruct (ctrl t0) eqn:C0.
        + destruct (V h m) as (t1 & m1 & Es & C1 & S1); [eauto|]. apply (No m1). right. eauto.
        + apply (No m0'). left. eauto. }
    destruct N1 as [I1 R1]. destruct (IH (f 1) (h ++ [m]) (fun i => f (Datatypes.S i)) ltac:(lia) I1 PT) as (i & G & B).
    exists (Datatypes.S i). split; auto. intros [|j] J; [rewrite F0; auto|apply B; lia]. }
  intros f PF. exact (A (Datatypes.S (r m0)) m0 [] f (Nat.lt_succ_diag_r _) I0 PF).
Qed.

Definition trap (T : list marking) : Prop := forall m, In m T ->
  ~ within k m \/
  (good m = false /\
   ((exists t m', ctrl t = false /\ step net m t m' /\ In m' T) \/
    ((exists t m', ctrl t = true /\ step net m t m') /\ (forall t m', ctrl t = true -> step net m t m' -> In m' T)) \/
    (forall t m', ~ step net m t m'))).

Theorem trap_loses : forall T m0, trap T -> In m0 T -> forall s, valid net ctrl s ->
  ~ wins_reach net ctrl s (fun m => good m = true) k m0.
Proof.
  intros T m0 HT I0 s V W. set (P := fun m => inb m T). set (f := fun i => snd (iter P s [] m0 i)).
  destruct (W f (iter_play P s [] m0)) as (i & G & B).
  assert (A : forall j, j <= i -> In (f j) T).
  { induction j as [|j IH]; intros J; [exact I0|]. specialize (IH ltac:(lia)). specialize (B j ltac:(lia)).
    destruct (HT _ IH) as [C|(_ & D)]; [contradiction|].
    unfold f in *. cbn [iter snd]. set (h := fst (iter P s [] m0 j)). set (m := snd (iter P s [] m0 j)) in *.
    assert (E : forall t m', ctrl t = false -> step net m t m' -> In m' T -> In (pref P s h m) T).
    { intros t m' C St I. unfold pref. destruct (find (fun x => P (snd x)) (moves false m)) as [[t1 m1]|] eqn:E.
      - apply find_some in E. destruct E as [_ Q]. apply inb_spec in Q. exact Q.
      - pose proof (find_none _ _ E (t, m') (proj2 (moves_spec false m t m') (conj C St))) as F. cbn in F.
        unfold P in F. apply inb_spec in I. congruence. }
    destruct D as [(t & m' & C & St & I)|[(Ex & HC)|No]].
    - eapply E; eauto.
    - destruct (pref_ok P s h m) as [MV|[No' _]].
      + destruct MV as [(t & C & St)|(t & Es & C & St)]; [|eapply HC; eauto].
        unfold pref in *. destruct (find (fun x => P (snd x)) (moves false m)) as [[t1 m1]|] eqn:E1.
        * apply find_some in E1. destruct E1 as [_ Q]. apply inb_spec in Q. exact Q.
        * destruct (V h m Ex) as (t1 & m1 & Es & C1 & S1). rewrite Es in *.
          destruct (find (fun x => Nat.eqb (fst x) t1) (moves true m)) as [[t2 m2]|] eqn:E2.
          -- apply find_some in E2. destruct E2 as [I _]. apply moves_spec in I. destruct I as [C2 S2]. exact (HC t2 m2 C2 S2).
          -- pose proof (find_none _ _ E2 (t1, m1) (proj2 (moves_spec true m t1 m1) (conj C1 S1))) as F. cbn in F. rewrite Nat.eqb_refl in F. discriminate.
      + destruct (V h m Ex) as (t1 & m1 & Es & C1 & S1). exfalso. apply (No' m1). right. eauto.
    - destruct (pref_ok P s h m) as [[(t & C & St)|(t & Es & C & St)]|[_ ->]]; [exfalso; eapply No; eauto|exfalso; eapply No; eauto|exact IH]. }
  destruct (HT _ (A i (le_n i))) as [C|(G' & _)]; [apply C, B; lia|congruence].
Qed.
End Game.
