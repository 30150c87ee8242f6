(** Synthesis: the invariant of the fixed-point computation (C35). *)
From Verif Require Import Base BaseLemmas NetSpec NetModel SynModel SynTab.
From Coq Require Import Permutation.

Definition cnt (b : bool) (i : nat) (ed : list edge) : nat :=
  length (filter (fun e => Bool.eqb (fst (fst e)) b && Nat.eqb (snd (fst e)) i) ed).
Lemma cnt_app : forall b i l l', cnt b i (l ++ l') = cnt b i l + cnt b i l'.
Proof. intros. unfold cnt. rewrite filter_app, app_length. auto. Qed.
Lemma cnt_perm : forall b i l l', Permutation l l' -> cnt b i l = cnt b i l'.
Proof.
  intros b i l l' P. unfold cnt. induction P; cbn; auto.
  - destruct (Bool.eqb (fst (fst x)) b && Nat.eqb (snd (fst x)) i); cbn; auto.
  - destruct (Bool.eqb (fst (fst x)) b && Nat.eqb (snd (fst x)) i), (Bool.eqb (fst (fst y)) b && Nat.eqb (snd (fst y)) i); cbn; auto.
  - congruence.
Qed.
Lemma cnt_zero : forall b i l, cnt b i l = 0 -> forall c, ~ In ((b, i), c) l.
Proof.
  intros b i l H c I. unfold cnt in H. assert (K : In ((b, i), c) (filter (fun e => Bool.eqb (fst (fst e)) b && Nat.eqb (snd (fst e)) i) l)).
  { apply filter_In. split; auto. cbn. rewrite Bool.eqb_reflx, Nat.eqb_refl. auto. }
  apply length_zero_iff_nil in H. rewrite H in K. destruct K.
Qed.
Lemma cnt_pos : forall b i l, cnt b i l <> 0 -> exists c, In ((b, i), c) l.
Proof.
  intros b i l H. unfold cnt in H. destruct (filter (fun e => Bool.eqb (fst (fst e)) b && Nat.eqb (snd (fst e)) i) l) as [|e l'] eqn:E; [cbn in H; lia|].
  assert (K : In e (filter (fun e => Bool.eqb (fst (fst e)) b && Nat.eqb (snd (fst e)) i) l)) by (rewrite E; left; auto).
  apply filter_In in K. destruct K as [K1 K2]. apply andb_true_iff in K2. destruct K2 as [K2 K3]. apply eqb_prop in K2. apply Nat.eqb_eq in K3.
  destruct e as [[b' i'] c]. cbn in *. subst. eauto.
Qed.
Lemma cnt_other : forall b i b' x l, x <> i -> cnt b i (map (fun c => ((b', x), c)) l) = 0.
Proof.
  intros b i b' x l N. unfold cnt. induction l as [|a l IH]; cbn; auto. destruct (Nat.eqb_spec x i); [congruence|]. rewrite andb_false_r. auto.
Qed.
Lemma cnt_same : forall b b' x l, cnt b x (map (fun c => ((b', x), c)) l) = if Bool.eqb b' b then length l else 0.
Proof.
  intros b b' x l. unfold cnt. induction l as [|a l IH]; cbn; [destruct (Bool.eqb b' b); auto|]. rewrite Nat.eqb_refl, andb_true_r. destruct (Bool.eqb b' b); cbn; auto.
Qed.
Lemma cnt_cons : forall b i e l, cnt b i (e :: l) = (if Bool.eqb (fst (fst e)) b && Nat.eqb (snd (fst e)) i then 1 else 0) + cnt b i l.
Proof. intros. unfold cnt. cbn. destruct (Bool.eqb (fst (fst e)) b && Nat.eqb (snd (fst e)) i); auto. Qed.

Lemma dec32_succ : forall n : nat, (N.of_nat (S n) < 2 ^ 32)%N -> dec32 (N.of_nat (S n)) = N.of_nat n.
Proof.
  intros n H. unfold dec32. change (2 ^ 32)%N with 4294967296%N in *. replace (N.of_nat (S n) + (4294967296 - 1))%N with (N.of_nat n + 1 * 4294967296)%N by lia.
  rewrite N.mod_add by lia. apply N.mod_small. lia.
Qed.

Section Inv.
Variable safety : bool.
Variable pred : list N -> bool.
Variable kbound : N.
Variable okm : list N -> Prop.
Variable E C : list N -> list N -> Prop.
Variable lost : list N -> Prop.
Notation new_state := (new_state safety pred kbound).
Notation base := (base okm).
Notation frame := (frame safety pred kbound).

Definition noself : Prop := forall m, okm m -> ~ C m m.

(** Every successor in [R] is the marking of a configuration with [P]. *)
Definition all_to (R : list N -> list N -> Prop) (s : syn) (i : nat) (P : nat -> Prop) : Prop :=
  forall m', R (mk s i) m' -> exists c, c < dom s /\ mk s c = m' /\ P c.
Definition some_to (R : list N -> list N -> Prop) (s : syn) (i : nat) (P : nat -> Prop) : Prop :=
  exists c, c < dom s /\ R (mk s i) (mk s c) /\ P c.
Definition has (R : list N -> list N -> Prop) (m : list N) : Prop := exists m', R m m'.

Definition WJ (r : nat -> nat) (s : syn) (i : nat) : Prop :=
  if safety then
    new_state (mk s i) = UNKNOWN /\ all_to E s i (fun c => st s c = WINNING) /\
    (has C (mk s i) -> some_to C s i (fun c => st s c = WINNING))
  else
    new_state (mk s i) = WINNING \/
    (new_state (mk s i) = UNKNOWN /\ all_to E s i (fun c => st s c = WINNING /\ r c < r i) /\
     (has C (mk s i) -> some_to C s i (fun c => st s c = WINNING /\ r c < r i)) /\ (has E (mk s i) \/ has C (mk s i))).
Definition LJ (s : syn) (i : nat) : Prop :=
  if safety then noself -> lost (mk s i)
  else
    new_state (mk s i) = LOSING \/
    (new_state (mk s i) = UNKNOWN /\
     (some_to E s i (fun c => st s c = LOSING) \/ (has C (mk s i) /\ all_to C s i (fun c => st s c = LOSING)) \/
      (~ has E (mk s i) /\ ~ has C (mk s i)))).
Definition Open (s : syn) (ed : list edge) (i : nat) : Prop :=
  new_state (mk s i) = UNKNOWN /\
  all_to E s i (fun c => st s c = WINNING \/ (safety = true /\ c = i) \/ In ((false, i), c) ed) /\
  (st s i = MAYBE -> (exists c, In ((false, i), c) ed) /\
     ((~ has C (mk s i) /\ has E (mk s i)) \/ some_to C s i (fun c => st s c = WINNING))) /\
  (st s i = PROCESSED -> has C (mk s i) /\ (exists c, In ((true, i), c) ed) /\
     all_to C s i (fun c => st s c = LOSING \/ (safety = false /\ c = i) \/ In ((true, i), c) ed)) /\
  c_ec (cf s i) = N.of_nat (cnt false i ed) /\ c_cc (cf s i) = N.of_nat (cnt true i ed) /\
  (c_ec (cf s i) < 2 ^ 32)%N /\ (c_cc (cf s i) < 2 ^ 32)%N.

Definition is_open (c : cstate) : Prop := c = PROCESSED \/ c = MAYBE.

(** [skip]: the configuration being processed; [nxt]: the determined configuration whose
    dependers are being informed. *)
Record Inv (skip nxt : nat -> Prop) (s : syn) (ed : list edge) (r : nat -> nat) : Prop := mkInv {
  I_base : base s;
  I_new : forall i, i < dom s -> det (new_state (mk s i)) = true -> st s i = new_state (mk s i);
  I_win : forall i, i < dom s -> ~ skip i -> st s i = WINNING -> WJ r s i;
  I_lose : forall i, i < dom s -> ~ skip i -> st s i = LOSING -> LJ s i;
  I_open : forall i, i < dom s -> ~ skip i -> is_open (st s i) -> c_wait (cf s i) = 1 /\ Open s ed i;
  I_unk : forall i, i < dom s -> ~ skip i -> st s i = UNKNOWN ->
    (c_wait (cf s i) = 1 /\ In i (y_queue s)) \/ (c_wait (cf s i) = 0 /\ forall d, ~ In (d, i) ed);
  I_q : NoDup (y_queue s) /\ forall i, In i (y_queue s) -> i < dom s /\ st s i = UNKNOWN /\ c_wait (cf s i) = 1;
  I_edge : forall b x c, In ((b, x), c) ed -> x < dom s /\ c < dom s /\ st s x <> UNKNOWN /\
    (if b then C (mk s x) (mk s c) else E (mk s x) (mk s c)) /\ (det (st s c) = true -> In c (y_back s) \/ nxt c);
  I_back : forall c, In c (y_back s) -> c < dom s /\ det (st s c) = true;
  I_zero : 0 < dom s /\ (st s 0 = UNKNOWN -> ~ skip 0 -> In 0 (y_queue s))
}.

(** Later states know more. *)
Definition ext (s s' : syn) : Prop :=
  dom s <= dom s' /\ forall i, i < dom s -> mk s' i = mk s i /\ (det (st s i) = true -> st s' i = st s i).
Lemma ext_refl : forall s, ext s s.
Proof. split; auto. Qed.
Lemma ext_trans : forall a b c, ext a b -> ext b c -> ext a c.
Proof.
  intros a b c [A1 A2] [B1 B2]. split; [lia|]. intros i I. destruct (A2 i I) as [X1 X2]. destruct (B2 i) as [Y1 Y2]; [lia|].
  split; [congruence|]. intros D. rewrite Y2; auto. rewrite X2; auto.
Qed.
Lemma all_to_ext : forall R s s' i (P Q : nat -> Prop), ext s s' -> i < dom s -> all_to R s i P -> (forall c, c < dom s -> P c -> Q c) -> all_to R s' i Q.
Proof.
  intros R s s' i P Q [D X] I H PQ m' HR. rewrite (proj1 (X i I)) in HR. destruct (H m' HR) as (c & C1 & C2 & C3).
  exists c. split; [lia|]. split; [rewrite (proj1 (X c C1)); auto|auto].
Qed.
Lemma some_to_ext : forall R s s' i (P Q : nat -> Prop), ext s s' -> i < dom s -> some_to R s i P -> (forall c, c < dom s -> P c -> Q c) -> some_to R s' i Q.
Proof.
  intros R s s' i P Q [D X] I (c & C1 & C2 & C3) PQ. exists c. split; [lia|]. rewrite (proj1 (X i I)), (proj1 (X c C1)). auto.
Qed.
Lemma ext_win : forall s s' c, ext s s' -> c < dom s -> st s c = WINNING -> st s' c = WINNING.
Proof. intros s s' c [_ X] L H. rewrite (proj2 (X c L)); auto. rewrite H. auto. Qed.
Lemma ext_lose : forall s s' c, ext s s' -> c < dom s -> st s c = LOSING -> st s' c = LOSING.
Proof. intros s s' c [_ X] L H. rewrite (proj2 (X c L)); auto. rewrite H. auto. Qed.

Lemma WJ_ext : forall r r' s s' i, ext s s' -> i < dom s -> WJ r s i ->
  (forall c, c < dom s -> st s c = WINNING -> r' c = r c) -> r' i = r i -> WJ r' s' i.
Proof.
  intros r r' s s' i X I H R RI. unfold WJ in *. destruct (proj2 X i I) as [M _]. destruct safety.
  - destruct H as (H1 & H2 & H3). rewrite M. split; auto. split.
    + eapply all_to_ext; eauto. intros c L. apply ext_win; auto.
    + intros HC. eapply some_to_ext; eauto. intros c L. apply ext_win; auto.
  - rewrite M. destruct H as [H|(H1 & H2 & H3 & H4)]; auto. right. split; auto. split; [|split; auto].
    + eapply all_to_ext; eauto. cbn. intros c L [W Q]. rewrite RI, R by auto. split; auto. eapply ext_win; eauto.
    + intros HC. eapply some_to_ext; eauto. cbn. intros c L [W Q]. rewrite RI, R by auto. split; auto. eapply ext_win; eauto.
Qed.
Lemma LJ_ext : forall s s' i, ext s s' -> i < dom s -> LJ s i -> LJ s' i.
Proof.
  intros s s' i X I H. unfold LJ in *. destruct (proj2 X i I) as [M _]. rewrite M. destruct safety; auto.
  destruct H as [H|(H1 & H2)]; auto. right. split; auto. destruct H2 as [H2|[[H2 H3]|H2]]; auto.
  - left. eapply some_to_ext; eauto. intros c L. apply ext_lose; auto.
  - right. left. split; auto. eapply all_to_ext; eauto. intros c L. apply ext_lose; auto.
Qed.
Lemma Open_ext : forall s s' ed ed' i, ext s s' -> i < dom s -> Open s ed i ->
  st s' i = st s i -> c_ec (cf s' i) = c_ec (cf s i) -> c_cc (cf s' i) = c_cc (cf s i) ->
  (forall b c, In ((b, i), c) ed -> In ((b, i), c) ed') -> (forall b, cnt b i ed' = cnt b i ed) -> Open s' ed' i.
Proof.
  intros s s' ed ed' i X I (H1 & H2 & H3 & H4 & H5 & H6 & H7 & H8) S EC CC INC CN. destruct (proj2 X i I) as [M _].
  unfold Open. rewrite M, S, EC, CC, !CN. split; auto. split; [|split; [|split; [|auto]]].
  - eapply all_to_ext; eauto. cbn. intros c L [W|[W|W]]; auto. left. eapply ext_win; eauto.
  - intros HM. destruct (H3 HM) as [[c Hc] Q]. split; [eauto|]. destruct Q as [Q|Q]; auto. right. eapply some_to_ext; eauto. intros d L. apply ext_win; auto.
  - intros HP. destruct (H4 HP) as (Q1 & [c Q2] & Q3). split; auto. split; [eauto|]. eapply all_to_ext; eauto. cbn. intros d L [W|[W|W]]; auto. left. eapply ext_lose; eauto.
Qed.
Lemma Open_perm : forall s ed ed' i, Permutation ed ed' -> Open s ed i -> Open s ed' i.
Proof.
  intros s ed ed' i P (H1 & H2 & H3 & H4 & H5 & H6 & H7 & H8).
  assert (IN : forall e, In e ed -> In e ed') by (intros e; apply Permutation_in; auto).
  unfold Open. rewrite <- !(cnt_perm _ _ _ _ P). split; auto. split; [|split; [|split; auto]].
  - intros m' HR. destruct (H2 m' HR) as (c & Q1 & Q2 & Q3). exists c. split; auto. split; auto. destruct Q3 as [Q|[Q|Q]]; auto.
  - intros HM. destruct (H3 HM) as [[c Hc] Q]. split; eauto.
  - intros HP. destruct (H4 HP) as (Q1 & [c Q2] & Q3). split; auto. split; [eauto|]. intros m' HR. destruct (Q3 m' HR) as (d & Q4 & Q5 & Q6). exists d. split; auto. split; auto. destruct Q6 as [Q|[Q|Q]]; auto.
Qed.
Lemma Inv_perm : forall skip nxt s ed ed' r, Permutation ed ed' -> Inv skip nxt s ed r -> Inv skip nxt s ed' r.
Proof.
  intros skip nxt s ed ed' r P [A1 A2 A3 A4 A5 A6 A7 A8 A9 A10]. constructor; auto.
  - intros i I K O. destruct (A5 i I K O). split; auto. eapply Open_perm; eauto.
  - intros i I K U. destruct (A6 i I K U) as [Q|[Q1 Q2]]; auto. right. split; auto. intros d HI. apply (Q2 d). eapply Permutation_in; [apply Permutation_sym|]; eauto.
  - intros b x c HI. apply A8. eapply Permutation_in; [apply Permutation_sym|]; eauto.
Qed.

Lemma frame_ext : forall x s s', frame x s s' -> det (st s x) = false -> ext s s'.
Proof.
  intros x s s' F D. split; [apply (f_dom _ _ _ _ _ _ F)|]. intros i I. split; [apply (f_mk _ _ _ _ _ _ F); auto|].
  intros Di. destruct (Nat.eq_dec i x) as [->|N]; [congruence|]. unfold st. rewrite (f_cf _ _ _ _ _ _ F); auto.
Qed.

(** ** Informing one depender *)
Definition is_x (x : nat) : nat -> Prop := fun i => i = x.
Definition never : nat -> Prop := fun _ => False.

Hypothesis L_env : forall m m', E m m' -> lost m' -> lost m.
Hypothesis L_ctrl : forall m, has C m -> (forall m', C m m' -> lost m') -> lost m.
Hypothesis L_bad : forall m, safety = true -> new_state m = LOSING -> lost m.

(** the rank given to a configuration that becomes winning *)
Definition bump (r : nat -> nat) (n x : nat) : nat -> nat := fun i => if Nat.eqb i x then S (list_max (map r (seq 0 n))) else r i.
Lemma bump_x : forall r n x c, c < n -> c <> x -> bump r n x c < bump r n x x.
Proof.
  intros r n x c L N. unfold bump. rewrite Nat.eqb_refl. destruct (Nat.eqb_spec c x); [congruence|].
  assert (H : forall l, In (r c) l -> r c <= list_max l). { intros l I. pose proof (proj1 (list_max_le l (list_max l)) (le_n _)) as F. rewrite Forall_forall in F. apply F; auto. }
  specialize (H (map r (seq 0 n))). apply Nat.lt_succ_r. apply H. apply in_map. apply in_seq. lia.
Qed.
Lemma bump_other : forall r n x c, c <> x -> bump r n x c = r c.
Proof. intros. unfold bump. destruct (Nat.eqb_spec c x); [congruence|auto]. Qed.

(** Changing only configuration [x], which is undetermined, keeps the invariant if it holds
    for [x]. *)
Lemma Inv_change : forall nxt s s' ed ed' r x,
  Inv (is_x x) nxt s ed r -> x < dom s -> det (st s x) = false ->
  dom s' = dom s -> map fst (y_tab s') = map fst (y_tab s) -> (forall i, i <> x -> st s' i = st s i /\ c_wait (cf s' i) = c_wait (cf s i) /\ c_ec (cf s' i) = c_ec (cf s i) /\ c_cc (cf s' i) = c_cc (cf s i)) ->
  y_queue s' = y_queue s ->
  (y_back s' = y_back s /\ det (st s' x) = false \/ y_back s' = x :: y_back s /\ det (st s' x) = true) ->
  (forall e, In e ed' -> In e ed) -> (forall b i c, i <> x -> In ((b, i), c) ed -> In ((b, i), c) ed') -> (forall b i, i <> x -> cnt b i ed' = cnt b i ed) ->
  st s' x <> UNKNOWN ->
  (st s' x = WINNING -> WJ (bump r (dom s) x) s' x) ->
  (st s' x = LOSING -> LJ s' x) ->
  (is_open (st s' x) -> c_wait (cf s' x) = 1 /\ Open s' ed' x) ->
  (det (new_state (mk s x)) = false) -> ~ In x (y_queue s) ->
  exists r', Inv never nxt s' ed' r'.
Proof.
  intros nxt s s' ed ed' r x [A1 A2 A3 A4 A5 A6 A7 A8 A9 A10] X DX D FT OTH Q BK SUB INC CN NU HW HL HO DN NQ.
  assert (MK : forall i, mk s' i = mk s i) by (intros i; rewrite !mk_map, FT; auto).
  assert (EX : ext s s').
  { split; [lia|]. intros i I. split; auto. intros Di. destruct (Nat.eq_dec i x) as [->|N]; [congruence|]. apply OTH; auto. }
  exists (bump r (dom s) x). constructor.
  - destruct A1 as [B1 B2]. split; [rewrite FT; auto|]. intros i I. rewrite MK. apply B2. lia.
  - intros i I Hd. rewrite MK in *. destruct (Nat.eq_dec i x) as [->|N]; [congruence|]. rewrite (proj1 (OTH i N)). apply A2; auto. lia.
  - intros i I _ W. destruct (Nat.eq_dec i x) as [->|N]; [auto|]. rewrite D in I. rewrite (proj1 (OTH i N)) in W.
    eapply WJ_ext; [exact EX|exact I|apply A3; auto| |apply bump_other; auto]. intros c L W2. apply bump_other. intros ->. rewrite W2 in DX. discriminate.
  - intros i I _ W. destruct (Nat.eq_dec i x) as [->|N]; [auto|]. rewrite D in I. rewrite (proj1 (OTH i N)) in W. eapply LJ_ext; eauto.
  - intros i I _ O. destruct (Nat.eq_dec i x) as [->|N]; [auto|]. rewrite D in I. destruct (OTH i N) as (O1 & O2 & O3 & O4). rewrite O1 in O. destruct (A5 i I N O) as [W OP].
    split; [congruence|]. eapply Open_ext; eauto.
  - intros i I _ U. destruct (Nat.eq_dec i x) as [->|N]; [congruence|]. rewrite D in I. destruct (OTH i N) as (O1 & O2 & O3 & O4). rewrite O1 in U. rewrite O2, Q.
    destruct (A6 i I N U) as [K|[K1 K2]]; auto. right. split; auto. intros d HI. apply (K2 d). auto.
  - rewrite Q. destruct A7 as [K1 K2]. split; auto. intros i I. destruct (K2 i I) as (K3 & K4 & K5). assert (N : i <> x) by (intros ->; contradiction). destruct (OTH i N) as (O1 & O2 & O3 & O4). rewrite O1, O2. split; [lia|auto].
  - intros b a c HI. destruct (A8 b a c (SUB _ HI)) as (K1 & K2 & K3 & K4 & K5). rewrite !MK. split; [lia|]. split; [lia|]. split.
    { destruct (Nat.eq_dec a x) as [->|N]; auto. rewrite (proj1 (OTH a N)). auto. }
    split; auto. intros Dc. destruct (Nat.eq_dec c x) as [->|N].
    + destruct BK as [[_ B]|[-> _]]; [congruence|]. left. left. auto.
    + rewrite (proj1 (OTH c N)) in Dc. destruct (K5 Dc) as [K|K]; auto. left. destruct BK as [[-> _]|[-> _]]; auto. right. auto.
  - assert (OLD : forall c, In c (y_back s) -> c < dom s' /\ det (st s' c) = true).
    { intros c HI. destruct (A9 c HI) as [K1 K2]. assert (N : c <> x) by (intros ->; congruence). rewrite (proj1 (OTH c N)). split; [lia|auto]. }
    intros c HI. destruct BK as [[B _]|[B B2]]; rewrite B in HI; auto. destruct HI as [<-|HI]; auto. split; [lia|auto].
  - destruct A10 as [K1 K2]. split; [lia|]. intros U _. rewrite Q. destruct (Nat.eq_dec 0 x) as [<-|N]; [congruence|]. rewrite (proj1 (OTH 0 N)) in U. apply K2; auto.
Qed.

Lemma Inv_skip : forall nxt s ed r x, Inv never nxt s ed r -> Inv (is_x x) nxt s ed r.
Proof. intros nxt s ed r x [A1 A2 A3 A4 A5 A6 A7 A8 A9 [A10 A11]]. constructor; auto. Qed.

Lemma depender_ok : forall nxt s b x c ed r stc,
  Inv never nxt s (((b, x), c) :: ed) r -> st s c = stc -> det stc = true ->
  exists r', Inv never nxt (depender stc (b, x) s) ed r'.
Proof.
  intros nxt s b x c ed r stc IV SC DC. pose proof IV as [A1 A2 A3 A4 A5 A6 A7 A8 A9 A10].
  destruct (A8 b x c (or_introl eq_refl)) as (X & CL & NU & REL & _).
  unfold depender. cbn [fst snd]. fold (st s x). destruct (det (st s x)) eqn:DX.
  { exists r. constructor; auto.
    - intros i I K O. destruct (A5 i I K O) as [W OP]. split; auto.
      assert (N : i <> x) by (intros ->; destruct O as [O|O]; rewrite O in DX; discriminate).
      destruct OP as (H1 & H2 & H3 & H4 & H5 & H6 & H7 & H8). unfold Open.
      assert (CN : forall b0, cnt b0 i (((b, x), c) :: ed) = cnt b0 i ed) by (intros b0; rewrite cnt_cons; cbn; destruct (Nat.eqb_spec x i); [congruence|]; rewrite andb_false_r; auto).
      rewrite !CN in *. 
      assert (IN : forall b0 d, In ((b0, i), d) (((b, x), c) :: ed) -> In ((b0, i), d) ed) by (intros b0 d [Q|Q]; [inversion Q; congruence|auto]).
      split; auto. split; [|split; [|split; auto]].
      + intros m' HR. destruct (H2 m' HR) as (d & Q1 & Q2 & Q3). exists d. split; auto. split; auto. destruct Q3 as [Q|[Q|Q]]; auto.
      + intros HM. destruct (H3 HM) as [[d Hd] Q]. split; eauto.
      + intros HP. destruct (H4 HP) as (Q1 & [d Q2] & Q3). split; auto. split; [eauto|]. intros m' HR. destruct (Q3 m' HR) as (f & Q4 & Q5 & Q6). exists f. split; auto. split; auto. destruct Q6 as [Q|[Q|Q]]; auto.
    - intros i I K U. destruct (A6 i I K U) as [Q|[Q1 Q2]]; auto. right. split; auto. intros d HI. apply (Q2 d). right. auto.
    - intros b0 a d HI. apply A8. right. auto. }
  assert (OPX : is_open (st s x)) by (destruct (st s x); try discriminate; [congruence|left; auto|right; auto]).
  destruct (A5 x X (fun f => f) OPX) as [WX OP]. destruct OP as (H1 & H2 & H3 & H4 & H5 & H6 & H7 & H8).
  assert (MKX : det (new_state (mk s x)) = false) by (rewrite H1; auto).
  assert (NQ : ~ In x (y_queue s)) by (intros K; destruct (proj2 A7 x K) as (_ & K2 & _); congruence).
  assert (MKC : forall i j c, mk (set_cf s i c) j = mk s j) by (intros; apply mk_set).
  (* the effect of the change *)
  assert (MAIN : forall a1, c_wait a1 = 1 ->
     (c_st a1 <> UNKNOWN) ->
     (c_st a1 = WINNING -> all_to E s x (fun d => st s d = WINNING \/ (safety = true /\ d = x)) /\ ((~ has C (mk s x) /\ has E (mk s x)) \/ some_to C s x (fun d => st s d = WINNING))) ->
     (c_st a1 = LOSING -> some_to E s x (fun d => st s d = LOSING) \/ (has C (mk s x) /\ all_to C s x (fun d => st s d = LOSING \/ (safety = false /\ d = x)))) ->
     (is_open (c_st a1) ->
       all_to E s x (fun d => st s d = WINNING \/ (safety = true /\ d = x) \/ In ((false, x), d) ed) /\
       (c_st a1 = MAYBE -> (exists c, In ((false, x), c) ed) /\ ((~ has C (mk s x) /\ has E (mk s x)) \/ some_to C s x (fun c => st s c = WINNING))) /\
       (c_st a1 = PROCESSED -> has C (mk s x) /\ (exists c, In ((true, x), c) ed) /\
          all_to C s x (fun d => st s d = LOSING \/ (safety = false /\ d = x) \/ In ((true, x), d) ed)) /\
       c_ec a1 = N.of_nat (cnt false x ed) /\ c_cc a1 = N.of_nat (cnt true x ed) /\ (c_ec a1 < 2 ^ 32)%N /\ (c_cc a1 < 2 ^ 32)%N) ->
     c_dep a1 = c_dep (cf s x) ->
     exists r', Inv never nxt (if det (c_st a1) then
        (if c_wait a1 <? 2 then push_back (set_cf s x (mkCf (c_st a1) 2 (c_cc a1) (c_ec a1) (c_dep a1))) x else set_cf s x (mkCf (c_st a1) 2 (c_cc a1) (c_ec a1) (c_dep a1)))
        else set_cf s x a1) ed r').
  { intros a1 W1 NU1 HW HL HO DEP. rewrite W1. cbn [Nat.ltb Nat.leb].
    set (s' := if det (c_st a1) then _ else _).
    assert (CX : cf s' x = if det (c_st a1) then mkCf (c_st a1) 2 (c_cc a1) (c_ec a1) (c_dep a1) else a1).
    { unfold s'. destruct (det (c_st a1)); [change (cf (push_back ?u ?v) ?w) with (cf u w)|]; apply cf_set_eq; auto. }
    assert (CO : forall i, i <> x -> cf s' i = cf s i).
    { intros i N. unfold s'. destruct (det (c_st a1)); [change (cf (push_back ?u ?v) ?w) with (cf u w)|]; apply cf_set_neq; auto. }
    assert (SX : st s' x = c_st a1) by (unfold st; rewrite CX; destruct (det (c_st a1)); auto).
    assert (D : dom s' = dom s) by (unfold s'; destruct (det (c_st a1)); [change (dom (push_back ?u ?v)) with (dom u)|]; apply dom_set).
    assert (FT : map fst (y_tab s') = map fst (y_tab s)) by (unfold s'; destruct (det (c_st a1)); [change (y_tab (push_back ?u ?v)) with (y_tab u)|]; apply fst_tab_set).
    assert (MK : forall i, mk s' i = mk s i) by (intros i; rewrite !mk_map, FT; auto).
    assert (EX : ext s s').
    { split; [lia|]. intros i I. split; auto. intros Di. destruct (Nat.eq_dec i x) as [->|N]; [congruence|]. unfold st. rewrite CO; auto. }
    eapply (Inv_change nxt s s' (((b, x), c) :: ed) ed r x); auto.
    - apply Inv_skip; auto.
    - intros i N. unfold st. rewrite CO; auto.
    - unfold s'. destruct (det (c_st a1)); auto.
    - unfold s' at 1 3. rewrite SX. destruct (det (c_st a1)); auto.
    - intros e I. right. auto.
    - intros b0 i d N [Q|Q]; auto. inversion Q. congruence.
    - intros b0 i N. rewrite cnt_cons. cbn. destruct (Nat.eqb_spec x i); [congruence|]. rewrite andb_false_r. auto.
    - rewrite SX. auto.
    - rewrite SX. intros W. destruct (HW W) as [K1 K2].
      assert (NX : forall d, st s d = WINNING -> d <> x) by (intros d Hd ->; rewrite Hd in DX; discriminate).
      unfold WJ. rewrite MK. destruct safety.
      + split; auto. split.
        * eapply all_to_ext; eauto. cbn. intros d L [Q|[_ ->]]; [eapply ext_win; eauto|congruence].
        * intros HC. destruct K2 as [[K2 _]|K2]; [contradiction|]. eapply some_to_ext; eauto. intros d L. apply ext_win; auto.
      + right. split; auto. split; [|split].
        * eapply all_to_ext; eauto. cbn. intros d L [Q|[Q _]]; [|discriminate]. split; [eapply ext_win; eauto|]. apply bump_x; auto.
        * intros HC. destruct K2 as [[K2 _]|K2]; [contradiction|]. eapply some_to_ext; eauto. cbn. intros d L Q. split; [eapply ext_win; eauto|apply bump_x; auto].
        * destruct K2 as [[_ K2]|(d & K2 & K3 & _)]; auto. right. exists (mk s d). auto.
    - rewrite SX. intros W. unfold LJ. rewrite MK. specialize (HL W). destruct safety eqn:ES.
      + intros NS. assert (LST : forall d, d < dom s -> st s d = LOSING -> lost (mk s d)).
        { intros d L Hd. pose proof (A4 d L (fun f => f) Hd) as Q. unfold LJ in Q. rewrite ES in Q. auto. }
        destruct HL as [(d & K1 & K2 & K3)|[K1 K2]]; [eapply L_env; eauto|]. apply L_ctrl; auto.
        intros m' HC. destruct (K2 m' HC) as (d & Q1 & <- & [Q3|[Q3 _]]); [auto|discriminate].
      + right. split; auto. destruct HL as [K|[K1 K2]]; [left|right; left; split; auto].
        * eapply some_to_ext; eauto. intros d L. apply ext_lose; auto.
        * eapply all_to_ext; eauto. cbn. intros d L [Q|[_ ->]]; [eapply ext_lose; eauto|congruence].
    - rewrite SX. intros O. assert (DF : det (c_st a1) = false) by (destruct O as [-> | ->]; auto). rewrite CX, DF. split; auto.
      destruct (HO O) as (K1 & K2 & K3 & K4 & K5 & K6 & K7). unfold Open. rewrite MK, SX, CX, DF. split; auto. split; [|split; [|split; auto]].
      + eapply all_to_ext; eauto. cbn. intros d L [Q|Q]; auto. left. eapply ext_win; eauto.
      + intros HM. destruct (K2 HM) as [Q1 Q2]. split; auto. destruct Q2 as [Q2|Q2]; auto. right. eapply some_to_ext; eauto. intros d L. apply ext_win; auto.
      + intros HP. destruct (K3 HP) as (Q1 & Q2 & Q3). split; auto. split; auto. eapply all_to_ext; eauto. cbn. intros d L [Q|Q]; auto. left. eapply ext_lose; eauto. }
  assert (NOE : cnt false x ed = 0 -> all_to E s x (fun d => st s d = WINNING \/ (safety = true /\ d = x) \/ In ((false, x), d) ed) ->
      all_to E s x (fun d => st s d = WINNING \/ (safety = true /\ d = x))).
  { intros Z K m' HR. destruct (K m' HR) as (d & Q1 & Q2 & Q3). exists d. split; auto. split; auto. destruct Q3 as [Q|[Q|Q]]; auto. exfalso. eapply cnt_zero; eauto. }
  cbv zeta. unfold update. destruct b; cbn [fst snd].
  - (* a controllable edge *)
    assert (CC : dec32 (c_cc (cf s x)) = N.of_nat (cnt true x ed)).
    { rewrite H6 in *. rewrite cnt_cons in *. cbn [fst snd] in *. rewrite Bool.eqb_reflx, Nat.eqb_refl in *. cbn [andb plus] in *. apply dec32_succ. auto. }
    assert (EC : c_ec (cf s x) = N.of_nat (cnt false x ed)) by (rewrite H5, cnt_cons; auto).
    assert (CB : (dec32 (c_cc (cf s x)) < 2 ^ 32)%N).
    { rewrite CC. rewrite H6 in H8. rewrite cnt_cons in H8. cbn [fst snd] in H8. rewrite Bool.eqb_reflx, Nat.eqb_refl in H8. cbn [andb plus] in H8. lia. }
    assert (AE : all_to E s x (fun d => st s d = WINNING \/ (safety = true /\ d = x) \/ In ((false, x), d) ed)).
    { intros m' HR. destruct (H2 m' HR) as (d & Q1 & Q2 & Q3). exists d. split; auto. split; auto. destruct Q3 as [Q|[Q|[Q|Q]]]; auto. discriminate. }
    rewrite CC. cbn [c_st c_ec c_cc c_wait c_dep]. destruct stc eqn:STC; try discriminate; cbn [is_winning].
    + (* LOSING *)
      assert (AC : st s x = PROCESSED -> has C (mk s x) /\ all_to C s x (fun d => st s d = LOSING \/ (safety = false /\ d = x) \/ In ((true, x), d) ed)).
      { intros P. destruct (H4 P) as (Q1 & Q2 & Q3). split; auto. intros m' HR. destruct (Q3 m' HR) as (d & Q4 & Q5 & Q6). exists d. split; auto. split; auto. destruct Q6 as [Q|[Q|[Q|Q]]]; auto. inversion Q; subst. auto. }
      assert (AM : st s x = MAYBE -> (exists c, In ((false, x), c) ed) /\ ((~ has C (mk s x) /\ has E (mk s x)) \/ some_to C s x (fun c => st s c = WINNING))).
      { intros P. destruct (H3 P) as [[d Q1] Q2]. split; auto. destruct Q1 as [Q1|Q1]; [discriminate|eauto]. }
      destruct OPX as [P|P]; fold (st s x); rewrite P; cbn [is_maybe is_winning orb negb]; rewrite ?andb_true_r, ?andb_false_r.
      * destruct (N.eqb_spec (N.of_nat (cnt true x ed)) 0) as [Z|Z]; cbn [c_st c_ec c_cc c_wait c_dep is_maybe]; rewrite !andb_false_r.
        -- apply MAIN; cbn [c_st c_ec c_cc c_wait c_dep]; auto; try discriminate.
           ++ intros _. right. destruct (AC P) as [Q1 Q2]. split; auto. intros m' HR. destruct (Q2 m' HR) as (d & Q4 & Q5 & Q6). exists d. split; auto. split; auto. destruct Q6 as [Q|[Q|Q]]; auto. exfalso. eapply (cnt_zero true x ed); [lia|eauto].
           ++ intros [K|K]; discriminate.
        -- apply MAIN; cbn [c_st c_ec c_cc c_wait c_dep]; auto; try discriminate. intros _. split; auto. split; [discriminate|]. split.
           { intros _. destruct (AC P) as [Q1 Q2]. split; auto. split; auto. apply cnt_pos. lia. }
           split; auto. split; auto. split; auto. rewrite <- CC. exact CB.
      * cbn [c_st c_ec c_cc c_wait c_dep is_maybe]. destruct (AM P) as [[d Q1] Q2].
        assert (Z : c_ec (cf s x) <> 0%N).
        { rewrite EC. intros Z. eapply (cnt_zero false x ed); [lia|eauto]. }
        destruct (N.eqb_spec (c_ec (cf s x)) 0); [contradiction|]. cbn [andb].
        apply MAIN; cbn [c_st c_ec c_cc c_wait c_dep]; auto; try discriminate. intros _. split; auto. split; [intros _; split; eauto|]. split; [discriminate|].
        split; auto. split; auto. split; auto. rewrite <- CC. exact CB.
    + (* WINNING *)
      assert (SOME : some_to C s x (fun d => st s d = WINNING)) by (exists c; auto).
      destruct (N.eqb_spec (c_ec (cf s x)) 0) as [Z|Z]; cbn [is_maybe is_winning orb negb]; rewrite andb_false_r; cbn [c_st c_ec c_cc c_wait c_dep is_maybe].
      * rewrite !andb_false_r. apply MAIN; cbn [c_st c_ec c_cc c_wait c_dep]; auto; try discriminate.
        -- intros _. split; auto. apply NOE; auto. lia.
        -- intros [K|K]; discriminate.
      * destruct (N.eqb_spec (c_ec (cf s x)) 0); [contradiction|]. cbn [andb].
        apply MAIN; cbn [c_st c_ec c_cc c_wait c_dep]; auto; try discriminate. intros _. split; auto. split.
        { intros _. split; auto. apply cnt_pos. lia. }
        split; [discriminate|]. split; auto. split; auto. split; auto. rewrite <- CC. exact CB.
  - (* an environment edge *)
    assert (EC : dec32 (c_ec (cf s x)) = N.of_nat (cnt false x ed)).
    { rewrite H5 in *. rewrite cnt_cons in *. cbn [fst snd] in *. rewrite Bool.eqb_reflx, Nat.eqb_refl in *. cbn [andb plus] in *. apply dec32_succ. auto. }
    assert (CC : c_cc (cf s x) = N.of_nat (cnt true x ed)) by (rewrite H6, cnt_cons; auto).
    assert (EB : (dec32 (c_ec (cf s x)) < 2 ^ 32)%N).
    { rewrite EC. rewrite H5 in H7. rewrite cnt_cons in H7. cbn [fst snd] in H7. rewrite Bool.eqb_reflx, Nat.eqb_refl in H7. cbn [andb plus] in H7. lia. }
    rewrite EC. cbn [c_st c_ec c_cc c_wait c_dep]. destruct stc eqn:STC; try discriminate; cbn [is_winning is_losing].
    + cbn [is_maybe]. rewrite !andb_false_r. apply MAIN; cbn [c_st c_ec c_cc c_wait c_dep]; auto; try discriminate.
      * intros _. left. exists c. auto.
      * intros [K|K]; discriminate.
    + assert (AE : all_to E s x (fun d => st s d = WINNING \/ (safety = true /\ d = x) \/ In ((false, x), d) ed)).
      { intros m' HR. destruct (H2 m' HR) as (d & Q1 & Q2 & Q3). exists d. split; auto. split; auto. destruct Q3 as [Q|[Q|[Q|Q]]]; auto. inversion Q; subst. auto. }
      assert (AC : st s x = PROCESSED -> has C (mk s x) /\ (exists c, In ((true, x), c) ed) /\ all_to C s x (fun d => st s d = LOSING \/ (safety = false /\ d = x) \/ In ((true, x), d) ed)).
      { intros P. destruct (H4 P) as (Q1 & [d0 Q2] & Q3). split; auto. split; [destruct Q2 as [Q2|Q2]; [discriminate|eauto]|]. intros m' HR. destruct (Q3 m' HR) as (d & Q4 & Q5 & Q6). exists d. split; auto. split; auto. destruct Q6 as [Q|[Q|[Q|Q]]]; auto. discriminate. }
      destruct OPX as [P|P]; fold (st s x); rewrite P; cbn [is_maybe andb]; rewrite ?andb_true_r, ?andb_false_r; cbn [is_maybe andb]; rewrite ?andb_false_r.
      * apply MAIN; cbn [c_st c_ec c_cc c_wait c_dep]; auto; try discriminate. intros _. split; auto. split; [discriminate|]. split; [auto|].
        split; auto. split; auto. split; auto. rewrite <- EC. exact EB.
      * destruct (H3 P) as [_ SM]. destruct (N.eqb_spec (N.of_nat (cnt false x ed)) 0) as [Z|Z]; cbn [c_st c_ec c_cc c_wait c_dep is_maybe andb].
        -- rewrite ?andb_false_r. apply MAIN; cbn [c_st c_ec c_cc c_wait c_dep]; auto; try discriminate.
           ++ intros _. split; auto. apply NOE; auto. lia.
           ++ intros [K|K]; discriminate.
        -- destruct (N.eqb_spec (N.of_nat (cnt false x ed)) 0); [contradiction|]. cbn [andb].
           apply (MAIN (mkCf MAYBE (c_wait (cf s x)) (c_cc (cf s x)) (N.of_nat (cnt false x ed)) (c_dep (cf s x)))); cbn [c_st c_ec c_cc c_wait c_dep]; auto; try discriminate. intros _. split; auto. split.
           { intros _. split; auto. apply cnt_pos. lia. }
           split; [discriminate|]. split; auto. split; auto. split; auto. rewrite <- EC. exact EB.
Qed.
End Inv.
