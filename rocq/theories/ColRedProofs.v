(** Proofs about the removal of dead transitions from coloured nets (C46). *)
From Verif Require Import Base BaseLemmas BuilderModel BuilderSpec CtlFrag ColSyntax ColSpec ColModel ColRadix ColEval ColGen ColUnfold ColRedModel ColRedSpec.

Lemma find_arc_in : forall p l a, find_arc p l = Some a -> In (p, a) l.
Proof.
  unfold find_arc. intros p l a H. destruct (find _ l) as [[q x]|] eqn:E; [|discriminate H]. injection H as <-. apply find_some in E. destruct E as [E1 E2]. cbn [fst snd] in *.
  apply Nat.eqb_eq in E2. subst q. exact E1.
Qed.
Lemma find_arc_none : forall p l, find_arc p l = None <-> ~ In p (map fst l).
Proof.
  unfold find_arc. induction l as [|[q x] l IH]; cbn [find map fst]; [split; auto|]. destruct (Nat.eqb_spec q p) as [->|E].
  - split; [discriminate|]. intros H. exfalso. apply H. left. reflexivity.
  - rewrite IH. split; intros H; [intros [K|K]; auto|intros K; apply H; right; exact K].
Qed.
Section Net.
Variable n : cpn.
Notation tab := (cn_types n).
Notation vars := (cn_vars n).

Lemma moved_none : forall b l p v, ~ In p (map fst l) -> moved n b l p v = 0%N.
Proof.
  intros b l p v H. unfold moved. apply sum_zero. intros [q x] I. cbn [fst snd]. destruct (Nat.eqb_spec q p) as [->|]; auto. exfalso. apply H. apply in_map_iff. exists (p, x). auto.
Qed.
Lemma moved_one : forall b l p v a, one_arc l -> find_arc p l = Some a -> moved n b l p v = mval tab vars b a v.
Proof.
  intros b l p v a. unfold one_arc. induction l as [|[q x] l IH]; intros ND H; [discriminate H|]. inversion ND as [|? ? N1 N2]; subst. unfold find_arc in H. cbn [find fst] in H.
  change (moved n b ((q, x) :: l) p v) with ((if Nat.eqb q p then mval tab vars b x v else 0%N) + moved n b l p v)%N.
  destruct (Nat.eqb_spec q p) as [->|E].
  - injection H as <-. cbn [snd]. rewrite moved_none by exact N1. lia.
  - rewrite IH; auto.
Qed.

Hypothesis OK : cpn_ok n.
Hypothesis ONCE : arcs_once n.
Variable vs : nat -> list nat.
Hypothesis VS : vars_ok n vs.

Lemma sub_true : forall ty m o f g, mrep n ty m f -> mrep n ty o g -> (forall v, vtyped tab ty v -> (f v <= g v)%N) -> sub_or_eq n m o = Ok true.
Proof.
  intros ty m o f g M O H. destruct OK as (T & _). destruct (msub_ok n ty m o f g M O) as (d & E & [Dt Dn Di Dv] & _). unfold sub_or_eq. rewrite E. cbn [bind]. f_equal.
  apply forallb_forall. intros [i k] I. cbn [snd]. apply N.eqb_eq. unfold mids in *. rewrite Forall_forall in Di. assert (L : i < csize tab ty) by (apply Di; apply in_map_iff; exists (i, k); auto).
  specialize (Dv (val_of n ty i) (val_typed n T ty i L)). rewrite num_val in Dv by auto. specialize (H _ (val_typed n T ty i L)).
  assert (K : mlook (snd d) i = k).
  { clear - I Dn. induction (snd d) as [|[j x] l IH]; [destruct I|]. cbn [map fst] in Dn. inversion Dn as [|? ? N1 N2]; subst. cbn [mlook]. destruct (Nat.eqb_spec j i) as [->|E].
    - destruct I as [I|I]; [congruence|]. exfalso. apply N1. apply in_map_iff. exists (i, k). auto.
    - destruct I as [I|I]; [congruence|]. apply IH; auto. }
  lia.
Qed.
Lemma enables_loop_true : forall a mk bs b r m, In b bs -> evaluate tab (cn_map n) vars b a = Ok m -> sub_or_eq n m mk = Ok true -> enables_loop n a mk bs = Ok r -> r = true.
Proof.
  intros a mk. induction bs as [|x bs IH]; intros b r m I E S H; [destruct I|]. cbn [enables_loop] in H. apply bindR in H. destruct H as (m' & H1 & H). apply bindR in H. destruct H as (e & H2 & H).
  destruct e; [congruence|]. destruct I as [->|I]; [congruence|]. eapply IH; eauto.
Qed.
Lemma tr_of_some : forall t tr, nth_error (cn_trs n) t = Some tr -> tr_of n t = tr.
Proof. intros t tr H. unfold tr_of. apply nth_error_nth. exact H. Qed.
Lemma enables_right : forall t tr p pl i mk b e, nth_error (cn_trs n) t = Some tr -> find_arc p (ct_in tr) = Some i -> nth_error (cn_pls n) p = Some pl -> marking n pl = Ok mk ->
  binds n b -> (forall g, ct_guard tr = Some g -> gval tab vars b g = true) -> (forall v, (mval tab vars b i v <= cinit n p v)%N) -> enables vs n i mk t = Ok e -> e = true.
Proof.
  intros t tr p pl i mk b e HT HI HP HM HB HG HL HE. pose proof OK as (T & TV & _ & TR & _). destruct (VS _ _ HT) as [V1 V2]. destruct (TR _ _ HT) as (G & AI & _).
  unfold enables in HE. apply bindR in HE. destruct HE as (bs & E1 & E2). rewrite (tr_of_some _ _ HT) in E1.
  assert (GI : forall g, ct_guard tr = Some g -> gtyped n g /\ incl (gvars g) (vs t)).
  { intros g K. split; [auto|]. intros v I. apply V1. unfold tvars. rewrite K. apply in_or_app. auto. }
  destruct (naive_bindings_ok n T TV (vs t) V2 (ct_guard tr) GI) as (bs' & B1 & _ & B2). rewrite E1 in B1. injection B1 as <-.
  destruct (B2 b HB HG) as (bm & I & R). pose proof (find_arc_in _ _ _ HI) as IA. rewrite Forall_forall in AI. destruct (AI _ IA) as (pl' & P1 & P2 & P3). cbn [fst snd] in *. rewrite HP in P1. injection P1 as <-.
  assert (R' : brel n bm b (avars i)).
  { eapply brel_incl; [exact R|]. intros v K. apply V1. unfold tvars. apply in_or_app. right. apply in_or_app. left. apply in_flat_map. exists (p, i). auto. }
  destruct (evaluate_ok n T i (cp_type pl) bm b P2 R' P3) as (m & M1 & M2 & _).
  destruct (marking_ok n OK p pl HP) as (mk' & K1 & K2 & _). rewrite HM in K1. injection K1 as <-. assert (PT : ptype n p = cp_type pl) by (unfold ptype; rewrite HP; reflexivity). rewrite PT in K2.
  eapply enables_loop_true; [exact I|exact M1| |exact E2]. eapply sub_true; [exact M2|exact K2|]. intros v _. apply HL.
Qed.

(** ** The tally *)
Variable same subset : aexp -> aexp -> bool.
Hypothesis SAME : same_ok n same.

(** A transition never puts more on the place than it takes, or the arc from the place is
    not enabled in the beginning. *)
Definition harmless (p : nat) (ne : list nat) (t : nat) : Prop :=
  In t ne \/ forall b v, (moved n b (ct_out (tr_of n t)) p v <= moved n b (ct_in (tr_of n t)) p v)%N.
Lemma tally_mono : forall p mk cs ok ne ne' ok', tally same subset vs n p mk cs ok ne = Ok (ok', ne') -> (ok' = true -> ok = true) /\ (forall t, In t ne -> In t ne') /\
  length ne' <= length ne + length cs /\ (length ne' = length ne + length cs -> ne' = ne ++ cs) /\ (forall t, In t ne' -> In t ne \/ In t cs).
Proof.
  intros p mk. induction cs as [|t cs IH]; intros ok ne ne' ok' H; cbn [tally] in H.
  - injection H as -> ->. cbn [length]. rewrite app_nil_r. repeat split; auto; lia.
  - destruct (find_arc p (ct_in (tr_of n t))) as [i|]; [|discriminate H].
    assert (STOP : Ok (false, ne) = Ok (ok', ne') -> (ok' = true -> ok = true) /\ (forall t, In t ne -> In t ne') /\
      length ne' <= length ne + length (t :: cs) /\ (length ne' = length ne + length (t :: cs) -> ne' = ne ++ t :: cs) /\ (forall u, In u ne' -> In u ne \/ In u (t :: cs))).
    { intros K. injection K as <- <-. cbn [length]. repeat split; auto; try discriminate; lia. }
    assert (GO : forall okk, (okk = true -> ok = true) -> tally same subset vs n p mk cs okk ne = Ok (ok', ne') -> (ok' = true -> ok = true) /\ (forall t, In t ne -> In t ne') /\
      length ne' <= length ne + length (t :: cs) /\ (length ne' = length ne + length (t :: cs) -> ne' = ne ++ t :: cs) /\ (forall u, In u ne' -> In u ne \/ In u (t :: cs))).
    { intros okk KO K. destruct (IH _ _ _ _ K) as (I1 & I2 & I3 & I4 & I5). cbn [length]. repeat split; auto; try lia. intros u J. destruct (I5 u J); auto. right. right. auto. }
    destruct (_ && _); [auto|]. destruct (_ <? _)%N; [apply (GO false); [discriminate|exact H]|]. apply bindR in H. destruct H as (e & _ & H). destruct e.
    + destruct (find_arc p (ct_out (tr_of n t))) as [o|]; [destruct (_ || _)|]; auto; apply (GO ok); auto.
    + destruct (IH _ _ _ _ H) as (I1 & I2 & I3 & I4 & I5). rewrite app_length in I3, I4. cbn [length] in *. repeat split; auto.
      * intros u J. apply I2. apply in_or_app. auto.
      * lia.
      * intros K. rewrite I4 by lia. rewrite <- app_assoc. reflexivity.
      * intros u J. destruct (I5 u J) as [K|K]; [|right; right; auto]. apply in_app_or in K. destruct K as [K|[->|[]]]; auto. right. left. reflexivity.
Qed.
Lemma tally_in : forall p pl mk, nth_error (cn_pls n) p = Some pl -> marking n pl = Ok mk -> forall cs ok ne ne', tally same subset vs n p mk cs ok ne = Ok (true, ne') ->
  (forall t, In t cs -> harmless p ne' t) /\
  (forall t tr, In t ne' -> ~ In t ne -> nth_error (cn_trs n) t = Some tr -> exists i, find_arc p (ct_in tr) = Some i /\ enables vs n i mk t = Ok false).
Proof.
  intros p pl mk HP HM. induction cs as [|t cs IH]; intros ok ne ne' H.
  - cbn [tally] in H. injection H as -> ->. split; [intros t []|]. intros t tr I J. contradiction.
  - pose proof (tally_mono _ _ _ _ _ _ _ H) as (_ & TM & _). cbn [tally] in H. destruct (find_arc p (ct_in (tr_of n t))) as [i|] eqn:EI; [|discriminate H].
    destruct (_ && _); [discriminate H|]. destruct (_ <? _)%N; [destruct (tally_mono _ _ _ _ _ _ _ H) as (K & _); discriminate (K eq_refl)|].
    apply bindR in H. destruct H as (e & EN & H).
    destruct e.
    + assert (GO : tally same subset vs n p mk cs ok ne = Ok (true, ne') ->
        (forall b v, (moved n b (ct_out (tr_of n t)) p v <= moved n b (ct_in (tr_of n t)) p v)%N) ->
        (forall u, In u (t :: cs) -> harmless p ne' u) /\
        (forall u tr, In u ne' -> ~ In u ne -> nth_error (cn_trs n) u = Some tr -> exists i, find_arc p (ct_in tr) = Some i /\ enables vs n i mk u = Ok false)).
      { intros K KL. destruct (IH _ _ _ K) as [I1 I2]. split; [|exact I2]. intros u [<-|J]; [right; exact KL|apply I1; exact J]. }
      destruct (find_arc p (ct_out (tr_of n t))) as [o|] eqn:EO.
      * destruct (subset i o); cbn [orb] in H; [discriminate H|]. destruct (same o i) eqn:ES; cbn [negb] in H; [|discriminate H]. apply GO; auto. intros b v.
        assert (TI : one_arc (ct_in (tr_of n t)) /\ one_arc (ct_out (tr_of n t))).
        { unfold tr_of. destruct (nth_error (cn_trs n) t) as [tr|] eqn:ET; [rewrite (nth_error_nth _ _ _ ET); eapply ONCE; eauto|].
          apply nth_error_None in ET. rewrite nth_overflow by exact ET. split; constructor. }
        rewrite (moved_one b _ p v o (proj2 TI) EO), (moved_one b _ p v i (proj1 TI) EI). rewrite (SAME _ _ ES b v). lia.
      * apply GO; auto. intros b v. rewrite moved_none by (apply find_arc_none; exact EO). lia.
    + destruct (IH _ _ _ H) as [I1 I2]. split.
      * intros u [<-|J]; [left; apply (proj1 (proj2 (tally_mono _ _ _ _ _ _ _ H))); apply in_or_app; right; left; reflexivity|apply I1; exact J].
      * intros u tr J NJ ET. destruct (Nat.eq_dec u t) as [->|NE].
        -- exists i. rewrite (tr_of_some _ _ ET) in EI. auto.
        -- apply (I2 u tr J); auto. intros K. apply in_app_or in K. destruct K as [K|[K|[]]]; auto.
Qed.

(** ** The transitions found are dead *)
Lemma tr_of_in : forall t, t < length (cn_trs n) -> nth_error (cn_trs n) t = Some (tr_of n t).
Proof. intros t H. unfold tr_of. apply nth_error_nth'. exact H. Qed.
Lemma dead_right : forall sk ps p pl mk ne ok, nth_error (cn_pls n) p = Some pl -> marking n pl = Ok mk ->
  (forall t, In t (producers n p) -> In t (consumers n p)) ->
  tally same subset vs n p mk (consumers n p) ok [] = Ok (true, ne) ->
  forall M, rreach (mkR n sk ps) M -> (forall v, (M p v <= cinit n p v)%N) /\ forall t M', In t ne -> ~ cstep n M t M'.
Proof.
  intros sk ps p pl mk ne ok HP HM PC HT. destruct (tally_in p pl mk HP HM _ _ _ _ HT) as [T1 T2].
  assert (D : forall M t M', (forall v, (M p v <= cinit n p v)%N) -> In t ne -> ~ cstep n M t M').
  { intros M t M' L I (tr & b & ET & (B1 & B2 & B3 & _) & _). destruct (T2 t tr I (fun x => x) ET) as (i & EI & EN).
    assert (K : false = true); [|discriminate K]. eapply enables_right; [exact ET|exact EI|exact HP|exact HM|exact B1|exact B2| |exact EN].
    intros v. rewrite <- (moved_one b (ct_in tr) p v i (proj1 (ONCE _ _ ET)) EI). etransitivity; [apply B3|apply L]. }
  assert (L : forall M, rreach (mkR n sk ps) M -> forall v, (M p v <= cinit n p v)%N).
  { intros M R. induction R as [M E|M t M' R IH [_ S]]; intros v.
    - rewrite E. cbn [r_net]. lia.
    - cbn [r_net] in S. destruct S as (tr & b & ET & EN & EM). rewrite EM. pose proof (nth_error_lt _ _ ET) as LT.
      destruct (in_dec Nat.eq_dec t (consumers n p)) as [C|C].
      + destruct (T1 t C) as [H|H].
        * exfalso. apply (D M t M' IH H). exists tr, b. auto.
        * rewrite (tr_of_some _ _ ET) in H. specialize (H b v). specialize (IH v). destruct EN as (_ & _ & EN & _). specialize (EN p v). lia.
      + assert (C2 : ~ In t (producers n p)) by auto. unfold producers in C2. rewrite filter_In in C2. rewrite (tr_of_some _ _ ET) in C2.
        rewrite (moved_none b (ct_out tr)); [specialize (IH v); lia|]. intros K. apply C2. split; [apply in_seq; lia|].
        destruct (find_arc p (ct_out tr)) eqn:F; auto. apply find_arc_none in F. contradiction. }
  intros M R. split; [apply L; exact R|]. intros t M' I. apply D; auto.
Qed.
End Net.
