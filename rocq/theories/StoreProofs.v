From Verif Require Import Base BaseLemmas NetSpec EncoderModel EncoderProofs EncoderMain StoreModel StoreSpec.
Set Implicit Arguments.

Definition mark_ok (places : nat) (m : marking) : Prop :=
  length m = places /\ forall v, In v m -> (v < 2 ^ 32)%N.

Definition zpad (places : nat) : list N := repeat 0%N (pad_size places).
(** The key of a marking. *)
Definition key_of (m : marking) : list N :=
  match encode_marking (zpad (length m)) m with Ok r => firstn (snd r) (fst r) | _ => [] end.

Lemma encode_pad : forall pad1 pad2 m, length pad1 = length pad2 ->
  encode_marking pad1 m = encode_marking pad2 m.
Proof. intros pad1 pad2 m H. unfold encode_marking, encode. rewrite H. reflexivity. Qed.

Lemma key_spec : forall places m pad, mark_ok places m -> (N.of_nat places < 2 ^ 32)%N ->
  length pad = pad_size places ->
  exists post, encode_marking pad m = Ok (key_of m ++ post, length (key_of m)) /\
    length (key_of m ++ post) = pad_size places /\
    0 < length (key_of m) <= 1 + 4 * places /\
    forall rest, decode places (key_of m ++ rest) = Ok m.
Proof.
  intros places m pad (Hl & Hv) Hp Hpad. subst places.
  destruct (@encode_roundtrip (zpad (length m)) m) as (enc & post & E & L & B & D); auto.
  { apply repeat_length. }
  assert (K : key_of m = enc).
  { unfold key_of. rewrite E. cbn [fst snd]. rewrite firstn_app, Nat.sub_diag, firstn_all, firstn_O, app_nil_r. reflexivity. }
  exists post. rewrite K. rewrite (encode_pad pad (zpad (length m))).
  - split; [exact E|]. split; [rewrite L; apply repeat_length|]. split; [exact B|].
    intros rest. apply D.
  - unfold zpad. rewrite repeat_length. exact Hpad.
Qed.

Lemma key_inj : forall places m1 m2, (N.of_nat places < 2 ^ 32)%N ->
  mark_ok places m1 -> mark_ok places m2 -> key_of m1 = key_of m2 -> m1 = m2.
Proof.
  intros places m1 m2 Hp H1 H2 E.
  destruct (@key_spec places m1 (zpad places) H1 Hp) as (_ & _ & _ & _ & D1); [apply repeat_length|].
  destruct (@key_spec places m2 (zpad places) H2 Hp) as (_ & _ & _ & _ & D2); [apply repeat_length|].
  specialize (D1 []). specialize (D2 []). rewrite E in D1. congruence.
Qed.

Lemma bytes_eqb_spec : forall a b, bytes_eqb a b = true <-> a = b.
Proof.
  induction a as [|x a IH]; intros [|y b]; simpl; split; intros H; try discriminate; auto.
  - apply andb_true_iff in H. destruct H as [H1 H2]. apply N.eqb_eq in H1. apply IH in H2. congruence.
  - injection H as -> ->. rewrite N.eqb_refl. apply IH; reflexivity.
Qed.

Lemma trie_find_pos : forall places m l, (N.of_nat places < 2 ^ 32)%N ->
  mark_ok places m -> (forall x, In x l -> mark_ok places x) ->
  trie_find (key_of m) (map key_of l) = position m l.
Proof.
  intros places m l Hp Hm; induction l as [|x l IH]; intros Hl; simpl; [reflexivity|].
  destruct (mark_eq_dec m x) as [<-|Hne].
  - replace (bytes_eqb (key_of m) (key_of m)) with true by (symmetry; apply bytes_eqb_spec; reflexivity). reflexivity.
  - destruct (bytes_eqb (key_of m) (key_of x)) eqn:E.
    + exfalso. apply Hne. apply bytes_eqb_spec in E.
      exact (@key_inj places m x Hp Hm (Hl x (or_introl eq_refl)) E).
    + rewrite IH by (intros y Hy; apply Hl; right; exact Hy). destruct (position m l); reflexivity.
Qed.

Lemma position_some : forall m l i, position m l = Some i -> nth_error l i = Some m.
Proof.
  intros m; induction l as [|x l IH]; intros i H; simpl in H; [discriminate|].
  destruct (mark_eq_dec m x) as [->|]; [injection H as <-; reflexivity|].
  destruct (position m l); [|discriminate]. injection H as <-. simpl. apply IH; reflexivity.
Qed.
Lemma position_none : forall m l, position m l = None <-> ~ In m l.
Proof.
  intros m; induction l as [|x l IH]; simpl; [tauto|].
  destruct (mark_eq_dec m x) as [->|Hne].
  - split; [discriminate|tauto].
  - destruct (position m l); simpl; split; intros H; try discriminate.
    + exfalso. assert (Hx : Some n = None) by (apply IH; tauto). discriminate.
    + intros [->|Hi]; [tauto|]. apply IH; auto.
    + reflexivity.
Qed.

Lemma max_zip_length : forall a b, length a = length b -> length (max_zip a b) = length b.
Proof.
  induction a as [|x a IH]; intros [|y b] H; simpl in *; try discriminate; auto.
Qed.
Lemma max_zip_nth : forall a b p, length a = length b ->
  nth p (max_zip a b) 0%N = N.max (nth p a 0%N) (nth p b 0%N).
Proof.
  induction a as [|x a IH]; intros [|y b] p H; simpl in *; try discriminate.
  - destruct p; reflexivity.
  - destruct p; [reflexivity|]. apply IH; congruence.
Qed.

Lemma peak_app : forall l m p, peak (l ++ [m]) p = N.max (tokens m p) (peak l p).
Proof.
  induction l as [|x l IH]; intros m p; simpl; [reflexivity|]. rewrite IH. lia.
Qed.

(** The representation relation. *)
Record repr (places : nat) (k : N) (s : store) (a : aset) : Prop := {
  rp_places : ss_places s = places;
  rp_k : ss_kbound s = k;
  rp_pad : length (ss_pad s) = pad_size places;
  rp_trie : ss_trie s = map key_of (as_marks a);
  rp_marks : forall m, In m (as_marks a) -> mark_ok places m;
  rp_nodup : NoDup (as_marks a);
  rp_hist : forall i, i < length (as_marks a) -> nth_error (ss_hist s) i = Some (as_hist a i);
  rp_hlen : length (ss_hist s) = length (as_marks a);
  rp_hnone : forall i, length (as_marks a) <= i -> as_hist a i = None;
  rp_last : ss_parent s = as_last a;
  rp_peak : ss_maxtok s = as_peak a;
  rp_blen : length (ss_bound s) = places;
  rp_bound : forall p, p < places -> nth p (ss_bound s) 0%N = peak (as_marks a) p
}.

Lemma repr_new : forall places k, repr places k (store_new places k) aset_empty.
Proof.
  intros places k. unfold store_new, aset_empty. constructor;
    cbn [ss_places ss_kbound ss_pad ss_trie ss_hist ss_parent ss_maxtok ss_bound as_marks as_hist as_last as_peak];
    auto; try (intros; simpl in *; lia); try (intros ? Hc; contradiction Hc).
  - apply repeat_length.
  - constructor.
  - apply repeat_length.
  - intros p Hp. cbn [peak fold_right]. rewrite nth_repeat. reflexivity.
Qed.

Lemma stats_sum : forall m, st_sum (marking_stats m) = total32 m.
Proof. intros m. destruct (stats_spec m) as (_ & _ & _ & _ & H). exact H. Qed.

Definition too_big (m : marking) : Prop := (65535 <= N.of_nat (length (key_of m)) * 8)%N.

Lemma store_op_refines : forall places k s a o, (N.of_nat places < 2 ^ 32)%N ->
  repr places k s a -> op_ok places o ->
  (exists m, o = SAdd m /\ too_big m /\ store_op s o = Throw) \/
  match aset_op places k a o with
  | Ok (a', r) => exists s', store_op s o = Ok (s', r) /\ repr places k s' a'
  | UB => store_op s o = UB
  | _ => False
  end.
Proof.
  intros places k s a o Hp R Hop. destruct o as [m|m|id|id t|id| | |]; simpl in Hop; cbn [aset_op store_op].
  - (* add *)
    unfold store_add. rewrite stats_sum, (rp_k R). unfold over_bound.
    destruct (negb (k =? 0)%N && (k <? total32 m)%N) eqn:Hk.
    + right. eexists. split; [reflexivity|]. destruct R; constructor; simpl; auto. rewrite rp_peak0; reflexivity.
    + destruct (@key_spec places m (ss_pad s) Hop Hp (rp_pad R)) as (post & E & L & B & D).
      rewrite E. cbn [bind fst snd].
      destruct (N.leb_spec 65535 (N.of_nat (length (key_of m)) * 8)) as [Hb|Hb].
      { left. exists m. split; [reflexivity|]. split; [exact Hb|reflexivity]. }
      right. rewrite firstn_app, Nat.sub_diag, firstn_all, firstn_O, app_nil_r.
      rewrite (rp_trie R), (@trie_find_pos places m (as_marks a) Hp Hop (rp_marks R)).
      destruct (position m (as_marks a)) as [i|] eqn:Ep.
      * eexists. split; [reflexivity|]. destruct R; constructor; simpl; auto.
        rewrite rp_peak0; reflexivity.
      * cbn [bind fst snd]. rewrite map_length. eexists. split; [reflexivity|]. apply position_none in Ep.
        destruct R; constructor; simpl; auto.
        -- rewrite map_app. reflexivity.
        -- intros x Hx. apply in_app_or in Hx. destruct Hx as [Hx|[<-|[]]]; auto.
        -- apply NoDup_rev in rp_nodup0. rewrite <- (rev_involutive (as_marks a ++ [m])). apply NoDup_rev.
           rewrite rev_app_distr. simpl. constructor; [|exact rp_nodup0]. rewrite <- in_rev. exact Ep.
        -- intros i Hi. rewrite app_length in Hi; simpl in Hi.
           destruct (Nat.lt_ge_cases i (length (as_marks a))) as [Hlt|Hge].
           ++ rewrite nth_error_app1 by lia. auto.
           ++ assert (i = length (ss_hist s)) as -> by lia.
              rewrite nth_error_app2, Nat.sub_diag by lia. simpl. rewrite rp_hnone0 by lia. reflexivity.
        -- rewrite !app_length; simpl; lia.
        -- intros i Hi. apply rp_hnone0. rewrite app_length in Hi; simpl in Hi; lia.
        -- rewrite rp_peak0; reflexivity.
        -- rewrite max_zip_length; [exact rp_blen0|]. destruct Hop. congruence.
        -- intros p Hpp. rewrite max_zip_nth by (destruct Hop; congruence).
           rewrite rp_bound0, peak_app by exact Hpp. reflexivity.
  - (* lookup *)
    right. unfold store_lookup.
    destruct (@key_spec places m (ss_pad s) Hop Hp (rp_pad R)) as (post & E & L & B & D).
    rewrite E. cbn [bind fst snd].
    rewrite firstn_app, Nat.sub_diag, firstn_all, firstn_O, app_nil_r.
    rewrite (rp_trie R), (@trie_find_pos places m (as_marks a) Hp Hop (rp_marks R)).
    destruct (position m (as_marks a)); eexists; (split; [reflexivity|]); destruct R; constructor; simpl; auto.
  - (* decode *)
    right. unfold store_decode, rd. rewrite (rp_trie R), nth_error_map.
    destruct (nth_error (as_marks a) id) as [m|] eqn:En; simpl; [|reflexivity].
    assert (Hm : mark_ok places m) by (apply (rp_marks R); eapply nth_error_In; exact En).
    destruct (@key_spec places m (ss_pad s) Hm Hp (rp_pad R)) as (post & E & L & B & D).
    rewrite app_length in L. rewrite (rp_pad R).
    destruct (Nat.leb_spec (length (key_of m)) (pad_size places)); [|lia].
    rewrite (rp_places R), D. cbn [bind fst snd]. eexists. split; [reflexivity|].
    destruct R; constructor; simpl; auto. rewrite app_length, skipn_length. lia.
  - (* set history *)
    right. unfold store_set_history.
    destruct (Nat.ltb_spec id (length (as_marks a))) as [Hi|Hi].
    + rewrite wr_ok by (rewrite (rp_hlen R); exact Hi). cbn [bind]. eexists. split; [reflexivity|].
      destruct R; constructor; simpl; auto.
      * intros i Hlt. destruct (Nat.eqb_spec i id) as [->|Hne].
        -- rewrite nth_error_upd_eq by lia. congruence.
        -- rewrite nth_error_upd_neq by congruence. auto.
      * rewrite upd_length. exact rp_hlen0.
      * intros i Hge. destruct (Nat.eqb_spec i id); [lia|auto].
    + unfold wr. destruct (Nat.ltb_spec id (length (ss_hist s))); [rewrite (rp_hlen R) in *; lia|reflexivity].
  - (* get history *)
    right. unfold store_get_history, rd.
    destruct (Nat.ltb_spec id (length (as_marks a))) as [Hi|Hi].
    + rewrite (rp_hist R Hi). cbn [bind]. destruct (as_hist a id); [|reflexivity].
      eexists; split; [reflexivity|exact R].
    + assert (E : nth_error (ss_hist s) id = None) by (apply nth_error_None; rewrite (rp_hlen R); exact Hi).
      rewrite E. reflexivity.
  - right. eexists. split; [|exact R]. rewrite (rp_trie R), map_length. reflexivity.
  - right. eexists. split; [|exact R]. do 3 f_equal.
    apply (list_eq_nth 0%N).
    + rewrite map_length, seq_length. exact (rp_blen R).
    + intros i Hi. rewrite (rp_blen R) in Hi. rewrite (rp_bound R) by exact Hi.
      rewrite (nth_indep _ 0%N (peak (as_marks a) 0)) by (rewrite map_length, seq_length; exact Hi).
      rewrite map_nth. rewrite seq_nth by exact Hi. reflexivity.
  - right. eexists. split; [|exact R]. rewrite (rp_peak R). reflexivity.
Qed.

Lemma aset_op_cases : forall places k a o, 
  (exists r, aset_op places k a o = Ok r) \/ aset_op places k a o = UB.
Proof.
  intros places k a o. destruct o; simpl; eauto.
  - destruct (over_bound k m); eauto. destruct (position m (as_marks a)); eauto.
  - destruct (position m (as_marks a)); eauto.
  - destruct (nth_error (as_marks a) id); eauto.
  - destruct (id <? length (as_marks a)); eauto.
  - destruct (if id <? length (as_marks a) then as_hist a id else None); eauto.
Qed.

Lemma key_small : forall places m, (N.of_nat places < 2 ^ 32)%N -> mark_ok places m -> too_big m -> 2047 < places.
Proof.
  intros places m Hp Hm Hb.
  destruct (@key_spec places m (zpad places) Hm Hp) as (post & E & L & B & D); [apply repeat_length|].
  unfold too_big in Hb. lia.
Qed.

Theorem store_refines : forall places k l s a, (N.of_nat places < 2 ^ 32)%N ->
  repr places k s a -> (forall o, In o l -> op_ok places o) ->
  (store_ops s l = Throw /\ exists m, In (SAdd m) l /\ too_big m) \/
  match aset_ops places k a l with
  | Ok (a', r) => exists s', store_ops s l = Ok (s', r) /\ repr places k s' a'
  | UB => store_ops s l = UB
  | _ => False
  end.
Proof.
  intros places k; induction l as [|o l IH]; intros s a Hp R Hl; cbn [store_ops aset_ops].
  - right. exists s. split; [reflexivity|exact R].
  - destruct (@store_op_refines places k s a o Hp R (Hl o (or_introl eq_refl))) as [(m & -> & Hb & E)|H].
    + left. rewrite E. split; [reflexivity|]. exists m. split; [left; reflexivity|exact Hb].
    + destruct (aset_op places k a o) as [[a' r]| | |] eqn:E; try contradiction.
      * destruct H as (s' & E' & R'). rewrite E'. cbn [bind fst snd].
        destruct (IH s' a' Hp R') as [(E2 & m & Hi & Hb)|H2]; [intros x Hx; apply Hl; right; exact Hx| |].
        -- left. rewrite E2. split; [reflexivity|]. exists m. split; [right; exact Hi|exact Hb].
        -- right. destruct (aset_ops places k a' l) as [[a2 r2]| | |]; cbn [bind fst snd]; try contradiction.
           ++ destruct H2 as (s2 & E2 & R2). rewrite E2. cbn [bind fst snd]. exists s2. split; [reflexivity|exact R2].
           ++ rewrite H2. reflexivity.
      * right. cbn [bind]. rewrite H. reflexivity.
Qed.

Lemma aset_ops_cases : forall places k l a,
  (exists r, aset_ops places k a l = Ok r) \/ aset_ops places k a l = UB.
Proof.
  intros places k; induction l as [|o l IH]; intros a; cbn [aset_ops]; [left; eauto|].
  destruct (aset_op_cases places k a o) as [(x & ->)| ->]; cbn [bind]; [|right; reflexivity].
  destruct (IH (fst x)) as [(y & ->)| ->]; cbn [bind]; [left; eauto|right; reflexivity].
Qed.

Theorem store_correct : forall places k l, (N.of_nat places < 2 ^ 32)%N ->
  (forall o, In o l -> op_ok places o) ->
  (store_ops (store_new places k) l = Throw /\ 2047 < places) \/
  (store_ops (store_new places k) l = UB /\ aset_ops places k aset_empty l = UB) \/
  exists s' a' r, store_ops (store_new places k) l = Ok (s', r) /\ aset_ops places k aset_empty l = Ok (a', r).
Proof.
  intros places k l Hp Hl.
  destruct (@store_refines places k l _ _ Hp (repr_new places k) Hl) as [(E & m & Hi & Hb)|H].
  - left. split; [exact E|]. exact (@key_small places m Hp (Hl _ Hi) Hb).
  - right. destruct (aset_ops_cases places k l aset_empty) as [((a & r) & E)|E]; rewrite E in *.
    + destruct H as (s' & H & _). right; eauto.
    + left; auto.
Qed.

(** What the specification guarantees: stored markings never repeat and are never
    changed or renumbered. *)
Lemma aset_op_grows : forall places k a o a' r, aset_op places k a o = Ok (a', r) ->
  exists t, as_marks a' = as_marks a ++ t.
Proof.
  intros places k a o a' r H. destruct o; simpl in H.
  - destruct (over_bound k m); [injection H as <- <-; exists []; simpl; rewrite app_nil_r; reflexivity|].
    destruct (position m (as_marks a)); injection H as <- <-; simpl; [exists []; rewrite app_nil_r; reflexivity|eauto].
  - destruct (position m (as_marks a)); injection H as <- <-; exists []; rewrite app_nil_r; reflexivity.
  - destruct (nth_error (as_marks a) id); [|discriminate]. injection H as <- <-; exists []; simpl; rewrite app_nil_r; reflexivity.
  - destruct (id <? length (as_marks a)); [|discriminate]. injection H as <- <-; exists []; simpl; rewrite app_nil_r; reflexivity.
  - destruct (if id <? length (as_marks a) then as_hist a id else None); [|discriminate].
    injection H as <- <-; exists []; rewrite app_nil_r; reflexivity.
  - injection H as <- <-; exists []; rewrite app_nil_r; reflexivity.
  - injection H as <- <-; exists []; rewrite app_nil_r; reflexivity.
  - injection H as <- <-; exists []; rewrite app_nil_r; reflexivity.
Qed.

Lemma aset_ops_app : forall places k l1 l2 a,
  aset_ops places k a (l1 ++ l2) =
  (r <- aset_ops places k a l1 ;; r' <- aset_ops places k (fst r) l2 ;; Ok (fst r', snd r ++ snd r')).
Proof.
  intros places k; induction l1 as [|o l1 IH]; intros l2 a; cbn [aset_ops bind app fst snd].
  - destruct (aset_ops places k a l2) as [[? ?]| | |]; reflexivity.
  - destruct (aset_op places k a o) as [[a1 r1]| | |]; cbn [bind fst snd]; try reflexivity.
    rewrite IH. destruct (aset_ops places k a1 l1) as [[a2 r2]| | |]; cbn [bind fst snd]; try reflexivity.
    destruct (aset_ops places k a2 l2) as [[a3 r3]| | |]; reflexivity.
Qed.

Lemma aset_ops_grows : forall places k l a a' r, aset_ops places k a l = Ok (a', r) ->
  exists t, as_marks a' = as_marks a ++ t.
Proof.
  intros places k; induction l as [|o l IH]; intros a a' r H; cbn [aset_ops] in H.
  - injection H as <- <-. exists []. rewrite app_nil_r. reflexivity.
  - destruct (aset_op places k a o) as [[a1 r1]| | |] eqn:E; cbn [bind fst snd] in H; try discriminate.
    destruct (aset_ops places k a1 l) as [[a2 r2]| | |] eqn:E2; cbn [bind fst snd] in H; try discriminate.
    injection H as <- <-. destruct (aset_op_grows _ _ _ _ E) as (t1 & H1). destruct (IH _ _ _ E2) as (t2 & H2).
    exists (t1 ++ t2). rewrite H2, H1, app_assoc. reflexivity.
Qed.

(** What a client of the store can rely on, in terms of the calls themselves. *)
Theorem store_ids_stable : forall places k l1 l2 s r id m, (N.of_nat places < 2 ^ 32)%N ->
  (forall o, In o (l1 ++ l2) -> op_ok places o) ->
  store_ops (store_new places k) (l1 ++ [SAdd m] ++ l2) = Ok (s, r) ->
  op_ok places (SAdd m) ->
  (exists b, nth_error r (length l1) = Some (OAdd (b, Some id))) ->
  exists s1 s2,
    store_op s (SDecode id) = Ok (s1, ODecode m) /\
    store_op s (SLookup m) = Ok (s2, OLookup (true, Some id)).
Proof.
  intros places k l1 l2 s r id m Hp Hl E Hm (b & Hn).
  assert (Hl' : forall o, In o (l1 ++ [SAdd m] ++ l2) -> op_ok places o).
  { intros o Ho. rewrite !in_app_iff in Ho. destruct Ho as [Ho|[[<-|[]]|Ho]]; [apply Hl|exact Hm|apply Hl]; rewrite in_app_iff; auto. }
  destruct (@store_refines places k _ _ _ Hp (repr_new places k) Hl') as [(E' & _)|H]; [congruence|].
  destruct (aset_ops places k aset_empty (l1 ++ [SAdd m] ++ l2)) as [[a ra]| | |] eqn:Ea; try contradiction; [|congruence].
  destruct H as (s' & H & R). rewrite E in H. injection H as <- <-.
  rewrite aset_ops_app in Ea. destruct (aset_ops places k aset_empty l1) as [[a1 r1]| | |] eqn:E1; cbn [bind fst snd] in Ea; try discriminate.
  rewrite aset_ops_app in Ea.
  assert (L1 : length r1 = length l1).
  { clear - E1. revert E1. generalize aset_empty as a0. revert a1 r1. induction l1 as [|o l1 IH]; intros a1 r1 a0 E1; cbn [aset_ops] in E1.
    - injection E1 as <- <-. reflexivity.
    - destruct (aset_op places k a0 o) as [[a2 r2]| | |]; cbn [bind fst snd] in E1; try discriminate.
      destruct (aset_ops places k a2 l1) as [[a3 r3]| | |] eqn:E3; cbn [bind fst snd] in E1; try discriminate.
      injection E1 as <- <-. simpl. f_equal. eauto. }
  destruct (aset_ops places k a1 [SAdd m]) as [[a2 r2]| | |] eqn:E2; cbn [bind fst snd] in Ea; try discriminate.
  destruct (aset_ops places k a2 l2) as [[a3 r3]| | |] eqn:E3; cbn [bind fst snd] in Ea; try discriminate.
  injection Ea as <- <-.
  rewrite nth_error_app2, L1, Nat.sub_diag in Hn by lia.
  cbn [aset_ops] in E2. destruct (aset_op places k a1 (SAdd m)) as [[a4 r4]| | |] eqn:E4; cbn [bind fst snd] in E2; try discriminate.
  injection E2 as <- <-. simpl in Hn. injection Hn as ->.
  assert (Hat : nth_error (as_marks a4) id = Some m).
  { cbn [aset_op] in E4. destruct (over_bound k m); [congruence|].
    destruct (position m (as_marks a1)) eqn:Ep; injection E4 as <- ? ?; subst; cbn [as_marks].
    - apply position_some in Ep. exact Ep.
    - rewrite nth_error_app2, Nat.sub_diag by lia. reflexivity. }
  destruct (aset_ops_grows _ _ _ _ E3) as (t & Ht).
  assert (Hat3 : nth_error (as_marks a3) id = Some m).
  { rewrite Ht, nth_error_app1; [exact Hat|]. apply nth_error_Some. congruence. }
  destruct (@store_op_refines places k s a3 (SDecode id) Hp R I) as [(? & ? & _)|H1]; [discriminate|].
  cbn [aset_op] in H1. rewrite Hat3 in H1. destruct H1 as (s1 & H1 & _).
  destruct (@store_op_refines places k s a3 (SLookup m) Hp R Hm) as [(? & ? & _)|H2]; [discriminate|].
  cbn [aset_op] in H2.
  assert (Hpos : position m (as_marks a3) = Some id).
  { destruct (position m (as_marks a3)) as [j|] eqn:Ej.
    - apply position_some in Ej. f_equal.
      apply (proj1 (NoDup_nth_error (as_marks a3)) (rp_nodup R)); [apply nth_error_Some; rewrite Ej; discriminate|rewrite Ej, Hat3; reflexivity].
    - exfalso. apply position_none in Ej. apply Ej. eapply nth_error_In; eauto. }
  rewrite Hpos in H2. destruct H2 as (s2 & H2 & _). eauto.
Qed.

Theorem store_kbound : forall places k l s r, (N.of_nat places < 2 ^ 32)%N ->
  (forall o, In o l -> op_ok places o) ->
  store_ops (store_new places k) l = Ok (s, r) -> k <> 0%N ->
  (forall id s1 m, store_op s (SDecode id) = Ok (s1, ODecode m) ->
     (total32 m <= k)%N /\ ((sumN m < 2 ^ 32)%N -> (sumN m <= k)%N)) /\
  (forall m, op_ok places (SAdd m) -> (sumN m < 2 ^ 32)%N ->
     (k < sumN m)%N <-> exists s1, store_op s (SAdd m) = Ok (s1, OAdd (false, None))).
Proof.
  intros places k l s r Hp Hl E Hk.
  destruct (@store_refines places k _ _ _ Hp (repr_new places k) Hl) as [(E' & _)|H]; [congruence|].
  destruct (aset_ops places k aset_empty l) as [[a ra]| | |] eqn:Ea; try contradiction; [|congruence].
  destruct H as (s' & H & R). rewrite E in H. injection H as <- <-.
  assert (Inv : forall m, In m (as_marks a) -> (total32 m <= k)%N).
  { clear - Ea Hk. revert Ea. assert (H0 : forall m, In m (as_marks aset_empty) -> (total32 m <= k)%N) by (intros ? []).
    revert H0. generalize aset_empty as a0. revert a r. induction l as [|o l IH]; intros a r a0 H0 Ea; cbn [aset_ops] in Ea.
    - injection Ea as <- <-. exact H0.
    - destruct (aset_op places k a0 o) as [[a1 r1]| | |] eqn:E; cbn [bind fst snd] in Ea; try discriminate.
      destruct (aset_ops places k a1 l) as [[a2 r2]| | |] eqn:E2; cbn [bind fst snd] in Ea; try discriminate.
      injection Ea as <- <-. apply (IH a2 r2 a1); [|exact E2].
      destruct o; cbn [aset_op] in E.
      + destruct (over_bound k m) eqn:Eo; [injection E as <- <-; exact H0|].
        destruct (position m (as_marks a0)); injection E as <- <-; [exact H0|]. cbn [as_marks].
        intros x Hx. rewrite in_app_iff in Hx. destruct Hx as [Hx|[<-|[]]]; [auto|].
        unfold over_bound in Eo. apply andb_false_iff in Eo. destruct Eo as [Eo|Eo].
        * apply negb_false_iff, N.eqb_eq in Eo. contradiction.
        * apply N.ltb_ge in Eo. exact Eo.
      + destruct (position m (as_marks a0)); injection E as <- <-; exact H0.
      + destruct (nth_error (as_marks a0) id); [injection E as <- <-; exact H0|discriminate].
      + destruct (id <? length (as_marks a0)); [injection E as <- <-; exact H0|discriminate].
      + destruct (if id <? length (as_marks a0) then as_hist a0 id else None); [injection E as <- <-; exact H0|discriminate].
      + injection E as <- <-; exact H0.
      + injection E as <- <-; exact H0.
      + injection E as <- <-; exact H0. }
  split.
  - intros id s1 m Hd. destruct (@store_op_refines places k s a (SDecode id) Hp R I) as [(? & ? & _)|H1]; [discriminate|].
    cbn [aset_op] in H1. destruct (nth_error (as_marks a) id) as [m'|] eqn:En; [|congruence].
    destruct H1 as (s2 & H1 & _). rewrite Hd in H1. injection H1 as <- <-.
    specialize (Inv _ (nth_error_In _ _ En)). split; [exact Inv|].
    intros Hs. unfold total32 in Inv. rewrite N.mod_small in Inv by exact Hs. exact Inv.
  - intros m Hm Hs.
    assert (Ho : over_bound k m = (k <? sumN m)%N).
    { unfold over_bound, total32. rewrite N.mod_small by exact Hs.
      apply N.eqb_neq in Hk. rewrite Hk. reflexivity. }
    destruct (@store_op_refines places k s a (SAdd m) Hp R Hm) as [(m' & Em & Hb & E1)|H1].
    + injection Em as <-. split.
      * intros Hlt. exfalso. cbn [store_op] in E1. unfold store_add in E1. rewrite stats_sum, (rp_k R) in E1.
        fold (over_bound k m) in E1. rewrite Ho in E1. apply N.ltb_lt in Hlt. rewrite Hlt in E1. discriminate.
      * intros (s1 & H2). congruence.
    + cbn [aset_op] in H1. rewrite Ho in H1. destruct (k <? sumN m)%N eqn:Hlt.
      * destruct H1 as (s1 & H1 & _). split; [eauto|]. intros _. apply N.ltb_lt; exact Hlt.
      * split; [intros Hc; apply N.ltb_lt in Hc; congruence|]. intros (s1 & H2).
        destruct (position m (as_marks a)); destruct H1 as (s2 & H1 & _); congruence.
Qed.
