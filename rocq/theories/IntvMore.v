(** Proofs about sets of colours kept as intervals: constraints, shifting, merging (C45). *)
From Verif Require Import Base BaseLemmas RangeSpec RangeModel CtlFrag IntvModel IntvSpec IntvProofs.

(** ** Constraints *)
Lemma lower_range_in : forall s v r w, (fst (lower_range s v r) <= w <= snd (lower_range s v r))%N <->
  (fst r <= w <= snd r)%N /\ (if s then (v < w)%N else (v <= w)%N).
Proof.
  intros s v r w. unfold lower_range. destruct s; cbn [andb negb].
  - destruct (N.leb_spec (fst r) v); [destruct (N.leb_spec (snd r) v)|]; cbn [fst snd]; lia.
  - destruct (N.ltb_spec (fst r) v); [destruct (N.ltb_spec (snd r) v)|]; cbn [fst snd]; lia.
Qed.
Lemma upper_range_in : forall s v r w, (fst (upper_range s v r) <= w <= snd (upper_range s v r))%N <->
  (fst r <= w <= snd r)%N /\ (if s then (w < v)%N else (w <= v)%N).
Proof.
  intros s v r w. unfold upper_range. destruct s; cbn [andb negb].
  - destruct (N.leb_spec v (snd r)); [destruct (N.leb_spec v (fst r))|]; cbn [fst snd]; lia.
  - destruct (N.ltb_spec v (snd r)); [destruct (N.ltb_spec v (fst r))|]; cbn [fst snd]; lia.
Qed.
Section Con.
Variable f : N -> range -> range.
Variable P : N -> N -> Prop.
Hypothesis HP : forall v r w, (fst (f v r) <= w <= snd (f v r))%N <-> (fst r <= w <= snd r)%N /\ P v w.
Definition allP (vs c : list N) : Prop := forall i v w, nth_error vs i = Some v -> nth_error c i = Some w -> P v w.
Lemma constrain_box_in : forall vs b b', constrain_box f vs b = Ok b' -> length b' = length b /\ forall c, inb b' c <-> inb b c /\ allP vs c.
Proof.
  induction vs as [|v vs IH]; intros b b' H; cbn [constrain_box] in H.
  - injection H as <-. split; auto. intros c. assert (Z : allP [] c) by (intros i v w K; destruct i; discriminate K). tauto.
  - destruct b as [|r b]; [discriminate H|]. apply bindR in H. destruct H as (x & H & K). injection K as <-. destruct (IH _ _ H) as [A B]. split; [cbn; auto|].
    intros [|w c]; [split; [intros K; inversion K|intros [K _]; inversion K]|]. rewrite !inb_cons, HP, B.
    assert (Z : allP (v :: vs) (w :: c) <-> P v w /\ allP vs c).
    { split.
      - intros K. split; [apply (K 0); reflexivity|]. intros i v' w' I J. apply (K (S i)); auto.
      - intros [K1 K2] [|i] v' w' I J; cbn in I, J; [injection I as <-; injection J as <-; auto|eapply K2; eauto]. }
    tauto.
Qed.
Lemma constrain_all_in : forall d vs l l', dims d l -> constrain_all f vs l = Ok l' -> dims d l' /\ forall c, inv l' c <-> inv l c /\ allP vs c.
Proof.
  intros d vs l l' D. revert l'. induction D as [|b l Lb D IH]; intros l' H; cbn [constrain_all] in H.
  - injection H as <-. split; [constructor|]. intros c. pose proof (nil_iff c). tauto.
  - apply bindR in H. destruct H as (x & H1 & H). apply bindR in H. destruct H as (y & H2 & H). injection H as <-. destruct (IH _ H2) as [A B]. destruct (constrain_box_in _ _ _ H1) as [C E].
    split; [constructor; [congruence|auto]|]. intros c. rewrite !cons_iff, E, B. tauto.
Qed.
End Con.
Theorem constrain_lower_in : forall d vs s l l', dims d l -> constrain_lower vs s l = Ok l' -> dims d l' /\ Forall (fun b => i_sound b = true) l' /\
  forall c, (inv l c -> above s vs c -> inv l' c) /\ (d = 1 -> inv l' c -> inv l c /\ above s vs c).
Proof.
  intros d vs s l l' D H. unfold constrain_lower in H. apply bindR in H. destruct H as (x & H & K). injection K as <-.
  destruct (constrain_all_in _ _ (lower_range_in s) d vs l x D H) as [A B]. destruct (simplify_in d x A) as (C1 & _ & C2 & C3). split; auto. split; auto.
  intros c. specialize (B c). specialize (C3 c). unfold above. unfold allP in B. tauto.
Qed.
Theorem constrain_upper_in : forall d vs s l l', dims d l -> constrain_upper vs s l = Ok l' -> dims d l' /\ Forall (fun b => i_sound b = true) l' /\
  forall c, (inv l c -> under s vs c -> inv l' c) /\ (d = 1 -> inv l' c -> inv l c /\ under s vs c).
Proof.
  intros d vs s l l' D H. unfold constrain_upper in H. apply bindR in H. destruct H as (x & H & K). injection K as <-.
  destruct (constrain_all_in _ _ (upper_range_in s) d vs l x D H) as [A B]. destruct (simplify_in d x A) as (C1 & _ & C2 & C3). split; auto. split; auto.
  intros c. specialize (B c). specialize (C3 c). unfold under. unfold allP in B. tauto.
Qed.

(** ** Shifting *)
Lemma shift_val : forall s k v, (v < s)%N -> (0 <= Z.of_N s + k)%Z -> (Z.of_N s + Z.of_N s + k < 2 ^ 32)%Z -> Z.of_N (shift s k v) = ((Z.of_N v + k) mod Z.of_N s)%Z.
Proof.
  intros s k v V K1 K2. unfold shift. rewrite (Z.mod_small _ (2 ^ 32)) by lia.
  replace (Z.of_N s + Z.of_N v + k)%Z with ((Z.of_N v + k) + 1 * Z.of_N s)%Z by lia. rewrite Z.mod_add by lia. rewrite Z2N.id; [reflexivity|]. apply Z.mod_pos_bound. lia.
Qed.
Definition parts (s : N) (k : Z) (r : range) : list range :=
  let lo := shift s k (fst r) in let hi := shift s k (snd r) in
  if (hi <? lo)%N then [(0%N, hi); (lo, (s - 1)%N)] else [(lo, hi)].

Lemma parts_in : forall s k r v', (fst r <= snd r)%N -> (snd r < s)%N -> (0 <= Z.of_N s + k)%Z -> (Z.of_N s + Z.of_N s + k < 2 ^ 32)%Z ->
  ((exists x, In x (parts s k r) /\ (fst x <= v' <= snd x)%N) <-> exists v, (fst r <= v <= snd r)%N /\ Z.of_N v' = ((Z.of_N v + k) mod Z.of_N s)%Z).
Proof.
  intros s k [l u] v' LU US K1 K2. cbn [fst snd] in *. unfold parts. cbn [fst snd].
  assert (El := shift_val s k l ltac:(lia) K1 K2). assert (Eu := shift_val s k u ltac:(lia) K1 K2).
  set (a := shift s k l) in *. set (b := shift s k u) in *. clearbody a b.
  pose proof (Z.div_mod (Z.of_N l + k) (Z.of_N s) ltac:(lia)) as Dl. pose proof (Z.div_mod (Z.of_N u + k) (Z.of_N s) ltac:(lia)) as Du.
  pose proof (Z.mod_pos_bound (Z.of_N l + k) (Z.of_N s) ltac:(lia)) as Bl. pose proof (Z.mod_pos_bound (Z.of_N u + k) (Z.of_N s) ltac:(lia)) as Bu.
  rewrite <- El in *. rewrite <- Eu in *. set (qa := ((Z.of_N l + k) / Z.of_N s)%Z) in *. set (qb := ((Z.of_N u + k) / Z.of_N s)%Z) in *. clearbody qa qb. clear El Eu.
  assert (Q : (b < a)%N /\ qb = (qa + 1)%Z \/ (a <= b)%N /\ qb = qa).
  { assert (R : (qb = qa \/ qb = qa + 1)%Z) by nia. destruct (N.ltb_spec b a); [left|right]; split; auto; nia. }
  split.
  - intros (x & I & X).
    assert (W : exists q, (q = qa \/ q = qb)%Z /\ (Z.of_N l + k <= Z.of_N s * q + Z.of_N v' <= Z.of_N u + k)%Z /\ (v' < s)%N).
    { destruct (N.ltb_spec b a) as [E|E].
      - destruct I as [<-|[<-|[]]]; cbn [fst snd] in X; [exists qb|exists qa]; (split; [auto|]); split; nia.
      - destruct I as [<-|[]]; cbn [fst snd] in X. exists qa. split; auto. split; nia. }
    destruct W as (q & _ & W1 & W2). exists (Z.to_N (Z.of_N s * q + Z.of_N v' - k)). split; [lia|]. rewrite Z2N.id by lia.
    replace (Z.of_N s * q + Z.of_N v' - k + k)%Z with (Z.of_N v' + q * Z.of_N s)%Z by lia. rewrite Z.mod_add by lia. rewrite Z.mod_small; lia.
  - intros (v & V & E). pose proof (Z.div_mod (Z.of_N v + k) (Z.of_N s) ltac:(lia)) as Dv. pose proof (Z.mod_pos_bound (Z.of_N v + k) (Z.of_N s) ltac:(lia)) as Bv. rewrite <- E in *.
    set (q := ((Z.of_N v + k) / Z.of_N s)%Z) in *. clearbody q. clear E.
    destruct Q as [[Q1 Q2]|[Q1 Q2]].
    + rewrite (proj2 (N.ltb_lt b a) Q1). assert (R : (q = qa \/ q = qb)%Z) by nia. destruct R as [->|R].
      * exists (a, (s - 1)%N). split; [cbn; auto|]. cbn [fst snd]. nia.
      * exists (0%N, b). split; [cbn; auto|]. cbn [fst snd]. subst q. nia.
    + rewrite (proj2 (N.ltb_ge b a) Q1). exists (a, b). split; [cbn; auto|]. cbn [fst snd]. assert (q = qa) by nia. nia.
Qed.

Lemma step_in : forall s k l p2 suf2, (forall x, In x l -> snd x <> []) ->
  (In (p2, suf2) (map (shift_first s k) l ++ flat_map (shift_second s k) l) <->
   exists pre r x, In (pre, r :: suf2) l /\ In x (parts s k r) /\ p2 = pre ++ [x]).
Proof.
  intros s k l p2 suf2 NE. rewrite in_app_iff, in_map_iff, in_flat_map. split.
  - intros [([pre suf] & E & I)|([pre suf] & I & E)]; specialize (NE _ I); destruct suf as [|r suf]; try (cbn in NE; congruence);
      unfold shift_first, shift_second in E; cbn [fst snd] in E; exists pre, r; unfold parts.
    + destruct (shift s k (snd r) <? shift s k (fst r))%N; injection E as <- <-; eexists; (split; [exact I|]); (split; [left; reflexivity|reflexivity]).
    + destruct (shift s k (snd r) <? shift s k (fst r))%N; [|destruct E]. destruct E as [E|[]]. injection E as <- <-. eexists. split; [exact I|]. split; [right; left; reflexivity|reflexivity].
  - intros (pre & r & x & I & J & ->). unfold parts in J. destruct (shift s k (snd r) <? shift s k (fst r))%N eqn:C.
    + destruct J as [<-|[<-|[]]].
      * left. exists (pre, r :: suf2). split; auto. unfold shift_first. cbn [fst snd]. rewrite C. reflexivity.
      * right. exists (pre, r :: suf2). split; auto. unfold shift_second. cbn [fst snd]. rewrite C. left. reflexivity.
    + destruct J as [<-|[]]. left. exists (pre, r :: suf2). split; auto. unfold shift_first. cbn [fst snd]. rewrite C. reflexivity.
Qed.

Lemma apply_pos_in : forall k sizes l, (forall x, In x l -> fits k sizes (snd x)) -> forall c',
  inv (apply_pos k sizes l) c' <-> exists pre suf cp cs cs', In (pre, suf) l /\ c' = cp ++ cs' /\ inb pre cp /\ inb suf cs /\ moved_by k sizes cs cs'.
Proof.
  intros k. induction sizes as [|s sizes IH]; intros l F c'; cbn [apply_pos].
  - split.
    + intros (b & I & H). apply in_map_iff in I. destruct I as ([pre suf] & <- & I). cbn [fst snd] in H. pose proof (F _ I) as G. cbn [snd] in G. destruct suf as [|x suf]; [|inversion G].
      exists pre, [], c', [], []. rewrite !app_nil_r in *. split; [exact I|]. split; auto. split; [exact H|split; [constructor|exact Logic.I]].
    + intros (pre & suf & cp & cs & cs' & I & -> & H1 & H2 & M). specialize (F _ I). cbn [snd] in F. inversion F; subst. inversion H2; subst. destruct cs'; [|destruct M].
      exists (pre ++ []). split; [apply in_map_iff; exists (pre, []); auto|]. rewrite !app_nil_r. exact H1.
  - assert (NE : forall x, In x l -> snd x <> []) by (intros x I E; specialize (F x I); rewrite E in F; inversion F).
    rewrite IH.
    + split.
      * intros (p2 & suf & cp2 & cs & cs' & I & -> & H1 & H2 & M). apply (step_in s k l p2 suf NE) in I. destruct I as (pre & r & x & I & J & ->).
        specialize (F _ I). cbn [snd] in F. inversion F as [|? ? ? ? F1 F2]; subst.
        assert (L : exists cp v', cp2 = cp ++ [v'] /\ length pre = length cp).
        { pose proof (inb_length _ _ H1) as L. rewrite app_length in L. cbn in L. destruct (@exists_last _ cp2) as (cp & v' & ->); [destruct cp2; cbn in L; [lia|discriminate]|].
          exists cp, v'. split; auto. rewrite app_length in L. cbn in L. lia. }
        destruct L as (cp & v' & -> & L). apply inb_app in H1; auto. destruct H1 as [H1 H3]. apply inb_cons in H3. destruct H3 as [H3 _].
        destruct (proj1 (parts_in s k r v' (proj1 F1) (proj1 (proj2 F1)) (proj1 (proj2 (proj2 F1))) (proj2 (proj2 (proj2 F1)))) (ex_intro _ x (conj J H3))) as (v & V & E).
        exists pre, (r :: suf), cp, (v :: cs), (v' :: cs'). split; auto. split; [rewrite <- app_assoc; reflexivity|]. split; auto. split; [constructor; auto|]. split; auto.
      * intros (pre & suf & cp & cs & cs' & I & -> & H1 & H2 & M). destruct suf as [|r suf]; [destruct (NE _ I); reflexivity|].
        specialize (F _ I). cbn [snd] in F. inversion F as [|? ? ? ? F1 F2]; subst. inversion H2 as [|? v ? cs0 V H3]; subst. destruct cs' as [|v' cs']; [destruct M|]. destruct M as [E M].
        destruct (proj2 (parts_in s k r v' (proj1 F1) (proj1 (proj2 F1)) (proj1 (proj2 (proj2 F1))) (proj2 (proj2 (proj2 F1)))) (ex_intro _ v (conj V E))) as (x & J & X).
        exists (pre ++ [x]), suf, (cp ++ [v']), cs0, cs'. split; [apply (step_in s k l _ suf NE); exists pre, r, x; auto|]. split; [rewrite <- app_assoc; reflexivity|].
        split; [|auto]. apply inb_app; [apply inb_length; auto|]. split; auto. constructor; auto.
    + intros [p2 suf] I. apply (step_in s k l p2 suf NE) in I. destruct I as (pre & r & x & I & _ & _). specialize (F _ I). cbn [snd] in *. inversion F; auto.
Qed.
Theorem apply_modifier_in : forall k sizes l, Forall (fits k sizes) l -> forall c', inv (apply_modifier k sizes l) c' <-> exists c, inv l c /\ moved_by k sizes c c'.
Proof.
  intros k sizes l F c'. rewrite Forall_forall in F. unfold apply_modifier. split.
  - intros (b & I & H). apply in_flat_map in I. destruct I as (x & I & J).
    destruct (proj1 (apply_pos_in k sizes [([], x)] ltac:(intros y [<-|[]]; apply F; auto) c') (ex_intro _ b (conj J H))) as (pre & suf & cp & cs & cs' & K & -> & H1 & H2 & M).
    destruct K as [K|[]]. injection K as <- <-. inversion H1; subst. exists cs. split; [exists x; auto|exact M].
  - intros (c & (x & I & H) & M).
    destruct (proj2 (apply_pos_in k sizes [([], x)] ltac:(intros y [<-|[]]; apply F; auto) c')) as (b & J & K).
    { exists [], x, [], c, c'. split; [left; reflexivity|]. split; auto. split; [constructor|]. auto. }
    exists b. split; auto. apply in_flat_map. eauto.
Qed.
