From Verif Require Import Base BaseLemmas EncoderModel EncoderProofs.
Set Implicit Arguments.

(** ** Statistics *)
Lemma stats_fold : forall m a,
  let r := fold_left stat_step m a in
  st_active r = st_active a + length (vals m) /\
  (st_val a <= st_val r)%N /\
  (forall v, In v m -> (v <= st_val r)%N) /\
  (st_same r = true -> st_same a = true /\
     (st_val a = 0 \/ st_val a = st_val r)%N /\ forall v, In v m -> (v = 0 \/ v = st_val r)%N) /\
  (st_val r = st_val a \/ In (st_val r) m)%N /\
  ((st_sum a < 2 ^ 32)%N -> st_sum r = (st_sum a + sumN m) mod 2 ^ 32)%N.
Proof.
  induction m as [|v m IH]; intros a; simpl fold_left.
  - cbn zeta. split; [simpl; lia|]. split; [lia|]. split; [intros v []|].
    split; [intros H; split; [exact H|split; [right; reflexivity|intros v []]]|].
    split; [left; reflexivity|]. intros H. cbn [sumN]. rewrite N.add_0_r, N.mod_small by exact H. reflexivity.
  - specialize (IH (stat_step a v)). cbn zeta in *.
    set (r := fold_left stat_step m (stat_step a v)) in *.
    destruct IH as (A & B & C & D & E & F). unfold stat_step in *.
    destruct (N.eqb_spec v 0) as [->|Hv]; simpl in *.
    + split; [exact A|]. split; [exact B|]. split; [intros x [<-|Hx]; [lia|auto]|].
      split; [intros H; destruct (D H) as (D1 & D2 & D3); split; [exact D1|split; [exact D2|
        intros x [<-|Hx]; [left; reflexivity|auto]]]|].
      split; [destruct E; auto|]. exact F.
    + assert (Hp : (0 <? v)%N = true) by (apply N.ltb_lt; lia). rewrite Hp. simpl.
      split; [lia|]. split; [lia|]. split; [intros x [<-|Hx]; [lia|auto]|].
      split; [|split].
      * intros H. destruct (D H) as (D1 & D2 & D3).
        destruct (negb (st_val a =? 0)%N && negb (v =? st_val a)%N) eqn:Q; [discriminate|].
        split; [exact D1|].
        assert (Q' : st_val a = 0%N \/ v = st_val a).
        { destruct (N.eqb_spec (st_val a) 0); [left; assumption|].
          destruct (N.eqb_spec v (st_val a)); [right; assumption|discriminate]. }
        assert (Hm : N.max v (st_val a) = v) by lia. rewrite Hm in D2.
        destruct D2 as [D2|D2]; [lia|].
        split; [destruct Q'; [left; assumption|right; congruence]|].
        intros x [<-|Hx]; [right; exact D2|auto].
      * destruct E as [E|E]; [|right; right; exact E].
        destruct (N.max_spec v (st_val a)) as [[_ M]|[_ M]]; rewrite M in E;
          [left; exact E|right; left; symmetry; exact E].
      * intros Hs. rewrite F by (apply N.mod_lt; lia).
        rewrite N.add_mod_idemp_l by lia. f_equal; lia.
Qed.

Lemma stats_spec : forall m,
  let r := marking_stats m in
  st_active r = length (vals m) /\
  (forall v, In v m -> (v <= st_val r)%N) /\
  (st_same r = true -> forall v, In v m -> (v = 0 \/ v = st_val r)%N) /\
  (st_val r = 0 \/ In (st_val r) m)%N /\
  (st_sum r = sumN m mod 2 ^ 32)%N.
Proof.
  intros m. destruct (stats_fold m (mkStats 0 true 0 0)) as (A & B & C & D & E & F).
  cbn zeta. unfold marking_stats. simpl in *.
  split; [exact A|]. split; [exact C|]. split; [intros H; apply D in H; apply H|].
  split; [exact E|]. rewrite F by lia. f_equal.
Qed.

(** ** Round trip *)
Definition roundtrip (pad data : list N) (type : N) (L : nat) : Prop :=
  exists enc post, encode pad data type = Ok (enc ++ post, length enc) /\
    length (enc ++ post) = length pad /\ length enc = 1 + L /\
    forall rest, decode (length data) (enc ++ rest) = Ok data /\
                 enc_size (length data) (enc ++ rest) = Ok (length enc).

Lemma pad_split : forall n (pad : list N), 1 + n <= length pad ->
  exists mid post, repeat 0%N (length pad) = 0%N :: mid ++ post /\ length mid = n /\
    mid = repeat 0%N n /\ length pad = 1 + n + length post.
Proof.
  intros n pad H. exists (repeat 0%N n), (repeat 0%N (length pad - 1 - n)).
  rewrite !repeat_length. split; [|split; [reflexivity|split; [reflexivity|lia]]].
  rewrite <- repeat_app. change (0%N :: repeat 0%N (n + (length pad - 1 - n)))
    with (repeat 0%N (S (n + (length pad - 1 - n)))). f_equal; lia.
Qed.

Lemma wr_head : forall {A} (l : list A) x y, wr (x :: l) 0 y = Ok (y :: l).
Proof. reflexivity. Qed.

Lemma tb_zero : forall n j, tb (repeat 0%N n) j = false.
Proof.
  intros n j. unfold tb.
  assert (H : nth (j / 8) (repeat 0%N n) 0%N = 0%N).
  { destruct (Nat.lt_ge_cases (j / 8) n) as [H|H].
    - apply nth_repeat.
    - apply nth_overflow. rewrite repeat_length. exact H. }
  rewrite H. apply N.bits_0.
Qed.

(** bit vector written after the type byte *)
Lemma write_bit_vector_ok : forall type mid post data,
  length mid = bytes (length data) -> 
  exists bv, write_bit_vector (type :: mid ++ post) 1 data = Ok (type :: bv ++ post, 1 + bytes (length data)) /\
    length bv = bytes (length data) /\
    forall rest j, j < length data ->
      bit_at (bytes (length data)) (type :: bv ++ rest) 1 j = Ok (0 <? nth j data 0)%N.
Proof.
  intros type mid post data Hm. pose proof (bytes_spec (length data)) as [B1 B2].
  destruct (@write_bits_app data [type] mid post 0) as (bv & H & L & T); [lia|].
  exists bv. unfold write_bit_vector.
  change (type :: mid ++ post) with ([type] ++ mid ++ post). change 1 with (length [type]) at 1.
  rewrite H. split; [reflexivity|]. split; [lia|].
  intros rest j Hj.
  change (type :: bv ++ rest) with ([type] ++ bv ++ rest). change 1 with (length [type]).
  rewrite bit_at_app; [|lia|apply Nat.div_lt_upper_bound; lia].
  rewrite T. simpl. destruct (Nat.ltb_spec j (length data)); [|lia]. rewrite Nat.sub_0_r. reflexivity.
Qed.

Lemma rt_bits : forall pad data type,
  length pad = pad_size (length data) -> (type <= 120)%N ->
  (forall v, In v data -> v = 0%N \/ v = type) -> roundtrip pad data type (bytes (length data)).
Proof.
  intros pad data type Hpad Ht Hv. unfold roundtrip.
  pose proof (bytes_spec (length data)) as [B1 B2].
  destruct (@pad_split (bytes (length data)) pad) as (mid & post & Hr & Hm & _ & Hl);
    [unfold pad_size in Hpad; lia|].
  destruct (@write_bit_vector_ok type mid post data Hm) as (bv & W & Lb & Rb).
  exists (type :: bv), post.
  assert (Q : (type <=? SAMEBOUND)%N = true) by (apply N.leb_le; exact Ht).
  split; [|split; [|split]].
  - unfold encode. rewrite Hr, wr_head. cbn [bind]. rewrite Q, W. simpl. do 2 f_equal; lia.
  - simpl. rewrite app_length. lia.
  - simpl; rewrite ?app_length, ?les_length; lia.
  - intros rest. split.
    + unfold decode. change (rd ((type :: bv) ++ rest) 0) with (Ok type). cbn [bind]. rewrite Q.
      apply (@read_bits_ok data [] _ (length data) 1 type); [|exact Hv].
      intros j Hj. apply Rb; exact Hj.
    + unfold enc_size. change (rd ((type :: bv) ++ rest) 0) with (Ok type). cbn [bind]. rewrite Q.
      simpl length. rewrite Lb, bytes_formula.
      destruct (Nat.eqb (length data mod 8) 0); reflexivity.
Qed.

Lemma psize_pos : forall n, psize n = 1 \/ psize n = 2 \/ psize n = 4.
Proof. intros n; unfold psize. destruct (n <? 256); [|destruct (N.of_nat n <? 65536)%N]; auto. Qed.

Lemma psize_bound : forall n, (N.of_nat n < 2 ^ 32)%N -> (N.of_nat n < 256 ^ N.of_nat (psize n))%N.
Proof.
  intros n H. unfold psize. destruct (Nat.ltb_spec n 256) as [H1|H1].
  - change (256 ^ N.of_nat 1)%N with 256%N. lia.
  - destruct (N.ltb_spec (N.of_nat n) 65536).
    + change (256 ^ N.of_nat 2)%N with 65536%N. assumption.
    + change (256 ^ N.of_nat 4)%N with (2 ^ 32)%N. assumption.
Qed.

Definition places_enc (data : list N) : list N :=
  le (psize (length data)) (N.of_nat (length (vals data))) ++ les (psize (length data)) (acts 0 data).

Lemma places_enc_length : forall data,
  length (places_enc data) = (1 + length (vals data)) * psize (length data).
Proof.
  intros. unfold places_enc. rewrite app_length, le_length, les_length, acts_length. lia.
Qed.

(** reading back the list of places *)
Lemma places_read : forall data type rest,
  (N.of_nat (length data) < 2 ^ 32)%N ->
  rdle (psize (length data)) (type :: places_enc data ++ rest) 1 = Ok (N.of_nat (length (vals data))) /\
  forall j, j < length (vals data) ->
    rdle (psize (length data)) (type :: places_enc data ++ rest)
      (1 + psize (length data) + (0 + j) * psize (length data)) = Ok (nth j (acts 0 data) 0%N).
Proof.
  intros data type rest Hd. set (ps := psize (length data)).
  pose proof (psize_bound _ Hd) as PB. pose proof (vals_length data) as VL. fold ps in PB.
  unfold places_enc. fold ps. split.
  - change (type :: (le ps (N.of_nat (length (vals data))) ++ les ps (acts 0 data)) ++ rest)
      with ([type] ++ (le ps (N.of_nat (length (vals data))) ++ les ps (acts 0 data)) ++ rest).
    rewrite <- app_assoc. change 1 with (length [type]). apply rdle_app.
    eapply N.le_lt_trans; [|exact PB]. lia.
  - intros j Hj.
    replace (type :: (le ps (N.of_nat (length (vals data))) ++ les ps (acts 0 data)) ++ rest)
      with ((type :: le ps (N.of_nat (length (vals data)))) ++ les ps (acts 0 data) ++ rest)
      by (simpl; rewrite <- app_assoc; reflexivity).
    apply rdle_les.
    + simpl. rewrite le_length. lia.
    + rewrite acts_length. exact Hj.
    + intros x Hx. apply acts_bound in Hx. eapply N.lt_trans; [exact Hx|exact PB].
Qed.

Lemma rt_places : forall pad data type,
  (N.of_nat (length data) < 2 ^ 32)%N ->
  1 + (1 + length (vals data)) * psize (length data) <= length pad ->
  (120 < type <= 240)%N ->
  (forall v, In v data -> v = 0%N \/ v = (type - 120)%N) ->
  roundtrip pad data type ((1 + length (vals data)) * psize (length data)).
Proof.
  intros pad data type Hd Hpad Ht Hv. unfold roundtrip.
  destruct (pad_split pad Hpad) as (mid & post & Hr & Hm & _ & Hl).
  pose proof (@places_enc_length data) as PL.
  exists (type :: places_enc data), post.
  assert (Q : (type <=? SAMEBOUND)%N = false) by (apply N.leb_gt; unfold SAMEBOUND; lia).
  assert (Q2 : (type <=? DBOUND)%N = true) by (apply N.leb_le; unfold DBOUND; lia).
  split; [|split; [|split]].
  - unfold encode. rewrite Hr, wr_head. cbn [bind]. rewrite Q, Q2.
    change (type :: mid ++ post) with ([type] ++ mid ++ post). change 1 with (length [type]) at 1.
    rewrite write_places_app by exact Hm. simpl length. rewrite PL.
    unfold places_enc. simpl. do 2 f_equal; lia.
  - simpl. rewrite app_length. lia.
  - simpl; rewrite ?app_length, ?les_length; lia.
  - intros rest. destruct (@places_read data type rest Hd) as [R1 R2]. split.
    + unfold decode. change (rd ((type :: places_enc data) ++ rest) 0) with (Ok type). cbn [bind]. rewrite Q, Q2.
      unfold read_places. simpl app. rewrite R1. cbn [bind]. rewrite Nat2N.id.
      apply (@read_places_loop_ok _ data []); [exact R2|exact Hv].
    + unfold enc_size. change (rd ((type :: places_enc data) ++ rest) 0) with (Ok type). cbn [bind]. rewrite Q, Q2.
      simpl app. rewrite R1. cbn [bind]. rewrite Nat2N.id. simpl length. rewrite PL. f_equal; lia.
Qed.

Lemma rt_2bits : forall pad data,
  length pad = pad_size (length data) ->
  (forall v, In v data -> (v < 4)%N) -> roundtrip pad data (DBOUND + 1) (bytes (length data * 2)).
Proof.
  intros pad data Hpad Hv. unfold roundtrip. set (type := (DBOUND + 1)%N).
  pose proof (bytes_spec (length data * 2)) as [B1 B2].
  destruct (@pad_split (bytes (length data * 2)) pad) as (mid & post & Hr & Hm & Hz & Hl);
    [unfold pad_size in Hpad; lia|].
  destruct (@write_2bits_app data [type] mid post 0) as (bv & H & L & _ & T).
  { simpl. lia. } { intros j _. rewrite Hz. apply tb_zero. }
  exists (type :: bv), post. split; [|split; [|split]].
  - unfold encode. rewrite Hr, wr_head. cbn [bind].
    change (write_2bit_vector (type :: mid ++ post) 1 data = Ok ((type :: bv) ++ post, length (type :: bv))).
    unfold write_2bit_vector.
    change (type :: mid ++ post) with ([type] ++ mid ++ post). change 1 with (length [type]) at 1.
    rewrite H. cbn [bind]. simpl. do 2 f_equal; lia.
  - simpl. rewrite app_length. lia.
  - simpl; rewrite ?app_length, ?les_length; lia.
  - intros rest. split.
    + change (decode (length data) ((type :: bv) ++ rest))
        with (read_2bits (length data) ([] ++ repeat 0%N (length data)) ([type] ++ bv ++ rest) (length [type])
                (@length N []) (length data)).
      apply read_2bits_ok; [|exact Hv].
      intros j Hj. simpl Nat.add. destruct (T j Hj) as [T1 T2].
      split; (rewrite bit_at_app; [|lia|apply Nat.div_lt_upper_bound; lia]); f_equal; assumption.
    + change (enc_size (length data) ((type :: bv) ++ rest))
        with (@Ok nat (if Nat.eqb (length data mod 4) 0 then 1 + length data / 4 else 2 + length data / 4)).
      simpl length. rewrite L, Hm, bytes2_formula. destruct (Nat.eqb (length data mod 4) 0); reflexivity.
Qed.

(** direct tokens *)
Definition dtype (n : nat) : N := (if Nat.eqb n 1 then DBOUND + 2 else if Nat.eqb n 2 then DBOUND + 3 else DBOUND + 4)%N.
Definition itype (n : nat) : N := (if Nat.eqb n 1 then DBOUND + 5 else if Nat.eqb n 2 then DBOUND + 6 else DBOUND + 7)%N.
Definition btype (n : nat) : N := (if Nat.eqb n 1 then DBOUND + 8 else if Nat.eqb n 2 then DBOUND + 9 else DBOUND + 10)%N.
Definition width (n : nat) : Prop := n = 1 \/ n = 2 \/ n = 4.

Lemma rt_tokens : forall pad data n, width n ->
  1 + length data * n <= length pad ->
  (forall v, In v data -> (v < 256 ^ N.of_nat n)%N) -> roundtrip pad data (dtype n) (length data * n).
Proof.
  intros pad data n Hn Hpad Hv. unfold roundtrip. set (type := dtype n).
  destruct (pad_split pad Hpad) as (mid & post & Hr & Hm & _ & Hl).
  assert (E1 : encode pad data type = write_tokens n (type :: mid ++ post) 1 data).
  { unfold encode. rewrite Hr, wr_head. cbn [bind]. destruct Hn as [->|[->| ->]]; reflexivity. }
  assert (E2 : forall rest, decode (length data) ((type :: les n data) ++ rest) =
     read_tokens n ([] ++ repeat 0%N (length data)) (type :: les n data ++ rest) 1 (@length N []) (length data)).
  { intros rest. destruct Hn as [->|[->| ->]]; reflexivity. }
  assert (E3 : forall rest, enc_size (length data) ((type :: les n data) ++ rest) = Ok (1 + length data * n)).
  { intros rest. rewrite Nat.mul_comm. destruct Hn as [->|[->| ->]]; reflexivity. }
  exists (type :: les n data), post. split; [|split; [|split]].
  - rewrite E1. unfold write_tokens.
    change (type :: mid ++ post) with ([type] ++ mid ++ post).
    rewrite write_tokens_loop_app by (simpl; lia). cbn [bind]. simpl. rewrite les_length. reflexivity.
  - simpl. rewrite app_length, les_length. lia.
  - simpl; rewrite ?app_length, ?les_length; lia.
  - intros rest. split.
    + rewrite E2. apply (@read_tokens_ok n data []). intros j Hj.
      change (type :: les n data ++ rest) with ([type] ++ les n data ++ rest).
      apply rdle_les; [reflexivity|exact Hj|exact Hv].
    + rewrite E3. simpl length. rewrite les_length. reflexivity.
Qed.

Lemma rt_place_counts : forall pad data n, width n ->
  (N.of_nat (length data) < 2 ^ 32)%N ->
  1 + ((1 + length (vals data)) * psize (length data) + length (vals data) * n) <= length pad ->
  (forall v, In v data -> (v < 256 ^ N.of_nat n)%N) -> 
  roundtrip pad data (itype n) ((1 + length (vals data)) * psize (length data) + length (vals data) * n).
Proof.
  intros pad data n Hn Hd Hpad Hv. unfold roundtrip. set (type := itype n).
  destruct (pad_split pad Hpad) as (mid & post & Hr & Hm & _ & Hl).
  pose proof (@places_enc_length data) as PL.
  destruct (@split_len _ ((1 + length (vals data)) * psize (length data)) mid) as (m1 & m2 & -> & Hm1); [lia|].
  rewrite app_length in Hm.
  assert (E1 : encode pad data type =
     (r <- write_places (length data) (type :: (m1 ++ m2) ++ post) 1 data ;; enc_then_counts n r data)).
  { unfold encode. rewrite Hr, wr_head. cbn [bind]. destruct Hn as [->|[->| ->]]; reflexivity. }
  assert (E2 : forall src, decode (length data) (type :: src) =
     read_place_counts (length data) n (repeat 0%N (length data)) (type :: src) 1).
  { intros src. destruct Hn as [->|[->| ->]]; reflexivity. }
  assert (E3 : forall src, enc_size (length data) (type :: src) = place_counts_size (length data) n (type :: src) 1).
  { intros src. destruct Hn as [->|[->| ->]]; reflexivity. }
  exists (type :: places_enc data ++ les n (vals data)), post. split; [|split; [|split]].
  - rewrite E1.
    replace (type :: (m1 ++ m2) ++ post) with ([type] ++ m1 ++ (m2 ++ post)) by (simpl; rewrite <- app_assoc; reflexivity).
    change 1 with (length [type]) at 1. rewrite write_places_app by exact Hm1. cbn [bind].
    fold (places_enc data). unfold enc_then_counts, write_counts. cbn [fst snd].
    replace ([type] ++ places_enc data ++ m2 ++ post) with (([type] ++ places_enc data) ++ m2 ++ post)
      by (rewrite <- app_assoc; reflexivity).
    rewrite write_counts_loop_app; [|rewrite app_length, PL; simpl; lia|lia].
    cbn [bind fst snd]. simpl. rewrite <- app_assoc. do 2 f_equal.
    rewrite app_length, PL, les_length. lia.
  - simpl. rewrite !app_length, PL, les_length. lia.
  - simpl; rewrite ?app_length, ?les_length; lia.
  - intros rest. simpl app. rewrite <- app_assoc.
    destruct (@places_read data type (les n (vals data) ++ rest) Hd) as [R1 R2]. split.
    + rewrite E2. unfold read_place_counts. rewrite R1. cbn [bind]. rewrite Nat2N.id.
      apply (@read_place_counts_loop_ok _ n data []); [exact R2|].
      intros j Hj.
      change (type :: places_enc data ++ les n (vals data) ++ rest)
        with ((type :: places_enc data) ++ les n (vals data) ++ rest).
      apply rdle_les; [simpl; rewrite PL; lia|exact Hj|].
      intros x Hx. apply Hv. apply filter_In in Hx. apply Hx.
    + rewrite E3. unfold place_counts_size. rewrite R1. cbn [bind]. rewrite Nat2N.id.
      simpl length. rewrite app_length, PL, les_length. f_equal; lia.
Qed.

Lemma rt_bit_counts : forall pad data n, width n ->
  1 + (bytes (length data) + length (vals data) * n) <= length pad ->
  (forall v, In v data -> (v < 256 ^ N.of_nat n)%N) -> 
  roundtrip pad data (btype n) (bytes (length data) + length (vals data) * n).
Proof.
  intros pad data n Hn Hpad Hv. unfold roundtrip. set (type := btype n).
  destruct (pad_split pad Hpad) as (mid & post & Hr & Hm & _ & Hl).
  destruct (@split_len _ (bytes (length data)) mid) as (m1 & m2 & -> & Hm1); [lia|].
  rewrite app_length in Hm.
  destruct (@write_bit_vector_ok type m1 (m2 ++ post) data Hm1) as (bv & W & Lb & Rb).
  assert (E1 : encode pad data type =
     (r <- write_bit_vector (type :: (m1 ++ m2) ++ post) 1 data ;; enc_then_counts n r data)).
  { unfold encode. rewrite Hr, wr_head. cbn [bind]. destruct Hn as [->|[->| ->]]; reflexivity. }
  assert (E2 : forall src, decode (length data) (type :: src) =
     read_bit_counts (length data) n ([] ++ repeat 0%N (length data)) (type :: src) 1 (1 + bytes (length data)) (@length N []) (length data) 0).
  { intros src. destruct Hn as [->|[->| ->]]; reflexivity. }
  assert (E3 : forall src, enc_size (length data) (type :: src) = bit_counts_size (length data) n (type :: src) 1).
  { intros src. destruct Hn as [->|[->| ->]]; reflexivity. }
  exists (type :: bv ++ les n (vals data)), post. split; [|split; [|split]].
  - rewrite E1. rewrite <- app_assoc. rewrite W. cbn [bind].
    unfold enc_then_counts, write_counts. cbn [fst snd].
    change (type :: bv ++ m2 ++ post) with ((type :: bv) ++ m2 ++ post).
    rewrite write_counts_loop_app; [|simpl; lia|lia].
    cbn [bind fst snd]. simpl. rewrite <- app_assoc. do 2 f_equal.
    rewrite app_length, les_length. lia.
  - simpl. rewrite !app_length, les_length. lia.
  - simpl; rewrite ?app_length, ?les_length; lia.
  - intros rest. simpl app. rewrite <- app_assoc. split.
    + rewrite E2. apply read_bit_counts_ok.
      * intros j Hj. apply Rb; exact Hj.
      * intros j Hj.
        change (type :: bv ++ les n (vals data) ++ rest) with ((type :: bv) ++ les n (vals data) ++ rest).
        apply rdle_les; [simpl; lia|exact Hj|].
        intros x Hx. apply Hv. apply filter_In in Hx. apply Hx.
    + rewrite E3. unfold bit_counts_size.
      rewrite (@bit_counts_size_loop_ok data); [|intros j Hj; apply Rb; exact Hj].
      cbn [bind]. simpl length. rewrite app_length, les_length. f_equal; lia.
Qed.

Lemma token_bytes_width : forall v, width (token_bytes v).
Proof. intros v; unfold width, token_bytes. destruct (v <? 256)%N; [|destruct (v <? 65536)%N]; auto. Qed.
Lemma token_bytes_bound : forall v, (v < 2 ^ 32)%N -> (v < 256 ^ N.of_nat (token_bytes v))%N.
Proof.
  intros v H; unfold token_bytes. destruct (N.ltb_spec v 256).
  - assumption.
  - destruct (N.ltb_spec v 65536); assumption.
Qed.

Lemma vals_nil : forall data, length (vals data) = 0 -> forall v, In v data -> v = 0%N.
Proof.
  intros data H v Hv. destruct (N.eq_dec v 0); [assumption|].
  assert (In v (vals data)) by (apply filter_In; split; [assumption|apply N.ltb_lt; lia]).
  destruct (vals data); [contradiction|discriminate].
Qed.

Theorem encode_roundtrip : forall pad data,
  length pad = pad_size (length data) ->
  (N.of_nat (length data) < 2 ^ 32)%N ->
  (forall v, In v data -> (v < 2 ^ 32)%N) ->
  exists enc post, encode_marking pad data = Ok (enc ++ post, length enc) /\
    length (enc ++ post) = length pad /\ 0 < length enc <= 1 + 4 * length data /\
    forall rest, decode (length data) (enc ++ rest) = Ok data /\
                 enc_size (length data) (enc ++ rest) = Ok (length enc).
Proof.
  intros pad data Hpad Hd Hv. unfold encode_marking.
  destruct (stats_spec data) as (A & B & C & D & _). cbn zeta in *.
  set (st := marking_stats data) in *. rewrite A.
  set (val := st_val st) in *. set (ps := psize (length data)).
  pose proof (bytes_spec (length data)) as [Y1 Y2].
  enough (G : exists L, L <= 4 * length data /\
    roundtrip pad data (get_type (length data) (length (vals data)) (st_same st) val) L).
  { destruct G as (L & HL & enc & post & G1 & G2 & G3 & G4). exists enc, post.
    split; [exact G1|]. split; [exact G2|]. split; [lia|exact G4]. }
  unfold get_type. fold ps.
  destruct (Nat.eqb_spec (length (vals data)) 0) as [H0|H0].
  { exists (bytes (length data)). split; [lia|].
    apply rt_bits; [exact Hpad|lia|]. intros v I; left; exact (vals_nil data H0 v I). }
  assert (Hval : (val < 2 ^ 32)%N) by (destruct D as [D|D]; [lia|auto]).
  destruct (st_same st && (val <=? SAMEBOUND)%N) eqn:Hs.
  - apply andb_true_iff in Hs. destruct Hs as [Hs Hb]. apply N.leb_le in Hb.
    assert (Hnz : (val <> 0)%N).
    { intros E. apply H0. destruct (vals data) as [|x l] eqn:Ex; [reflexivity|].
      assert (Ix : In x (vals data)) by (rewrite Ex; left; reflexivity).
      apply filter_In in Ix. destruct Ix as [Ix Px]. apply N.ltb_lt in Px. apply B in Ix. lia. }
    destruct (Nat.leb_spec (bytes (length data)) (ps + length (vals data) * ps)) as [Hc|Hc].
    + exists (bytes (length data)). split; [lia|]. apply rt_bits; [exact Hpad|exact Hb|exact (C Hs)].
    + exists ((1 + length (vals data)) * ps). split; [lia|]. apply rt_places; [exact Hd| | |].
      * fold ps. rewrite Hpad. unfold pad_size. lia.
      * unfold SAMEBOUND in *. lia.
      * intros v I. replace (SAMEBOUND + val - 120)%N with val by (unfold SAMEBOUND; lia). exact (C Hs v I).
  - set (ts := token_bytes val).
    assert (Hw : width ts) by apply token_bytes_width.
    assert (Hvb : forall v, In v data -> (v < 256 ^ N.of_nat ts)%N).
    { intros v I. apply B in I. eapply N.le_lt_trans; [exact I|]. apply token_bytes_bound; exact Hval. }
    assert (Hts : 1 <= ts <= 4) by (destruct Hw as [->|[->| ->]]; lia).
    assert (Hpt : length data * ts <= length data * 4) by (apply Nat.mul_le_mono_l; lia).
    unfold pad_size in Hpad.
    assert (IND : length data * ts > ps + length (vals data) * (ps + ts) \/
                  length data * ts > bytes (length data) + length (vals data) * ts ->
      exists L, L <= 4 * length data /\
      roundtrip pad data (if ps + length (vals data) * (ps + ts) <=? bytes (length data) + length (vals data) * ts
                          then itype ts else btype ts) L).
    { intros Hor. destruct (Nat.leb_spec (ps + length (vals data) * (ps + ts)) (bytes (length data) + length (vals data) * ts)).
      - eexists; split; [|apply (@rt_place_counts pad data ts Hw Hd); [fold ps; lia|exact Hvb]]. fold ps. lia.
      - eexists; split; [|apply (@rt_bit_counts pad data ts Hw); [lia|exact Hvb]]. lia. }
    destruct ((val <? 4)%N && (bytes (length data * 2) <=? ps + length (vals data) * (ps + ts)) &&
              (bytes (length data * 2) <=? bytes (length data) + length (vals data) * ts)) eqn:Q1.
    + apply andb_true_iff in Q1. destruct Q1 as [Q1 _]. apply andb_true_iff in Q1. destruct Q1 as [Q1 _].
      apply N.ltb_lt in Q1. pose proof (bytes_spec (length data * 2)).
      exists (bytes (length data * 2)). split; [lia|]. apply rt_2bits; [exact Hpad|].
      intros v I; apply B in I; lia.
    + clear Q1. destruct (Nat.leb_spec (length data * ts) (ps + length (vals data) * (ps + ts))) as [Q2|Q2],
        (Nat.leb_spec (length data * ts) (bytes (length data) + length (vals data) * ts)) as [Q3|Q3]; cbn [andb].
      * eexists; split; [|apply (@rt_tokens pad data ts Hw); [lia|exact Hvb]]. lia.
      * apply IND; lia.
      * apply IND; lia.
      * apply IND; lia.
Qed.
