From Verif Require Import Base BaseLemmas EncoderModel.
Set Implicit Arguments.

(** ** Little-endian integers *)
Fixpoint le (n : nat) (v : N) : list N :=
  match n with O => [] | S n' => (v mod 256)%N :: le n' (v / 256)%N end.

Lemma le_length : forall n v, length (le n v) = n.
Proof. induction n; intros; simpl; [|rewrite IHn]; reflexivity. Qed.

Lemma upd_app : forall {A} (pre post : list A) x v,
  upd (pre ++ x :: post) (length pre) v = pre ++ v :: post.
Proof. induction pre; intros; simpl; [|rewrite IHpre]; reflexivity. Qed.

Lemma upd_at : forall {A} (l : list A) i v, i < length l ->
  upd l i v = firstn i l ++ v :: skipn (S i) l.
Proof.
  induction l as [|x l IH]; intros i v H; simpl in H; [lia|].
  destruct i; [reflexivity|]. simpl. rewrite IH by lia. reflexivity.
Qed.

Lemma wr_app : forall {A} (pre post : list A) x v,
  wr (pre ++ x :: post) (length pre) v = Ok (pre ++ v :: post).
Proof.
  intros. rewrite wr_ok; [rewrite upd_app; reflexivity|].
  rewrite app_length; simpl; lia.
Qed.

Lemma rd_app : forall {A} (pre post : list A) x, rd (pre ++ x :: post) (length pre) = Ok x.
Proof.
  intros. apply rd_some. rewrite nth_error_app2 by lia. rewrite Nat.sub_diag. reflexivity.
Qed.

Lemma wrle_app : forall n pre mid post v, length mid = n ->
  wrle n (pre ++ mid ++ post) (length pre) v = Ok (pre ++ le n v ++ post).
Proof.
  induction n as [|n IH]; intros pre mid post v Hl.
  - destruct mid; [reflexivity|discriminate].
  - destruct mid as [|x mid]; [discriminate|]. simpl in Hl. simpl wrle.
    change (pre ++ (x :: mid) ++ post) with (pre ++ x :: (mid ++ post)).
    rewrite wr_app. cbn [bind].
    replace (pre ++ (v mod 256)%N :: mid ++ post) with ((pre ++ [(v mod 256)%N]) ++ mid ++ post)
      by (rewrite <- app_assoc; reflexivity).
    replace (S (length pre)) with (length (pre ++ [(v mod 256)%N])) by (rewrite app_length; simpl; lia).
    rewrite IH by lia. rewrite <- !app_assoc. reflexivity.
Qed.

Lemma rdle_app : forall n pre post v, (v < 256 ^ N.of_nat n)%N ->
  rdle n (pre ++ le n v ++ post) (length pre) = Ok v.
Proof.
  induction n as [|n IH]; intros pre post v Hv.
  - change (256 ^ N.of_nat 0)%N with 1%N in Hv. simpl. f_equal. lia.
  - cbn [rdle le].
    change (pre ++ ((v mod 256)%N :: le n (v / 256)%N) ++ post)
      with (pre ++ (v mod 256)%N :: (le n (v / 256)%N ++ post)).
    rewrite rd_app. cbn [bind].
    replace (pre ++ (v mod 256)%N :: le n (v / 256)%N ++ post)
      with ((pre ++ [(v mod 256)%N]) ++ le n (v / 256)%N ++ post)
      by (rewrite <- app_assoc; reflexivity).
    replace (S (length pre)) with (length (pre ++ [(v mod 256)%N])) by (rewrite app_length; simpl; lia).
    rewrite IH.
    + cbn [bind]. f_equal. rewrite N.add_comm. symmetry. apply N.div_mod. lia.
    + apply N.div_lt_upper_bound; [lia|]. rewrite Nat2N.inj_succ, N.pow_succ_r' in Hv. exact Hv.
Qed.

Definition les (n : nat) (l : list N) : list N := concat (map (le n) l).

Lemma les_length : forall n l, length (les n l) = length l * n.
Proof.
  induction l as [|x l IH]; [reflexivity|]. unfold les in *; simpl.
  rewrite app_length, le_length, IH. lia.
Qed.

Lemma les_split : forall n l j, j < length l ->
  les n l = les n (firstn j l) ++ le n (nth j l 0%N) ++ les n (skipn (S j) l).
Proof.
  induction l as [|x l IH]; intros j Hj; simpl in Hj; [lia|].
  destruct j; [reflexivity|]. unfold les in *; simpl.
  rewrite (IH j) by lia. rewrite <- app_assoc. reflexivity.
Qed.

Lemma rdle_les : forall n pre l post j off,
  off = length pre + j * n -> j < length l ->
  (forall x, In x l -> (x < 256 ^ N.of_nat n)%N) ->
  rdle n (pre ++ les n l ++ post) off = Ok (nth j l 0%N).
Proof.
  intros n pre l post j off -> Hj Hb.
  rewrite (les_split n l Hj).
  replace (pre ++ (les n (firstn j l) ++ le n (nth j l 0%N) ++ les n (skipn (S j) l)) ++ post)
    with ((pre ++ les n (firstn j l)) ++ le n (nth j l 0%N) ++ (les n (skipn (S j) l) ++ post))
    by (rewrite <- !app_assoc; reflexivity).
  replace (length pre + j * n) with (length (pre ++ les n (firstn j l))).
  - apply rdle_app. apply Hb. apply nth_In. exact Hj.
  - rewrite app_length, les_length, firstn_length. rewrite Nat.min_l by lia. reflexivity.
Qed.

(** ** Writers, as list surgery *)
Lemma split_len : forall {A} n (l : list A), n <= length l ->
  exists a b, l = a ++ b /\ length a = n.
Proof.
  intros A n l H. exists (firstn n l), (skipn n l). split; [symmetry; apply firstn_skipn|].
  rewrite firstn_length. lia.
Qed.

Lemma write_tokens_loop_app : forall n data pre mid post off i,
  length pre = off + i * n -> length mid = length data * n ->
  write_tokens_loop n (pre ++ mid ++ post) off i data = Ok (pre ++ les n data ++ post).
Proof.
  induction data as [|v data IH]; intros pre mid post off i Hp Hm.
  - simpl in Hm. destruct mid; [reflexivity|discriminate].
  - simpl in Hm. destruct (@split_len _ n mid) as (a & b & -> & Ha); [lia|].
    rewrite app_length in Hm. simpl write_tokens_loop.
    rewrite <- Hp.
    replace (pre ++ (a ++ b) ++ post) with (pre ++ a ++ (b ++ post)) by (rewrite <- app_assoc; reflexivity).
    rewrite wrle_app by exact Ha. cbn [bind].
    replace (pre ++ le n v ++ b ++ post) with ((pre ++ le n v) ++ b ++ post) by (rewrite <- app_assoc; reflexivity).
    rewrite IH; [|rewrite app_length, le_length; lia|lia].
    unfold les; simpl. rewrite <- !app_assoc. reflexivity.
Qed.

Definition vals (data : list N) : list N := filter (fun v => 0 <? v)%N data.
Fixpoint acts (i : nat) (data : list N) : list N :=
  match data with
  | [] => []
  | v :: d => if (0 <? v)%N then N.of_nat i :: acts (S i) d else acts (S i) d
  end.

Lemma acts_length : forall data i, length (acts i data) = length (vals data).
Proof.
  induction data as [|v d IH]; intros i; [reflexivity|]. simpl.
  destruct (0 <? v)%N; simpl; rewrite IH; reflexivity.
Qed.

Lemma acts_bound : forall data i x, In x (acts i data) -> (x < N.of_nat (i + length data))%N.
Proof.
  induction data as [|v d IH]; intros i x H; simpl in *; [contradiction|].
  destruct (0 <? v)%N; [destruct H as [<-|H]|]; try lia; apply IH in H; lia.
Qed.

Lemma vals_length : forall data, length (vals data) <= length data.
Proof.
  induction data as [|v d IH]; [simpl; lia|]. simpl. destruct (0 <? v)%N; simpl; lia.
Qed.

Lemma write_counts_loop_app : forall n data pre mid post off cnt,
  length pre = off + cnt * n -> length mid = length (vals data) * n ->
  write_counts_loop n (pre ++ mid ++ post) off cnt data
  = Ok (pre ++ les n (vals data) ++ post, cnt + length (vals data)).
Proof.
  induction data as [|v data IH]; intros pre mid post off cnt Hp Hm.
  - simpl in Hm. destruct mid; [simpl; rewrite Nat.add_0_r; reflexivity|discriminate].
  - simpl in *. destruct (0 <? v)%N; [|apply IH; assumption].
    simpl in Hm. destruct (@split_len _ n mid) as (a & b & -> & Ha); [lia|].
    rewrite app_length in Hm. rewrite <- Hp.
    replace (pre ++ (a ++ b) ++ post) with (pre ++ a ++ (b ++ post)) by (rewrite <- app_assoc; reflexivity).
    rewrite wrle_app by exact Ha. cbn [bind].
    replace (pre ++ le n v ++ b ++ post) with ((pre ++ le n v) ++ b ++ post) by (rewrite <- app_assoc; reflexivity).
    rewrite IH; [|rewrite app_length, le_length; lia|lia].
    unfold les; simpl. rewrite <- !app_assoc. f_equal. f_equal. lia.
Qed.

Lemma write_places_loop_app : forall ps data pre mid post off cnt i,
  length pre = off + (cnt + 1) * ps -> length mid = length (vals data) * ps ->
  write_places_loop ps (pre ++ mid ++ post) off cnt i data
  = Ok (pre ++ les ps (acts i data) ++ post, cnt + length (vals data)).
Proof.
  induction data as [|v data IH]; intros pre mid post off cnt i Hp Hm.
  - simpl in Hm. destruct mid; [simpl; rewrite Nat.add_0_r; reflexivity|discriminate].
  - simpl in *. destruct (0 <? v)%N; [|apply IH; assumption].
    simpl in Hm. destruct (@split_len _ ps mid) as (a & b & -> & Ha); [lia|].
    rewrite app_length in Hm. rewrite <- Hp.
    replace (pre ++ (a ++ b) ++ post) with (pre ++ a ++ (b ++ post)) by (rewrite <- app_assoc; reflexivity).
    rewrite wrle_app by exact Ha. cbn [bind].
    replace (pre ++ le ps (N.of_nat i) ++ b ++ post) with ((pre ++ le ps (N.of_nat i)) ++ b ++ post)
      by (rewrite <- app_assoc; reflexivity).
    rewrite IH; [|rewrite app_length, le_length; lia|lia].
    unfold les; simpl. rewrite <- !app_assoc. f_equal. f_equal. lia.
Qed.

Lemma write_places_app : forall places data pre mid post,
  length mid = (1 + length (vals data)) * psize places ->
  write_places places (pre ++ mid ++ post) (length pre) data
  = Ok (pre ++ (le (psize places) (N.of_nat (length (vals data))) ++ les (psize places) (acts 0 data)) ++ post,
        length pre + psize places + length (vals data) * psize places).
Proof.
  intros places data pre mid post Hm. set (ps := psize places) in *.
  destruct (@split_len _ ps mid) as (a & b & -> & Ha); [lia|]. rewrite app_length in Hm.
  unfold write_places; fold ps.
  replace (pre ++ (a ++ b) ++ post) with ((pre ++ a) ++ b ++ post) by (rewrite <- !app_assoc; reflexivity).
  rewrite write_places_loop_app; [|rewrite app_length; lia|lia].
  cbn [bind]. simpl fst; simpl snd.
  replace ((pre ++ a) ++ les ps (acts 0 data) ++ post)
    with (pre ++ a ++ (les ps (acts 0 data) ++ post)) by (rewrite <- !app_assoc; reflexivity).
  rewrite wrle_app by exact Ha. cbn [bind]. rewrite <- !app_assoc. reflexivity.
Qed.

(** ** Bits *)
Definition tb (l : list N) (i : nat) : bool := N.testbit (nth (i / 8) l 0%N) (bitno i).

Lemma bitno_inj : forall i j, i / 8 = j / 8 -> bitno i = bitno j -> i = j.
Proof.
  intros i j Hd Hb. unfold bitno in Hb. apply Nat2N.inj in Hb.
  pose proof (Nat.mod_upper_bound i 8). pose proof (Nat.mod_upper_bound j 8).
  pose proof (Nat.div_mod i 8). pose proof (Nat.div_mod j 8). lia.
Qed.

Lemma div8_shift : forall off i, (i + off * 8) / 8 = off + i / 8.
Proof. intros. rewrite Nat.div_add by lia. lia. Qed.
Lemma bitno_shift : forall off i, bitno (i + off * 8) = bitno i.
Proof. intros. unfold bitno. rewrite Nat.mod_add by lia. reflexivity. Qed.

Lemma bit_set_app : forall pre mid post i v,
  i / 8 < length mid ->
  exists mid', bit_set (pre ++ mid ++ post) (i + length pre * 8) v = Ok (pre ++ mid' ++ post) /\
    length mid' = length mid /\
    forall j, tb mid' j = if Nat.eqb j i then v else tb mid j.
Proof.
  intros pre mid post i v Hi. unfold bit_set. rewrite div8_shift, bitno_shift.
  set (b := nth (i / 8) mid 0%N).
  set (b' := if v then N.setbit b (bitno i) else N.clearbit b (bitno i)).
  exists (upd mid (i / 8) b').
  assert (Hm : mid = firstn (i / 8) mid ++ b :: skipn (S (i / 8)) mid).
  { transitivity (firstn (i / 8) mid ++ skipn (i / 8) mid); [symmetry; apply firstn_skipn|].
    f_equal. rewrite (skipn_cons_nth mid (i/8) (x:=b)); [reflexivity|].
    unfold b. apply nth_error_nth'. exact Hi. }
  assert (Hl : length (firstn (i / 8) mid) = i / 8) by (rewrite firstn_length; lia).
  assert (Hu : upd mid (i / 8) b' = firstn (i / 8) mid ++ b' :: skipn (S (i / 8)) mid).
  { apply upd_at. exact Hi. }
  assert (Hs : pre ++ mid ++ post = (pre ++ firstn (i/8) mid) ++ b :: (skipn (S (i/8)) mid ++ post)).
  { rewrite Hm at 1. rewrite <- !app_assoc. reflexivity. }
  assert (Ho : length pre + i / 8 = length (pre ++ firstn (i/8) mid)) by (rewrite app_length; lia).
  split; [|split].
  - rewrite Ho, Hs, rd_app. cbn [bind]. fold b'. rewrite wr_app. f_equal.
    rewrite Hu. rewrite <- !app_assoc. reflexivity.
  - apply upd_length.
  - intros j. unfold tb. destruct (Nat.eqb_spec j i) as [->|Hne].
    + rewrite nth_upd_eq by exact Hi. unfold b'. destruct v.
      * apply N.setbit_eq.
      * apply N.clearbit_eq.
    + destruct (Nat.eq_dec (j / 8) (i / 8)) as [E|E].
      * rewrite E, nth_upd_eq by exact Hi.
        assert (bitno i <> bitno j) by (intros C; apply Hne; apply bitno_inj; congruence).
        unfold b'. destruct v; [rewrite N.setbit_neq by assumption|rewrite N.clearbit_neq by assumption]; reflexivity.
      * rewrite nth_upd_neq by congruence. reflexivity.
Qed.

Lemma bit_at_app : forall nb pre mid post i,
  length mid = nb -> i / 8 < nb ->
  bit_at nb (pre ++ mid ++ post) (length pre) i = Ok (tb mid i).
Proof.
  intros nb pre mid post i Hl Hi. unfold bit_at.
  destruct (Nat.ltb_spec (i / 8) nb); [|lia].
  rewrite (rd_nth _ 0%N) by (rewrite !app_length; lia).
  rewrite app_nth2 by lia. replace (length pre + i / 8 - length pre) with (i / 8) by lia.
  rewrite app_nth1 by lia. reflexivity.
Qed.

Lemma write_bits_app : forall data pre mid post i,
  i + length data <= 8 * length mid ->
  exists mid', write_bits (pre ++ mid ++ post) (length pre) i data = Ok (pre ++ mid' ++ post) /\
    length mid' = length mid /\
    forall j, tb mid' j = if (i <=? j) && (j <? i + length data)
                          then (0 <? nth (j - i) data 0)%N else tb mid j.
Proof.
  induction data as [|v data IH]; intros pre mid post i Hl.
  - exists mid. split; [reflexivity|]. split; [reflexivity|]. intros j. simpl.
    destruct (Nat.leb_spec i j), (Nat.ltb_spec j (i + 0)); simpl; try reflexivity; lia.
  - simpl in Hl. simpl write_bits.
    destruct (@bit_set_app pre mid post i (0 <? v)%N) as (m1 & H1 & L1 & T1).
    { apply Nat.div_lt_upper_bound; lia. }
    rewrite H1. cbn [bind].
    destruct (IH pre m1 post (S i)) as (m2 & H2 & L2 & T2); [lia|].
    exists m2. split; [exact H2|]. split; [lia|]. intros j. rewrite T2, T1. simpl length.
    destruct (Nat.eqb_spec j i) as [->|Hne].
    + replace (S i <=? i) with false by (symmetry; apply Nat.leb_gt; lia).
      replace (i <=? i) with true by (symmetry; apply Nat.leb_le; lia).
      replace (i <? i + S (length data)) with true by (symmetry; apply Nat.ltb_lt; lia).
      simpl. rewrite Nat.sub_diag. reflexivity.
    + destruct (Nat.leb_spec (S i) j), (Nat.leb_spec i j), (Nat.ltb_spec j (S i + length data)),
        (Nat.ltb_spec j (i + S (length data))); simpl; try reflexivity; try lia.
      replace (j - i) with (S (j - S i)) by lia. reflexivity.
Qed.

Lemma bytes_spec : forall n, n <= 8 * bytes n /\ 8 * bytes n < n + 8.
Proof.
  intros n. unfold bytes, overhead.
  pose proof (Nat.div_mod n 8). pose proof (Nat.mod_upper_bound n 8).
  destruct (Nat.eqb_spec (n mod 8) 0).
  - rewrite Nat.add_0_r. lia.
  - replace (n + (8 - n mod 8)) with ((n / 8 + 1) * 8) by lia.
    rewrite Nat.div_mul by lia. lia.
Qed.

Lemma bytes_formula : forall n, bytes n = if Nat.eqb (n mod 8) 0 then n / 8 else 1 + n / 8.
Proof.
  intros n. pose proof (bytes_spec n). pose proof (Nat.div_mod n 8). pose proof (Nat.mod_upper_bound n 8).
  destruct (Nat.eqb_spec (n mod 8) 0); lia.
Qed.
Lemma bytes2_formula : forall n, bytes (n * 2) = if Nat.eqb (n mod 4) 0 then n / 4 else 1 + n / 4.
Proof.
  intros n. pose proof (bytes_spec (n * 2)). pose proof (Nat.div_mod n 4). pose proof (Nat.mod_upper_bound n 4).
  destruct (Nat.eqb_spec (n mod 4) 0); lia.
Qed.

Lemma write_2bits_app : forall data pre mid post i,
  (i + length data) * 2 <= 8 * length mid ->
  (forall j, 2 * i <= j -> tb mid j = false) ->
  exists mid', write_2bits (pre ++ mid ++ post) (length pre) i data = Ok (pre ++ mid' ++ post) /\
    length mid' = length mid /\
    (forall j, j < 2 * i -> tb mid' j = tb mid j) /\
    (forall j, j < length data ->
       let v := nth j data 0%N in
       tb mid' ((i + j) * 2) = ((v =? 1) || (v =? 3))%N /\
       tb mid' ((i + j) * 2 + 1) = ((v =? 3) || (v =? 2))%N).
Proof.
  induction data as [|v data IH]; intros pre mid post i Hl Hz.
  - exists mid. split; [reflexivity|]. split; [reflexivity|]. split; [reflexivity|].
    intros j Hj; simpl in Hj; lia.
  - simpl in Hl. simpl write_2bits.
    assert (S1 : exists m1,
      (if (v =? 1)%N || (v =? 3)%N then bit_set (pre ++ mid ++ post) (i * 2 + length pre * 8) true
       else Ok (pre ++ mid ++ post)) = Ok (pre ++ m1 ++ post) /\ length m1 = length mid /\
      forall j, tb m1 j = if Nat.eqb j (i * 2) then ((v =? 1) || (v =? 3))%N else tb mid j).
    { destruct ((v =? 1)%N || (v =? 3)%N) eqn:E.
      - destruct (@bit_set_app pre mid post (i * 2) true) as (m1 & H1 & L1 & T1);
          [apply Nat.div_lt_upper_bound; lia|]. exists m1. auto.
      - exists mid. split; [reflexivity|]. split; [reflexivity|]. intros j.
        destruct (Nat.eqb_spec j (i * 2)) as [->|]; [apply Hz; lia|reflexivity]. }
    destruct S1 as (m1 & H1 & L1 & T1). rewrite H1. cbn [bind].
    assert (S2 : exists m2,
      (if (v =? 3)%N || (v =? 2)%N then bit_set (pre ++ m1 ++ post) (i * 2 + length pre * 8 + 1) true
       else Ok (pre ++ m1 ++ post)) = Ok (pre ++ m2 ++ post) /\ length m2 = length mid /\
      forall j, tb m2 j = if Nat.eqb j (i * 2 + 1) then ((v =? 3) || (v =? 2))%N else tb m1 j).
    { destruct ((v =? 3)%N || (v =? 2)%N) eqn:E.
      - destruct (@bit_set_app pre m1 post (i * 2 + 1) true) as (m2 & H2 & L2 & T2);
          [apply Nat.div_lt_upper_bound; lia|]. exists m2.
        replace (i * 2 + length pre * 8 + 1) with (i * 2 + 1 + length pre * 8) by lia.
        rewrite <- L1. auto.
      - exists m1. split; [reflexivity|]. split; [exact L1|]. intros j.
        destruct (Nat.eqb_spec j (i * 2 + 1)) as [->|]; [|reflexivity].
        rewrite T1. destruct (Nat.eqb_spec (i * 2 + 1) (i * 2)); [lia|]. apply Hz; lia. }
    destruct S2 as (m2 & H2 & L2 & T2). rewrite H2. cbn [bind].
    destruct (IH pre m2 post (S i)) as (m3 & H3 & L3 & F3 & T3); [lia| |].
    { intros j Hj. rewrite T2, T1.
      destruct (Nat.eqb_spec j (i * 2 + 1)); [lia|]. destruct (Nat.eqb_spec j (i * 2)); [lia|].
      apply Hz; lia. }
    exists m3. split; [exact H3|]. split; [lia|]. split.
    + intros j Hj. rewrite F3 by lia. rewrite T2, T1.
      destruct (Nat.eqb_spec j (i * 2 + 1)); [lia|]. destruct (Nat.eqb_spec j (i * 2)); [lia|]. reflexivity.
    + intros j Hj. destruct j as [|j].
      * rewrite Nat.add_0_r. simpl nth. split.
        -- rewrite F3 by lia. rewrite T2, T1. destruct (Nat.eqb_spec (i * 2) (i * 2 + 1)); [lia|].
           rewrite Nat.eqb_refl. reflexivity.
        -- rewrite F3 by lia. rewrite T2. rewrite Nat.eqb_refl. reflexivity.
      * simpl length in Hj. specialize (T3 j ltac:(lia)). simpl nth.
        replace (i + S j) with (S i + j) by lia. exact T3.
Qed.

(** ** Readers *)
Lemma wr_mid : forall {A} (done todo : list A) i x y, i = length done ->
  wr (done ++ y :: todo) i x = Ok ((done ++ [x]) ++ todo).
Proof. intros A done todo i x y ->. rewrite wr_app. rewrite <- app_assoc. reflexivity. Qed.

Lemma len_snoc : forall {A} (l : list A) x, length (l ++ [x]) = S (length l).
Proof. intros. rewrite app_length; simpl; lia. Qed.

Lemma read_tokens_ok : forall n l done src off,
  (forall j, j < length l -> rdle n src (off + (length done + j) * n) = Ok (nth j l 0%N)) ->
  read_tokens n (done ++ repeat 0%N (length l)) src off (length done) (length l) = Ok (done ++ l).
Proof.
  induction l as [|v l IH]; intros done src off H; [simpl; rewrite app_nil_r; reflexivity|].
  simpl. pose proof (H 0 ltac:(simpl; lia)) as H0. rewrite Nat.add_0_r in H0. cbn [nth] in H0. rewrite H0. cbn [bind].
  rewrite wr_mid by reflexivity. cbn [bind].
  rewrite <- (len_snoc done v) at 1. rewrite IH.
  - rewrite <- app_assoc. reflexivity.
  - intros j Hj. rewrite len_snoc. replace (S (length done) + j) with (length done + S j) by lia.
    rewrite H by (simpl; lia). reflexivity.
Qed.

Lemma read_bits_ok : forall l done src places off value,
  (forall j, j < length l -> bit_at (bytes places) src off (length done + j) = Ok (0 <? nth j l 0)%N) ->
  (forall v, In v l -> v = 0%N \/ v = value) ->
  read_bits places (done ++ repeat 0%N (length l)) src off (length done) (length l) value = Ok (done ++ l).
Proof.
  induction l as [|v l IH]; intros done src places off value H Hv; [simpl; rewrite app_nil_r; reflexivity|].
  simpl. pose proof (H 0 ltac:(simpl; lia)) as H0. rewrite Nat.add_0_r in H0. cbn [nth] in H0. rewrite H0. cbn [bind].
  rewrite wr_mid by reflexivity. cbn [bind].
  assert (E : (if (0 <? v)%N then value else 0%N) = v).
  { destruct (N.ltb_spec 0 v); destruct (Hv v); simpl; auto; lia. }
  rewrite E. rewrite <- (len_snoc done v) at 1. rewrite IH.
  - rewrite <- app_assoc. reflexivity.
  - intros j Hj. rewrite len_snoc. replace (S (length done) + j) with (length done + S j) by lia.
    rewrite H by (simpl; lia). reflexivity.
  - intros x Hx; apply Hv; right; exact Hx.
Qed.

Lemma read_2bits_ok : forall l done src places off,
  (forall j, j < length l ->
     let v := nth j l 0%N in
     bit_at (bytes (places * 2)) src off ((length done + j) * 2) = Ok ((v =? 1) || (v =? 3))%N /\
     bit_at (bytes (places * 2)) src off ((length done + j) * 2 + 1) = Ok ((v =? 3) || (v =? 2))%N) ->
  (forall v, In v l -> (v < 4)%N) ->
  read_2bits places (done ++ repeat 0%N (length l)) src off (length done) (length l) = Ok (done ++ l).
Proof.
  induction l as [|v l IH]; intros done src places off H Hv; [simpl; rewrite app_nil_r; reflexivity|].
  simpl. destruct (H 0 ltac:(simpl; lia)) as [H0 H1]. rewrite Nat.add_0_r in H0, H1. simpl nth in H0, H1.
  rewrite H0. cbn [bind]. rewrite H1. cbn [bind].
  rewrite wr_mid by reflexivity. cbn [bind].
  assert (E : ((if (v =? 1) || (v =? 3) then 1 else 0) + (if (v =? 3) || (v =? 2) then 2 else 0) = v)%N).
  { pose proof (Hv v (or_introl eq_refl)).
    destruct (N.eqb_spec v 1), (N.eqb_spec v 3), (N.eqb_spec v 2); simpl; lia. }
  rewrite E. rewrite <- (len_snoc done v) at 1. rewrite IH.
  - rewrite <- app_assoc. reflexivity.
  - intros j Hj. rewrite len_snoc. replace (S (length done) + j) with (length done + S j) by lia.
    apply (H (S j)). simpl; lia.
  - intros x Hx; apply Hv; right; exact Hx.
Qed.

Lemma read_bit_counts_ok : forall n l done src places off ts cnt,
  (forall j, j < length l -> bit_at (bytes places) src off (length done + j) = Ok (0 <? nth j l 0)%N) ->
  (forall j, j < length (vals l) -> rdle n src (ts + (cnt + j * n)) = Ok (nth j (vals l) 0%N)) ->
  read_bit_counts places n (done ++ repeat 0%N (length l)) src off ts (length done) (length l) cnt = Ok (done ++ l).
Proof.
  induction l as [|v l IH]; intros done src places off ts cnt H Hv; [simpl; rewrite app_nil_r; reflexivity|].
  simpl. pose proof (H 0 ltac:(simpl; lia)) as H0. rewrite Nat.add_0_r in H0. cbn [nth] in H0. rewrite H0. cbn [bind].
  assert (Hn : forall j, j < length l -> bit_at (bytes places) src off (length (done ++ [v]) + j) = Ok (0 <? nth j l 0)%N).
  { intros j Hj. rewrite len_snoc. replace (S (length done) + j) with (length done + S j) by lia.
    rewrite H by (simpl; lia). reflexivity. }
  simpl vals in Hv. destruct (N.ltb_spec 0 v).
  - pose proof (Hv 0 ltac:(simpl; lia)) as E. simpl in E. rewrite Nat.add_0_r in E. simpl nth.
    rewrite E. cbn [bind].
    rewrite wr_mid by reflexivity. cbn [bind].
    rewrite <- (len_snoc done v) at 1. rewrite IH; [rewrite <- app_assoc; reflexivity|exact Hn|].
    intros j Hj. pose proof (Hv (S j) ltac:(simpl; lia)) as E2. simpl in E2.
    replace (cnt + n + j * n) with (cnt + (n + j * n)) by lia. exact E2.
  - assert (v = 0%N) by lia. subst v. simpl.
    change (0%N :: repeat 0%N (length l)) with ([0%N] ++ repeat 0%N (length l)). rewrite app_assoc.
    rewrite <- (len_snoc done 0%N) at 1. rewrite IH; [rewrite <- app_assoc; reflexivity|exact Hn|exact Hv].
Qed.

Lemma read_places_loop_ok : forall ps l done src off i value,
  (forall j, j < length (vals l) -> rdle ps src (off + (i + j) * ps) = Ok (nth j (acts (length done) l) 0%N)) ->
  (forall v, In v l -> v = 0%N \/ v = value) ->
  read_places_loop ps (done ++ repeat 0%N (length l)) src off i (length (vals l)) value = Ok (done ++ l).
Proof.
  induction l as [|v l IH]; intros done src off i value H Hv; [simpl; rewrite app_nil_r; reflexivity|].
  simpl in *. destruct (N.ltb_spec 0 v).
  - simpl. pose proof (H 0 ltac:(simpl; lia)) as E. simpl in E. rewrite Nat.add_0_r in E. rewrite E. cbn [bind].
    rewrite wr_mid by (rewrite Nat2N.id; reflexivity). cbn [bind].
    assert (value = v) by (destruct (Hv v); auto; lia). subst value.
    rewrite IH; [rewrite <- app_assoc; reflexivity| |intros x Hx; apply Hv; right; exact Hx].
    intros j Hj. rewrite len_snoc. pose proof (H (S j) ltac:(simpl; lia)) as E2. simpl nth in E2.
    replace (S i + j) with (i + S j) by lia. exact E2.
  - assert (v = 0%N) by lia. subst v.
    change (0%N :: repeat 0%N (length l)) with ([0%N] ++ repeat 0%N (length l)). rewrite app_assoc.
    rewrite IH; [rewrite <- app_assoc; reflexivity| |intros x Hx; apply Hv; right; exact Hx].
    intros j Hj. rewrite len_snoc. apply H; exact Hj.
Qed.

Lemma read_place_counts_loop_ok : forall ps n l done src off ts i,
  (forall j, j < length (vals l) -> rdle ps src (off + (i + j) * ps) = Ok (nth j (acts (length done) l) 0%N)) ->
  (forall j, j < length (vals l) -> rdle n src (ts + (i + j) * n) = Ok (nth j (vals l) 0%N)) ->
  read_place_counts_loop ps n (done ++ repeat 0%N (length l)) src off ts i (length (vals l)) = Ok (done ++ l).
Proof.
  induction l as [|v l IH]; intros done src off ts i H Hv; [simpl; rewrite app_nil_r; reflexivity|].
  simpl in *. destruct (N.ltb_spec 0 v).
  - simpl. pose proof (H 0 ltac:(simpl; lia)) as E. simpl in E. rewrite Nat.add_0_r in E. rewrite E. cbn [bind].
    pose proof (Hv 0 ltac:(simpl; lia)) as E1. simpl in E1. rewrite Nat.add_0_r in E1. rewrite E1. cbn [bind].
    rewrite wr_mid by (rewrite Nat2N.id; reflexivity). cbn [bind].
    rewrite IH; [rewrite <- app_assoc; reflexivity| |].
    + intros j Hj. rewrite len_snoc. pose proof (H (S j) ltac:(simpl; lia)) as E2. simpl nth in E2.
      replace (S i + j) with (i + S j) by lia. exact E2.
    + intros j Hj. pose proof (Hv (S j) ltac:(simpl; lia)) as E2. simpl nth in E2.
      replace (S i + j) with (i + S j) by lia. exact E2.
  - assert (v = 0%N) by lia. subst v.
    change (0%N :: repeat 0%N (length l)) with ([0%N] ++ repeat 0%N (length l)). rewrite app_assoc.
    rewrite IH; [rewrite <- app_assoc; reflexivity| |exact Hv].
    intros j Hj. rewrite len_snoc. apply H; exact Hj.
Qed.

Lemma bit_counts_size_loop_ok : forall l places n src off i cnt,
  (forall j, j < length l -> bit_at (bytes places) src off (i + j) = Ok (0 <? nth j l 0)%N) ->
  bit_counts_size_loop places n src off i (length l) cnt = Ok (cnt + length (vals l) * n).
Proof.
  induction l as [|v l IH]; intros places n src off i cnt H; [simpl; rewrite Nat.add_0_r; reflexivity|].
  simpl. pose proof (H 0 ltac:(simpl; lia)) as E. rewrite Nat.add_0_r in E. simpl in E. rewrite E. cbn [bind].
  rewrite IH.
  - destruct (0 <? v)%N; simpl; f_equal; lia.
  - intros j Hj. replace (S i + j) with (i + S j) by lia. apply (H (S j)). simpl; lia.
Qed.
