(** Model of AlignedEncoder: compression of markings into byte strings.
    Bytes are [N] below 256; the scratchpad is a list of bytes.  The machine is
    little-endian (the code stores 16- and 32-bit integers through casts).
    Sizes are unbounded here: the 32-bit bit-offsets of the code do not wrap for nets
    below 2^26 places. *)
From Verif Require Import Base.
Set Implicit Arguments.

(** Memory access to [n]-byte integers; the write truncates. *)
Fixpoint rdle (n : nat) (s : list N) (off : nat) : res N :=
  match n with
  | O => Ok 0%N
  | S n' => b <- rd s off ;; r <- rdle n' s (S off) ;; Ok (b + 256 * r)%N
  end.
Fixpoint wrle (n : nat) (s : list N) (off : nat) (v : N) : res (list N) :=
  match n with
  | O => Ok s
  | S n' => s' <- wr s off (v mod 256)%N ;; wrle n' s' (S off) (v / 256)%N
  end.

(** src/utils/structures/binarywrapper.cpp:30-39 (_masks), as the bit number. *)
Definition bitno (i : nat) : N := N.of_nat (7 - i mod 8).
(** binarywrapper.cpp:41-54 (overhead, bytes). *)
Definition overhead (size : nat) : nat :=
  if Nat.eqb (size mod 8) 0 then 0 else 8 - size mod 8.
Definition bytes (size : nat) : nat := (size + overhead size) / 8.
(** include/utils/structures/binarywrapper.h (at): beyond the wrapper's bytes the
    answer is false; [nb] is the number of bytes wrapped, [off] where they start. *)
Definition bit_at (nb : nat) (s : list N) (off i : nat) : res bool :=
  if i / 8 <? nb then b <- rd s (off + i / 8) ;; Ok (N.testbit b (bitno i))
  else Ok false.
(** binarywrapper.h (set). *)
Definition bit_set (s : list N) (i : nat) (v : bool) : res (list N) :=
  b <- rd s (i / 8) ;;
  wr s (i / 8) (if v then N.setbit b (bitno i) else N.clearbit b (bitno i)).

(** AlignedEncoder.cpp:12-13. *)
Definition SAMEBOUND : N := 120.
Definition DBOUND : N := 240.

(** AlignedEncoder.cpp:15-28, constructor: [_psize]; size of the scratchpad. *)
Definition psize (places : nat) : nat :=
  if places <? 256 then 1 else if (N.of_nat places <? 65536)%N then 2 else 4.
Definition pad_size (places : nat) : nat := 8 + 4 * places.

(** AlignedEncoder.cpp:34-41. *)
Definition token_bytes (n : N) : nat :=
  if (n <? 256)%N then 1 else if (n <? 65536)%N then 2 else 4.

(** AlignedEncoder.cpp:43-50, writeBitVector; the loop from index [i].  [data] is the
    marking array (its length is _places). *)
Fixpoint write_bits (s : list N) (off i : nat) (data : list N) : res (list N) :=
  match data with
  | [] => Ok s
  | v :: data' =>
    s' <- bit_set s (i + off * 8) (0 <? v)%N ;;
    write_bits s' off (S i) data'
  end.
Definition write_bit_vector (s : list N) (off : nat) (data : list N) : res (list N * nat) :=
  s' <- write_bits s off 0 data ;; Ok (s', off + bytes (length data)).

(** AlignedEncoder.cpp:52-73, writeTwoBitVector. *)
Fixpoint write_2bits (s : list N) (off i : nat) (data : list N) : res (list N) :=
  match data with
  | [] => Ok s
  | v :: data' =>
    s1 <- (if (v =? 1)%N || (v =? 3)%N then bit_set s (i * 2 + off * 8) true else Ok s) ;;
    s2 <- (if (v =? 3)%N || (v =? 2)%N then bit_set s1 (i * 2 + off * 8 + 1) true else Ok s1) ;;
    write_2bits s2 off (S i) data'
  end.
Definition write_2bit_vector (s : list N) (off : nat) (data : list N) : res (list N * nat) :=
  s' <- write_2bits s off 0 data ;; Ok (s', off + bytes (length data * 2)).

(** AlignedEncoder.cpp:75-92, readTwoBitVector. *)
Fixpoint read_2bits (places : nat) (dst : list N) (src : list N) (off i k : nat) : res (list N) :=
  match k with
  | O => Ok dst
  | S k' =>
    b0 <- bit_at (bytes (places * 2)) src off (i * 2) ;;
    b1 <- bit_at (bytes (places * 2)) src off (i * 2 + 1) ;;
    dst' <- wr dst i ((if (b0 : bool) then 1 else 0) + (if (b1 : bool) then 2 else 0))%N ;;
    read_2bits places dst' src off (S i) k'
  end.

(** AlignedEncoder.cpp:94-110, writeTokens<T> with sizeof(T) = [n]. *)
Fixpoint write_tokens_loop (n : nat) (s : list N) (off i : nat) (data : list N) : res (list N) :=
  match data with
  | [] => Ok s
  | v :: data' =>
    s' <- wrle n s (off + i * n) v ;;
    write_tokens_loop n s' off (S i) data'
  end.
Definition write_tokens (n : nat) (s : list N) (off : nat) (data : list N) : res (list N * nat) :=
  s' <- write_tokens_loop n s off 0 data ;; Ok (s', off + length data * n).

(** AlignedEncoder.cpp:113-122, readTokens<T>. *)
Fixpoint read_tokens (n : nat) (dst : list N) (src : list N) (off i k : nat) : res (list N) :=
  match k with
  | O => Ok dst
  | S k' =>
    v <- rdle n src (off + i * n) ;;
    dst' <- wr dst i v ;;
    read_tokens n dst' src off (S i) k'
  end.

(** AlignedEncoder.cpp:124-139, writeTokenCounts<T>. *)
Fixpoint write_counts_loop (n : nat) (s : list N) (off cnt : nat) (data : list N) : res (list N * nat) :=
  match data with
  | [] => Ok (s, cnt)
  | v :: data' =>
    if (0 <? v)%N then
      s' <- wrle n s (off + cnt * n) v ;;
      write_counts_loop n s' off (S cnt) data'
    else write_counts_loop n s off cnt data'
  end.
Definition write_counts (n : nat) (s : list N) (off : nat) (data : list N) : res (list N * nat) :=
  r <- write_counts_loop n s off 0 data ;; Ok (fst r, off + snd r * n).

(** AlignedEncoder.cpp:141-155, bitTokenCountsSize<T>: the counting loop. *)
Fixpoint bit_counts_size_loop (places n : nat) (src : list N) (off i k cnt : nat) : res nat :=
  match k with
  | O => Ok cnt
  | S k' =>
    b <- bit_at (bytes places) src off i ;;
    bit_counts_size_loop places n src off (S i) k' (if (b : bool) then cnt + n else cnt)
  end.
Definition bit_counts_size (places n : nat) (src : list N) (off : nat) : res nat :=
  c <- bit_counts_size_loop places n src off 0 places 0 ;;
  Ok (off + bytes places + c).

(** AlignedEncoder.cpp:157-173, readBitTokenCounts<T>; [ts] = start of the counts. *)
Fixpoint read_bit_counts (places n : nat) (dst : list N) (src : list N) (off ts i k cnt : nat)
  : res (list N) :=
  match k with
  | O => Ok dst
  | S k' =>
    b <- bit_at (bytes places) src off i ;;
    if (b : bool) then
      v <- rdle n src (ts + cnt) ;;
      dst' <- wr dst i v ;;
      read_bit_counts places n dst' src off ts (S i) k' (cnt + n)
    else read_bit_counts places n dst src off ts (S i) k' cnt
  end.

(** AlignedEncoder.cpp:175-196, placeTokenCountsSize<T>. *)
Definition place_counts_size (places n : nat) (src : list N) (off : nat) : res nat :=
  size <- rdle (psize places) src off ;;
  Ok (off + psize places + psize places * N.to_nat size + N.to_nat size * n).

(** AlignedEncoder.cpp:198-241, readPlaceTokenCounts<T>. *)
Fixpoint read_place_counts_loop (ps n : nat) (dst : list N) (src : list N) (off ts i k : nat)
  : res (list N) :=
  match k with
  | O => Ok dst
  | S k' =>
    pos <- rdle ps src (off + i * ps) ;;
    v <- rdle n src (ts + i * n) ;;
    dst' <- wr dst (N.to_nat pos) v ;;
    read_place_counts_loop ps n dst' src off ts (S i) k'
  end.
Definition read_place_counts (places n : nat) (dst : list N) (src : list N) (off : nat) : res (list N) :=
  size <- rdle (psize places) src off ;;
  let off' := off + psize places in
  read_place_counts_loop (psize places) n dst src off' (off' + psize places * N.to_nat size)
    0 (N.to_nat size).

(** AlignedEncoder.cpp:243-286, writePlaces: loop, then the count in front. *)
Fixpoint write_places_loop (ps : nat) (s : list N) (off cnt i : nat) (data : list N) : res (list N * nat) :=
  match data with
  | [] => Ok (s, cnt)
  | v :: data' =>
    if (0 <? v)%N then
      s' <- wrle ps s (off + (cnt + 1) * ps) (N.of_nat i) ;;
      write_places_loop ps s' off (S cnt) (S i) data'
    else write_places_loop ps s off cnt (S i) data'
  end.
Definition write_places (places : nat) (s : list N) (off : nat) (data : list N) : res (list N * nat) :=
  r <- write_places_loop (psize places) s off 0 0 data ;;
  s' <- wrle (psize places) (fst r) off (N.of_nat (snd r)) ;;
  Ok (s', off + psize places + snd r * psize places).

(** AlignedEncoder.cpp:288-329, readPlaces. *)
Fixpoint read_places_loop (ps : nat) (dst : list N) (src : list N) (off i k : nat) (value : N)
  : res (list N) :=
  match k with
  | O => Ok dst
  | S k' =>
    pos <- rdle ps src (off + i * ps) ;;
    dst' <- wr dst (N.to_nat pos) value ;;
    read_places_loop ps dst' src off (S i) k' value
  end.
Definition read_places (places : nat) (dst : list N) (src : list N) (off : nat) (value : N) : res (list N) :=
  size <- rdle (psize places) src off ;;
  read_places_loop (psize places) dst src (off + psize places) 0 (N.to_nat size) value.

(** AlignedEncoder.cpp:331-346, readBitVector. *)
Fixpoint read_bits (places : nat) (dst : list N) (src : list N) (off i k : nat) (value : N)
  : res (list N) :=
  match k with
  | O => Ok dst
  | S k' =>
    b <- bit_at (bytes places) src off i ;;
    dst' <- wr dst i (if (b : bool) then value else 0%N) ;;
    read_bits places dst' src off (S i) k' value
  end.

(** AlignedEncoder.cpp:348-422, getType.  [pwt] places hold tokens, [same] says they
    all hold the same number, [val] is the largest number. *)
Definition get_type (places pwt : nat) (same : bool) (val : N) : N :=
  if Nat.eqb pwt 0 then 0%N
  else if same && (val <=? SAMEBOUND)%N then
    let bvsize := bytes places in
    let indirect := psize places + pwt * psize places in
    if bvsize <=? indirect then val else (SAMEBOUND + val)%N
  else
    let tsize := token_bytes val in
    let bvsize := bytes (places * 2) in
    let indirect := psize places + pwt * (psize places + tsize) in
    let bvindirect := bytes places + pwt * tsize in
    let direct := places * tsize in
    if (val <? 4)%N && (bvsize <=? indirect) && (bvsize <=? bvindirect) then (DBOUND + 1)%N
    else if (direct <=? indirect) && (direct <=? bvindirect) then
      (if Nat.eqb tsize 1 then DBOUND + 2 else if Nat.eqb tsize 2 then DBOUND + 3 else DBOUND + 4)%N
    else if indirect <=? bvindirect then
      (if Nat.eqb tsize 1 then DBOUND + 5 else if Nat.eqb tsize 2 then DBOUND + 6 else DBOUND + 7)%N
    else
      (if Nat.eqb tsize 1 then DBOUND + 8 else if Nat.eqb tsize 2 then DBOUND + 9 else DBOUND + 10)%N.

(** AlignedEncoder.cpp:424-483, size: number of bytes of an encoded marking. *)
Definition enc_size (places : nat) (s : list N) : res nat :=
  type <- rd s 0 ;;
  if (type <=? SAMEBOUND)%N then
    Ok (if Nat.eqb (places mod 8) 0 then 1 + places / 8 else 2 + places / 8)
  else if (type <=? DBOUND)%N then
    n <- rdle (psize places) s 1 ;;
    Ok ((1 + N.to_nat n) * psize places + 1)
  else if (type =? DBOUND + 1)%N then
    Ok (if Nat.eqb (places mod 4) 0 then 1 + places / 4 else 2 + places / 4)
  else if (type =? DBOUND + 2)%N then Ok (1 + 1 * places)
  else if (type =? DBOUND + 3)%N then Ok (1 + 2 * places)
  else if (type =? DBOUND + 4)%N then Ok (1 + 4 * places)
  else if (type =? DBOUND + 5)%N then place_counts_size places 1 s 1
  else if (type =? DBOUND + 6)%N then place_counts_size places 2 s 1
  else if (type =? DBOUND + 7)%N then place_counts_size places 4 s 1
  else if (type =? DBOUND + 8)%N then bit_counts_size places 1 s 1
  else if (type =? DBOUND + 9)%N then bit_counts_size places 2 s 1
  else if (type =? DBOUND + 10)%N then bit_counts_size places 4 s 1
  else UB.

(** AlignedEncoder.cpp:485-543, encode: scratchpad contents and number of bytes used.
    [pad] is the old scratchpad; zero() clears it. *)
Definition enc_then_counts (n : nat) (r : list N * nat) (data : list N) : res (list N * nat) :=
  write_counts n (fst r) (snd r) data.
Definition encode (pad : list N) (data : list N) (type : N) : res (list N * nat) :=
  let places := length data in
  s <- wr (repeat 0%N (length pad)) 0 type ;;
  if (type <=? SAMEBOUND)%N then write_bit_vector s 1 data
  else if (type <=? DBOUND)%N then write_places places s 1 data
  else if (type =? DBOUND + 1)%N then write_2bit_vector s 1 data
  else if (type =? DBOUND + 2)%N then write_tokens 1 s 1 data
  else if (type =? DBOUND + 3)%N then write_tokens 2 s 1 data
  else if (type =? DBOUND + 4)%N then write_tokens 4 s 1 data
  else if (type =? DBOUND + 5)%N then r <- write_places places s 1 data ;; enc_then_counts 1 r data
  else if (type =? DBOUND + 6)%N then r <- write_places places s 1 data ;; enc_then_counts 2 r data
  else if (type =? DBOUND + 7)%N then r <- write_places places s 1 data ;; enc_then_counts 4 r data
  else if (type =? DBOUND + 8)%N then r <- write_bit_vector s 1 data ;; enc_then_counts 1 r data
  else if (type =? DBOUND + 9)%N then r <- write_bit_vector s 1 data ;; enc_then_counts 2 r data
  else if (type =? DBOUND + 10)%N then r <- write_bit_vector s 1 data ;; enc_then_counts 4 r data
  else UB.

(** AlignedEncoder.cpp:545-600, decode. *)
Definition decode (places : nat) (src : list N) : res (list N) :=
  let d := repeat 0%N places in
  type <- rd src 0 ;;
  if (type <=? SAMEBOUND)%N then read_bits places d src 1 0 places type
  else if (type <=? DBOUND)%N then read_places places d src 1 (type - SAMEBOUND)
  else if (type =? DBOUND + 1)%N then read_2bits places d src 1 0 places
  else if (type =? DBOUND + 2)%N then read_tokens 1 d src 1 0 places
  else if (type =? DBOUND + 3)%N then read_tokens 2 d src 1 0 places
  else if (type =? DBOUND + 4)%N then read_tokens 4 d src 1 0 places
  else if (type =? DBOUND + 5)%N then read_place_counts places 1 d src 1
  else if (type =? DBOUND + 6)%N then read_place_counts places 2 d src 1
  else if (type =? DBOUND + 7)%N then read_place_counts places 4 d src 1
  else if (type =? DBOUND + 8)%N then read_bit_counts places 1 d src 1 (1 + bytes places) 0 places 0
  else if (type =? DBOUND + 9)%N then read_bit_counts places 2 d src 1 (1 + bytes places) 0 places 0
  else if (type =? DBOUND + 10)%N then read_bit_counts places 4 d src 1 (1 + bytes places) 0 places 0
  else UB.

(** include/PetriEngine/Structures/StateSet.h, markingStats: one pass over the marking.
    The sum is a 32-bit unsigned integer and wraps. *)
Record stats := mkStats { st_sum : N; st_same : bool; st_val : N; st_active : nat }.
Definition stat_step (a : stats) (v : N) : stats :=
  if (v =? 0)%N then a
  else mkStats ((st_sum a + v) mod 2 ^ 32)%N
         (if negb (st_val a =? 0)%N && negb (v =? st_val a)%N then false else st_same a)
         (N.max v (st_val a)) (S (st_active a)).
Definition marking_stats (m : list N) : stats :=
  fold_left stat_step m (mkStats 0 true 0 0).

(** StateSet.h, _add/_lookup: statistics, choice of the encoding, encoding. *)
Definition encode_marking (pad m : list N) : res (list N * nat) :=
  let a := marking_stats m in
  encode pad m (get_type (length m) (st_active a) (st_same a) (st_val a)).
