(** Property theorems about marking compression and the state store (C04, C05, C09). *)
From Verif Require Import Base NetSpec EncoderModel EncoderMain StoreModel StoreSpec StoreProofs.
Set Implicit Arguments.

(** C04.  Compressing a marking into a scratchpad of the allocated size (whatever bytes
    it holds) writes at most 1 + 4 * places bytes.  Any byte sequence starting with those
    bytes decompresses to the marking, and its size is recovered. *)
Theorem C04_encode_round_trip : forall pad data,
  length pad = pad_size (length data) -> (N.of_nat (length data) < 2 ^ 32)%N ->
  (forall v, In v data -> (v < 2 ^ 32)%N) ->
  exists enc post,
    encode_marking pad data = Ok (enc ++ post, length enc) /\
    length (enc ++ post) = length pad /\
    0 < length enc <= 1 + 4 * length data /\
    forall rest, decode (length data) (enc ++ rest) = Ok data /\
                 enc_size (length data) (enc ++ rest) = Ok (length enc).
Proof. exact encode_roundtrip. Qed.
Print Assumptions C04_encode_round_trip.

Definition ex_big : list N := [0; 70000; 0; 0; 300; 1; 0; 0; 0; 0; 0; 0; 0; 0; 0; 0; 0; 0; 0; 4294967295]%N.
Example C04_case : length (repeat 255%N (pad_size 20)) = pad_size (length ex_big) /\
  (forall v, In v ex_big -> (v < 2 ^ 32)%N) /\
  exists e, encode_marking (repeat 255%N (pad_size 20)) ex_big = Ok e /\ snd e < 80.
Proof.
  split; [reflexivity|]. split.
  - intros v H. repeat (destruct H as [<-|H]; [reflexivity|]). destruct H.
  - destruct (encode_marking (repeat 255%N (pad_size 20)) ex_big) as [e| | |] eqn:E; vm_compute in E; try discriminate.
    exists e. split; [reflexivity|]. injection E as <-. cbn [snd]. lia.
Qed.

(** C05.  A store behaves as the duplicate-free list of [StoreSpec]: every sequence of
    calls on well-formed markings returns what that list returns; the store throws only
    for nets with more than 2047 places (the key limit), and is undefined only when the
    specification is (unknown identifiers, history never recorded). *)
Theorem C05_store_is_a_set : forall places k l, (N.of_nat places < 2 ^ 32)%N ->
  (forall o, In o l -> op_ok places o) ->
  (store_ops (store_new places k) l = Throw /\ 2047 < places) \/
  (store_ops (store_new places k) l = UB /\ aset_ops places k aset_empty l = UB) \/
  exists s' a' r, store_ops (store_new places k) l = Ok (s', r) /\ aset_ops places k aset_empty l = Ok (a', r).
Proof. exact store_correct. Qed.
Print Assumptions C05_store_is_a_set.

(** C05.  The identifier given to a marking is never reused or lost: after any further
    calls it still decodes to that marking, and looking the marking up still finds it. *)
Theorem C05_identifiers_stable : forall places k l1 l2 s r id m, (N.of_nat places < 2 ^ 32)%N ->
  (forall o, In o (l1 ++ l2) -> op_ok places o) ->
  store_ops (store_new places k) (l1 ++ [SAdd m] ++ l2) = Ok (s, r) ->
  op_ok places (SAdd m) ->
  (exists b, nth_error r (length l1) = Some (OAdd (b, Some id))) ->
  exists s1 s2,
    store_op s (SDecode id) = Ok (s1, ODecode m) /\
    store_op s (SLookup m) = Ok (s2, OLookup (true, Some id)).
Proof. exact store_ids_stable. Qed.
Print Assumptions C05_identifiers_stable.

Definition ex_ops : list sop :=
  [SAdd [1; 0]%N; SAdd [0; 300]%N; SDecode 0; SAdd [1; 0]%N; SSetHist 1 7; SGetHist 1; SLookup [5; 5]%N; SDecode 1; SSize; SBounds].
Definition ex_outs : list sout :=
  [OAdd (true, Some 0); OAdd (true, Some 1); ODecode [1; 0]%N; OAdd (false, Some 0); ODone; OHist (0, 7);
   OLookup (false, None); ODecode [0; 300]%N; OSize 2; OBounds [1; 300]%N].
Example C05_case : (forall o, In o ex_ops -> op_ok 2 o) /\
  (match store_ops (store_new 2 0) ex_ops with Ok (_, r) => r = ex_outs | _ => False end) /\
  nth_error ex_outs (length [SAdd [1; 0]%N]) = Some (OAdd (true, Some 1)).
Proof.
  split.
  - intros o H. repeat (destruct H as [<-|H];
      [first [exact I | split; [reflexivity|]; intros v Hv; repeat (destruct Hv as [<-|Hv]; [reflexivity|]); destruct Hv]|]).
    destruct H.
  - split; [vm_compute; reflexivity|reflexivity].
Qed.

(** C09.  With a token bound k > 0, every marking in the store has at most k tokens, and
    a marking is refused exactly when it has more than k, as long as the total number of
    tokens of the marking is below 2^32. *)
Theorem C09_token_bound : forall places k l s r, (N.of_nat places < 2 ^ 32)%N ->
  (forall o, In o l -> op_ok places o) ->
  store_ops (store_new places k) l = Ok (s, r) -> k <> 0%N ->
  (forall id s1 m, store_op s (SDecode id) = Ok (s1, ODecode m) ->
     (total32 m <= k)%N /\ ((sumN m < 2 ^ 32)%N -> (sumN m <= k)%N)) /\
  (forall m, op_ok places (SAdd m) -> (sumN m < 2 ^ 32)%N ->
     (k < sumN m)%N <-> exists s1, store_op s (SAdd m) = Ok (s1, OAdd (false, None))).
Proof. exact store_kbound. Qed.
Print Assumptions C09_token_bound.

Example C09_case : (forall o, In o [SAdd [1; 2]%N; SAdd [3; 1]%N; SAdd [0; 3]%N] -> op_ok 2 o) /\
  match store_ops (store_new 2 3) [SAdd [1; 2]%N; SAdd [3; 1]%N; SAdd [0; 3]%N] with
  | Ok (_, r) => r = [OAdd (true, Some 0); OAdd (false, None); OAdd (true, Some 1)]
  | _ => False end.
Proof.
  split.
  - intros o H. repeat (destruct H as [<-|H]; [split; [reflexivity|]; intros v Hv; repeat (destruct Hv as [<-|Hv]; [reflexivity|]); destruct Hv|]).
    destruct H.
  - vm_compute; reflexivity.
Qed.

(** Finding (C09).  The total is kept in 32 bits: a marking with 2^32 tokens has total 0
    and is stored whatever the bound. *)
Theorem C09_wrap_refuted : exists places k m s, op_ok places (SAdd m) /\ k = 3%N /\
  (k < sumN m)%N /\ store_op (store_new places k) (SAdd m) = Ok (s, OAdd (true, Some 0)).
Proof.
  destruct (store_op (store_new 2 3) (SAdd [2147483648; 2147483648]%N)) as [[s r]| | |] eqn:E; [|vm_compute in E; discriminate ..].
  assert (r = OAdd (true, Some 0)) by (vm_compute in E; injection E as _ <-; reflexivity). subst r.
  exists 2, 3%N, [2147483648; 2147483648]%N, s. split; [|split; [reflexivity|split; [reflexivity|exact E]]].
  split; [reflexivity|]. intros v [<-|[<-|[]]]; reflexivity.
Qed.
Print Assumptions C09_wrap_refuted.
