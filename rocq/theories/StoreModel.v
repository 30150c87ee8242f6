(** Model of the state store: EncodingStateSetInterface, StateSet and
    TracableStateSet.  The prefix tree (external library ptrie) is represented by the
    list of keys in insertion order: insert/exists/unpack of ptrie::set_stable and
    ptrie::map with identifiers equal to the insertion rank.  Identifiers are not
    truncated (the code keeps parents and queue entries in 32 bits). *)
From Verif Require Import Base EncoderModel.
Set Implicit Arguments.

(** include/PetriEngine/Structures/StateSet.h:35-72, 292-306, 540-575.
    [ss_pad] is the encoder's scratchpad, [ss_hist] the traceable_t data of a key
    ([None]: never written), [ss_parent] is _parent. *)
Record store := mkStore {
  ss_places : nat;
  ss_kbound : N;
  ss_pad : list N;
  ss_trie : list (list N);
  ss_hist : list (option (nat * nat));
  ss_parent : nat;
  ss_discovered : N;
  ss_maxtok : N;
  ss_bound : list N
}.

(** StateSet.h:38-45, 295-299: a new store for a net with [n] places. *)
Definition store_new (n : nat) (k : N) : store :=
  mkStore n k (repeat 0%N (pad_size n)) [] [] 0 0 0 (repeat 0%N n).

Fixpoint bytes_eqb (a b : list N) : bool :=
  match a, b with
  | [], [] => true
  | x :: a', y :: b' => (x =? y)%N && bytes_eqb a' b'
  | _, _ => false
  end.

(** ptrie: rank of a key. *)
Fixpoint trie_find (key : list N) (l : list (list N)) : option nat :=
  match l with
  | [] => None
  | x :: l' => if bytes_eqb key x then Some 0
               else match trie_find key l' with Some i => Some (S i) | None => None end
  end.

(** The loop over _maxPlaceBound, StateSet.h:380-385. *)
Fixpoint max_zip (a b : list N) : list N :=
  match a, b with
  | x :: a', y :: b' => N.max x y :: max_zip a' b'
  | _, _ => b
  end.

(** StateSet.h:340-393, _add.  The second component of the result is the identifier;
    [None] is numeric_limits<size_t>::max(). *)
Definition store_add (s : store) (m : list N) : res (store * (bool * option nat)) :=
  let a := marking_stats m in
  let maxtok := N.max (ss_maxtok s) (st_sum a) in
  let disc := (ss_discovered s + 1)%N in
  if negb (ss_kbound s =? 0)%N && (ss_kbound s <? st_sum a)%N then
    Ok (mkStore (ss_places s) (ss_kbound s) (ss_pad s) (ss_trie s) (ss_hist s) (ss_parent s)
          disc maxtok (ss_bound s), (false, None))
  else
    r <- encode_marking (ss_pad s) m ;;
    if (65535 <=? N.of_nat (snd r) * 8)%N then Throw
    else
      let key := firstn (snd r) (fst r) in
      match trie_find key (ss_trie s) with
      | Some id =>
        Ok (mkStore (ss_places s) (ss_kbound s) (fst r) (ss_trie s) (ss_hist s) (ss_parent s)
              disc maxtok (ss_bound s), (false, Some id))
      | None =>
        Ok (mkStore (ss_places s) (ss_kbound s) (fst r) (ss_trie s ++ [key]) (ss_hist s ++ [None])
              (ss_parent s) disc maxtok (max_zip m (ss_bound s)), (true, Some (length (ss_trie s))))
      end.

(** StateSet.h:395-417, _lookup (the scratchpad is overwritten). *)
Definition store_lookup (s : store) (m : list N) : res (store * (bool * option nat)) :=
  r <- encode_marking (ss_pad s) m ;;
  let s' := mkStore (ss_places s) (ss_kbound s) (fst r) (ss_trie s) (ss_hist s) (ss_parent s)
              (ss_discovered s) (ss_maxtok s) (ss_bound s) in
  match trie_find (firstn (snd r) (fst r)) (ss_trie s) with
  | Some id => Ok (s', (true, Some id))
  | None => Ok (s', (false, None))
  end.

(** StateSet.h:327-337, _decode: unpack the key over the scratchpad (bytes behind the
    key keep their old contents), then decode; 551-555: TracableStateSet::decode
    remembers the identifier. *)
Definition store_decode (s : store) (id : nat) : res (store * list N) :=
  key <- rd (ss_trie s) id ;;
  if length key <=? length (ss_pad s) then
    let pad := key ++ skipn (length key) (ss_pad s) in
    m <- decode (ss_places s) pad ;;
    Ok (mkStore (ss_places s) (ss_kbound s) pad (ss_trie s) (ss_hist s) id
          (ss_discovered s) (ss_maxtok s) (ss_bound s), m)
  else UB.

(** StateSet.h:557-562, TracableStateSet::setHistory. *)
Definition store_set_history (s : store) (id t : nat) : res store :=
  h <- wr (ss_hist s) id (Some (ss_parent s, t)) ;;
  Ok (mkStore (ss_places s) (ss_kbound s) (ss_pad s) (ss_trie s) h (ss_parent s)
        (ss_discovered s) (ss_maxtok s) (ss_bound s)).

(** StateSet.h:564-568, getHistory; reading data never written is undefined. *)
Definition store_get_history (s : store) (id : nat) : res (nat * nat) :=
  h <- rd (ss_hist s) id ;;
  match h with Some p => Ok p | None => UB end.

(** Calls a client can make on a store, and what it observes. *)
Inductive sop :=
| SAdd (m : list N) | SLookup (m : list N) | SDecode (id : nat)
| SSetHist (id t : nat) | SGetHist (id : nat) | SSize | SBounds | SMaxTokens.
Inductive sout :=
| OAdd (r : bool * option nat) | OLookup (r : bool * option nat) | ODecode (m : list N)
| ODone | OHist (r : nat * nat) | OSize (n : nat) | OBounds (b : list N) | OMax (n : N).

Definition store_op (s : store) (o : sop) : res (store * sout) :=
  match o with
  | SAdd m => r <- store_add s m ;; Ok (fst r, OAdd (snd r))
  | SLookup m => r <- store_lookup s m ;; Ok (fst r, OLookup (snd r))
  | SDecode id => r <- store_decode s id ;; Ok (fst r, ODecode (snd r))
  | SSetHist id t => s' <- store_set_history s id t ;; Ok (s', ODone)
  | SGetHist id => h <- store_get_history s id ;; Ok (s, OHist h)
  | SSize => Ok (s, OSize (length (ss_trie s)))
  | SBounds => Ok (s, OBounds (ss_bound s))
  | SMaxTokens => Ok (s, OMax (ss_maxtok s))
  end.

Fixpoint store_ops (s : store) (l : list sop) : res (store * list sout) :=
  match l with
  | [] => Ok (s, [])
  | o :: l' =>
    r <- store_op s o ;;
    r' <- store_ops (fst r) l' ;;
    Ok (fst r', snd r :: snd r')
  end.
