(** Specification of the state store: a duplicate-free list of markings; the
    identifier of a marking is its position. *)
From Verif Require Import Base NetSpec.
From Verif Require Import StoreModel. (* only for the types [sop] and [sout] *)
Set Implicit Arguments.

Record aset := mkAset {
  as_marks : list marking;               (* stored markings *)
  as_hist : nat -> option (nat * nat);   (* (parent, transition) recorded for an id *)
  as_last : nat;                         (* last decoded id *)
  as_peak : N                            (* largest total token count offered (mod 2^32) *)
}.
Definition aset_empty : aset := mkAset [] (fun _ => None) 0 0%N.

Definition mark_eq_dec : forall a b : marking, {a = b} + {a <> b} := list_eq_dec N.eq_dec.

Fixpoint position (m : marking) (l : list marking) : option nat :=
  match l with
  | [] => None
  | x :: l' => if mark_eq_dec m x then Some 0 else option_map S (position m l')
  end.

(** Total number of tokens as the code counts it: in 32 bits. *)
Definition total32 (m : marking) : N := (sumN m mod 2 ^ 32)%N.
Definition over_bound (k : N) (m : marking) : bool := negb (k =? 0)%N && (k <? total32 m)%N.

(** Largest count seen in place [p]. *)
Definition peak (l : list marking) (p : nat) : N :=
  fold_right (fun m x => N.max (tokens m p) x) 0%N l.

Definition aset_op (places : nat) (k : N) (s : aset) (o : sop) : res (aset * sout) :=
  match o with
  | SAdd m =>
    let s1 := mkAset (as_marks s) (as_hist s) (as_last s) (N.max (as_peak s) (total32 m)) in
    if over_bound k m then Ok (s1, OAdd (false, None))
    else match position m (as_marks s) with
         | Some i => Ok (s1, OAdd (false, Some i))
         | None => Ok (mkAset (as_marks s ++ [m]) (as_hist s) (as_last s) (N.max (as_peak s) (total32 m)),
                       OAdd (true, Some (length (as_marks s))))
         end
  | SLookup m =>
    match position m (as_marks s) with
    | Some i => Ok (s, OLookup (true, Some i))
    | None => Ok (s, OLookup (false, None))
    end
  | SDecode id =>
    match nth_error (as_marks s) id with
    | Some m => Ok (mkAset (as_marks s) (as_hist s) id (as_peak s), ODecode m)
    | None => UB
    end
  | SSetHist id t =>
    if id <? length (as_marks s)
    then Ok (mkAset (as_marks s) (fun i => if Nat.eqb i id then Some (as_last s, t) else as_hist s i)
               (as_last s) (as_peak s), ODone)
    else UB
  | SGetHist id =>
    match (if id <? length (as_marks s) then as_hist s id else None) with
    | Some h => Ok (s, OHist h)
    | None => UB
    end
  | SSize => Ok (s, OSize (length (as_marks s)))
  | SBounds => Ok (s, OBounds (map (peak (as_marks s)) (seq 0 places)))
  | SMaxTokens => Ok (s, OMax (as_peak s))
  end.

Fixpoint aset_ops (places : nat) (k : N) (s : aset) (l : list sop) : res (aset * list sout) :=
  match l with
  | [] => Ok (s, [])
  | o :: l' =>
    r <- aset_op places k s o ;;
    r' <- aset_ops places k (fst r) l' ;;
    Ok (fst r', snd r :: snd r')
  end.

(** Markings offered to a store: one 32-bit count per place. *)
Definition op_ok (places : nat) (o : sop) : Prop :=
  match o with
  | SAdd m | SLookup m => length m = places /\ forall v, In v m -> (v < 2 ^ 32)%N
  | _ => True
  end.
