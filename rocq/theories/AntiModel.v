(** Model of include/PetriEngine/TAR/AntiChain.h. *)
From Verif Require Import Base.
Set Implicit Arguments.

(** std::includes: whether the sorted range [b] is a subsequence of the sorted range [a] *)
Fixpoint includes (a b : list nat) : bool :=
  match b with
  | [] => true
  | y :: b' =>
    match a with
    | [] => false
    | x :: a' => if y <? x then false else if x <? y then includes a' b else includes a' b'
    end
  end.
(** AntiChain.h:22-26, map: for each key the stored sets, as sorted vectors *)
Definition chains := list (list (list nat)).
Definition chain_of (c : chains) (k : nat) : list (list nat) := nth k c [].
(** AntiChain.h:40-59, subsumed *)
Definition subsumed (c : chains) (k : nat) (set : list nat) : bool :=
  if k <? length c then existsb (fun s => includes set s) (chain_of c k) else false.
(** AntiChain.h:61-88, insert: the new map, and whether the set was inserted *)
Definition resize (c : chains) (n : nat) : chains := firstn n c ++ repeat [] (n - length c).
Definition insert (c : chains) (k : nat) (set : list nat) : chains * bool :=
  let c := if length c <=? k then resize c (S k) else c in
  if negb (subsumed c k set) then
    (firstn k c ++ (filter (fun s => negb (includes s set)) (chain_of c k) ++ [set]) :: skipn (S k) c, true)
  else (c, false).
(** a history of insertions *)
Definition history := list (nat * list nat).
Definition after (h : history) : chains := fold_left (fun c e => fst (insert c (fst e) (snd e))) h [].
