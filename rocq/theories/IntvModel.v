(** Model of the sets of colours that are kept as intervals
    (include/PetriEngine/Colored/Intervals.h, src/PetriEngine/Colored/EquivalenceClass.cpp).
    The ranges are those of RangeModel (include/PetriEngine/TAR/range.h). *)
From Verif Require Import Base RangeSpec RangeModel.
Set Implicit Arguments.

(** Intervals.h:35-45 interval_t: one range for every component of a colour.
    Simplification: where the code asserts that two intervals have the same size, the model
    stops at the shorter one. *)
Definition box := list range.

Section Map2.
Variables A B C : Type.
Variable f : A -> B -> C.
Fixpoint map2 (a : list A) (b : list B) : list C :=
  match a, b with
  | x :: a', y :: b' => f x y :: map2 a' b'
  | _, _ => []
  end.
End Map2.
Fixpoint all2 (f : range -> range -> bool) (a b : box) : bool :=
  match a, b with
  | x :: a', y :: b' => f x y && all2 f a' b'
  | _, _ => true
  end.

(** 51-58 isSound *)
Definition i_sound (b : box) : bool := forallb is_sound b.
(** 124-134 contains: positions on the diagonal are not looked at *)
Fixpoint i_inside (diag : list bool) (a b : box) : bool :=
  match diag, a, b with
  | d :: diag', x :: a', y :: b' => (d || fst (r_compare x y)) && i_inside diag' a' b'
  | _, _, _ => true
  end.
Definition i_contains (a b : box) (diag : list bool) : bool :=
  Nat.eqb (length b) (length a) && i_inside diag a b.
(** 136-148 getOverlap *)
Definition overlap (a b : box) : box := if Nat.eqb (length a) (length b) then map2 r_and a b else [].
(** 168-174 operator|= *)
Definition i_or (a b : box) : box := map2 r_or a b.
(** 176-184 intersects *)
Definition i_meets (a b : box) : bool := all2 r_intersects a b.

(** 186-236 getSubtracted: [pre] are the ranges of the remainder before the position.
    [newMinUpper] is a signed 64-bit number, other[i]._upper + 1 is computed in 32 bits. *)
Fixpoint sub_from (pre rem other : box) (diag : list bool) : list box :=
  match rem, other, diag with
  | r :: rem', o :: other', d :: diag' =>
    if d then sub_from (pre ++ [r]) rem' other' diag'
    else
      let minup := Z.min (Z.of_N (fst o) - 1) (Z.of_N (snd r)) in
      let maxlow := N.max ((snd o + 1) mod 2 ^ 32) (fst r) in
      let below := (Z.of_N (fst r) <=? minup)%Z in
      let above := (maxlow <=? snd r)%N in
      if below && above then
        (pre ++ (maxlow, snd r) :: rem') :: (pre ++ (fst r, Z.to_N minup) :: rem') ::
        sub_from (pre ++ [(Z.to_N (minup + 1), (maxlow - 1)%N)]) rem' other' diag'
      else if below then
        (pre ++ (fst r, Z.to_N minup) :: rem') ::
        (if (Z.of_N (snd r) <=? minup)%Z then [] else sub_from (pre ++ [(Z.to_N (minup + 1), snd r)]) rem' other' diag')
      else if above then
        (pre ++ (maxlow, snd r) :: rem') ::
        (if (maxlow <=? fst r)%N then [] else sub_from (pre ++ [(fst r, (maxlow - 1)%N)]) rem' other' diag')
      else sub_from (pre ++ [r]) rem' other' diag'
  | _, _, _ => []
  end.
Definition subtracted (a other : box) (diag : list bool) : list box :=
  if Nat.eqb (length a) (length other) then sub_from [] a other diag else [].

(** 373-418 addInterval: the first position where the lower bounds differ decides the
    place. *)
Fixpoint is_lower (b x : box) : bool :=
  match b, x with
  | r :: b', s :: x' => if (fst r <? fst s)%N then true else if (fst s <? fst r)%N then false else is_lower b' x'
  | _, _ => false
  end.
Fixpoint add_interval (l : list box) (b : box) : list box :=
  match l with
  | [] => [b]
  | x :: l' =>
    if i_meets b x then i_or x b :: l'
    else if is_lower b x then b :: x :: l'
    else x :: add_interval l' b
  end.

(** 653-670 simplify: for every i, the intervals after it from the last to the first *)
Definition absorb (b : box) (l : list box) : box * list box :=
  fold_right (fun o st => if negb (i_sound o) then st
                          else if i_meets (fst st) o then (i_or (fst st) o, snd st)
                          else (fst st, o :: snd st)) (b, []) l.
Fixpoint simp_rounds (fuel : nat) (l : list box) : list box :=
  match fuel, l with
  | S fuel', b :: l' => let '(b', l'') := absorb b l' in b' :: simp_rounds fuel' l''
  | _, _ => []
  end.
Fixpoint drop_unsound (l : list box) : list box :=
  match l with
  | b :: l' => if i_sound b then l else drop_unsound l'
  | [] => []
  end.
Definition simplify (l : list box) : list box := let l := drop_unsound l in simp_rounds (length l) l.

(** 420-438 constrainLower, 440-458 constrainUpper; more values than ranges are an access
    out of bounds. *)
Definition lower_range (strict : bool) (v : N) (r : range) : range :=
  if strict && (fst r <=? v)%N then (if (snd r <=? v)%N then (1%N, 0%N) else ((v + 1)%N, snd r))
  else if negb strict && (fst r <? v)%N then (if (snd r <? v)%N then (1%N, 0%N) else (v, snd r))
  else r.
Definition upper_range (strict : bool) (v : N) (r : range) : range :=
  if strict && (v <=? snd r)%N then (if (v <=? fst r)%N then (1%N, 0%N) else (fst r, (v - 1)%N))
  else if negb strict && (v <? snd r)%N then (if (v <? fst r)%N then (1%N, 0%N) else (fst r, v))
  else r.
Section Constrain.
Variable f : N -> range -> range.
Fixpoint constrain_box (vs : list N) (b : box) : res box :=
  match vs, b with
  | [], _ => Ok b
  | v :: vs', r :: b' => x <- constrain_box vs' b' ;; Ok (f v r :: x)
  | _ :: _, [] => UB
  end.
Fixpoint constrain_all (vs : list N) (l : list box) : res (list box) :=
  match l with
  | [] => Ok []
  | b :: l' => x <- constrain_box vs b ;; y <- constrain_all vs l' ;; Ok (x :: y)
  end.
End Constrain.
Definition constrain_lower (vs : list N) (strict : bool) (l : list box) : res (list box) :=
  x <- constrain_all (lower_range strict) vs l ;; Ok (simplify x).
Definition constrain_upper (vs : list N) (strict : bool) (l : list box) : res (list box) :=
  x <- constrain_all (upper_range strict) vs l ;; Ok (simplify x).

(** 310-314 shiftInterval, in 32 bits *)
Definition shift (size : N) (k : Z) (v : N) : N :=
  Z.to_N (((Z.of_N size + Z.of_N v + k) mod 2 ^ 32) mod Z.of_N size).
(** 554-584 applyModifier.  An interval is split in the ranges that have been shifted and
    the others; the second parts of intervals that were split are put behind all others.
    The destructor of interval_t is declared, so that the std::move in line 558 copies.
    Simplification: [sizes] has one entry for every range. *)
Definition shift_first (s : N) (k : Z) (x : box * box) : box * box :=
  match snd x with
  | [] => x
  | r :: suf =>
    let lo := shift s k (fst r) in let hi := shift s k (snd r) in
    if (hi <? lo)%N then (fst x ++ [(0%N, hi)], suf) else (fst x ++ [(lo, hi)], suf)
  end.
Definition shift_second (s : N) (k : Z) (x : box * box) : list (box * box) :=
  match snd x with
  | [] => []
  | r :: suf =>
    let lo := shift s k (fst r) in let hi := shift s k (snd r) in
    if (hi <? lo)%N then [(fst x ++ [(lo, (s - 1)%N)], suf)] else []
  end.
Fixpoint apply_pos (k : Z) (sizes : list N) (l : list (box * box)) : list box :=
  match sizes with
  | [] => map (fun x => fst x ++ snd x) l
  | s :: sizes' => apply_pos k sizes' (map (shift_first s k) l ++ flat_map (shift_second s k) l)
  end.
Definition apply_modifier (k : Z) (sizes : list N) (l : list box) : list box :=
  flat_map (fun b => apply_pos k sizes [([], b)]) l.

(** 492-519 getLowerIds with a modifier; the first loop runs up to the size of the vector
    that it should fill. *)
Definition shifted_lower_ids (k : Z) (sizes : list N) (l : list box) : list N :=
  fold_left (fun ids b =>
    match ids with
    | [] => ids ++ map2 (fun r s => if (shift s k (snd r) <? shift s k (fst r))%N then 0%N else shift s k (fst r)) (firstn (length ids) b) sizes
    | _ => map2 (fun v x => if (v =? 0)%N then v
                   else if (shift (snd x) k (snd (fst x)) <? shift (snd x) k (fst (fst x)))%N then 0%N
                   else N.max v (shift (snd x) k (fst (fst x)))) ids (combine b sizes)
    end) l [].

(** 621-651 getClosestIntervals: 32-bit distances *)
Definition i32 (z : Z) : Z := ((z + 2 ^ 31) mod 2 ^ 32 - 2 ^ 31)%Z.
Definition gap (r s : range) : N :=
  Z.to_N (Z.max 0 (Z.max (i32 (Z.of_N (fst s) - Z.of_N (snd r))) (i32 (Z.of_N (fst r) - Z.of_N (snd s))))).
Fixpoint distance (best acc : N) (a b : box) : N :=
  match a, b with
  | r :: a', s :: b' => let acc := ((acc + gap r s) mod 2 ^ 32)%N in if (best <=? acc)%N then acc else distance best acc a' b'
  | _, _ => acc
  end.
Definition pairs (k : nat) : list (nat * nat) :=
  flat_map (fun i => map (fun j => (i, j)) (seq (S i) (k - S i))) (seq 0 (k - 1)).
Fixpoint closest_from (l : list box) (ps : list (nat * nat)) (best : nat * nat * N) : nat * nat * N :=
  match ps with
  | [] => best
  | (i, j) :: ps' =>
    let d := distance (snd best) 0 (nth i l []) (nth j l []) in
    if (d <? snd best)%N then (if (d =? 1)%N then (i, j, d) else closest_from l ps' (i, j, d))
    else closest_from l ps' best
  end.
Definition closest (l : list box) : nat * nat * N := closest_from l (pairs (length l)) (0, 0, (2 ^ 32 - 1)%N).
(** 601-619 restrict *)
Definition merge_pair (l : list box) (i j : nat) : list box :=
  let l' := firstn i l ++ i_or (nth i l []) (nth j l []) :: skipn (S i) l in firstn j l' ++ skipn (S j) l'.
Fixpoint restrict_loop (fuel k : nat) (l : list box) : list box :=
  match fuel with
  | 0 => l
  | S fuel' => if k <? length l then let '(i, j, _) := closest l in restrict_loop fuel' k (merge_pair l i j) else l
  end.
Definition restrict (k : nat) (l : list box) : list box :=
  let l := simplify l in
  if Nat.eqb k 0 then l else simplify (restrict_loop (length l) k l).

(** 672-719 combineNeighbours: the intervals with a mark for those that are removed.
    [near] allows a distance of one in one component. *)
Fixpoint near (dist : N) (a b : box) : bool :=
  match a, b with
  | r :: a', s :: b' =>
    if (snd s <? fst r)%N || (snd r <? fst s)%N then
      if ((snd s + dist) mod 2 ^ 32 <? fst r)%N || ((snd r + dist) mod 2 ^ 32 <? fst s)%N then false
      else near 0 a' b'
    else near dist a' b'
  | _, _ => true
  end.
Fixpoint gather (b : box) (l : list (box * bool)) : box * list (box * bool) :=
  match l with
  | [] => (b, [])
  | (o, rm) :: l' =>
    if negb (i_sound o) then let '(b', r) := gather b l' in (b', (o, rm) :: r)
    else if near 1 b o then let '(b', r) := gather (i_or b o) l' in (b', (o, true) :: r)
    else let '(b', r) := gather b l' in (b', (o, rm) :: r)
  end.
Fixpoint comb_rounds (fuel : nat) (l : list (box * bool)) : list (box * bool) :=
  match fuel, l with
  | S fuel', (b, rm) :: l' =>
    if negb (i_sound b) then (b, true) :: comb_rounds fuel' l'
    else let '(b', l'') := gather b l' in (b', rm) :: comb_rounds fuel' l''
  | _, _ => []
  end.
Definition combine_neighbours (l : list box) : list box :=
  map fst (filter (fun x => negb (snd x)) (comb_rounds (length l) (map (fun b => (b, false)) l))).

(** EquivalenceClass.cpp:16-33 intersect *)
Definition class_intersect (a b : list box) : list box :=
  fold_left (fun r x => fold_left (fun r y => let o := overlap x y in if i_sound o then add_interval r o else r) b r) a [].
(** EquivalenceClass.cpp:36-73 subtract *)
Fixpoint class_sub_one (x : box) (diag : list bool) (other : list box) (acc : list box) : list box :=
  match other with
  | [] => acc
  | o :: other' =>
    let s := subtracted x o diag in
    match s with
    | [] => []
    | y :: _ =>
      if Nat.eqb (length y) 0 then []
      else class_sub_one x diag other'
        (match acc with
         | [] => s
         | _ => fold_left (fun r n => fold_left (fun r i => let o := overlap i n in if i_sound o then add_interval r o else r) acc r) s []
         end)
    end
  end.
Definition class_subtract (a b : list box) (diag : list bool) : list box :=
  fold_left (fun r x => fold_left add_interval (class_sub_one x diag b []) r) a [].
