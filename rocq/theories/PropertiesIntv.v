(** Property theorems about sets of colours kept as intervals (C45). *)
From Verif Require Import Base BaseLemmas RangeSpec RangeModel IntvModel IntvSpec IntvProofs IntvMore IntvMain.

(** C45.  The overlap of two intervals has exactly their common colours. *)
Theorem C45_overlap : forall a b c, length a = length b -> (inb (overlap a b) c <-> inb a c /\ inb b c).
Proof. exact overlap_in. Qed.
Print Assumptions C45_overlap.
Example C45_overlap_case : overlap [(1, 4); (0, 2)]%N [(3, 9); (1, 1)]%N = [(3, 4); (1, 1)]%N /\ inb [(3, 4); (1, 1)]%N [4; 1]%N.
Proof. split; [reflexivity|]. repeat constructor; cbn; lia. Qed.

(** One interval is said to contain another one exactly if it has all of its colours. *)
Theorem C45_contains : forall a b, length a = length b -> nonempty b ->
  (i_contains a b (repeat false (length a)) = true <-> forall c, inb b c -> inb a c).
Proof. exact contains_in. Qed.
Print Assumptions C45_contains.
Example C45_contains_case : nonempty [(1, 2); (0, 0)]%N /\ i_contains [(0, 4); (0, 2)]%N [(1, 2); (0, 0)]%N [false; false] = true /\
  i_contains [(1, 2); (0, 0)]%N [(0, 4); (0, 2)]%N [false; false] = false.
Proof. split; [repeat constructor; cbn; lia|]. split; reflexivity. Qed.

(** What is left of an interval after another one is subtracted: exactly the colours of the
    first that are outside the second in some component that is not on the diagonal; without
    a diagonal, exactly those that are not in the second. *)
Theorem C45_subtract_interval : forall a b diag c, length a = length b -> length diag = length b -> nonempty b -> bounded b ->
  (inv (subtracted a b diag) c <-> inb a c /\ outside diag b c) /\
  (diag = repeat false (length b) -> (inv (subtracted a b diag) c <-> inb a c /\ ~ inb b c)).
Proof.
  intros a b diag c L D NE BD. pose proof (subtracted_in a b diag c L D NE BD) as H. split; [exact H|]. intros ->.
  split; intros K.
  - apply H in K. destruct K as [K1 K2]. split; [exact K1|]. apply outside_all; [rewrite <- (inb_length _ _ K1); auto|exact K2].
  - destruct K as [K1 K2]. apply H. split; [exact K1|]. apply outside_all; [rewrite <- (inb_length _ _ K1); auto|exact K2].
Qed.
Print Assumptions C45_subtract_interval.
Example C45_subtract_interval_case : nonempty [(1, 2); (1, 3)]%N /\ bounded [(1, 2); (1, 3)]%N /\
  subtracted [(0, 3); (0, 3)]%N [(1, 2); (1, 3)]%N [false; false] = [[(3, 3); (0, 3)]; [(0, 0); (0, 3)]; [(1, 2); (0, 0)]]%N.
Proof. split; [repeat constructor; cbn; lia|]. split; [repeat constructor; cbn; lia|]. reflexivity. Qed.

(** Adding an interval loses no colour; colours with one component are not added either. *)
Theorem C45_add : forall d l b, dims d l -> length b = d -> dims d (add_interval l b) /\
  forall c, (inb b c \/ inv l c -> inv (add_interval l b) c) /\ (d = 1 -> inv (add_interval l b) c -> inb b c \/ inv l c).
Proof. exact add_in. Qed.
Print Assumptions C45_add.
Example C45_add_case : dims 1 [[(0, 1)]; [(5, 6)]; [(9, 9)]]%N /\ add_interval [[(0, 1)]; [(5, 6)]; [(9, 9)]]%N [(6, 8)]%N = [[(0, 1)]; [(5, 8)]; [(9, 9)]]%N.
Proof. split; [repeat constructor|reflexivity]. Qed.

(** Simplifying a set loses no colour, removes the empty intervals and makes the set no
    longer; for colours with one component the set of colours stays the same. *)
Theorem C45_simplify : forall d l, dims d l -> dims d (simplify l) /\ length (simplify l) <= length l /\ Forall (fun x => i_sound x = true) (simplify l) /\
  forall c, (inv l c -> inv (simplify l) c) /\ (d = 1 -> inv (simplify l) c -> inv l c).
Proof. exact simplify_in. Qed.
Print Assumptions C45_simplify.
Example C45_simplify_case : dims 1 [[(1, 0)]; [(0, 3)]; [(7, 9)]; [(5, 4)]; [(2, 5)]]%N /\
  simplify [[(1, 0)]; [(0, 3)]; [(7, 9)]; [(5, 4)]; [(2, 5)]]%N = [[(0, 5)]; [(7, 9)]]%N.
Proof. split; [repeat constructor|reflexivity]. Qed.

(** Restricting a set to the colours above (below) given values keeps all these colours; for
    colours with one component it keeps no others. *)
Theorem C45_constrain_lower : forall d vs s l l', dims d l -> constrain_lower vs s l = Ok l' -> dims d l' /\ Forall (fun b => i_sound b = true) l' /\
  forall c, (inv l c -> above s vs c -> inv l' c) /\ (d = 1 -> inv l' c -> inv l c /\ above s vs c).
Proof. exact constrain_lower_in. Qed.
Print Assumptions C45_constrain_lower.
Theorem C45_constrain_upper : forall d vs s l l', dims d l -> constrain_upper vs s l = Ok l' -> dims d l' /\ Forall (fun b => i_sound b = true) l' /\
  forall c, (inv l c -> under s vs c -> inv l' c) /\ (d = 1 -> inv l' c -> inv l c /\ under s vs c).
Proof. exact constrain_upper_in. Qed.
Print Assumptions C45_constrain_upper.
Example C45_constrain_case : dims 1 [[(0, 2)]; [(4, 9)]]%N /\ constrain_lower [4]%N true [[(0, 2)]; [(4, 9)]]%N = Ok [[(5, 9)]]%N /\
  constrain_upper [4]%N false [[(0, 2)]; [(4, 9)]]%N = Ok [[(0, 2)]; [(4, 4)]]%N.
Proof. split; [repeat constructor|]. split; reflexivity. Qed.

(** Shifting a set by a number of successors or predecessors gives exactly the colours
    shifted, around the ends of the types. *)
Theorem C45_shift : forall k sizes l, Forall (fits k sizes) l -> forall c', inv (apply_modifier k sizes l) c' <-> exists c, inv l c /\ moved_by k sizes c c'.
Proof. exact apply_modifier_in. Qed.
Print Assumptions C45_shift.
Example C45_shift_case : Forall (fits 2 [5; 3]%N) [[(1, 3); (0, 1)]]%N /\
  apply_modifier 2 [5; 3]%N [[(1, 3); (0, 1)]]%N = [[(0, 0); (0, 0)]; [(3, 4); (0, 0)]; [(0, 0); (2, 2)]; [(3, 4); (2, 2)]]%N.
Proof. split; [|reflexivity]. constructor; [|constructor]. unfold fits. repeat (constructor; [cbn; lia|]). constructor. Qed.

(** Merging the closest intervals until there are at most [k] ends with at most [k] and
    loses no colour. *)
Theorem C45_restrict : forall d k l, dims d l -> small d l -> 0 < k ->
  dims d (restrict k l) /\ length (restrict k l) <= k /\ Forall (fun b => i_sound b = true) (restrict k l) /\ forall c, inv l c -> inv (restrict k l) c.
Proof. exact restrict_in. Qed.
Print Assumptions C45_restrict.
Example C45_restrict_case : dims 2 [[(0, 1); (0, 0)]; [(9, 9); (5, 6)]; [(3, 3); (0, 2)]]%N /\ small 2 [[(0, 1); (0, 0)]; [(9, 9); (5, 6)]; [(3, 3); (0, 2)]]%N /\
  restrict 2 [[(0, 1); (0, 0)]; [(9, 9); (5, 6)]; [(3, 3); (0, 2)]]%N = [[(0, 3); (0, 2)]; [(9, 9); (5, 6)]]%N.
Proof. split; [repeat constructor|]. split; [|reflexivity]. exists 10%N. split; [lia|]. split; [lia|]. repeat constructor; cbn; lia. Qed.

(** Merging neighbours loses no colour. *)
Theorem C45_combine : forall d l, dims d l -> Forall bounded l -> forall c, inv l c -> inv (combine_neighbours l) c.
Proof. exact combine_in. Qed.
Print Assumptions C45_combine.
Example C45_combine_case : dims 1 [[(0, 1)]; [(8, 9)]; [(2, 2)]; [(3, 5)]]%N /\ Forall bounded [[(0, 1)]; [(8, 9)]; [(2, 2)]; [(3, 5)]]%N /\
  combine_neighbours [[(0, 1)]; [(8, 9)]; [(2, 2)]; [(3, 5)]]%N = [[(0, 5)]; [(8, 9)]]%N.
Proof. split; [repeat constructor|]. split; [repeat constructor; cbn; lia|]. reflexivity. Qed.

(** The intersection of two classes has all their common colours, and for colours with one
    component no others. *)
Theorem C45_class_intersect : forall d a b, dims d a -> dims d b -> dims d (class_intersect a b) /\
  forall c, (inv a c -> inv b c -> inv (class_intersect a b) c) /\ (d = 1 -> inv (class_intersect a b) c -> inv a c /\ inv b c).
Proof. exact class_intersect_in. Qed.
Print Assumptions C45_class_intersect.
Example C45_class_intersect_case : class_intersect [[(0, 3)]; [(6, 9)]]%N [[(2, 7)]; [(9, 9)]]%N = [[(2, 3)]; [(6, 7)]; [(9, 9)]]%N.
Proof. reflexivity. Qed.

(** What is left of a class after another one, that has an interval, is subtracted: no
    colour that should be left is lost. *)
Theorem C45_class_subtract_partial : forall d diag a b, 0 < d -> length diag = d -> dims d a -> dims d b -> b <> [] -> Forall nonempty b -> Forall bounded b ->
  forall c, inv a c -> (forall o, In o b -> outside diag o c) -> inv (class_subtract a b diag) c.
Proof. exact class_subtract_in. Qed.
Print Assumptions C45_class_subtract_partial.
Example C45_class_subtract_case : class_subtract [[(0, 9)]]%N [[(2, 3)]; [(6, 6)]]%N [false] = [[(0, 1)]; [(4, 5)]; [(7, 9)]]%N.
Proof. reflexivity. Qed.

(** For colours with one component, exactly the colours that should be left are left,
    provided that no interval is used up before the last interval to be subtracted. *)
Theorem C45_class_subtract_exact : forall a b, dims 1 a -> dims 1 b -> b <> [] -> Forall nonempty b -> Forall bounded b ->
  (forall x q r, In x a -> b = q ++ r -> r <> [] -> exists c, inb x c /\ ~ inv q c) ->
  forall c, inv (class_subtract a b [false]) c <-> inv a c /\ ~ inv b c.
Proof. exact class_subtract_exact. Qed.
Print Assumptions C45_class_subtract_exact.
Example C45_class_subtract_exact_case : forall x q r, In x [[(0, 9)]]%N -> [[(2, 3)]; [(6, 6)]]%N = q ++ r -> r <> [] -> exists c, inb x c /\ ~ inv q c.
Proof.
  intros x q r [<-|[]] E R. exists [0]%N. split; [repeat constructor; cbn; lia|]. intros (o & I & K).
  assert (J : In o [[(2, 3)]; [(6, 6)]]%N) by (rewrite E; apply in_or_app; auto). destruct J as [<-|[<-|[]]]; inversion K; cbn in *; lia.
Qed.

(** Refuted: that no colour is left that should be removed.  When nothing is left after some
    of the intervals, the next one starts again with the whole interval. *)
Theorem C45_class_subtract_refuted : exists a b c, dims 1 a /\ dims 1 b /\ b <> [] /\ Forall nonempty a /\ Forall nonempty b /\ Forall bounded b /\
  inv (class_subtract a b [false]) c /\ inv b c.
Proof.
  exists [[(0, 3)]]%N, [[(0, 1)]; [(2, 3)]; [(5, 6)]]%N, [0]%N. split; [repeat constructor|]. split; [repeat constructor|]. split; [discriminate|].
  split; [repeat constructor; cbn; lia|]. split; [repeat constructor; cbn; lia|]. split; [repeat constructor; cbn; lia|].
  split; [exists [(0, 3)]%N; split; [left; reflexivity|repeat constructor; cbn; lia]|exists [(0, 1)]%N; split; [left; reflexivity|repeat constructor; cbn; lia]].
Qed.
Print Assumptions C45_class_subtract_refuted.

(** Refuted: that nothing is lost when a class without intervals is subtracted. *)
Theorem C45_subtract_empty_refuted : exists a c, dims 1 a /\ inv a c /\ ~ inv (class_subtract a [] [false]) c.
Proof.
  exists [[(0, 3)]]%N, [0]%N. split; [repeat constructor|]. split; [exists [(0, 3)]%N; split; [left; reflexivity|repeat constructor; cbn; lia]|]. intros (b & [] & _).
Qed.
Print Assumptions C45_subtract_empty_refuted.

(** Refuted: that the lower bounds of a shifted set have one entry for every component.
    The loop that should fill them runs up to their own number, which is zero. *)
Theorem C45_shifted_bounds_refuted : exists k sizes l, dims (length sizes) l /\ sizes <> [] /\ l <> [] /\ Forall (fits k sizes) l /\ shifted_lower_ids k sizes l = [].
Proof.
  exists 1%Z, [5; 3]%N, [[(1, 2); (0, 1)]; [(3, 3); (1, 1)]]%N. split; [repeat constructor|]. split; [discriminate|]. split; [discriminate|]. split; [|reflexivity].
  repeat constructor; cbn; lia.
Qed.
Print Assumptions C45_shifted_bounds_refuted.
