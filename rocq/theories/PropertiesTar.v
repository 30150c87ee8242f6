(** Properties of the data structures of trace abstraction refinement. *)
From Verif Require Import Base RangeSpec RangeModel RangeProofs AntiModel AntiProofs.
From Coq Require Import Sorted.

(** C20 -- operations on ranges agree with the sets of token counts that they denote. *)
Theorem C20_range_operations : forall r s : range, sound_range r -> sound_range s ->
  (forall v, (v <= infinite)%N -> (contains r v = true <-> in_range r v)) /\
  (forall v, in_range (r_and r s) v <-> in_range r v /\ in_range s v) /\
  (forall v, in_range r v \/ in_range s v -> in_range (r_or r s) v) /\
  (forall u, sound_range u -> (forall v, in_range r v \/ in_range s v -> in_range u v) -> forall v, in_range (r_or r s) v -> in_range u v) /\
  (r_intersects r s = true <-> exists v, in_range r v /\ in_range s v) /\
  (fst (r_compare r s) = true <-> forall v, in_range s v -> in_range r v) /\
  (snd (r_compare r s) = true <-> forall v, in_range r v -> in_range s v).
Proof.
  intros r s A B. pose proof (proj2 A) as Ar. pose proof (proj2 B) as Br.
  exact (conj (@r_contains_ok r) (conj (fun v => @r_and_ok r s v Ar Br) (conj (fun v => @r_or_ok r s v Ar Br)
    (conj (fun u => @r_or_least r s u A B) (conj (@r_intersects_ok r s A B) (@r_compare_ok r s A B)))))).
Qed.
Print Assumptions C20_range_operations.

(** C20 -- the arithmetic of preconditions: subtracting k from a range denotes exactly the
    counts that lie in the range after k tokens are produced, and it is defined unless the
    range cannot be reached at all; adding k keeps every count that was in the range before
    k tokens were consumed, and adds none unless the upper bound leaves 32 bits. *)
Theorem C20_precondition_arithmetic : forall (r : range) (k : N), sound_range r -> (k <= infinite)%N ->
  ((k <= snd r)%N -> exists r', r_sub r k = Ok r') /\
  (forall r', r_sub r k = Ok r' -> forall v, in_range r' v <-> in_range r (v + k)%N) /\
  (forall r', r_add r k = Ok r' -> forall v, in_range r v -> in_range r' (v + k)%N) /\
  (forall r', snd r = infinite \/ (snd r + k < infinite)%N -> r_add r k = Ok r' -> forall v, in_range r' (v + k)%N <-> in_range r v).
Proof.
  intros r k A B. exact (conj (@r_sub_defined r k) (conj (fun r' => @r_sub_ok r k r' (proj2 A)) (conj (fun r' => @r_add_ok r k r' B (proj2 A)) (fun r' => @r_add_exact r k r')))).
Qed.
Print Assumptions C20_precondition_arithmetic.

(** C20 -- the intersection of two vectors denotes the intersection of their markings; adding
    an entry for a place that was not mentioned, and removing entries that restrict nothing,
    change nothing. *)
Theorem C20_vector_operations : forall (s o : rvec), sound_vec s -> sound_vec o ->
  (forall m, in_vec (v_and s o) m <-> in_vec s m /\ in_vec o m) /\
  (forall p x m, (snd x <= infinite)%N -> (in_vec (v_and_one s p x) m <-> in_vec s m /\ in_range x (m p))) /\
  (forall p m, sorted_vec s -> (in_vec (find_or_add s p) m <-> in_vec s m) /\ sorted_vec (find_or_add s p)) /\
  (forall m, in_vec (compact s) m <-> in_vec s m) /\ compact_vec (compact s) /\ (sorted_vec s -> sorted_vec (compact s)).
Proof.
  intros s o A B. refine (conj (fun m => @v_and_ok s o m A B) (conj (fun p x m => @v_and_one_ok s p x m A) (conj _ (conj (compact_ok s) (conj (@compact_compact s) (@sorted_filter _ s)))))).
  intros p m H. exact (conj (@find_or_add_ok s p m H) (@at_place_sorted s p (fun r => r) H)).
Qed.
Print Assumptions C20_vector_operations.

(** C20 -- the inclusion comparison of sorted vectors without useless entries is exact. *)
Theorem C20_inclusion : forall (s o : rvec), sorted_vec s -> sorted_vec o -> compact_vec s -> compact_vec o -> sound_vec s -> sound_vec o ->
  (fst (compare s o) = true <-> forall m, in_vec o m -> in_vec s m) /\
  (snd (compare s o) = true <-> forall m, in_vec s m -> in_vec o m) /\
  (v_eq s o = true <-> forall m, in_vec s m <-> in_vec o m).
Proof.
  intros s o A B C D E F. destruct (@v_compare_ok s o true true A B C D E F) as (G & H). unfold v_eq, compare. unfold RangeProofs.subset in *.
  rewrite andb_true_iff, G, H. split; [tauto|split; [tauto|]]. split; [intros ((_ & X) & (_ & Y)) m; split; auto|intros X; repeat apply conj; auto; intros m; apply X].
Qed.
Print Assumptions C20_inclusion.

(** C20 -- the test whether a vector restricts one of the places a transition writes. *)
Theorem C20_restricts : forall (l : rvec) (ws : list nat), sorted_vec l -> StronglySorted le ws ->
  (restricts l ws = true <-> exists p r, In (p, r) l /\ In p ws /\ ~ unbounded r).
Proof. exact (fun l ws => @restricts_ok ws l). Qed.
Print Assumptions C20_restricts.

(** C20 -- the order used to search for vectors is a strict total order. *)
Theorem C20_order : (forall l, v_less l l = false) /\
  (forall x y z, v_less x y = true -> v_less y z = true -> v_less x z = true) /\
  (forall x y, v_less x y = false -> v_less y x = false -> x = y).
Proof. exact (conj v_less_irrefl (conj v_less_trans v_less_total)). Qed.
Print Assumptions C20_order.

Definition va : rvec := [(1, (2, 5)%N); (3, (0, 7)%N); (4, (1%N, infinite))].
Definition vb : rvec := [(1, (0, 4)%N); (4, (3, 9)%N); (6, (1, 1)%N)].
Example C20_vectors : sorted_vec va /\ sorted_vec vb /\ compact_vec va /\ compact_vec vb /\ sound_vec va /\ sound_vec vb /\
  compare va vb = (false, false) /\ compare va [(1, (3, 4)%N); (3, (0, 7)%N); (4, (1, 8)%N)] = (true, false) /\
  restricts va [0; 2; 4] = true /\ restricts va [0; 2; 5] = false.
Proof.
  split; [repeat constructor|]. split; [repeat constructor|].
  assert (G : forall l, forallb (fun e : nat * range => negb (unbound (snd e)) && (fst (snd e) <=? snd (snd e))%N && (snd (snd e) <=? rmax)%N) l = true -> compact_vec l /\ sound_vec l).
  { intros l H. rewrite forallb_forall in H. split; intros p r Hi; specialize (H _ Hi); cbn [snd] in H; apply andb_prop in H; destruct H as (H & K); apply andb_prop in H; destruct H as (H & L).
    - apply unbound_neg. apply negb_true_iff in H. exact H.
    - split; apply N.leb_le; assumption. }
  destruct (G va eq_refl) as (A & B). destruct (G vb eq_refl) as (C & D). repeat apply conj; auto.
Qed.

(** C20 -- the intersection of vectors does not keep them free of repetitions, so comparing
    its result is not exact: a vector intersected with itself is reported as not containing
    itself. *)
Theorem C20_intersection_shape_refuted : exists s, sorted_vec s /\ compact_vec s /\ sound_vec s /\
  ~ sorted_vec (v_and s s) /\ (forall m, in_vec (v_and s s) m <-> in_vec s m) /\ v_eq (v_and s s) s = false.
Proof.
  exists [(1, (0, 3)%N)]. assert (S : sound_vec [(1, (0, 3)%N)]) by (intros p r [E|[]]; injection E as <- <-; split; vm_compute; congruence). repeat apply conj.
  - repeat constructor.
  - intros p r [E|[]] (_ & K). injection E as <- <-. discriminate.
  - exact S.
  - intros H. vm_compute in H. inversion H as [|x y A B]; subst. rewrite Forall_forall in B. specialize (B 1 (or_introl eq_refl)). lia.
  - intros m. rewrite v_and_ok by exact S. tauto.
  - reflexivity.
Qed.
Print Assumptions C20_intersection_shape_refuted.

(** C20 -- the encoding of "no marking" is not empty: it contains the marking without tokens,
    whatever the number of places. *)
Theorem C20_false_refuted : forall n, exists l, is_false n l = true /\ in_vec l (fun _ => 0%N).
Proof.
  intros n. exists (map (fun p => (p, (0, 0)%N)) (seq 0 n)). split.
  - unfold is_false. rewrite map_length, seq_length, Nat.eqb_refl. cbn [andb]. apply forallb_forall. intros e H. apply in_map_iff in H. destruct H as (p & <- & _). reflexivity.
  - intros p r H. apply in_map_iff in H. destruct H as (q & E & _). injection E as _ <-. split; [reflexivity|right; reflexivity].
Qed.
Print Assumptions C20_false_refuted.

(** C24 -- for every history of insertions of sorted sets: a set is reported as subsumed for
    an automaton state exactly when some set inserted earlier for that state is included in
    it; an insertion reports whether the set was not subsumed before, and stores it then; it
    adds only what the new set subsumes; and no stored set for a state includes another. *)
Theorem C24_antichain : forall (h : history) (k : nat) (set : list nat),
  (forall j s, In (j, s) h -> StronglySorted lt s) -> StronglySorted lt set ->
  (subsumed (after h) k set = true <-> exists s, In (k, s) h /\ forall x, In x s -> In x set) /\
  snd (insert (after h) k set) = negb (subsumed (after h) k set) /\
  (forall j t, StronglySorted lt t ->
    (subsumed (fst (insert (after h) k set)) j t = true <-> subsumed (after h) j t = true \/ (j = k /\ forall x, In x set -> In x t))) /\
  (forall i j s t, nth_error (chain_of (after h) k) i = Some s -> nth_error (chain_of (after h) k) j = Some t -> (forall x, In x s -> In x t) -> i = j).
Proof.
  intros h k set H A. exact (conj (@after_subsumed h k set H A) (conj (insert_result (after h) k set)
    (conj (fun j t => @insert_subsumed (after h) k set j t (@after_well h H) A) (@after_minimal h k H)))).
Qed.
Print Assumptions C24_antichain.
(** what is stored was inserted *)
Theorem C24_stored : forall (h : history) (k : nat) (s : list nat), In s (chain_of (after h) k) -> In (k, s) h.
Proof.
  intros h k s. revert k. induction h as [|[j t] h IH] using rev_ind; intros k.
  - destruct k; intros [].
  - rewrite after_snoc, in_app_iff, insert_chain. cbn [fst snd]. destruct (Nat.eqb_spec k j) as [->|E]; cbn [andb]; [destruct (negb (subsumed (after h) j t))|]; [|auto|auto].
    rewrite in_app_iff. intros [Hs|[<-|[]]]; [|right; left; reflexivity]. apply filter_In in Hs. left. exact (IH j (proj1 Hs)).
Qed.
Print Assumptions C24_stored.
Example C24_history : let h := [(2, [1; 3; 5]); (0, [4]); (2, [1; 5; 8]); (2, [1; 5]); (2, [1; 5; 9])] in
  (forall j s, In (j, s) h -> StronglySorted lt s) /\ chain_of (after h) 2 = [[1; 5]] /\ chain_of (after h) 0 = [[4]] /\
  subsumed (after h) 2 [0; 1; 5] = true /\ subsumed (after h) 2 [1; 3] = false /\ subsumed (after h) 1 [1; 5] = false.
Proof.
  cbv zeta. split; [|repeat split]. intros j s [E|[E|[E|[E|[E|[]]]]]]; injection E as <- <-; repeat constructor.
Qed.
