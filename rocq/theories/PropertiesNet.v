(** C01, C02, C03: successor generation, deadlock test, net construction. *)
From Verif Require Import Base NetSpec NetModel NetProofs BuilderModel BuilderSpec BuilderMain NetExamples.

(** C01.  On every net with the layout produced by the builder (C03) and every
    marking of 32-bit counts, enumerating successors either lists exactly the
    (transition, marking) pairs of the firing rule, each transition once, or throws,
    and then an enabled transition would exceed the 32-bit token limit. *)
Theorem C01_successors_exact : forall net m,
  layout net -> length m = cn_places net -> fits32 m ->
  (exists r, successors net m = Ok r /\
     NoDup (map fst r) /\
     forall t m', In (t, m') r <-> step (to_pnet net) m t m') \/
  (successors net m = Throw /\
     exists t tr, nth_error (pn_trans (to_pnet net)) t = Some tr /\ enabled tr m /\ overflows tr m).
Proof. exact successors_spec. Qed.
Print Assumptions C01_successors_exact.

Example C01_case : layout ex_net /\ length [3; 0; 0]%N = cn_places ex_net /\ fits32 [3; 0; 0]%N /\
  exists r, successors ex_net [3; 0; 0]%N = Ok r /\ length r = 3.
Proof.
  split; [exact ex_layout|]. split; [reflexivity|]. split.
  - intros p. do 4 (destruct p; [vm_compute; reflexivity|]). destruct p; vm_compute; reflexivity.
  - eexists. split; [vm_compute; reflexivity|reflexivity].
Qed.

(** C01: single transitions. *)
Theorem C01_fireable_exact : forall net m t tr,
  layout net -> length m = cn_places net ->
  nth_error (pn_trans (to_pnet net)) t = Some tr ->
  exists b, fireable net m t = Ok b /\ (b = true <-> enabled tr m).
Proof. exact fireable_spec. Qed.
Print Assumptions C01_fireable_exact.

Theorem C01_arc_weights_exact : forall net p t tr,
  layout net -> nth_error (pn_trans (to_pnet net)) t = Some tr ->
  in_arc net p t = Ok (weight_at (tr_pre tr) p) /\ out_arc net t p = Ok (weight_at (tr_post tr) p).
Proof. exact in_arc_spec. Qed.
Print Assumptions C01_arc_weights_exact.

Example C01_case_trans : exists tr, nth_error (pn_trans (to_pnet ex_net)) 2 = Some tr /\
  fireable ex_net [1; 1; 0]%N 2 = Ok true /\ length (tr_pre tr) = 2.
Proof. eexists. split; [vm_compute; reflexivity|split; reflexivity]. Qed.

(** C02.  The deadlock test answers true exactly on markings with no enabled
    transition. *)
Theorem C02_deadlock_exact : forall net m,
  layout net -> 0 < cn_places net -> length m = cn_places net ->
  exists b, deadlocked net m = Ok b /\ (b = true <-> dead (to_pnet net) m).
Proof. exact deadlocked_spec. Qed.
Print Assumptions C02_deadlock_exact.

Example C02_case : layout ex_net /\ 0 < cn_places ex_net /\ deadlocked ex_net [0; 0; 7]%N = Ok false.
Proof. split; [exact ex_layout|]. split; [vm_compute; lia|reflexivity]. Qed.

(** Finding (C01/C02 at the boundary): for a net without places the enumeration
    yields nothing while the deadlock test says "not deadlocked": a net with one
    transition without arcs and no places. *)
Definition no_place_net : cnet := mkCnet 0 1 [(0, 0); (0, 0)] [] [1] [] [true; true].
Theorem C02_no_places_refuted : exists net m,
  length m = cn_places net /\ cn_places net = 0 /\
  deadlocked net m = Ok false /\ successors net m = Ok [] /\
  step (to_pnet net) m 0 m.
Proof.
  exists no_place_net, []. repeat split; try reflexivity.
  exists (mkTrans [] []). split; [reflexivity|]. split.
  - intros a [].
  - split; [reflexivity|]. intros p Hp. inversion Hp.
Qed.
Print Assumptions C02_no_places_refuted.

(** C03.  For every sequence of construction calls accepted by the builder with
    positive arc weights and at least one place, and with or without reordering, the
    compiled net numbers the declared places and transitions bijectively, starts from
    the declared marking and has exactly the declared steps.  The id maps returned with
    the net give that numbering, and the direction stored with every arc is the sign of the
    transition's effect on the place ([dirs_ok]). *)
Theorem C03_builder_preserves_behaviour : forall cs b reorder,
  weights_pos cs -> do_calls b_empty cs = Ok b -> (exists p, is_place cs p) ->
  exists net ids tids pidx tidx,
    make_net b reorder = Ok (net, ids, tids) /\ layout net /\
    numbering (is_place cs) (cn_places net) pidx /\
    numbering (is_trans cs) (cn_ntrans net) tidx /\ dirs_ok net /\
    (forall p, is_place cs p -> exists i, index_of p (b_pnames b) = Some i /\ nth i ids None = Some (pidx p)) /\
    (forall t, is_trans cs t -> exists i, index_of t (b_tnames b) = Some i /\ nth i tids None = Some (tidx t)) /\
    length (cn_init net) = cn_places net /\
    (forall p, is_place cs p -> tokens (cn_init net) (pidx p) = init_of cs p) /\
    (forall t m m', is_trans cs t -> length m = cn_places net ->
       (step (to_pnet net) m (tidx t) m' <->
        length m' = cn_places net /\
        decl_fires cs t (fun p => tokens m (pidx p)) (fun p => tokens m' (pidx p)))) /\
    (forall t, is_trans cs t -> (exists p, 0 < in_of cs p t)%N ->
       nth_error (cn_ctrl net) (tidx t) = Some (Z.eqb (player_of cs t) 0)).
Proof. exact builder_correct. Qed.
Print Assumptions C03_builder_preserves_behaviour.

Example C03_case : weights_pos ex_calls /\ do_calls b_empty ex_calls = Ok ex_builder /\
  (exists p, is_place ex_calls p) /\ cn_ntrans ex_net = 4 /\ cn_places ex_net = 3.
Proof. repeat split; [exact ex_weights|exact ex_place]. Qed.

(** C03: the builder accepts a call sequence exactly when every arc belongs to a
    declared transition and no place is both normal and inhibitor input of one
    transition; otherwise it throws (never undefined behaviour). *)
Theorem C03_builder_accepts_exactly : forall cs, weights_pos cs ->
  (calls_ok cs /\ exists b, do_calls b_empty cs = Ok b) \/
  (~ calls_ok cs /\ do_calls b_empty cs = Throw).
Proof. exact builder_accepts. Qed.
Print Assumptions C03_builder_accepts_exactly.

Example C03_case_accepts :
  (exists b, do_calls b_empty ex_calls = Ok b) /\
  do_calls b_empty (ex_calls ++ [CIn 10 20 true 1]) = Throw.
Proof. split; [exists ex_builder; vm_compute; reflexivity|vm_compute; reflexivity]. Qed.

(** Finding (C03, two-player nets): the controllable flag of a transition without
    normal input arcs does not follow its player: an environment transition (player 1)
    with no input is reported controllable. *)
Theorem C03_controllable_refuted : exists cs b net ids tids t i,
  weights_pos cs /\ do_calls b_empty cs = Ok b /\ make_net b false = Ok (net, ids, tids) /\
  index_of t (b_tnames b) = Some i /\ player_of cs t = 1%Z /\
  exists k, nth i tids None = Some k /\ nth_error (cn_ctrl net) k = Some true.
Proof. exact controllable_refuted. Qed.
Print Assumptions C03_controllable_refuted.
