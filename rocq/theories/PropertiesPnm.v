(** C43: a PNML file is read as the net it describes, and a net that is written is read back. *)
From Coq Require Import Ascii String.
From Verif Require Import Base NetSpec NetModel BuilderModel SearchExamples PnmModel PnmSpec PnmMain PnmWrite PnmExamples.
Local Open Scope string_scope.

(** Reading: the places and transitions of the net are those of the file, with the tokens, the
    firing rule and the owners that the file gives. *)
Theorem C43_reading : forall nm, (forall a b, nm a = nm b -> a = b) -> forall x l reorder,
  describes x l -> net_ok l -> (exists p, is_pl l p) ->
  exists net pidx tidx, read_net nm x reorder = Ok net /\ layout net /\
    numbered (is_pl l) (cn_places net) pidx /\ numbered (is_tr l) (cn_ntrans net) tidx /\
    List.length (cn_init net) = cn_places net /\
    (forall p n, In (IPlace p n) l -> tokens (cn_init net) (pidx p) = n) /\
    (forall t m m', is_tr l t -> List.length m = cn_places net ->
       (step (to_pnet net) m (tidx t) m' <->
        List.length m' = cn_places net /\ item_fires l t (fun p => tokens m (pidx p)) (fun p => tokens m' (pidx p)))) /\
    (forall t pl, In (ITrans t pl) l -> (exists p, is_pl l p /\ (0 < arcs_between l p t)%N) ->
       nth_error (cn_ctrl net) (tidx t) = Some (Z.eqb pl 0)).
Proof. exact reading_ok. Qed.
Print Assumptions C43_reading.
(** A file with nested pages meets the hypotheses; what is read from it. *)
Example C43_reading_case : (forall a b, code a = code b -> a = b) /\ describes fx_file fx_items /\ net_ok fx_items /\ (exists p, is_pl fx_items p) /\
  fx_read = Ok [[3; 0]; [0; 1]; [2; 4]; [5]]%N.
Proof. split; [exact code_inj|]. split; [exact fx_describes|]. split; [exact (proj1 fx_ok)|]. split; [exact (proj2 fx_ok)|exact fx_run]. Qed.

(** Writing and reading: up to the numbering of places and transitions the net is the same. *)
Theorem C43_round_trip : forall nm net pn tn reorder, (forall a b, nm a = nm b -> a = b) ->
  layout net -> List.length (cn_init net) = cn_places net -> 0 < cn_places net ->
  (forall i j, i < cn_places net -> j < cn_places net -> pn i = pn j -> i = j) ->
  (forall i j, i < cn_ntrans net -> j < cn_ntrans net -> tn i = tn j -> i = j) ->
  (forall i j, i < cn_places net -> j < cn_ntrans net -> pn i <> tn j) ->
  (forall p, (tokens (cn_init net) p < 2 ^ 32)%N) ->
  (forall t a, t < cn_ntrans net -> In a (tr_pre (net_trans net t)) \/ In a (tr_post (net_trans net t)) -> (0 < arc_weight a < 2 ^ 31)%N) ->
  exists net' pi ti, read_net nm (to_xml net pn tn) reorder = Ok net' /\ layout net' /\
    cn_places net' = cn_places net /\ cn_ntrans net' = cn_ntrans net /\ permutes (cn_places net) pi /\ permutes (cn_ntrans net) ti /\
    moved (cn_places net) pi (cn_init net) (cn_init net') /\
    (forall t m m' n n', t < cn_ntrans net -> moved (cn_places net) pi m n -> moved (cn_places net) pi m' n' ->
       (step (to_pnet net) m t m' <-> step (to_pnet net') n (ti t) n')) /\
    (forall t p, t < cn_ntrans net -> p < cn_places net -> (0 < weight_at (tr_pre (net_trans net t)) p)%N ->
       nth_error (cn_ctrl net') (ti t) = Some (nth t (cn_ctrl net) false)).
Proof. exact round_trip. Qed.
Print Assumptions C43_round_trip.
Example C43_round_trip_case : layout sx_net /\ List.length (cn_init sx_net) = cn_places sx_net /\ 0 < cn_places sx_net /\
  (forall i j, i < cn_places sx_net -> j < cn_places sx_net -> wx_p i = wx_p j -> i = j) /\
  (forall i j, i < cn_ntrans sx_net -> j < cn_ntrans sx_net -> wx_t i = wx_t j -> i = j) /\
  (forall i j, i < cn_places sx_net -> j < cn_ntrans sx_net -> wx_p i <> wx_t j) /\
  (forall p, (tokens (cn_init sx_net) p < 2 ^ 32)%N) /\
  (forall t a, t < cn_ntrans sx_net -> In a (tr_pre (net_trans sx_net t)) \/ In a (tr_post (net_trans sx_net t)) -> (0 < arc_weight a < 2 ^ 31)%N).
Proof. exact wx_ok. Qed.
(** Finding: a net with a weight of 2^31 is written and cannot be read back (atoi overflows). *)
Theorem C43_round_trip_refuted : exists nm net pn tn, (forall a b, nm a = nm b -> a = b) /\ layout net /\
  List.length (cn_init net) = cn_places net /\ cn_places net = 1 /\ cn_ntrans net = 1 /\ pn 0 <> tn 0 /\
  map arc_weight (tr_pre (net_trans net 0)) = [2147483648%N] /\ read_net nm (to_xml net pn tn) false = UB.
Proof.
  exists code, hx_net, wx_p, wx_t. split; [exact code_inj|]. split; [exact hx_layout|]. destruct hx_ok as (A & B & C & D).
  split; [exact A|]. split; [exact B|]. split; [exact C|]. split; [discriminate|]. split; [exact D|exact hx_unread].
Qed.
Print Assumptions C43_round_trip_refuted.

(** Findings: files that describe no net are read all the same.  A negative weight becomes 2^32 - 1, *)
Theorem C43_negative_weight_refuted : exists net, read_net code (gx (gx_arc "arc" "t" "b" "-1")) false = Ok net /\ tr_post (net_trans net 0) = [mkArc 1 4294967295 false].
Proof. exact gx_negative. Qed.
Print Assumptions C43_negative_weight_refuted.
(** what follows the number is ignored, *)
Theorem C43_garbage_refuted : exists net, read_net code (gx (gx_arc "arc" "t" "b" "2x7")) false = Ok net /\ tr_post (net_trans net 0) = [mkArc 1 2 false].
Proof. exact gx_garbage. Qed.
Print Assumptions C43_garbage_refuted.
(** an arc to an unknown name is left out, *)
Theorem C43_unknown_name_refuted : exists net, read_net code (gx (gx_arc "arc" "t" "c" "1")) false = Ok net /\ read_net code (gx (X "name" [] "" [])) false = Ok net.
Proof. exact gx_unknown. Qed.
Print Assumptions C43_unknown_name_refuted.
(** an inhibitor arc from a transition to a place is read as an output arc, *)
Theorem C43_inhibitor_output_refuted : exists net, read_net code (gx (gx_arc "inhibitorArc" "t" "b" "2")) false = Ok net /\ tr_post (net_trans net 0) = [mkArc 1 2 false].
Proof. exact gx_inhibitor. Qed.
Print Assumptions C43_inhibitor_output_refuted.
(** a transport arc reads a flag that was never set, and a file without a net a null pointer. *)
Theorem C43_undefined_refuted :
  read_net code (gx (X "transportArc" [("source", "a"); ("transition", "t"); ("target", "b")] "" [])) false = UB /\ read_net code (X "pnml" [] "" []) false = UB.
Proof. exact (conj gx_transport gx_no_net). Qed.
Print Assumptions C43_undefined_refuted.
