(** Property theorems about the removal of redundant places from coloured nets (C47). *)
From Verif Require Import Base BaseLemmas ColSyntax ColSpec ColModel ColExamples ColRedModel ColRedSpec ColRedExamples ColRdpModel ColRdpSpec ColRdpProofs ColRdpMain ColRdpExamples.

(** C47.  If the rule ends without an error, the net and the reduced net can fire the same
    sequences of transitions, with the same tokens on the places that are left; no transition
    and no place of the query is removed. *)
Theorem C47_redundant_places : forall used_p vs timeout n r', cpn_ok n -> arcs_once n -> vars_ok n vs ->
  redundant_places used_p vs timeout (mkR n [] []) = Ok r' ->
  same_but_removed (mkR n [] []) r' /\ r_trs r' = [] /\ forall p, In p (r_pls r') -> used_p p = false.
Proof. exact redundant_same. Qed.
Print Assumptions C47_redundant_places.

(** It ends without an error if no variable has tuples as values. *)
Theorem C47_no_error_partial : forall used_p vs timeout n, cpn_ok n -> arcs_once n -> vars_ok n vs -> plain_vars n ->
  exists r', redundant_places used_p vs timeout (mkR n [] []) = Ok r'.
Proof. exact redundant_total. Qed.
Print Assumptions C47_no_error_partial.

(** A net from which a place is removed. *)
Example C47_redundant_places_case : cpn_ok uz /\ arcs_once uz /\ vars_ok uz dvs /\ plain_vars uz /\
  exists r, redundant_places (fun p => Nat.eqb p 2) dvs (fun _ => false) (mkR uz [] []) = Ok r /\ r_pls r = [0] /\ map ct_in (cn_trs (r_net r)) = [[(1, kx 1)]].
Proof. split; [exact uz_ok|]. split; [exact uz_once|]. split; [exact uz_vs|]. split; [exact uz_plain|exact uz_run]. Qed.

(** Refuted: the rule ends without an error for every net.  A variable that stands for pairs on
    one arc and a pair of variables on the other are multisets of different types, and the
    comparison throws. *)
Theorem C47_no_error_refuted : exists n used_p vs timeout, cpn_ok n /\ arcs_once n /\ vars_ok n vs /\ redundant_places used_p vs timeout (mkR n [] []) = Throw.
Proof. exists tz, (fun _ => false), tvs, (fun _ => false). split; [exact tz_ok|]. split; [exact tz_once|]. split; [exact tz_vs|exact tz_run]. Qed.
Print Assumptions C47_no_error_refuted.

(** The multiset of variables of an expression means what the expression means, for every
    binding; so the comparison of two such multisets is right. *)
Theorem C47_var_multisets : forall n ty i o x y, tab_ok n -> atyped n i ty -> atyped n o ty -> (aweight i < 2147483648)%N -> (aweight o < 2147483648)%N ->
  extract (cn_vars n) i = Ok (Some x) -> extract (cn_vars n) o = Ok (Some y) -> vsub_eq x y = Ok true ->
  forall b v, (mval (cn_types n) (cn_vars n) b i v <= mval (cn_types n) (cn_vars n) b o v)%N.
Proof. exact extract_below. Qed.
Print Assumptions C47_var_multisets.

Example C47_var_multisets_case : tab_ok uz /\ atyped uz (kx 1) 1 /\ atyped uz (AScal (kx 1) 2) 1 /\
  exists x y, extract (cn_vars uz) (kx 1) = Ok (Some x) /\ extract (cn_vars uz) (AScal (kx 1) 2) = Ok (Some y) /\ vsub_eq x y = Ok true /\ vsub_eq y x = Ok false.
Proof.
  split; [apply uz_ok|]. split; [split; [discriminate|repeat constructor]|]. split; [split; [discriminate|repeat constructor]|]. eexists. eexists. split; [reflexivity|]. split; [reflexivity|]. split; reflexivity.
Qed.
