(** Concrete nets for rule B. *)
From Verif Require Import Base NetSpec NetModel BuilderModel RedTheory RedSpec RedModel RedModelB RedCand RedMain RedExamples.

(** place 1 has two tokens and gets four more from transition 0; transition 1 takes two at a time *)
Definition b_net : builder := small_net [4; 2; 0; 0]%N [([i_ 0 1], [i_ 1 4; i_ 3 1]); ([i_ 1 2], [i_ 2 1]); ([i_ 2 3], [i_ 3 1])]%N.
Example b_net_ok : good b_net /\ b_fair b_net 1.
Proof. split; [apply goodb_ok; vm_compute; reflexivity|apply b_fairb_ok; vm_compute; reflexivity]. Qed.
Example ex_b : after (only [3]) [TryB false false 1] b_net (fun b => (alive_p b, b_init b, map (fun t => (bt_pre t, bt_post t)) (filter (fun t => negb (bt_skip t)) (b_trans b)))) ([], [], []) =
  ([true; false; true; true], [4; 0; 1; 0], [([i_ 0 1], [i_ 2 2; i_ 3 1]); ([i_ 2 3], [i_ 3 1])])%N.
Proof. vm_compute. reflexivity. Qed.
(** transition 1 also needs place 2: transition 0 waits for it *)
Definition b_net2 : builder := small_net [2; 0; 1; 0; 0]%N [([i_ 0 1], [i_ 1 1]); ([i_ 1 1; i_ 2 1], [i_ 3 1]); ([i_ 3 1], [i_ 4 1])]%N.
Example b_net2_ok : good b_net2 /\ b_fair b_net2 1.
Proof. split; [apply goodb_ok; vm_compute; reflexivity|apply b_fairb_ok; vm_compute; reflexivity]. Qed.
Example ex_b2 : after (only [4]) [TryB true true 1] b_net2 (fun b => (alive_p b, map (fun t => (bt_pre t, bt_post t)) (filter (fun t => negb (bt_skip t)) (b_trans b)))) ([], []) =
  ([true; false; true; true; true], [([i_ 0 1; i_ 2 1], [i_ 3 1]); ([i_ 3 1], [i_ 4 1])])%N.
Proof. vm_compute. reflexivity. Qed.

(** Place 1 has one token and transition 2 takes two.  Merging transition 2 into transition 0 drops
    the token; transition 1 brings one more, which is not enough any longer. *)
Definition b_rest : builder := small_net [1; 1; 0; 0; 0]%N [([i_ 4 1], [i_ 1 2]); ([i_ 0 1], [i_ 1 1]); ([i_ 1 2], [i_ 2 1]); ([i_ 2 1], [i_ 3 1])]%N.
Lemma b_rest_refuted : exists inq b p b', good b /\ no_inhibitors b /\ rule_b inq false false b p = Ok b' /\ ~ same_views inq b b'.
Proof.
  exists (only [3]), b_rest, 1. eexists. split; [apply goodb_ok; vm_compute; reflexivity|]. split; [intros [|[|[|[|[|[|q]]]]]]; reflexivity|]. split; [vm_compute; reflexivity|].
  match goal with |- ~ same_views _ _ ?b' => refine (proj2 (told_apart (only [3]) b' b_rest 3 1%N [[1; 0; 0; 0; 0]; [0; 1; 0; 0; 0]]%N [1; 2; 3] _ _ _ _ _)) end; vm_compute; reflexivity.
Qed.
(** Transition 0 puts two tokens on place 1, and transition 1 takes one of them with the only token
    of place 2; merged, they need two tokens of place 2. *)
Definition b_mult : builder := small_net [1; 0; 1; 0; 0]%N [([i_ 0 1], [i_ 1 2]); ([i_ 1 1; i_ 2 1], [i_ 3 1]); ([i_ 3 1], [i_ 4 1])]%N.
Lemma b_mult_refuted : exists inq b p b', good b /\ no_inhibitors b /\ init_at b p = 0%N /\ rule_b inq true true b p = Ok b' /\ ~ same_views inq b b'.
Proof.
  exists (only [4]), b_mult, 1. eexists. split; [apply goodb_ok; vm_compute; reflexivity|]. split; [intros [|[|[|[|[|[|q]]]]]]; reflexivity|]. split; [reflexivity|]. split; [vm_compute; reflexivity|].
  match goal with |- ~ same_views _ _ ?b' => refine (proj2 (told_apart (only [4]) b' b_mult 4 1%N [[1; 0; 1; 0; 0]]%N [0; 1; 2] _ _ _ _ _)) end; vm_compute; reflexivity.
Qed.
(** The token of place 0 inhibits transition 2; transition 0 takes it, but waits for place 2 once
    it is merged with transition 1.  All weights are 1. *)
Definition b_inh : builder := small_net [1; 0; 0; 0; 0; 1]%N [([i_ 0 1], [i_ 1 1]); ([i_ 1 1; i_ 2 1], [i_ 3 1]); ([h_ 0 1; i_ 5 1], [i_ 4 1])]%N.
Lemma b_inh_refuted : exists inq b p b', good b /\ all_weights (fun w => w =? 1)%N b = true /\ rule_b inq true true b p = Ok b' /\ ~ same_views inq b b'.
Proof.
  exists (only [4]), b_inh, 1. eexists. split; [apply goodb_ok; vm_compute; reflexivity|]. split; [vm_compute; reflexivity|]. split; [vm_compute; reflexivity|].
  match goal with |- ~ same_views _ _ ?b' => refine (proj2 (told_apart (only [4]) b' b_inh 4 1%N [[1; 0; 0; 0; 0; 1]]%N [0; 2] _ _ _ _ _)) end; vm_compute; reflexivity.
Qed.
