(** Concrete nets for rules S and T. *)
From Verif Require Import Base NetSpec NetModel BuilderModel RedTheory RedSpec RedModel RedModelR RedModelS RedSpecS RedProofs RedCand RedMain RedExamples.

Definition still (_ : nat) : bool := false.
(** place 1 gets four tokens from transition 0 and two from transition 1; transition 2 takes two at a
    time and the query does not speak of place 2 *)
Definition s_net : builder := small_net [3; 1; 0; 0]%N [([i_ 0 1], [i_ 1 4]); ([i_ 0 2], [i_ 1 2]); ([i_ 1 2], [i_ 2 1]); ([i_ 2 3], [i_ 3 1])]%N.
Example s_net_ok : good s_net /\ free s_net [] /\ s_fair (only [3]) still s_net 1.
Proof.
  split; [apply goodb_ok; vm_compute; reflexivity|]. split; [split; [constructor|intros t []]|]. left. exists 2. split; [reflexivity|]. split; [|left; reflexivity]. intros o Ho. cbn in Ho. destruct Ho as [<-|[]]. reflexivity.
Qed.
(** the place goes; one firing of transition 0 and two of transition 2 make one transition *)
Example ex_s : match rule_s (only [3]) true true still s_net [] 1 with
  | Ok (b, sk) => (alive_p b, map (fun t => (bt_pre t, bt_post t)) (filter (fun t => negb (bt_skip t)) (b_trans b)))
  | _ => ([], []) end =
  ([true; false; true; true], [([i_ 2 3], [i_ 3 1]); ([i_ 0 1], [i_ 2 2]); ([i_ 0 2], [i_ 2 1])])%N.
Proof. vm_compute. reflexivity. Qed.
(** both consumers take what a producer puts; one of them has an inhibitor arc and needs another
    place, which is in the query; rule T is used because deadlocks matter *)
Definition t_net : builder := small_net [3; 0; 1; 0; 0]%N [([i_ 0 1], [i_ 1 2]); ([i_ 0 2], [i_ 1 2]); ([i_ 1 2; i_ 2 1], [i_ 3 1]); ([i_ 1 2; h_ 3 1], [i_ 4 1])]%N.
Example t_net_ok : good t_net /\ free t_net [] /\ s_fair (only [2; 4]) (fun _ => true) t_net 1.
Proof.
  split; [apply goodb_ok; vm_compute; reflexivity|]. split; [split; [constructor|intros t []]|]. right. intros c Hc _ a u o Ha Hu Ho. cbn in Hc, Hu.
  destruct Hc as [<-|[<-|[]]]; destruct Hu as [<-|[<-|[]]]; vm_compute in Ha, Ho; injection Ha as <-; injection Ho as <-; reflexivity.
Qed.
Example ex_t : match rule_s (only [2; 4]) false false (fun _ => true) t_net [] 1 with
  | Ok (b, sk) => (alive_p b, map (fun t => (bt_pre t, bt_post t, bt_inhib t)) (filter (fun t => negb (bt_skip t)) (b_trans b)))
  | _ => ([], []) end =
  ([true; false; true; true; true], [([i_ 0 1; h_ 3 1], [i_ 4 1], true); ([i_ 0 1; i_ 2 1], [i_ 3 1], false); ([i_ 0 2; i_ 2 1], [i_ 3 1], false); ([i_ 0 2; h_ 3 1], [i_ 4 1], true)])%N.
Proof. vm_compute. reflexivity. Qed.

(** Transition 0 puts two tokens on place 1 and transition 1 moves them to place 2, which is in the
    query: one token on place 2 is not reachable any longer. *)
Definition s_query : builder := small_net [1; 0; 0]%N [([i_ 0 1], [i_ 1 2]); ([i_ 1 1], [i_ 2 1])]%N.
Lemma s_query_refuted : exists inq b p b' sk', good b /\ no_inhibitors b /\ rule_s inq true true still b [] p = Ok (b', sk') /\ ~ same_views inq b b'.
Proof.
  exists (only [2]), s_query, 1. eexists. eexists. split; [apply goodb_ok; vm_compute; reflexivity|]. split; [intros [|[|[|q]]]; try reflexivity; destruct q; reflexivity|]. split; [vm_compute; reflexivity|].
  match goal with |- ~ same_views _ _ ?b' => refine (proj2 (told_apart (only [2]) b' s_query 2 1%N [[1; 0; 0]; [0; 0; 2]]%N [0; 1] _ _ _ _ _)) end; vm_compute; reflexivity.
Qed.
(** Two consumers take one token each of the two: they cannot share them any longer. *)
Definition s_share : builder := small_net [1; 0; 0; 0; 0]%N [([i_ 0 1], [i_ 1 2]); ([i_ 1 1], [i_ 2 1]); ([i_ 1 1], [i_ 3 1]); ([i_ 2 1; i_ 3 1], [i_ 4 1])]%N.
Lemma s_share_refuted : exists inq b p b' sk', good b /\ no_inhibitors b /\ (forall c o, In c (bp_cons (pl_of b p)) -> In o (bt_post (tr_of b c)) -> inq (arc_place o) = false) /\
  rule_s inq true true still b [] p = Ok (b', sk') /\ ~ same_views inq b b'.
Proof.
  exists (only [4]), s_share, 1. eexists. eexists. split; [apply goodb_ok; vm_compute; reflexivity|]. split; [intros [|[|[|[|[|q]]]]]; try reflexivity; destruct q; reflexivity|].
  split; [intros c o Hc Ho; cbn in Hc; destruct Hc as [<-|[<-|[]]]; cbn in Ho; destruct Ho as [<-|[]]; reflexivity|]. split; [vm_compute; reflexivity|].
  match goal with |- ~ same_views _ _ ?b' => refine (proj2 (told_apart (only [4]) b' s_share 4 1%N [[1; 0; 0; 0; 0]; [0; 0; 2; 0; 0]; [0; 0; 0; 2; 0]; [0; 0; 1; 0; 0]; [0; 0; 0; 1; 0]]%N [0; 1; 2; 3] _ _ _ _ _)) end; vm_compute; reflexivity.
Qed.
(** The vector of transitions moves when a transition is added for the first producer: the reference
    to the consumer is used again for the second. *)
Lemma s_moved_refuted : exists inq moves b p, good b /\ no_inhibitors b /\ rule_s inq true true moves b [] p = UB.
Proof.
  exists (only [3]), (fun n => Nat.eqb n 4), s_net, 1. split; [apply goodb_ok; vm_compute; reflexivity|]. split; [intros [|[|[|[|q]]]]; try reflexivity; destruct q; reflexivity|]. vm_compute. reflexivity.
Qed.
