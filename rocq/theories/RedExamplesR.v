(** Concrete nets for the reductions that make new transitions. *)
From Verif Require Import Base NetSpec NetModel BuilderModel RedTheory RedSpec RedModel RedModelR RedCand RedProofs RedMain RedExamples.

(** ** Rule R *)
(** place 1 gets two tokens from transition 0 and one from transition 1; transitions 2 and 3 take one each *)
Definition r_net : builder := small_net [2; 0; 0; 0]%N [([i_ 0 1], [i_ 1 2]); ([i_ 0 2], [i_ 1 1]); ([i_ 1 1], [i_ 2 1]); ([i_ 1 1], [i_ 2 2]); ([i_ 2 4], [i_ 3 1])]%N.
Example r_net_ok : good r_net /\ free r_net [] /\ forall u, In u (bp_prod (pl_of r_net 1)) -> bt_inhib (tr_of r_net u) = false.
Proof.
  split; [apply goodb_ok; vm_compute; reflexivity|]. split; [split; [constructor|intros t []]|]. intros u Hu. cbn in Hu. destruct Hu as [<-|[<-|[]]]; reflexivity.
Qed.
(** the place and its four transitions are replaced by six combinations *)
Example ex_r : match rule_r (only [3]) 20 6 r_net [] 1 with
  | Ok (b, sk) => (alive_p b, map (fun t => (bt_pre t, bt_post t)) (filter (fun t => negb (bt_skip t)) (b_trans b)))
  | _ => ([], []) end =
  ([true; false; true; true],
   [([i_ 0 1], [i_ 2 3]); ([i_ 2 4], [i_ 3 1]); ([i_ 0 2], [i_ 2 1]); ([i_ 0 2], [i_ 2 2]); ([i_ 0 1], [i_ 2 2]); ([i_ 0 1], [i_ 2 4]); ([i_ 0 1], [i_ 2 3])])%N.
Proof. vm_compute. reflexivity. Qed.

(** Place 0 has a token, place 1 inhibits transition 0, which feeds place 2; transition 2 takes the
    token of place 1.  After rule R the new transition has an inhibitor arc but not the flag, and
    rule D takes the inhibitor arc for an ordinary one. *)
Definition rd_net : builder := small_net [1; 1; 0; 0; 0]%N [([i_ 0 1; h_ 1 1], [i_ 2 1]); ([i_ 2 1], [i_ 3 1]); ([i_ 0 1; i_ 1 1], [i_ 3 1]); ([i_ 3 1], [i_ 4 1])]%N.
Lemma r_refuted : exists inq b p b1 sk1 p1 t1 t2 b2, good b /\ free b [] /\ rule_r inq 100 6 b [] p = Ok (b1, sk1) /\ ~ good b1 /\ weights16 b1 /\
  rule_d inq true false b1 p1 t1 t2 = Ok b2 /\ ~ same_views inq b b2.
Proof.
  exists (only [4]), rd_net, 2. destruct (rule_r (only [4]) 100 6 rd_net [] 2) as [(b1, sk1)| | |] eqn:E; try (vm_compute in E; discriminate).
  exists b1, sk1, 0, 4, 2. vm_compute in E. injection E as <- <-. eexists. split; [apply goodb_ok; vm_compute; reflexivity|]. split; [split; [constructor|intros t []]|]. split; [vm_compute; reflexivity|].
  split; [|split; [|split; [vm_compute; reflexivity|]]].
  - intros G. destruct (g_pre G 4 (h_ 1 1)) as (_ & _ & X); [right; left; reflexivity|]. destruct (X eq_refl) as (Y & _). discriminate.
  - intros t a Ha. apply N.ltb_lt. match goal with |- (_ <? _)%N = true => idtac end. revert t a Ha. match goal with |- forall t a, In a (bt_pre (tr_of ?b t)) \/ _ -> _ => exact (all_weights_ok (fun w => w <? 65536)%N b ltac:(vm_compute; reflexivity)) end.
  - match goal with |- ~ same_views _ _ ?b' => refine (proj2 (told_apart (only [4]) b' rd_net 4 1%N [[1; 1; 0; 0; 0]]%N [2; 3] _ _ _ _ _)) end; vm_compute; reflexivity.
Qed.
