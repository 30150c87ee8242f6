(** Concrete nets for the structural reductions. *)
From Verif Require Import Base NetSpec NetModel BuilderModel RedTheory RedSpec RedModel RedCand RedMain.

Definition i_ (p : nat) (w : N) : arc := mkArc p w false.
Definition h_ (p : nat) (w : N) : arc := mkArc p w true.
Definition only (l : list nat) : nat -> bool := fun p => existsb (Nat.eqb p) l.

(** ** A net on which rules A, FNO, G, J, L and Q apply *)
(** places: 0 source (4 tokens), 1 buffer, 2 goal (protected), 3 catalyst; transitions: 0 moves two
    tokens of the source to the buffer, 1 empties the buffer, 2 needs the catalyst, 3 does nothing,
    4 is like 2 but needs more *)
Definition ex_net : builder :=
  small_net [4; 0; 0; 1; 0]%N
    [([i_ 0 2], [i_ 1 2]); ([i_ 1 1], [i_ 4 1]); ([i_ 3 1; i_ 4 1], [i_ 2 1; i_ 3 1]); ([i_ 3 1], [i_ 3 1]); ([i_ 3 1; i_ 4 2], [i_ 2 1; i_ 3 1; i_ 4 1])]%N.
Example ex_net_good : good ex_net.
Proof. apply goodb_ok. vm_compute. reflexivity. Qed.
Definition ex_seq : list candidate := [TryA 1; TryFNO 3; TryG true true 3; TryL 4 2; TryJ 0; TryQ 0].
Definition size_of (b : builder) : nat * nat * list N :=
  (count (fun p => negb (bp_skip p)) (b_places b), count (fun t => negb (bt_skip t)) (b_trans b), b_init b).
(** all six rules change the net *)
Example ex_seq_runs :
  match try_all (only [2]) ex_seq ex_net with Ok b => size_of b | _ => (0, 0, []) end = (3, 2, [0; 0; 0; 1; 4]%N) /\
  forallb (fun k => match try_all (only [2]) (firstn k ex_seq) ex_net, try_all (only [2]) (firstn (S k) ex_seq) ex_net with
                    | Ok b, Ok b' => negb (Nat.eqb (fst (fst (size_of b))) (fst (fst (size_of b'))) && Nat.eqb (snd (fst (size_of b))) (snd (fst (size_of b'))) &&
                                           match list_eq_dec N.eq_dec (b_init b) (b_init b') with left _ => true | right _ => false end)
                    | _, _ => false end) (seq 0 6) = true.
Proof. vm_compute. split; reflexivity. Qed.
Example ex_reduced : exists b', reduced (only [2]) ex_net b' /\ size_of b' = (3, 2, [0; 0; 0; 1; 4]%N).
Proof.
  destruct (try_all (only [2]) ex_seq ex_net) as [b| | |] eqn:E; try (vm_compute in E; discriminate). exists b. split; [eapply try_all_reduced; exact E|].
  vm_compute in E. injection E as <-. vm_compute. reflexivity.
Qed.
(** rule F removes the catalyst *)
Example ex_rule_f : match rule_f (only [2]) ex_net 3 with Ok b => negb (Nat.eqb (live_places b) (live_places ex_net)) | _ => false end = true.
Proof. vm_compute. reflexivity. Qed.

(** the fixed point removes a dead transition, a constant place, an arc and an inhibitor that never acts:
    0 -> 1 with the catalyst 2, a consumer of the empty place 3, an inhibitor of weight 3 on 0 *)
Definition e_net : builder :=
  small_net [2; 0; 1; 0; 0]%N [([i_ 0 1; i_ 2 1], [i_ 1 1; i_ 2 1]); ([i_ 3 1], [i_ 4 1]); ([h_ 0 3; i_ 1 1], [i_ 4 1])]%N.
Example e_net_good : good e_net.
Proof. apply goodb_ok. vm_compute. reflexivity. Qed.
Example ex_efmnop : match rule_efmnop (only [1; 4]) e_net with
  | Ok b => (live_places b, count (fun t => negb (bt_skip t)) (b_trans b), bt_pre (tr_of b 0), bt_pre (tr_of b 2))
  | _ => (0, 0, [], []) end = (3, 2, [i_ 0 1], [i_ 1 1]).
Proof. vm_compute. reflexivity. Qed.

(** ** Rules E and P: the transition of place 0 is dead, removing only the place enables it *)
Definition ep_net : builder := small_net [0; 0; 1]%N [([i_ 0 1], [i_ 1 1]); ([i_ 2 1], [i_ 2 1])]%N.
Lemma ep_refuted : exists inq b p b', good b /\ rule_ep inq b p = Ok b' /\ ~ same_views inq b b'.
Proof.
  exists (only [1]), ep_net, 0. eexists. split; [apply goodb_ok; vm_compute; reflexivity|]. split; [vm_compute; reflexivity|].
  refine (proj1 (told_apart (only [1]) _ _ 1 1%N [[0; 0; 1]]%N [0] _ _ _ _ _)); vm_compute; reflexivity.
Qed.
(** ** Rule J: the weight 2^32-1 is taken for the absence of a divisor *)
Definition j_net : builder := small_net [4294967294; 0; 0]%N [([i_ 0 4294967295], [i_ 1 1]); ([i_ 0 2; i_ 2 1], [i_ 2 1])]%N.
Lemma j_refuted : exists inq b p b', good b /\ rule_j inq b p = Ok b' /\ ~ same_views inq b b'.
Proof.
  exists (only [1]), j_net, 0. eexists. split; [apply goodb_ok; vm_compute; reflexivity|]. split; [vm_compute; reflexivity|].
  refine (proj1 (told_apart (only [1]) _ _ 1 1%N [[4294967294; 0; 0]]%N [0] _ _ _ _ _)); vm_compute; reflexivity.
Qed.

(** ** Rules C, D, I and M *)
(** 0 -> 1 by transition 0 and, twice as much at once, by transition 1 *)
Definition d_net : builder := small_net [4; 0; 1]%N [([i_ 0 1], [i_ 1 1]); ([i_ 0 2], [i_ 1 2]); ([i_ 1 1; i_ 2 1], [i_ 2 1]); ([], []); ([], [])]%N.
Example d_net_good : good d_net.
Proof. apply goodb_ok. vm_compute. reflexivity. Qed.
Definition alive (b : builder) : list bool := map (fun t => negb (bt_skip t)) (b_trans b).
Definition alive_p (b : builder) : list bool := map (fun t => negb (bp_skip t)) (b_places b).
Definition after {A} (inq : nat -> bool) (l : list candidate) (b : builder) (f : builder -> A) (d : A) : A := match try_all inq l b with Ok b' => f b' | _ => d end.
Example ex_d : after (only [1]) [TryD true true 0 0 1; TryD0 3 4] d_net alive [] = [true; false; true; true; false].
Proof. vm_compute. reflexivity. Qed.
(** places 1 and 2 are filled and drained together; 2 always has twice as much *)
Definition c_net : builder := small_net [3; 1; 2; 0]%N [([i_ 0 1], [i_ 1 1; i_ 2 2]); ([i_ 1 2; i_ 2 4], [i_ 3 1]); ([i_ 1 1], [i_ 3 1])]%N.
Example c_net_good : good c_net.
Proof. apply goodb_ok. vm_compute. reflexivity. Qed.
Example ex_c : after (only [3]) [TryC 1 2] c_net alive_p [] = [true; true; false; true].
Proof. vm_compute. reflexivity. Qed.
(** place 2 never changes, transition 1 never fires *)
Example ex_m : after (only [1; 4]) [TryM] e_net (fun b => (alive_p b, alive b)) ([], []) = ([true; true; false; false; true], [true; false; true]).
Proof. vm_compute. reflexivity. Qed.
(** the sink 3, its drain and a growing loop on the inhibitor place 2 do not matter for place 1 *)
Definition i_net : builder := small_net [2; 0; 5; 0]%N [([i_ 0 1; h_ 2 4], [i_ 1 1]); ([i_ 1 1], [i_ 3 1]); ([i_ 0 1], [i_ 0 2]); ([i_ 2 1], [i_ 2 2]); ([i_ 3 1], [])]%N.
Example i_net_good : good i_net.
Proof. apply goodb_ok. vm_compute. reflexivity. Qed.
Example ex_i : after (only [1]) [TryI true] i_net (fun b => (alive_p b, alive b)) ([], []) = ([true; true; true; false], [true; true; true; false; false]).
Proof. vm_compute. reflexivity. Qed.

(** the loop of the places 0, 1 and 2 becomes one place with the tokens of all three; transition 3
    takes its tokens for the goal, transition 2 has become a loop at that place *)
Definition h_net : builder := small_net [2; 0; 1; 0]%N [([i_ 0 1], [i_ 1 1]); ([i_ 1 1], [i_ 2 1]); ([i_ 2 1], [i_ 0 1]); ([i_ 1 2], [i_ 3 1])]%N.
Example h_net_good : good h_net.
Proof. apply goodb_ok. vm_compute. reflexivity. Qed.
Example ex_h : after (only [3]) [TryH true 0; TryH true 1] h_net (fun b => (alive_p b, alive b, b_init b)) ([], [], []) = ([true; false; false; true], [false; false; true; true], [3; 0; 1; 0]%N).
Proof. vm_compute. reflexivity. Qed.

(** ** Rule D with loops: the larger effect of transition 0 disables transition 2 *)
Definition d_bad : builder := small_net [1; 0; 0; 0]%N [([i_ 0 1], [i_ 1 1; i_ 2 1]); ([i_ 0 1], [i_ 1 1]); ([i_ 1 1; h_ 2 1], [i_ 3 1])]%N.
Lemma d_refuted : exists inq b p t1 t2 b', good b /\ weights16 b /\ rule_d inq true true b p t1 t2 = Ok b' /\ ~ same_views inq b b'.
Proof.
  exists (only [3]), d_bad, 0, 0, 1. eexists. split; [apply goodb_ok; vm_compute; reflexivity|].
  split; [intros t a Ha; apply N.ltb_lt; apply (all_weights_ok (fun w => w <? 65536)%N d_bad ltac:(vm_compute; reflexivity) t a Ha)|]. split; [vm_compute; reflexivity|].
  match goal with |- ~ same_views _ _ ?b' => refine (proj2 (told_apart (only [3]) b' d_bad 3 1%N [[1; 0; 0; 0]; [0; 1; 1; 0]]%N [1; 2] _ _ _ _ _)) end; vm_compute; reflexivity.
Qed.
(** ** Rule D: (2^31+1)*2 wraps to 2: transition 0 does not do what transition 1 does *)
Definition d_wrap : builder := small_net [2; 0]%N [([i_ 0 1], [i_ 1 2147483649]); ([i_ 0 2], [i_ 1 2])]%N.
Lemma d_wrap_refuted : exists inq b p t1 t2 b', good b /\ no_inhibitors b /\ rule_d inq true true b p t1 t2 = Ok b' /\ ~ same_views inq b b'.
Proof.
  exists (only [1]), d_wrap, 0, 0, 1. eexists. split; [apply goodb_ok; vm_compute; reflexivity|]. split; [intros [|[|[|q]]]; reflexivity|]. split; [vm_compute; reflexivity|].
  match goal with |- ~ same_views _ _ ?b' => refine (proj2 (told_apart (only [1]) b' d_wrap 1 2%N [[2; 0]; [1; 2147483649]; [0; 4294967298]]%N [1] _ _ _ _ _)) end; vm_compute; reflexivity.
Qed.
(** ** Rule C: place 0 inhibits transition 1, whose other input, place 1, is removed *)
Definition c_bad : builder := small_net [0; 0; 1; 0]%N [([i_ 2 1], [i_ 0 1; i_ 1 1]); ([h_ 0 1; i_ 1 1], [i_ 3 1])]%N.
Lemma c_refuted : exists inq b p1 p2 b', good b /\ rule_c inq b p1 p2 = Ok b' /\ ~ same_views inq b b'.
Proof.
  exists (only [3]), c_bad, 0, 1. eexists. split; [apply goodb_ok; vm_compute; reflexivity|]. split; [vm_compute; reflexivity|].
  refine (proj1 (told_apart (only [3]) _ _ 3 1%N [[0; 0; 1; 0]; [1; 1; 0; 0]]%N [1] _ _ _ _ _)); vm_compute; reflexivity.
Qed.
(** ** Rule I: transition 0 leaves five tokens, which still inhibits transition 2, but then two
    transitions can take the rest *)
Definition i_bad : builder := small_net [7; 1; 0; 1]%N [([i_ 0 7], [i_ 0 5]); ([i_ 0 3; i_ 1 1], []); ([h_ 0 3; i_ 3 1], [i_ 2 1])]%N.
Lemma i_refuted : exists inq rc b b', good b /\ rule_i inq rc b = Ok b' /\ ~ same_views inq b b'.
Proof.
  exists (only [2]), true, i_bad. eexists. split; [apply goodb_ok; vm_compute; reflexivity|]. split; [vm_compute; reflexivity|].
  match goal with |- ~ same_views _ _ ?b' => refine (proj2 (told_apart (only [2]) b' i_bad 2 1%N [[7; 1; 0; 1]; [4; 0; 0; 1]]%N [0; 1; 2] _ _ _ _ _)) end; vm_compute; reflexivity.
Qed.
