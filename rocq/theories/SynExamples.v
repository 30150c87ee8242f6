(** Concrete games for the synthesis theorems. *)
From Verif Require Import Base BaseLemmas NetSpec NetModel NetProofs BuilderModel BuilderSpec BuilderMain
  StoreProofs SearchMain SynSpec SynModel SynGame SynMain.

Definition game_of (cs : list call) : cnet :=
  match do_calls b_empty cs with
  | Ok b => match make_net b false with Ok (n, _, _) => n | _ => mkCnet 0 0 [] [] [] [] [] end
  | _ => mkCnet 0 0 [] [] [] [] []
  end.
(** Where place [p] of the calls is in the markings of the net. *)
Definition place_of (cs : list call) (p : nat) : nat :=
  match do_calls b_empty cs with
  | Ok b => match make_net b false with
            | Ok (_, ids, _) => match index_of p (b_pnames b) with Some i => match nth i ids None with Some j => j | None => 0 end | None => 0 end
            | _ => 0
            end
  | _ => 0
  end.
Definition has (cs : list call) (p : nat) (m : list N) : bool := (0 <? nth (place_of cs p) m 0)%N.

(** The controller (player 0) chooses a or b in the start, the environment (player 1) then
    goes left or right, and the controller can finish on both sides.  b leads nowhere. *)
Definition gx_calls : list call :=
  [CPlace 10 1; CPlace 11 0; CPlace 12 0; CPlace 13 0; CPlace 14 0; CPlace 15 0;
   CTrans 20 0; CTrans 21 0; CTrans 22 1; CTrans 23 1; CTrans 24 0; CTrans 25 0;
   CIn 10 20 false 1; COut 20 11 1; CIn 10 21 false 1; COut 21 15 1;
   CIn 11 22 false 1; COut 22 12 1; CIn 11 23 false 1; COut 23 13 1;
   CIn 12 24 false 1; COut 24 14 1; CIn 13 25 false 1; COut 25 14 1].
Definition gx_net : cnet := game_of gx_calls.

(** The controller idles by t (10 -> 10) and the environment moves by u (10 -> 11). *)
Definition gy_calls : list call :=
  [CPlace 10 1; CPlace 11 0; CTrans 20 0; CTrans 21 1;
   CIn 10 20 false 1; COut 20 10 1; CIn 10 21 false 1; COut 21 11 1].
Definition gy_net : cnet := game_of gy_calls.

Definition fifo (turn : nat) (q : list nat) : nat := 0.
Definition lifo (turn : nat) (q : list nat) : nat := length q - 1.
Definition answer (r : res (syn * bool)) : option bool := match r with Ok (_, b) => Some b | _ => None end.


(** Avoiding place 14 (possible by b), and avoiding both 12 and 15 (not possible). *)
Definition gx_avoid (m : list N) : bool := negb (has gx_calls 14 m).
Definition gx_avoid2 (m : list N) : bool := negb (has gx_calls 12 m) && negb (has gx_calls 15 m).

Example gx_answers :
  (answer (synthesize gx_net false (has gx_calls 14) 0 fifo 200) = Some true /\
   answer (synthesize gx_net false (has gx_calls 14) 0 lifo 200) = Some true) /\
  (answer (synthesize gx_net false (has gx_calls 12) 0 fifo 200) = Some false /\
   answer (synthesize gx_net false (has gx_calls 12) 0 lifo 200) = Some false) /\
  (answer (synthesize gx_net true gx_avoid 0 fifo 200) = Some true /\
   answer (synthesize gx_net true gx_avoid 0 lifo 200) = Some true) /\
  (answer (synthesize gx_net true gx_avoid2 0 fifo 200) = Some false /\
   answer (synthesize gx_net true gx_avoid2 0 lifo 200) = Some false).
Proof. vm_compute. repeat split. Qed.

Lemma gx_layout : layout gx_net.
Proof.
  assert (W : weights_pos gx_calls) by (repeat constructor; lia).
  assert (P : exists p, is_place gx_calls p) by (exists 10; left; reflexivity).
  destruct (do_calls b_empty gx_calls) as [b| | |] eqn:E; [|vm_compute in E; discriminate..].
  destruct (@builder_correct gx_calls b false W E P) as (net & ids & tids & pidx & tidx & Hm & L & _).
  unfold gx_net, game_of. rewrite E, Hm. exact L.
Qed.
Lemma gx_init : mark_ok (cn_places gx_net) (cn_init gx_net).
Proof.
  split; [reflexivity|]. intros v H. vm_compute in H. repeat (destruct H as [<-|H]; [reflexivity|]). contradiction.
Qed.
Lemma gx_small : (N.of_nat (cn_ntrans gx_net) < 2 ^ 32)%N.
Proof. vm_compute. reflexivity. Qed.

(** A net whose controllable transitions all change some place has no controllable self-loops. *)
Definition changes (net : cnet) (t : nat) : bool :=
  match nth_error (pn_trans (to_pnet net)) t with
  | Some tr => existsb (fun p => negb (weight_at (tr_pre tr) p =? weight_at (tr_post tr) p)%N) (seq 0 (cn_places net))
  | None => true
  end.
Lemma changes_free : forall net, length (cn_init net) = cn_places net ->
  (forall t, t < length (pn_trans (to_pnet net)) -> controllable net t = true -> changes net t = true) -> self_loop_free net.
Proof.
  intros net LI H m [w R] (t & CT & tr & TR & F).
  assert (LM : length m = cn_places net).
  { rewrite <- LI. clear - R. induction R as [|? ? ? ? ? HS ? IH]; auto. rewrite IH. destruct HS as (? & _ & _ & E & _). exact E. }
  specialize (H t ltac:(apply nth_error_Some; congruence) CT). unfold changes in H. rewrite TR in H.
  apply existsb_exists in H. destruct H as (p & P & D). apply in_seq in P. destruct F as (_ & _ & F). destruct (F p ltac:(lia)) as [F1 F2].
  apply negb_true_iff, N.eqb_neq in D. lia.
Qed.
Definition no_idle (net : cnet) : bool :=
  forallb (fun t => changes net t) (seq 0 (length (pn_trans (to_pnet net)))).
Lemma no_idle_free : forall net, length (cn_init net) = cn_places net -> no_idle net = true -> self_loop_free net.
Proof.
  intros net LI A. apply changes_free; auto. unfold no_idle in A.
  rewrite forallb_forall in A. intros t T _. apply A. apply in_seq. lia.
Qed.
Lemma gx_free : self_loop_free gx_net.
Proof. apply no_idle_free; vm_compute; reflexivity. Qed.

(** Finding: the idling controller wins every game for [true], but the engine says no. *)
Lemma gy_layout : layout gy_net.
Proof.
  assert (W : weights_pos gy_calls) by (repeat constructor; lia).
  assert (P : exists p, is_place gy_calls p) by (exists 10; left; reflexivity).
  destruct (do_calls b_empty gy_calls) as [b| | |] eqn:E; [|vm_compute in E; discriminate..].
  destruct (@builder_correct gy_calls b false W E P) as (net & ids & tids & pidx & tidx & Hm & L & _).
  unfold gy_net, game_of. rewrite E, Hm. exact L.
Qed.
Lemma gy_init : mark_ok (cn_places gy_net) (cn_init gy_net).
Proof.
  split; [reflexivity|]. intros v H. vm_compute in H. repeat (destruct H as [<-|H]; [reflexivity|]). contradiction.
Qed.
Lemma gy_answer : exists s, synthesize gy_net true (fun _ => true) 0 fifo 50 = Ok (s, false).
Proof. eexists. vm_compute. reflexivity. Qed.


Lemma gy_refuted : exists net s, layout net /\ mark_ok (cn_places net) (cn_init net) /\
  synthesize net true (fun _ => true) 0 fifo 50 = Ok (s, false) /\
  exists g, valid (to_pnet net) (controllable net) g /\ memoryless g /\
    wins_safe (to_pnet net) (controllable net) g (fun _ => True) 0 (cn_init net).
Proof.
  destruct gy_answer as [s H]. exists gy_net, s. split; [exact gy_layout|]. split; [exact gy_init|]. split; [exact H|].
  exists (seek (to_pnet gy_net) (controllable gy_net) (fun _ _ => true)).
  destruct (seek_valid (to_pnet gy_net) (controllable gy_net) (ly_wf gy_layout) (fun _ => true) (fun _ _ => true)) as [V M].
  split; [exact V|]. split; [exact M|]. intros f _ i. split; [exact I|left; reflexivity].
Qed.
