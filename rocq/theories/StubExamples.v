(** Concrete nets for the reduction theorems, and formulas on which the reduction loses goals. *)
From Verif Require Import Base BaseLemmas NetSpec NetModel NetProofs BuilderModel BuilderSpec BuilderMain PqlSyntax PqlSpec PqlModel PqlProofs PqlRuns
  EncoderModel StoreModel StoreSpec StoreProofs SearchModel SearchSpec SearchProofs QueueModel QueueProofs SearchMain SearchExamples
  StubModel StubSpec StubTheory StubProofs StubMain StubSearch.

(** Two independent processes: place 10 to place 11 (moving all 65536 tokens in one step and
    producing one), and place 12 to place 13. *)
Definition tx_calls : list call :=
  [CPlace 10 65536; CPlace 11 0; CPlace 12 2; CPlace 13 0; CTrans 20 0; CTrans 21 0;
   CIn 10 20 false 65536; COut 20 11 1; CIn 12 21 false 1; COut 21 13 1].
Definition tx_builder : builder := match do_calls b_empty tx_calls with Ok b => b | _ => b_empty end.
Definition tx_net : cnet := match make_net tx_builder false with Ok (n, _, _) => n | _ => mkCnet 0 0 [] [] [] [] [] end.
Definition tx_marks : list marking :=
  [[65536; 0; 2; 0]; [0; 1; 2; 0]; [65536; 0; 1; 1]; [0; 1; 1; 1]; [65536; 0; 0; 2]; [0; 1; 0; 2]]%N.

Lemma tx_good : layout tx_net /\ dirs_ok tx_net.
Proof.
  assert (W : weights_pos tx_calls) by (repeat constructor; lia).
  assert (P : exists p, is_place tx_calls p) by (exists 10; left; reflexivity).
  destruct (@builder_correct tx_calls tx_builder false W eq_refl P) as (net & ids & tids & pidx & tidx & Hm & L & _ & _ & D & _).
  unfold tx_net. rewrite Hm. auto.
Qed.
Lemma tx_init : mark_ok (cn_places tx_net) (cn_init tx_net).
Proof.
  split; [vm_compute; reflexivity|]. assert (E : cn_init tx_net = [65536; 0; 2; 0]%N) by (vm_compute; reflexivity). rewrite E.
  intros v [<-|[<-|[<-|[<-|[]]]]]; reflexivity.
Qed.
Lemma tx_closed : closedb tx_net tx_marks = true.
Proof. vm_compute. reflexivity. Qed.
Lemma tx_all : forall m, reachable (to_pnet tx_net) (cn_init tx_net) m -> In m tx_marks.
Proof. intros m H. apply (@closed_all tx_net 0%N tx_marks (proj1 tx_good) tx_init tx_closed). apply kreach_0. exact H. Qed.
Lemma tx_searchable : searchable tx_net 0.
Proof.
  split; [exact (proj1 tx_good)|]. split; [vm_compute; reflexivity|]. split; [exact tx_init|]. intros l Hn Hl.
  assert (H : length l <= length tx_marks).
  2:{ apply N.le_trans with (N.of_nat (length tx_marks)); [lia|discriminate]. }
  apply NoDup_incl_length; [exact Hn|]. intros m Hm. apply tx_all. apply kreach_0. exact (Hl m Hm).
Qed.
Lemma tx_reach1 : reachable (to_pnet tx_net) (cn_init tx_net) [0; 1; 2; 0]%N.
Proof.
  exists [0]. econstructor; [|constructor].
  assert (A : mark_ok (cn_places tx_net) (cn_init tx_net)) by exact tx_init.
  apply mark_ok_fits in A. destruct A as (A1 & A2).
  apply (proj1 (net_stream_ok (proj1 tx_good) A1 A2)). vm_compute. left; reflexivity.
Qed.

(** [p11 >= 1] *)
Definition tx_goal : cond := CCmp OpLe (Lit 1) (Pl 1).
Lemma tx_small : forall m, reachable (to_pnet tx_net) (cn_init tx_net) m -> small m tx_goal.
Proof.
  intros m H. apply tx_all in H. unfold tx_marks in H. cbn [In] in H.
  repeat destruct H as [<-|H]; try contradiction; vm_compute; repeat split; discriminate.
Qed.
(** the second process is never moved for the goal *)
Lemma tx_reduces : chosen tx_net true [tx_goal] (cn_init tx_net) = [0] /\ length (fst (net_stream tx_net (cn_init tx_net))) = 2.
Proof. vm_compute. auto. Qed.
Definition tx_run (st : strategy) :=
  reduced_search tx_net true [tx_goal] st (fun _ _ => 0%N) (fun _ => false) [0%N] 0 20.

Section Miss.
  (** If the chosen set is empty at the start, nothing but the start is explored. *)
  Lemma only_start : forall net sel m0, sel m0 = [] -> forall m, explored (to_pnet net) sel m0 m -> m = m0.
  Proof. intros net sel m0 E m H. induction H as [|m t m' H IH It St]; [reflexivity|]. subst m. rewrite E in It. destruct It. Qed.

  Lemma tx_miss : forall c, atomic c = true -> chosen tx_net true [c] (cn_init tx_net) = [] ->
    goal_fn tx_net c (cn_init tx_net) = false -> goal_fn tx_net c [0; 1; 2; 0]%N = true ->
    (exists m, reachable (to_pnet tx_net) (cn_init tx_net) m /\ sat (to_pnet tx_net) m c) /\
    ~ (exists m, explored (to_pnet tx_net) (chosen tx_net true [c]) (cn_init tx_net) m /\ sat (to_pnet tx_net) m c).
  Proof.
    intros c Ha Hc H0 H1. destruct tx_good as (L & _).
    assert (P4 : 0 < cn_places tx_net) by (vm_compute; lia).
    split.
    - exists [0; 1; 2; 0]%N. split; [exact tx_reach1|]. apply (@goal_fn_sat tx_net L P4); auto.
      apply (fun m => proj1 (fits_32 m)). assert (Y : mark_ok (cn_places tx_net) [0; 1; 2; 0]%N) by (split; [vm_compute; reflexivity|]; intros v [<-|[<-|[<-|[<-|[]]]]]; reflexivity).
      apply mark_ok_fits in Y. exact (proj2 Y).
    - intros (m & E & S). apply (only_start _ _ _ Hc) in E. subst m. apply (@goal_fn_sat tx_net L P4) in S; auto; try congruence.
      apply (fun m => proj1 (fits_32 m)). pose proof tx_init as Y. apply mark_ok_fits in Y. exact (proj2 Y).
  Qed.
End Miss.

(** Unary minus: [- p11 <= - 1]. InterestingTransitionVisitor.cpp:321-329 ignores the operand. *)
Definition tx_minus : cond := CCmp OpLe (Minus (Pl 1)) (Lit (-1)).
(** A negative factor: [-1 * p11 <= - 1]. InterestingTransitionVisitor.cpp:301-319 does not swap directions. *)
Definition tx_neg : cond := CCmp OpLe (Mul (-1) [1] []) (Lit (-1)).
(** A large value: [65536 * p10 <= 1]; 65536 * 65536 is stored as 0 (PQL.h:84-88). *)
Definition tx_big : cond := CCmp OpLe (Mul 65536 [0] []) (Lit 1).
