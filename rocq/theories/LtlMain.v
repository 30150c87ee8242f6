(** The two searches answer right; the orders of the generator of C01. *)
From Verif Require Import Base NetSpec NetModel NetProofs PqlSyntax PqlSpec LtlSpec LtlModel PqlRuns LtlProd LtlGraph LtlNdfs LtlRuns LtlTarjan
  SearchModel SearchSpec SearchProofs SearchMain SearchExamples.

Lemma ndfs_right : forall net m0 aut order kbound fuel weak, wf_pnet net -> enumerates net m0 order ->
  answer_right net m0 aut kbound (ndfs_check aut order kbound fuel weak m0).
Proof.
  intros net m0 aut order kbound fuel weak W O. pose proof (@ndfs_cycles net m0 aut order kbound W O fuel weak) as H.
  destruct (ndfs_check aut order kbound fuel weak m0) as [[|]| | |]; try exact H.
  - destruct H as (l & H). intros run R B. eapply free_rejects; eassumption.
  - eapply bad_accepts; eassumption.
Qed.
Lemma tarjan_right : forall net m0 aut order kbound hash fuel, wf_pnet net -> enumerates net m0 order ->
  answer_right net m0 aut kbound (tarjan_check aut order kbound hash fuel m0).
Proof.
  intros net m0 aut order kbound hash fuel W O. pose proof (@tarjan_cycles net m0 aut order kbound hash W O fuel) as H.
  destruct (tarjan_check aut order kbound hash fuel m0) as [[|]| | |]; try exact H.
  - destruct H as (l & H). intros run R B. eapply free_rejects; eassumption.
  - eapply bad_accepts; eassumption.
Qed.

(** The generator of C01 lists the firings as long as counts fit in 32 bits. *)
Lemma stream_enumerates : forall net m0, layout net ->
  (forall m, reachable (to_pnet net) m0 m -> length m = cn_places net /\ fits32 m) ->
  enumerates (to_pnet net) m0 (fun _ m _ => net_stream net m).
Proof.
  intros net m0 L H k m q R. destruct (H m R) as (A & B). destruct (net_stream_ok L A B) as (S1 & S2). split.
  - intros t m' Hi. exact (proj1 (S1 t m' Hi)).
  - destruct S2 as [S2|(S2 & _)]; [right; exact S2|left; exact S2].
Qed.

(** A case: the net of SearchExamples with the automata of "not G F crit = 0" and "not F G crit = 0". *)
Lemma sx_reach_ok : forall m, reachable (to_pnet sx_net) (cn_init sx_net) m -> length m = cn_places sx_net /\ fits32 m.
Proof.
  intros m (w & R).
  assert (Hc : forall k l, (forall m, kreach (to_pnet sx_net) k (cn_init sx_net) m -> In m l) -> k = 0%N -> In m l).
  { intros k l H ->. apply H. exists w. split; [exact R|]. intros; reflexivity. }
  pose proof (Hc 0%N sx_marks (@closed_all sx_net 0%N sx_marks sx_layout sx_init sx_closed) eq_refl) as [<-|[<-|[]]]; apply mark_ok_fits;
    (split; [reflexivity|]; intros v [<-|[<-|[<-|[]]]]; reflexivity).
Qed.
Definition crit : nat -> marking -> bool := fun _ m => (1 <=? nth 2 m 0)%N.
Definition gcrit : bdd := BNode 0 BFalse BTrue.
Definition gidle : bdd := BNode 0 BTrue BFalse.
Definition aut_fg : buchi := mkBuchi 0 (fun q => if Nat.eqb q 0 then [(BTrue, 0); (gcrit, 1)] else [(gcrit, 1)]) (Nat.eqb 1) crit.
Definition aut_gf : buchi := mkBuchi 0 (fun q => [(gidle, 0); (gcrit, 1)]) (Nat.eqb 1) crit.
