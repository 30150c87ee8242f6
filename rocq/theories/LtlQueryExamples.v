(** Concrete cases for the translation of queries, and two queries that go wrong. *)
From Verif Require Import Base BaseLemmas NetSpec NetModel NetProofs BuilderModel BuilderSpec BuilderMain EncoderModel StoreModel StoreSpec SearchModel SearchSpec SearchProofs
  StoreProofs SearchMain SearchExamples PqlSyntax PqlSpec PqlModel PqlProofs PqlRuns LtlSpec LtlModel LtlMain LtlQuerySpec LtlQueryModel LtlQueryProofs.
From Coq Require Import Classical_Prop Classical_Pred_Type.

(** The automaton of "from some point on, never the proposition". *)
Definition fg_not : saut :=
  mkSaut 0 (fun q => if Nat.eqb q 0 then [(BTrue, 0); (gidle, 1)] else if Nat.eqb q 1 then [(gidle, 1)] else []) (Nat.eqb 1) (fun _ => 0).
Lemma fg_not_words : forall w, waccepts fg_not w <-> exists n, forall i, n <= i -> w i 0 = false.
Proof.
  intros w. split.
  - intros (q & _ & Q1 & Q2). destruct (Q2 0) as (n & _ & Ha). cbn [fg_not sa_acc] in Ha. apply Nat.eqb_eq in Ha.
    assert (G : forall k, q (n + k) = 1 /\ w (n + k) 0 = false).
    { assert (S : forall i, q i = 1 -> q (S i) = 1 /\ w i 0 = false).
      { intros i Hi. destruct (Q1 i) as (g & G1 & G2). rewrite Hi in G1. cbn [fg_not sa_edges Nat.eqb] in G1. destruct G1 as [G1|[]].
        injection G1 as <- G1. cbn [geval gidle] in G2. split; [auto|tauto]. }
      induction k as [|k (IH1 & IH2)]; [rewrite Nat.add_0_r; split; [auto|apply S; auto]|].
      rewrite Nat.add_succ_r. assert (H : q (Datatypes.S (n + k)) = 1) by (apply S; auto). split; [exact H|apply S, H]. }
    exists n. intros i Hi. replace i with (n + (i - n)) by lia. apply G.
  - intros (n & Hn). exists (fun i => if i <=? n then 0 else 1). split; [reflexivity|]. split.
    + intros i. destruct (Nat.leb_spec i n) as [A|A]; destruct (Nat.leb_spec (S i) n) as [B|B]; try lia; cbn [fg_not sa_edges Nat.eqb].
      * exists BTrue. split; [left; reflexivity|exact I].
      * exists gidle. split; [right; left; reflexivity|]. cbn [geval gidle]. right. split; [apply Hn; lia|exact I].
      * exists gidle. split; [left; reflexivity|]. cbn [geval gidle]. right. split; [apply Hn; lia|exact I].
    + intros k. exists (S (k + n)). split; [lia|]. destruct (Nat.leb_spec (S (k + n)) n); [lia|]. reflexivity.
Qed.
Lemma fg_not_right : forall f t, (forall s, In s (names f) -> s = t) ->
  (forall w, wsat w 0 f <-> ~ forall i, exists j, w (i + j) t) -> translates (fun _ => fg_not) f.
Proof.
  intros f t Hn Hw. split; [intros a b Ha Hb _; rewrite (Hn a Ha), (Hn b Hb); reflexivity|].
  intros w. rewrite fg_not_words, Hw. cbn [fg_not sa_var]. split.
  - intros (n & H) A. destruct (A n) as (j & B). rewrite H in B by lia. discriminate B.
  - intros H. apply not_all_ex_not in H as (n & H). exists n. intros i Hi. destruct (w i 0) eqn:E; auto. exfalso. apply H. exists (i - n).
    replace (n + (i - n)) with i by lia. exact E.
Qed.

(** ** A query that is answered right *)
Definition crit_ge1 : cond := CCmp OpLe (Lit 1) (Pl 2).
Definition gf_query : cond := CA (CG (CF crit_ge1)).
Lemma gf_translates : translates (fun _ => fg_not) (SNot (fst (to_spot CompFull (fun _ => false) true (fst (to_ltl gf_query)) []))).
Proof.
  apply (fg_not_right _ (NIdx 0)); [intros s [<-|[]]; reflexivity|]. intros w. cbn. split; intros H A; apply H; intros i; [destruct (A i) as (j & B)|destruct (A i) as (j & B)]; eauto.
Qed.
Definition sx_deadb (m : marking) : bool := false.
Lemma sx_query_reach : forall m, reachable (to_pnet sx_net) (cn_init sx_net) m ->
  fits m /\ within 0 m /\ (sx_deadb m = true <-> dead (to_pnet sx_net) m).
Proof.
  intros m R. assert (Hin : In m sx_marks).
  { destruct R as (w & R). apply (@closed_all sx_net 0%N sx_marks sx_layout sx_init sx_closed m). exists w. split; [exact R|]. intros; reflexivity. }
  split; [|split; [left; reflexivity|]].
  - destruct Hin as [<-|[<-|[]]]; intros [|[|[|[|p]]]]; discriminate.
  - unfold sx_deadb. split; [discriminate|]. intros D. exfalso.
    assert (E : to_pnet sx_net = mkPnet 3 [mkTrans [mkArc 0 1 false; mkArc 1 1 false] [mkArc 2 1 false]; mkTrans [mkArc 2 1 false] [mkArc 0 1 false; mkArc 1 1 false]]) by (vm_compute; reflexivity).
    rewrite E in D. destruct Hin as [<-|[<-|[]]].
    + apply (D 0 _ eq_refl). intros a [<-|[<-|[]]]; discriminate.
    + apply (D 1 _ eq_refl). intros a [<-|[]]; discriminate.
Qed.

(** ** A net that may wait for ever: place 10 with a token, which transition 20 keeps there and
    transition 21 moves to place 11. *)
Definition qx_calls : list call :=
  [CPlace 10 1; CPlace 11 0; CTrans 20 0; CTrans 21 0; CIn 10 20 false 1; COut 20 10 1; CIn 10 21 false 1; COut 21 11 1].
Definition qx_builder : builder := match do_calls b_empty qx_calls with Ok b => b | _ => b_empty end.
Definition qx_net : cnet := match make_net qx_builder false with Ok (n, _, _) => n | _ => mkCnet 0 0 [] [] [] [] [] end.
Definition qx_marks : list marking := [[1; 0]; [0; 1]]%N.
Lemma qx_layout : layout qx_net.
Proof.
  assert (W : weights_pos qx_calls) by (repeat constructor; lia).
  assert (P : exists p, is_place qx_calls p) by (exists 10; left; reflexivity).
  destruct (@builder_correct qx_calls qx_builder false W eq_refl P) as (net & ids & tids & pidx & tidx & Hm & L & _).
  unfold qx_net. rewrite Hm. exact L.
Qed.
Lemma qx_init : mark_ok (cn_places qx_net) (cn_init qx_net).
Proof. split; [reflexivity|]. change (cn_init qx_net) with [1; 0]%N. intros v [<-|[<-|[]]]; reflexivity. Qed.
Lemma qx_closed : closedb qx_net qx_marks = true.
Proof. vm_compute. reflexivity. Qed.
Definition qx_pnet : pnet := mkPnet 2 [mkTrans [mkArc 0 1 false] [mkArc 0 1 false]; mkTrans [mkArc 0 1 false] [mkArc 1 1 false]].
Lemma qx_pnet_eq : to_pnet qx_net = qx_pnet.
Proof. vm_compute. reflexivity. Qed.
Lemma qx_reach : forall m, reachable qx_pnet [1; 0]%N m -> m = [1; 0]%N \/ m = [0; 1]%N.
Proof.
  rewrite <- qx_pnet_eq. intros m (w & R).
  assert (Hin : In m qx_marks).
  { apply (@closed_all qx_net 0%N qx_marks qx_layout qx_init qx_closed m). exists w. split; [exact R|]. intros; reflexivity. }
  destruct Hin as [<-|[<-|[]]]; auto.
Qed.
Lemma qx_stay : step qx_pnet [1; 0]%N 0 [1; 0]%N.
Proof.
  exists (mkTrans [mkArc 0 1 false] [mkArc 0 1 false]). split; [reflexivity|]. split; [intros a [<-|[]]; discriminate|]. split; [reflexivity|].
  intros [|[|p]] H; cbn in H; try lia; split; (reflexivity || discriminate).
Qed.
Lemma qx_move : step qx_pnet [1; 0]%N 1 [0; 1]%N.
Proof.
  exists (mkTrans [mkArc 0 1 false] [mkArc 1 1 false]). split; [reflexivity|]. split; [intros a [<-|[]]; discriminate|]. split; [reflexivity|].
  intros [|[|p]] H; cbn in H; try lia; split; (reflexivity || discriminate).
Qed.
Lemma qx_end : dead qx_pnet [0; 1]%N.
Proof.
  intros [|[|[|t]]] tr E H; try discriminate E; injection E as <-; specialize (H _ (or_introl eq_refl)); apply H; reflexivity.
Qed.
Definition moved : cond := CCmp OpLe (Lit 1) (Pl 1).
Lemma qx_possible : forall pi, maximal qx_pnet pi -> reachable qx_pnet [1; 0]%N (pi 0) -> holds qx_pnet pi (CEF moved).
Proof.
  intros pi M R. cbn [holds]. exists (fun i => match i with 0 => pi 0 | S _ => [0; 1]%N end). split.
  - split; [|reflexivity]. intros [|i]; [|right; split; [exact qx_end|reflexivity]].
    destruct (qx_reach _ R) as [E|E]; rewrite E; [left; exists 1; exact qx_move|right; split; [exact qx_end|reflexivity]].
  - exists 1. unfold shift. cbn. discriminate.
Qed.
Lemma qx_waiting : maximal qx_pnet (fun _ => [1; 0]%N).
Proof. intros i. left. exists 0. exact qx_stay. Qed.
Lemma qx_path_reach : forall pi, maximal qx_pnet pi -> pi 0 = [1; 0]%N -> forall i, reachable qx_pnet [1; 0]%N (pi i).
Proof. intros pi M E. apply run_reachable. split; auto. Qed.

(** Of an until only the left operand is validated; a quantifier on the right is read as if it were
    not there. *)
Definition nested_query : cond := CA (CG (CU (CBool true) (CEF moved))).
Lemma nested_translates : translates (fun _ => fg_not) (SNot (fst (to_spot CompFull (fun _ => false) true (fst (to_ltl nested_query)) []))).
Proof.
  apply (fg_not_right _ (NIdx 0)); [intros s [<-|[]]; reflexivity|]. intros w. cbn. split; intros H A; apply H; intros i.
  - destruct (A i) as (j & B). exists 0. rewrite Nat.add_0_r. split; [eauto|intros; reflexivity].
  - destruct (A i) as (j & (k & B) & _). exists (j + k). rewrite Nat.add_assoc. exact B.
Qed.
Lemma nested_wrong : exists net q tr order r,
  layout net /\ enumerates (to_pnet net) (cn_init net) order /\
  is_ltl q = true /\ translates tr (SNot (fst (to_spot CompFull (fun _ => false) true (fst (to_ltl q)) []))) /\
  ltl_solve CompFull (fun _ => false) true tr (fun m => match net_stream net m with ([], _) => true | _ => false end)
    (fun aut => ndfs_check aut order 0 50 false (cn_init net)) q = Ok r /\
  r = false /\ sat (to_pnet net) (cn_init net) q.
Proof.
  exists qx_net, nested_query, (fun _ => fg_not), (fun _ m _ => net_stream qx_net m), false.
  split; [exact qx_layout|]. split.
  { apply stream_enumerates; [exact qx_layout|]. change (cn_init qx_net) with [1; 0]%N. rewrite qx_pnet_eq. intros m R.
    destruct (qx_reach m R) as [-> | ->]; (split; [reflexivity|]); intros [|[|[|p]]]; reflexivity. }
  split; [reflexivity|]. split; [exact nested_translates|]. split; [vm_compute; reflexivity|]. split; [reflexivity|].
  change (cn_init qx_net) with [1; 0]%N. rewrite qx_pnet_eq. intros pi M E rho (A & B) i. exists 0. split; [|intros; lia].
  apply qx_possible; [repeat apply maximal_shift; exact A|]. unfold shift. apply (qx_path_reach rho A). congruence.
Qed.

(** The simplification of linear-time queries turns a query E F into A F. *)
Lemma simplify_ef_wrong : forall eqc, exists net q q',
  layout net /\ is_ltl q = true /\ ltl_query q = true /\
  simplify_ltl_query eqc CompFull (fun _ => false) (fun _ => true) (fun f => f) (fun c => Ok c) (fun c => Ok c) q = Ok q' /\
  sat (to_pnet net) (cn_init net) q /\ ~ sat (to_pnet net) (cn_init net) q'.
Proof.
  intros eqc. exists qx_net, (CEF moved), (CA (CF moved)). split; [exact qx_layout|]. split; [reflexivity|]. split; [reflexivity|]. split; [reflexivity|].
  change (cn_init qx_net) with [1; 0]%N. rewrite qx_pnet_eq. split.
  - intros pi M E. apply qx_possible; auto. rewrite E. exists []. constructor.
  - intros H. destruct (H (fun _ => [1; 0]%N) qx_waiting eq_refl (fun _ => [1; 0]%N)) as (i & C); [split; [exact qx_waiting|reflexivity]|].
    vm_compute in C. apply C. reflexivity.
Qed.
Lemma id_simplifies : simplifies (fun f => f).
Proof. intros f. split; [tauto|intros x Hx; exact Hx]. Qed.
Lemma id_keeps : forall net m0, keeps net m0 (fun c => Ok c).
Proof. intros net m0 c c' L E. injection E as <-. split; [exact L|tauto]. Qed.
