(** Concrete nets for the answers of trace abstraction refinement, and queries that are
    answered wrongly or never. *)
From Verif Require Import Base BaseLemmas NetSpec NetModel NetProofs BuilderModel BuilderSpec BuilderMain PqlSyntax PqlSpec PqlModel PqlProofs
  EncoderModel StoreModel StoreSpec StoreProofs SearchModel SearchSpec SearchProofs SearchMain SearchExamples StubModel StubMain StubSearch QueryModel TarModel TarSpec TarSem TarMain.
From Coq Require Import Sorted.

Definition built (cs : list call) : cnet :=
  match do_calls b_empty cs with
  | Ok b => match make_net b false with Ok (n, _, _) => n | _ => mkCnet 0 0 [] [] [] [] [] end
  | _ => mkCnet 0 0 [] [] [] [] []
  end.
Lemma built_good : forall cs, weights_pos cs -> (exists p, is_place cs p) -> (exists b, do_calls b_empty cs = Ok b) -> layout (built cs) /\ dirs_ok (built cs).
Proof.
  intros cs W Pl (b & E). destruct (@builder_correct cs b false W E Pl) as (net & ids & tids & pidx & tidx & Hm & L & _ & _ & D & _).
  unfold built. rewrite E, Hm. auto.
Qed.
Definition ascb (l : list nat) : bool := (fix go (l : list nat) : bool := match l with x :: (y :: _) as r => (x <=? y) && go r | _ => true end) l.
Definition arcsb (net : cnet) : bool :=
  forallb (fun t => let tr := net_trans net t in
    ascb (map arc_place (tr_pre tr)) && ascb (map arc_place (tr_post tr)) && forallb (fun a => (arc_weight a <=? u32max)%N && negb (arc_inhib a)) (tr_pre tr ++ tr_post tr))
    (seq 0 (cn_ntrans net)).
Lemma ascb_ok : forall l, ascb l = true -> StronglySorted le l.
Proof.
  intros l H. apply Sorted_StronglySorted; [intros a b c; apply Nat.le_trans|]. induction l as [|x l IH]; [constructor|]. destruct l as [|y l]; [repeat constructor|].
  cbn [ascb] in H. apply andb_prop in H. destruct H as (A & B). apply Nat.leb_le in A. constructor; [apply IH; exact B|constructor; exact A].
Qed.
Definition marksb (net : cnet) (l : list marking) : bool := forallb (fun m => forallb (fun v => (v <=? u32max)%N) m) l.
Lemma plain_by : forall cs l, weights_pos cs -> (exists p, is_place cs p) -> (exists b, do_calls b_empty cs = Ok b) -> 0 < cn_places (built cs) ->
  mark_ok (cn_places (built cs)) (cn_init (built cs)) -> arcsb (built cs) = true -> closedb (built cs) l = true -> marksb (built cs) l = true ->
  plain (built cs) /\ forall m, reachable (to_pnet (built cs)) (cn_init (built cs)) m -> In m l.
Proof.
  intros cs l W Pl E P0 Mi Ab Cl Mb. destruct (built_good cs W Pl E) as (L & D). set (net := built cs) in *.
  assert (R : forall m, reachable (to_pnet net) (cn_init net) m -> In m l).
  { intros m H. apply (@closed_all net 0%N l L Mi Cl). apply kreach_0. exact H. }
  split; [|exact R]. unfold arcsb in Ab. rewrite forallb_forall in Ab.
  assert (X : forall t, t < cn_ntrans net -> StronglySorted le (map arc_place (tr_pre (net_trans net t))) /\ StronglySorted le (map arc_place (tr_post (net_trans net t))) /\
     forall a, In a (tr_pre (net_trans net t) ++ tr_post (net_trans net t)) -> (arc_weight a <= u32max)%N /\ arc_inhib a = false).
  { intros t Ht. specialize (Ab t). cbv zeta in Ab. rewrite !andb_true_iff in Ab. destruct Ab as ((A & B) & C); [apply in_seq; lia|]. split; [apply ascb_ok; exact A|]. split; [apply ascb_ok; exact B|].
    intros a I. rewrite forallb_forall in C. specialize (C a I). apply andb_prop in C. destruct C as (C1 & C2). apply N.leb_le in C1. apply negb_true_iff in C2. auto. }
  split; [exact L|]. split; [exact P0|]. split; [exact D|]. split; [intros t Ht; destruct (X t Ht) as (A & B & _); auto|]. split; [apply Mi|]. split.
  - intros t a Ht I. destruct (X t Ht) as (_ & _ & C). apply C. apply in_app_iff. exact I.
  - intros m p Hm. apply R in Hm. unfold marksb in Mb. rewrite forallb_forall in Mb. specialize (Mb m Hm). rewrite forallb_forall in Mb.
    destruct (Nat.lt_ge_cases p (length m)) as [Hp|Hp]; [apply N.leb_le; apply Mb; apply nth_In; exact Hp|]. unfold tokens. rewrite nth_overflow by exact Hp. apply N.le_0_l.
Qed.

(** one process moves five tokens from place 13 to place 10, one at a time *)
Definition txa_calls : list call := [CPlace 10 1; CPlace 11 1; CPlace 12 1; CPlace 13 5; CTrans 20 0; CIn 13 20 false 1; COut 20 10 1].
Definition txa_marks : list marking := [[1;1;1;5]; [2;1;1;4]; [3;1;1;3]; [4;1;1;2]; [5;1;1;1]; [6;1;1;0]]%N.
Definition txa := built txa_calls.
Lemma mark_by : forall n m, length m = n -> forallb (fun v => (v <? 2 ^ 32)%N) m = true -> mark_ok n m.
Proof. intros n m H F. split; [exact H|]. intros v I. rewrite forallb_forall in F. apply N.ltb_lt. apply F. exact I. Qed.
Lemma txa_plain : plain txa /\ forall m, reachable (to_pnet txa) (cn_init txa) m -> In m txa_marks.
Proof.
  apply plain_by.
  - repeat constructor; lia.
  - exists 10. left. reflexivity.
  - eexists. vm_compute. reflexivity.
  - apply Nat.ltb_lt. vm_compute. reflexivity.
  - apply mark_by; vm_compute; reflexivity.
  - vm_compute. reflexivity.
  - vm_compute. reflexivity.
  - vm_compute. reflexivity.
Qed.
(** following markings through the generator *)
Fixpoint chainb (net : cnet) (m : marking) (l : list marking) : bool :=
  match l with
  | [] => true
  | m' :: l => Nat.eqb (length m) (cn_places net) && forallb (fun v => (v <? 2 ^ 32)%N) m && memb m' (map snd (fst (net_stream net m))) && chainb net m' l
  end.
Lemma chainb_run : forall net, layout net -> forall l m, chainb net m l = true -> exists w, run (to_pnet net) m w (last l m).
Proof.
  intros net L. induction l as [|m' l IH]; intros m H; [exists []; constructor|]. cbn [chainb] in H. rewrite !andb_true_iff in H. destruct H as (((A & B) & C) & E).
  apply Nat.eqb_eq in A. apply memb_in in C. apply in_map_iff in C. destruct C as ((t & m1) & X & I). cbn [snd] in X. subst m1.
  pose proof (mark_by _ _ A B) as M. apply mark_ok_fits in M. destruct M as (M1 & M2). destruct (IH m' E) as (w & Ru). exists (t :: w). econstructor; [apply (proj1 (net_stream_ok L M1 M2)); exact I|].
  replace (last (m' :: l) m) with (last l m'); [exact Ru|]. destruct l as [|x l]; [reflexivity|]. cbn [last]. clear. revert x. induction l as [|y l IH]; intros x; [reflexivity|]. cbn [last] in *. apply (IH y).
Qed.
Lemma reach_sat : forall net l c, plain net -> chainb net (cn_init net) l = true -> atomic c = true -> goal_fn net c (last l (cn_init net)) = true ->
  exists m, reachable (to_pnet net) (cn_init net) m /\ sat (to_pnet net) m c.
Proof.
  intros net l c Pl Ch Ha G. destruct Pl as (L & P0 & _ & _ & Li & _ & F). destruct (chainb_run net L l _ Ch) as (w & Ru). exists (last l (cn_init net)). split; [exists w; exact Ru|].
  apply (@goal_fn_sat net L P0); [rewrite (@StubTheory.run_length _ _ _ _ Ru); exact Li|intros p; apply F; exists w; exact Ru|exact Ha|exact G].
Qed.
(** [10 >= 3 and 13 >= 3], and [10 >= 4 and 13 >= 3, or not (11 = 1 and 12 = 1) in a deadlock] *)
Definition txa_yes : cond := CConj false [mkCons 0 3 u32max; mkCons 3 3 u32max].
Definition txa_no : cond := COr [CConj false [mkCons 0 4 u32max; mkCons 3 3 u32max]; CAnd [CConj true [mkCons 1 1 1; mkCons 2 1 1]; CDead]].

(** [10 >= 3 and 11 >= 1, or 10 <= 0 and 12 >= 1] *)
Definition txa_or : cond := COr [CConj false [mkCons 0 3 u32max; mkCons 1 1 u32max]; CConj false [mkCons 0 0 0; mkCons 2 1 u32max]].
Lemma txa_nonzero : forall m, reachable (to_pnet txa) (cn_init txa) m -> exists p, tokens m p <> 0%N.
Proof. intros m H. apply txa_plain in H. exists 1. unfold txa_marks in H. cbn [In] in H. repeat destruct H as [<-|H]; try contradiction; discriminate. Qed.
Lemma txa_or_wrong : plain txa /\ (forall m, reachable (to_pnet txa) (cn_init txa) m -> exists p, tokens m p <> 0%N) /\ atomic txa_or = true /\
  tar txa txa_or (fun k => k) 50 100 = Ok false /\ exists m, reachable (to_pnet txa) (cn_init txa) m /\ sat (to_pnet txa) m txa_or.
Proof.
  split; [apply txa_plain|]. split; [exact txa_nonzero|]. split; [reflexivity|]. split; [vm_compute; reflexivity|].
  apply (reach_sat txa [[2;1;1;4]; [3;1;1;3]]%N); [apply txa_plain|vm_compute; reflexivity|reflexivity|vm_compute; reflexivity].
Qed.

(** one token is consumed; [deadlock or 10 >= 3] *)
Definition txz_calls : list call := [CPlace 10 1; CPlace 11 1; CTrans 20 0; CIn 10 20 false 1].
Definition txz := built txz_calls.
Lemma txz_plain : plain txz /\ forall m, reachable (to_pnet txz) (cn_init txz) m -> In m [[1; 1]; [0; 1]]%N.
Proof.
  apply plain_by.
  - repeat constructor; lia.
  - exists 10. left. reflexivity.
  - eexists. vm_compute. reflexivity.
  - apply Nat.ltb_lt. vm_compute. reflexivity.
  - apply mark_by; vm_compute; reflexivity.
  - vm_compute. reflexivity.
  - vm_compute. reflexivity.
  - vm_compute. reflexivity.
Qed.
Definition txz_or : cond := COr [CDead; CConj false [mkCons 0 3 u32max]].
Lemma txz_or_wrong : plain txz /\ (forall m, reachable (to_pnet txz) (cn_init txz) m -> exists p, tokens m p <> 0%N) /\ atomic txz_or = true /\
  tar txz txz_or (fun k => k) 50 100 = Ok false /\ (exists m, reachable (to_pnet txz) (cn_init txz) m /\ sat (to_pnet txz) m txz_or) /\
  tar txz (COr [CConj false [mkCons 0 3 u32max]; CDead]) (fun k => k) 50 100 = Ok true.
Proof.
  split; [apply txz_plain|]. split.
  { intros m H. apply txz_plain in H. exists 1. cbn [In] in H. repeat destruct H as [<-|H]; try contradiction; discriminate. }
  split; [reflexivity|]. split; [vm_compute; reflexivity|]. split; [|vm_compute; reflexivity].
  apply (reach_sat txz [[0; 1]]%N); [apply txz_plain|vm_compute; reflexivity|reflexivity|vm_compute; reflexivity].
Qed.

(** [10 = 11 + 12 + 1] *)
Definition txa_eq : cond := CCmp OpEq (Pl 0) (Plus 1 [1; 2] []).
Lemma txa_eq_loop : forall rnd fuel steps k ut up, hd_error ut = Some true -> try_loop txa txa_eq (in_query txa txa_eq) rnd fuel steps (ts_new txa) ut up k = NoFuel.
Proof.
  intros rnd. induction fuel as [|fuel IH]; intros steps k ut up H; [reflexivity|]. cbn [try_loop]. unfold run_tar. destruct steps as [|steps]; [reflexivity|].
  destruct ut as [|u ut]; [discriminate|]. cbn [hd_error] in H. injection H as ->.
  replace (run_loop txa txa_eq (in_query txa txa_eq) rnd (true :: ut) (S steps) (ts_new txa) [mkS (rnd k) 0 (maximize (ts_new txa) (ts_init (ts_new txa)))] [] (S k)) with (Ok (false, false, ts_new txa, S k)).
  2: { cbn [run_loop]. replace (s_done txa (mkS (rnd k) 0 (maximize (ts_new txa) (ts_init (ts_new txa))))) with false by reflexivity.
       cbn [edge_cnt s_cnt nth negb]. replace (do_step txa (ts_new txa) (mkS (rnd k) 0 (maximize (ts_new txa) (ts_init (ts_new txa))))) with (Some [1]) by reflexivity.
       cbn [Nat.eqb rev app map edge_cnt s_cnt]. replace (check txa txa_eq (in_query txa txa_eq) [0] (ts_new txa)) with (Ok (false, ts_new txa)) by (vm_compute; reflexivity). reflexivity. }
  cbn [bind]. apply IH. reflexivity.
Qed.
Lemma txa_eq_never : plain txa /\ atomic txa_eq = true /\ (forall rnd fuel steps, tar txa txa_eq rnd fuel steps = NoFuel) /\
  exists m, reachable (to_pnet txa) (cn_init txa) m /\ sat (to_pnet txa) m txa_eq.
Proof.
  split; [apply txa_plain|]. split; [reflexivity|]. split.
  - intros rnd fuel steps. unfold tar. replace (has_inhib txa) with false by (vm_compute; reflexivity). replace (evaluate (net_deadb txa) (cn_init txa) txa_eq) with RFalse by (vm_compute; reflexivity).
    unfold try_reach. destruct (update_use txa (true :: repeat false (cn_ntrans txa)) (in_query txa txa_eq)) as [[ut up] more] eqn:E. apply txa_eq_loop.
    assert (X : hd_error (fst (fst (update_use txa (true :: repeat false (cn_ntrans txa)) (in_query txa txa_eq)))) = Some true) by (vm_compute; reflexivity). rewrite E in X. exact X.
  - apply (reach_sat txa [[2;1;1;4]; [3;1;1;3]]%N); [apply txa_plain|vm_compute; reflexivity|reflexivity|vm_compute; reflexivity].
Qed.
Lemma sep_yes : separate txa_yes /\ (forall p, In p (compared txa_yes) -> p < cn_places txa).
Proof.
  split.
  - cbn [separate txa_yes map c_place]. split; [repeat constructor; cbn; intuition discriminate|]. intros x [<-|[<-|[]]]; split; discriminate.
  - intros p I. apply Nat.ltb_lt. cbn in I. destruct I as [<-|[<-|[]]]; vm_compute; reflexivity.
Qed.
Lemma sep_no : separate txa_no /\ (forall p, In p (compared txa_no) -> p < cn_places txa).
Proof.
  split.
  - cbn [separate txa_no map c_place fold_right]. split.
    + split; [split; [repeat constructor; cbn; intuition discriminate|intros x [<-|[<-|[]]]; split; discriminate]|]. split; [|exact I]. split.
      * split; [split; [repeat constructor; cbn; intuition discriminate|intros x [<-|[<-|[]]]; split; discriminate]|]. split; exact I.
      * repeat constructor; intros p _ []; auto.
    + repeat constructor; [|intros []]. intros p [<-|[<-|[]]] J; cbn in J; intuition discriminate.
  - intros p I. apply Nat.ltb_lt. cbn in I. repeat destruct I as [<-|I]; try contradiction; vm_compute; reflexivity.
Qed.
