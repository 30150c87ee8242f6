(** Concrete nets for C44. *)
From Verif Require Import Base BaseLemmas NetSpec NetModel BuilderModel ColSyntax ColSpec ExpSyntax ExpSpec ExpModel ExpExamples PqlSyntax PqlSpec PqlModel PqlProofs PqlRuns QueryProofs IgnModel IgnSpec IgnCheck IgnMain IgnVerdict.
From Coq Require Import Arith.Cantor.

(** Names of transitions. *)
Definition ig_name (t : nat) (k : option nat) : nat := Cantor.to_nat (t, match k with None => 0 | Some i => S i end).
Lemma ig_name_inj : forall t k t' k', ig_name t k = ig_name t' k' -> t = t' /\ k = k'.
Proof.
  intros t k t' k' H. apply (f_equal Cantor.of_nat) in H. unfold ig_name in H. rewrite !Cantor.cancel_of_to in H.
  inversion H. destruct k, k'; try discriminate; auto.
Qed.

(** The net [en] of ExpExamples has a subtraction and an inhibitor arc; [ig_sub] is [en]
    without the inhibitor arc, [ig_inh] is [en] without the transition with the subtraction. *)
Definition ig_sub : cpn := mkCpn (cn_types en) (cn_map en) (cn_vars en) (cn_pls en) (cn_trs en) [].
Definition ig_inh : cpn := mkCpn (cn_types en) (cn_map en) (cn_vars en) (cn_pls en) (firstn 2 (cn_trs en)) (cn_inh en).

Lemma ig_sub_ok : cpn_ok ig_sub.
Proof.
  destruct en_ok as (A & B & C & D & E). split; [exact A|]. split; [exact B|]. split; [exact C|]. split; [exact D|]. intros p t w [].
Qed.
Lemma ig_inh_ok : cpn_ok ig_inh.
Proof.
  destruct en_ok as (A & B & C & D & E). split; [exact A|]. split; [exact B|]. split; [exact C|]. split.
  - intros t tr H. apply (D t tr). destruct t as [|[|t]]; [exact H|exact H|destruct t; discriminate H].
  - intros p t w [H|[]]. inversion H; subst. cbn. lia.
Qed.
Lemma en_pos : arcs_pos en.
Proof.
  intros t tr x H I. destruct t as [|[|[|t]]]; cbn in H; [..|destruct t; discriminate]; inversion H; subst; cbn in I; intuition; subst; cbn; try discriminate.
  split; discriminate.
Qed.
Lemma ig_sub_pos : arcs_pos ig_sub.
Proof. exact en_pos. Qed.
Lemma ig_inh_pos : arcs_pos ig_inh.
Proof. intros t tr x H. apply (en_pos t tr x). destruct t as [|[|t]]; [exact H|exact H|destruct t; discriminate H]. Qed.

(** The nets built: [p2] loses one token or two, and inhibits the first transition. *)
Definition ig_trans (i : list nat * list nat) (w : N) : trans :=
  mkTrans (map (fun p => mkArc p w false) (fst i)) (map (fun p => mkArc p 1 false) (snd i)).
Definition ig_read (x : res cnet) : res (pnet * marking) := net <- x ;; Ok (to_pnet net, cn_init net).
Lemma ig_sub_net : ig_read (ignorant_net ig_sub ig_name 10) = Ok (mkPnet 3 [ig_trans ([0], [1]) 1; ig_trans ([1], [0]) 1; ig_trans ([2], []) 1; ig_trans ([2], []) 2], [3; 0; 2]%N).
Proof. vm_compute. reflexivity. Qed.
Lemma ig_inh_net : ig_read (ignorant_net ig_inh ig_name 10) = Ok (mkPnet 3 [mkTrans [mkArc 0 1 false; mkArc 2 2 true] [mkArc 1 1 false]; ig_trans ([1], [0]) 1], [3; 0; 2]%N).
Proof. vm_compute. reflexivity. Qed.

(** No transition of the net puts tokens in [p2]: EF p2 > 2 is false, and a
    simplification may say so. *)
Definition ig_q : cond := CEF (CCmp OpLt (Lit 2) (Pl 2)).
Definition ig_simp (q r : cond) : cond * cond := (CBool false, r).
Definition ig_check (x : res cnet) : res (cond * cond * bool * verdict) :=
  net <- x ;; r <- prepared net 10 ig_q ;; v <- check_cardinality net 10 ig_simp ig_q ;; Ok (r, v).
Lemma ig_check_eq : ig_check (ignorant_net ig_sub ig_name 10) = Ok (ig_q, CBool false, true, Unsatisfied).
Proof. vm_compute. reflexivity. Qed.

Lemma no_growth : forall net p, (forall tr, In tr (pn_trans net) -> weight_at (tr_post tr) p = 0%N) ->
  forall m w m', NetSpec.run net m w m' -> p < length m -> (tokens m' p <= tokens m p)%N.
Proof.
  intros net p H m w m' R. induction R as [|m t m1 w m2 S R IH]; intros L; [lia|].
  destruct S as (tr & E & F1 & F2 & F3). specialize (F3 p L). rewrite (H tr (nth_error_In _ _ E)) in F3. specialize (IH ltac:(lia)). lia.
Qed.
Lemma ig_false : forall net, to_pnet net = mkPnet 3 [ig_trans ([0], [1]) 1; ig_trans ([1], [0]) 1; ig_trans ([2], []) 1; ig_trans ([2], []) 2] ->
  cn_init net = [3; 0; 2]%N -> wf_pnet (to_pnet net) -> ~ sat (to_pnet net) (cn_init net) ig_q.
Proof.
  intros net E I W H. apply (sat_EF_card _ _ (CCmp OpLt (Lit 2) (Pl 2)) W eq_refl) in H. destruct H as (m & (w & R) & C). rewrite I in R. rewrite E in R.
  assert (G : (tokens m 2 <= tokens [3; 0; 2] 2)%N).
  { eapply no_growth; [|exact R|cbn; lia]. intros tr Itr. cbn in Itr. destruct Itr as [<-|[<-|[<-|[<-|[]]]]]; reflexivity. }
  change (2 < Z.of_N (tokens m 2))%Z in C. change (tokens m 2 <= 2)%N in G. lia.
Qed.

Lemma ig_split : forall (x : res cnet) r v P,
  ig_check x = Ok (r, v) -> ig_read x = Ok P ->
  exists net, x = Ok net /\ prepared net 10 ig_q = Ok r /\ check_cardinality net 10 ig_simp ig_q = Ok v /\ (to_pnet net, cn_init net) = P.
Proof.
  intros x r v P H K. unfold ig_check, ig_read in *. destruct x as [net| | |]; try discriminate H. cbn [bind] in *. exists net. split; [reflexivity|].
  destruct (prepared net 10 ig_q) as [y| | |]; try discriminate H. cbn [bind] in H. destruct (check_cardinality net 10 ig_simp ig_q) as [z| | |]; try discriminate H.
  cbn [bind] in H. split; [congruence|]. split; congruence.
Qed.
Lemma ig_constants : forall net P, (to_pnet net, cn_init net) = P -> P = (mkPnet 3 [ig_trans ([0], [1]) 1; ig_trans ([1], [0]) 1; ig_trans ([2], []) 1; ig_trans ([2], []) 2], [3; 0; 2]%N) ->
  layout net -> constant_right net ig_q (CBool false) /\ constant_right net (CBool false) (CBool false).
Proof.
  intros net P E1 E2 L. rewrite <- E1 in E2. assert (R1 := f_equal fst E2). assert (R2 := f_equal snd E2). cbn [fst snd] in R1, R2.
  split; intros b B; injection B as <-.
  - split; [|discriminate]. intros S. destruct (ig_false net R1 R2 (ly_wf L) S).
  - split; [|discriminate]. intros S. destruct (PqlRuns.runs_exist _ (cn_init net) (ly_wf L)) as (pi & M & Q). exact (S pi M Q).
Qed.
Lemma ig_sub_case : exists net, ignorant_net ig_sub ig_name 10 = Ok net /\ rename (fun p => p) ig_q = ig_q /\
    prepared net 10 ig_q = Ok (ig_q, CBool false, true) /\ check_cardinality net 10 ig_simp ig_q = Ok Unsatisfied /\
    constant_right net ig_q (CBool false) /\ constant_right net (CBool false) (CBool false).
Proof.
  destruct (ig_split _ _ _ _ ig_check_eq ig_sub_net) as (net & E1 & E2 & E3 & E4).
  exists net. split; [exact E1|]. split; [reflexivity|]. split; [exact E2|]. split; [exact E3|].
  eapply ig_constants; [exact E4|reflexivity|]. assert (Q : 0 < length (cn_pls ig_sub)) by (cbn; lia).
  destruct (ignorant_follows ig_sub ig_name 10 net ig_sub_ok ig_sub_pos Q ig_name_inj E1) as [L _]. exact L.
Qed.
