(** Reading of formulas and query files (C38). *)
From Coq Require Import Classical.
From Verif Require Import Base PqlSyntax XqSyntax XqSpec XqModel XqExp.
Local Open Scope string_scope.

Section Preds.
Variable F : frame.
Definition peq (p q : pred F) : Prop := forall e r, p e r <-> q e r.
Lemma peq_refl : forall p, peq p p. Proof. intros p e r. tauto. Qed.
Lemma peq_sym : forall p q, peq p q -> peq q p. Proof. intros p q H e r. rewrite (H e r). tauto. Qed.
Lemma peq_trans : forall p q s, peq p q -> peq q s -> peq p s.
Proof. intros p q s H K e r. rewrite (H e r). apply K. Qed.
Lemma peq_not : forall p q, peq p q -> peq (pnot p) (pnot q).
Proof. intros p q H e r. unfold pnot. rewrite (H e r). tauto. Qed.
Lemma peq_ex : forall p q, peq p q -> peq (exists_path p) (exists_path q).
Proof. intros p q H e r. unfold exists_path. split; intros (x & A & B); exists x; split; auto; apply H; auto. Qed.
Lemma peq_all : forall p q, peq p q -> peq (all_paths p) (all_paths q).
Proof. intros p q H e r. unfold all_paths. split; intros A x B; apply H; auto. Qed.
Lemma peq_nex : forall n p q, peq p q -> peq (named_exists n p) (named_exists n q).
Proof. intros n p q H e r. unfold named_exists. split; intros (x & A & B); exists x; split; auto; apply H; auto. Qed.
Lemma peq_nall : forall n p q, peq p q -> peq (named_all n p) (named_all n q).
Proof. intros n p q H e r. unfold named_all. split; intros A x B; apply H; auto. Qed.
Lemma peq_after : forall i p q, peq p q -> peq (after i p) (after i q).
Proof. intros i p q H e r. unfold after. split; intros (x & A & B); exists x; split; auto; apply H; auto. Qed.
Lemma peq_next : forall p q, peq p q -> peq (next p) (next q).
Proof. intros p q H. apply peq_after, H. Qed.
Lemma peq_fin : forall p q, peq p q -> peq (finally p) (finally q).
Proof. intros p q H e r. unfold finally. split; intros (i & A); exists i; revert A; apply peq_after; auto. apply peq_sym, H. Qed.
Lemma peq_glob : forall p q, peq p q -> peq (globally p) (globally q).
Proof. intros p q H e r. unfold globally. split; intros A i x B; apply H; eauto. Qed.
Lemma peq_until : forall p q p' q', peq p p' -> peq q q' -> peq (until p q) (until p' q').
Proof.
  intros p q p' q' H K e r. unfold until. split; intros (i & A & B); exists i; (split; [revert A; apply peq_after|]).
  - apply peq_sym, K.
  - intros j J. generalize (B j J). apply peq_after, peq_sym, H.
  - exact K.
  - intros j J. generalize (B j J). apply peq_after, H.
Qed.
Lemma peq_scope : forall n p q, peq p q -> peq (scope n p) (scope n q).
Proof. intros n p q H e r. unfold scope. destruct (e n); [apply H|tauto]. Qed.
Hypothesis OK : frame_ok F.
Lemma peq_control : forall p q, peq p q -> peq (control p) (control q).
Proof. intros p q H e r. unfold control. split; apply OK; intros x; rewrite (H e x); tauto. Qed.

(** what the code writes for invariants *)
Lemma peq_invariant : forall p, peq (pnot (exists_path (finally (pnot p)))) (all_paths (globally p)).
Proof.
  intros p e r. split.
  - intros A r' B i r2 C. apply NNPP. intros D. apply A. exists r'. split; auto. exists i, r2. split; auto.
  - intros A (r' & B & i & r2 & C & D). apply D. exact (A r' B i r2 C).
Qed.
Lemma peq_impossible : forall p, peq (pnot (exists_path (finally p))) (all_paths (globally (pnot p))).
Proof.
  intros p e r. split.
  - intros A r' B i r2 C D. apply A. exists r'. split; auto. exists i, r2. split; auto.
  - intros A (r' & B & i & r2 & C & D). exact (A r' B i r2 C D).
Qed.
End Preds.

(** ** Conjunctions and disjunctions *)
Lemma flat_and : forall F (e : env F) r c, (forall d, In d (flat false c) -> nsat d e r) <-> nsat c e r.
Proof.
  intros F e r. induction c as [| | | |l IH|l IH| | | | | | | | | | | |] using ncond_ind'; cbn [flat];
    try (split; [intros H; apply H; left; auto|intros H d [<-|[]]; exact H]).
  cbn [nsat]. unfold pall. rewrite Forall_forall in IH. split.
  - intros H p P. apply in_map_iff in P as (c & <- & C). apply IH; auto. intros d D. apply H, in_flat_map. eauto.
  - intros H d D. apply in_flat_map in D as (c & C & D). apply (proj2 (IH c C)); auto. apply H, in_map, C.
Qed.
Lemma flat_or : forall F (e : env F) r c, (exists d, In d (flat true c) /\ nsat d e r) <-> nsat c e r.
Proof.
  intros F e r. induction c as [| | | |l IH|l IH| | | | | | | | | | | |] using ncond_ind'; cbn [flat];
    try (split; [intros (d & [<-|[]] & H); exact H|intros H; eexists; split; [left; reflexivity|exact H]]).
  cbn [nsat]. unfold pany. rewrite Forall_forall in IH. split.
  - intros (d & D & H). apply in_flat_map in D as (c & C & D). exists (nsat c). split; [apply in_map, C|]. apply IH; eauto.
  - intros (p & P & H). apply in_map_iff in P as (c & <- & C). apply IH in H as (d & D & H); auto. exists d. split; auto.
    apply in_flat_map. eauto.
Qed.
Lemma in_merge : forall c l, In c (post_merge l) <-> In c l.
Proof.
  intros c l. unfold post_merge. rewrite in_app_iff, !filter_In. destruct (temporal c); cbn [negb]; intuition congruence.
Qed.
Lemma sat_and : forall F (e : env F) r l, nsat (mk_and l) e r <-> forall c, In c l -> nsat c e r.
Proof.
  intros F e r l. unfold mk_and. cbn [nsat]. unfold pall. split.
  - intros H c C. apply flat_and. intros d D. apply H, in_map, in_merge, in_flat_map. eauto.
  - intros H p P. apply in_map_iff in P as (d & <- & D). apply in_merge, in_flat_map in D as (c & C & D).
    revert d D. apply flat_and, H, C.
Qed.
Lemma sat_or : forall F (e : env F) r l, nsat (mk_or l) e r <-> exists c, In c l /\ nsat c e r.
Proof.
  intros F e r l. unfold mk_or. cbn [nsat]. unfold pany. split.
  - intros (p & P & H). apply in_map_iff in P as (d & <- & D). apply in_merge, in_flat_map in D as (c & C & D).
    exists c. split; auto. apply flat_or. eauto.
  - intros (c & C & H). apply flat_or in H as (d & D & H). exists (nsat d). split; auto.
    apply in_map, in_merge, in_flat_map. eauto.
Qed.
Lemma sat_and2 : forall F (e : env F) r a b, nsat (mk_and [a; b]) e r <-> nsat a e r /\ nsat b e r.
Proof. intros. rewrite sat_and. split; [intros H; split; apply H; cbn; auto|]. intros (A & B) c [<-|[<-|[]]]; auto. Qed.
Lemma sat_or2 : forall F (e : env F) r a b, nsat (mk_or [a; b]) e r <-> nsat a e r \/ nsat b e r.
Proof.
  intros. rewrite sat_or. split.
  - intros (c & [<-|[<-|[]]] & H); auto.
  - intros [H|H]; eexists; split; [left; reflexivity|exact H|right; left; reflexivity|exact H].
Qed.

(** ** Formulas *)
Lemma says_all : forall ks cs F (OK : frame_ok F) (e : env F) r, Forall2 (fun k c => says c k) ks cs ->
  ((forall c, In c cs -> nsat c e r) <-> pall (map (xsat (F:=F)) ks) e r).
Proof.
  intros ks cs F OK e r H. unfold pall. induction H as [|k c ks cs K H IH]; cbn [map].
  - split; intros _ ? [].
  - split.
    + intros A p [<-|P]; [apply (K F OK), A; left; auto|]. apply IH; auto. intros d D. apply A. right. auto.
    + intros A d [<-|D]; [apply (K F OK), A; left; auto|]. revert d D. apply IH. intros p P. apply A. right. auto.
Qed.
Lemma says_any : forall ks cs F (OK : frame_ok F) (e : env F) r, Forall2 (fun k c => says c k) ks cs ->
  ((exists c, In c cs /\ nsat c e r) <-> pany (map (xsat (F:=F)) ks) e r).
Proof.
  intros ks cs F OK e r H. unfold pany. induction H as [|k c ks cs K H IH]; cbn [map].
  - split; intros (? & [] & _).
  - split.
    + intros (d & [<-|D] & S). { exists (xsat k). split; [left; auto|]. apply (K F OK), S. }
      destruct (proj1 IH) as (p & P & S2); [eauto|]. exists p. split; [right|]; auto.
    + intros (p & [<-|P] & S). { exists c. split; [left; auto|]. apply (K F OK), S. }
      destruct (proj2 IH) as (d & D & S2); [eauto|]. exists d. split; [right|]; auto.
Qed.

Lemma small_kids : forall t a s ks, small (X t a s ks) = true ->
  match t with Teq | Tne | Tlt | Tle | Tgt | Tge | Tksafe => True | _ => forallb small ks = true end.
Proof. intros [] a s ks H; auto. Qed.
Lemma small_num_lt : forall n, small_num n = true -> (n < 2 ^ 63)%N.
Proof. intros n H. apply N.ltb_lt, H. Qed.

Lemma cmp_read : forall k1 k2, wf_exp k1 = true -> wf_exp k2 = true -> small_num (size k1) = true -> small_num (size k2) = true ->
  exists e1 e2, parse_exp k1 = Ok (Some e1) /\ parse_exp k2 = Ok (Some e2) /\ vmean e1 k1 /\ vmean e2 k2.
Proof.
  intros k1 k2 W1 W2 S1 S2. destruct (parse_exp_ok _ W1 (small_num_lt _ S1)) as (e1 & E1 & M1 & _).
  destruct (parse_exp_ok _ W2 (small_num_lt _ S2)) as (e2 & E2 & M2 & _). eauto 8.
Qed.
Lemma cmp_mean : forall o e1 e2 k1 k2 F (e : env F) r, vmean e1 k1 -> vmean e2 k2 ->
  (compares o (nval e1) (nval e2) e r <-> compares o (xval k1) (xval k2) e r).
Proof. intros o e1 e2 k1 k2 F e r M1 M2. unfold compares. rewrite (M1 F e r), (M2 F e r). tauto. Qed.

Ltac spl H := apply andb_true_iff in H as (? & ?).

Definition form_ok (x : xml) : Prop := wf_form x = true -> small x = true -> exists c, parse_form x = Ok (Some c) /\ says c x.
Lemma one_kid : forall ks, Forall form_ok ks -> single ks && forallb wf_form ks = true -> forallb small ks = true ->
  exists k c, ks = [k] /\ parse_form k = Ok (Some c) /\ says c k.
Proof.
  intros [|k [|]] H W S; try discriminate W. cbn [single forallb andb] in *. rewrite andb_true_r in *.
  inversion_clear H. destruct (H0 W S) as (c & E & M). eauto 6.
Qed.
Lemma two_kids : forall ks, Forall form_ok ks -> pair ks && forallb wf_form ks = true -> forallb small ks = true ->
  exists k1 k2 c1 c2, ks = [k1; k2] /\ parse_form k1 = Ok (Some c1) /\ parse_form k2 = Ok (Some c2) /\ says c1 k1 /\ says c2 k2.
Proof.
  intros [|k1 [|k2 [|]]] H W S; try discriminate W. cbn [pair forallb andb] in *. rewrite andb_true_r in *. spl W. spl S.
  inversion_clear H as [|? ? A B]. inversion_clear B as [|? ? C _].
  destruct (A H0 H2) as (c1 & E1 & M1). destruct (C H1 H3) as (c2 & E2 & M2). eauto 12.
Qed.
Lemma many_kids : forall ks, Forall form_ok ks -> forallb wf_form ks = true -> forallb small ks = true ->
  exists cs, mapO parse_form ks = Ok (Some cs) /\ Forall2 (fun k c => says c k) ks cs.
Proof.
  intros ks H W S. apply mapO_ok. rewrite Forall_forall in *. rewrite forallb_forall in W, S. intros k K. exact (H k K (W k K) (S k K)).
Qed.

Lemma says_peq : forall c x, (forall F, frame_ok F -> peq F (nsat c) (xsat x)) -> says c x.
Proof. intros c x H F OK e r. apply H, OK. Qed.

Ltac conj_tac IH W S :=
  apply andb_true_iff in W as (H & H0); destruct (many_kids _ IH H0 (small_kids _ _ _ _ S)) as (cs & E & K); rewrite E; cbn [bind];
  destruct cs as [|c1 [|c2 cs]];
  [inversion K; subst; discriminate H
  |eexists; split; [reflexivity|]; inversion K as [|k ? ? ? M K2]; subst; inversion K2; subst; intros F OK e r; cbn [xsat map]; rewrite (M F OK e r);
   unfold pall, pany; split; [intros Q; first [intros p [<-|[]]; exact Q|exists (xsat k); split; [left; reflexivity|exact Q]]
                             |first [intros (p & [<-|[]] & Q); exact Q|intros Q; apply Q; left; reflexivity]]
  |eexists; split; [reflexivity|]; intros F OK e r; cbn [xsat]; first [rewrite sat_and; apply says_all; assumption|rewrite sat_or; apply says_any; assumption]].
Ltac cmp_tac ks W S :=
  destruct ks as [|k1 [|k2 [|]]]; try discriminate W; cbn [pair forallb andb] in W; cbn [small forallb] in S; rewrite andb_true_r in W, S;
  apply andb_true_iff in W as (W1 & W2); apply andb_true_iff in S as (S1 & S2);
  destruct (cmp_read k1 k2) as (e1 & e2 & E1 & E2 & M1 & M2); auto; rewrite E1; cbn [bind]; rewrite E2; cbn [bind cmp_of];
  eexists; split; [reflexivity|]; intros F OK e r; cbn [nsat xsat map vtwo]; apply cmp_mean; auto.
Lemma parse_form_step : forall t a s ks, Forall form_ok ks -> Forall (fun k => Forall form_ok (kids_of k)) ks -> form_ok (X t a s ks).
Proof.
  intros t a s ks IH IH2 W S.
  destruct t; try discriminate W; cbn [wf_form] in W; cbn [parse_form].
  (* operators with one operand *)
  1-4: destruct (one_kid _ IH W (small_kids _ _ _ _ S)) as (k & c & -> & E & M); rewrite E; cbn [wrap bind]; eexists; (split; [reflexivity|]);
    apply says_peq; intros F OK; cbn [nsat xsat map pone]; pose proof (M F OK : peq F (nsat c) (xsat k)) as MF.
  - eapply peq_trans; [apply peq_invariant|]. apply peq_all, peq_glob, MF.
  - eapply peq_trans; [apply peq_impossible|]. apply peq_all, peq_glob, peq_not, MF.
  - apply peq_ex, peq_fin, MF.
  - apply peq_control; auto.
  - destruct (one_kid _ IH W (small_kids _ _ _ _ S)) as (k & c & -> & E & M). rewrite E. cbn [wrap bind].
    destruct a as [n|]; eexists; (split; [reflexivity|]); apply says_peq; intros F OK; cbn [nsat xsat map pone]; [apply peq_nex|apply peq_ex]; exact (M F OK).
  - destruct (one_kid _ IH W (small_kids _ _ _ _ S)) as (k & c & -> & E & M). rewrite E. cbn [wrap bind].
    destruct a as [n|]; eexists; (split; [reflexivity|]); apply says_peq; intros F OK; cbn [nsat xsat map pone]; [apply peq_nall|apply peq_all]; exact (M F OK).
  - destruct (one_kid _ IH W (small_kids _ _ _ _ S)) as (k & c & -> & E & M). rewrite E. cbn [wrap bind].
    eexists. split; [reflexivity|]. apply says_peq. intros F OK. cbn [nsat xsat map pone]. apply peq_next. exact (M F OK).
  - destruct (one_kid _ IH W (small_kids _ _ _ _ S)) as (k & c & -> & E & M). rewrite E. cbn [wrap bind].
    eexists. split; [reflexivity|]. apply says_peq. intros F OK. cbn [nsat xsat map pone]. apply peq_glob. exact (M F OK).
  - destruct (one_kid _ IH W (small_kids _ _ _ _ S)) as (k & c & -> & E & M). rewrite E. cbn [wrap bind].
    eexists. split; [reflexivity|]. apply says_peq. intros F OK. cbn [nsat xsat map pone]. apply peq_fin. exact (M F OK).
  - (* until *)
    destruct ks as [|[[] a1 s1 [|b [|]]] ks1]; try discriminate W. destruct ks1 as [|[[] a2 s2 [|c [|]]] ks2]; try discriminate W.
    destruct ks2; try discriminate W.
    inversion_clear IH2 as [|? ? A B]. inversion_clear B as [|? ? C _]. cbn [kids_of] in A, C.
    inversion_clear A as [|? ? A' _]. inversion_clear C as [|? ? C' _]. cbn [small forallb andb] in S. rewrite !andb_true_r in S. spl W. spl S.
    destruct (A' H H1) as (c1 & E1 & M1). destruct (C' H0 H2) as (c2 & E2 & M2). rewrite E1. cbn [bind]. rewrite E2. cbn [wrap bind].
    eexists. split; [reflexivity|]. apply says_peq. intros F OK. cbn [nsat xsat map pone ptwo]. apply peq_until; [exact (M1 F OK)|exact (M2 F OK)].
  - eexists. split; [reflexivity|]. intros F OK e r. reflexivity.
  - eexists. split; [reflexivity|]. intros F OK e r. cbn [nsat xsat]. tauto.
  - eexists. split; [reflexivity|]. intros F OK e r. cbn [nsat xsat]. unfold pfalse. split; [discriminate|tauto].
  - destruct (one_kid _ IH W (small_kids _ _ _ _ S)) as (k & c & -> & E & M). rewrite E. cbn [wrap bind].
    eexists. split; [reflexivity|]. apply says_peq. intros F OK. cbn [nsat xsat map pone]. apply peq_not. exact (M F OK).
  - destruct (one_kid _ IH W (small_kids _ _ _ _ S)) as (k & c & -> & E & M). rewrite E. cbn [wrap bind].
    eexists. split; [reflexivity|]. apply says_peq. intros F OK. cbn [nsat xsat map pone]. apply peq_not. exact (M F OK).
  (* conjunction, disjunction *)
  - conj_tac IH W S.
  - conj_tac IH W S.
  - conj_tac IH W S.
  - conj_tac IH W S.
  - (* exclusive disjunction *)
    destruct (two_kids _ IH W (small_kids _ _ _ _ S)) as (k1 & k2 & c & d & -> & E1 & E2 & M1 & M2). rewrite E1, E2. cbn [both bind].
    eexists. split; [reflexivity|]. intros F OK e r. cbn [xsat map ptwo]. rewrite sat_or2, !sat_and2. cbn [nsat]. unfold pnot.
    rewrite (M1 F OK e r), (M2 F OK e r). tauto.
  - destruct (two_kids _ IH W (small_kids _ _ _ _ S)) as (k1 & k2 & c & d & -> & E1 & E2 & M1 & M2). rewrite E1, E2. cbn [both bind].
    eexists. split; [reflexivity|]. intros F OK e r. cbn [xsat map ptwo]. rewrite sat_or2. cbn [nsat]. unfold pnot.
    rewrite (M1 F OK e r), (M2 F OK e r). destruct (classic (xsat k1 e r)); tauto.
  - destruct (two_kids _ IH W (small_kids _ _ _ _ S)) as (k1 & k2 & c & d & -> & E1 & E2 & M1 & M2). rewrite E1, E2. cbn [both bind].
    eexists. split; [reflexivity|]. intros F OK e r. cbn [xsat map ptwo]. rewrite sat_or2, !sat_and2. cbn [nsat]. unfold pnot.
    rewrite (M1 F OK e r), (M2 F OK e r). destruct (classic (xsat k1 e r)), (classic (xsat k2 e r)); tauto.
  (* comparisons *)
  - cmp_tac ks W S.
  - cmp_tac ks W S.
  - cmp_tac ks W S.
  - cmp_tac ks W S.
  - cmp_tac ks W S.
  - cmp_tac ks W S.
  - (* is-fireable *)
    spl W. destruct ks as [|k0 ks0]; [discriminate H|]. set (ks := k0 :: ks0) in *.
    assert (E : mapO read_transition ks = Ok (Some (map (fun k => NFire (text_of k)) ks))).
    { clearbody ks. clear - H0. induction ks as [|k ks IH]; cbn [mapO map]; auto. cbn [forallb] in H0. apply andb_true_iff in H0 as (Q1 & Q2).
      unfold read_transition at 1. destruct k as [[] a s l]; try discriminate Q1. cbn [is_transition tag_of bind]. rewrite (IH Q2). reflexivity. }
    rewrite E. cbn [bind option_map]. eexists. split; [reflexivity|]. intros F OK e r. rewrite sat_or. cbn [xsat]. split.
    + intros (c & C & Q). apply in_map_iff in C as (k & <- & C). exists k. auto.
    + intros (k & C & Q). exists (NFire (text_of k)). split; [apply in_map_iff; eauto|exact Q].
  - (* path-scope *)
    destruct a as [n|]; [|discriminate W].
    destruct (one_kid _ IH W (small_kids _ _ _ _ S)) as (k & c & -> & E & M). rewrite E. cbn [wrap bind].
    eexists. split; [reflexivity|]. apply says_peq. intros F OK. cbn [nsat xsat map pone]. apply peq_scope. exact (M F OK).
Qed.
Lemma parse_form_ok2 : forall x, form_ok x /\ Forall form_ok (kids_of x).
Proof.
  induction x as [t a s ks IH] using xml_ind'. assert (A : Forall form_ok ks). { eapply Forall_impl; [|exact IH]. intros k K. apply K. }
  split; [|exact A]. apply parse_form_step; auto. eapply Forall_impl; [|exact IH]. intros k K. apply K.
Qed.
Lemma parse_form_ok : forall x, form_ok x.
Proof. intros x. apply parse_form_ok2. Qed.

(** ** Queries *)
Lemma parse_query_ok : forall t a s q, good_query q = true -> exists c, parse_formula (X t a s [q]) = Ok (Some c) /\ reads c q.
Proof.
  intros t a s q G. unfold good_query in G. apply andb_true_iff in G as (W & S). unfold parse_formula. cbn [kids_of].
  destruct q as [tq aq sq ks]. apply orb_true_iff in W as [W|W].
  - assert (GEN : wf_form (X tq aq sq ks) = true -> exists c, parse_form (X tq aq sq ks) = Ok (Some c) /\ says c (X tq aq sq ks)).
    { intros WF. exact (parse_form_ok _ WF S). }
    destruct tq; try discriminate W; try (destruct (GEN W) as (c & E & M); exists c; split; [exact E|exact M]).
    + (* k-safe *)
      cbn [wf_query] in W. destruct ks as [|k [|]]; try discriminate W. cbn [single forallb andb] in W. rewrite andb_true_r in W.
      cbn [small forallb] in S. rewrite andb_true_r in S. destruct (parse_exp_ok _ W (small_num_lt _ S)) as (e & E & M & _).
      rewrite E. cbn [bind]. exists (NSafe e). split; [reflexivity|]. unfold reads. cbn [tag_of]. intros F OK en r. cbn [nsat xsat].
      unfold k_safe. assert (MC : forall p, peq F (all_paths (globally (compares OpLe (tokens_of p) (nval e)))) (all_paths (globally (compares OpLe (tokens_of p) (xval k))))).
      { intros p. apply peq_all, peq_glob. intros e0 r0. unfold compares. rewrite (M F e0 r0). tauto. }
      split; intros H p P; apply (MC p); auto.
    + exists NQuasi. split; [reflexivity|]. intros F OK en r. cbn. tauto.
    + exists NStable. split; [reflexivity|]. intros F OK en r. cbn. tauto.
    + exists NLive. split; [reflexivity|]. intros F OK en r. cbn. tauto.
  - destruct tq; try discriminate W. cbn [wf_bound] in W. rewrite (read_places _ W). cbn [bind option_map]. eexists. split; [reflexivity|].
    unfold reads. cbn [tag_of kids_of]. reflexivity.
Qed.

(** ** Files *)
Lemma loop_id : forall ks id0 f0 ok0 id f ok, fold_left (fun s k =>
    let '(id, f, ok) := s in
    match tag_of k with
    | Tid => (text_of k, f, ok)
    | Tformula => (id, Some k, ok)
    | Ttags => (id, f, tags_ok k)
    | _ => s
    end) ks (id0, f0, ok0) = (id, f, ok) ->
  id = last (map text_of (filter (is_tag Tid) ks)) id0 /\
  f = last (map Some (filter (is_tag Tformula) ks)) f0 /\
  (ok0 = true -> (forall k, In k ks -> tag_of k = Ttags -> tags_ok k = true) -> ok = true).
Proof.
  assert (LC : forall A (x : A) l d, last (x :: l) d = last l x).
  { intros A x l. revert x. induction l as [|y l IH]; intros x d; auto. change (last (x :: y :: l) d) with (last (y :: l) d). rewrite !IH. reflexivity. }
  induction ks as [|k ks IH]; intros id0 f0 ok0 id f ok H; cbn [fold_left filter map] in *.
  - injection H as <- <- <-. auto.
  - destruct k as [t a s l]. cbn [tag_of text_of] in H.
    destruct t; unfold is_tag; cbn [tag_of]; fold (is_tag Tid); fold (is_tag Tformula);
      apply IH in H as (A & B & C); cbn [map]; rewrite ?LC; cbn [text_of]; (split; [exact A|split; [exact B|]]);
      intros O Q; apply C; auto; try (intros k K; apply Q; right; exact K).
    apply (Q _ (or_introl eq_refl) eq_refl).
Qed.
Lemma property_ok : forall x id q, is_property x id q -> good_query q = true ->
  exists c, parse_property x = Ok (Some (mkItem id (Some c) true)) /\ reads c q.
Proof.
  intros x id q (T & I & N0 & (a & s & FM) & TG) G. unfold parse_property. rewrite T. unfold prop_loop.
  destruct (fold_left _ (kids_of x) ("", None, true)) as ((id' & f') & ok') eqn:L.
  apply loop_id in L as (A & B & C). rewrite I in A. rewrite FM in B. cbn [map last] in A, B. subst id' f'.
  assert (OKT : ok' = true).
  { apply C; auto. intros k K TK. unfold tags_ok. apply forallb_forall. intros j J.
    destruct (tag_of j) eqn:TJ; auto. apply negb_true_iff. destruct (String.eqb_spec (text_of j) "true"); auto.
    exfalso. exact (TG k j K TK J TJ e). }
  rewrite OKT. destruct (String.eqb_spec id ""); [contradiction|].
  destruct (parse_query_ok Tformula a s q G) as (c & E & R). rewrite E. cbn [bind]. eauto.
Qed.

Lemma wanted_eq : forall only i, wanted only i = wantsb only i.
Proof.
  intros [|n only] i; unfold wanted, wantsb; auto. destruct (in_dec Nat.eq_dec i (n :: only)) as [H|H].
  - apply existsb_exists. exists i. split; auto. apply Nat.eqb_refl.
  - apply not_true_is_false. intros E. apply H. apply existsb_exists in E as (x & X1 & X2). apply Nat.eqb_eq in X2. subst. exact X1.
Qed.
Lemma items_ok : forall only ks ps i, List.length ks = List.length ps ->
  (forall j k p, nth_error ks j = Some k -> nth_error ps j = Some p -> wantsb only (i + j) = true ->
     is_property k (fst p) (snd p) /\ good_query (snd p) = true) ->
  exists its cs, parse_items only i ks = Ok (Some its) /\
    collect only i its = (cs, map fst (chosen only i ps)) /\ Forall2 reads cs (map snd (chosen only i ps)).
Proof.
  induction ks as [|k ks IH]; intros [|p ps] i L H; try discriminate L.
  - exists [], []. split; [reflexivity|]. split; [reflexivity|]. constructor.
  - cbn [parse_items]. injection L as L. destruct (IH ps (S i) L) as (its & cs & E & C & R).
    { intros j k' p' K P W. apply (H (S j) k' p'); auto. rewrite Nat.add_succ_r. exact W. }
    rewrite (wanted_eq only i). destruct (wantsb only i) eqn:W.
    + destruct (H 0 k p eq_refl eq_refl) as (IP & G). { rewrite Nat.add_0_r. exact W. }
      destruct (property_ok _ _ _ IP G) as (c & EP & RP). rewrite EP. cbn [bind]. rewrite E. cbn [bind option_map].
      exists (mkItem (fst p) (Some c) true :: its), (c :: cs). split; [reflexivity|]. cbn [collect chosen]. rewrite C, wanted_eq, W.
      cbn [negb i_supported i_query i_id map]. split; [reflexivity|]. constructor; auto.
    + cbn [bind]. rewrite E. cbn [bind option_map]. exists (mkItem "" None true :: its), cs. split; [reflexivity|].
      cbn [collect chosen]. rewrite C, wanted_eq, W. cbn [negb]. auto.
Qed.
Lemma read_file_ok : forall only a s ks ps, List.length ks = List.length ps ->
  (forall j k p, nth_error ks j = Some k -> nth_error ps j = Some p -> wantsb only j = true ->
     is_property k (fst p) (snd p) /\ good_query (snd p) = true) ->
  exists cs, read_queries only (X Tset a s ks) = Ok (cs, map fst (chosen only 0 ps)) /\ Forall2 reads cs (map snd (chosen only 0 ps)).
Proof.
  intros only a s ks ps L H. destruct (items_ok only ks ps 0 L H) as (its & cs & E & C & R).
  exists cs. split; auto. unfold read_queries, parse_set. cbn [tag_of kids_of]. rewrite E. cbn [bind]. rewrite C. reflexivity.
Qed.
