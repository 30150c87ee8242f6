(** Whole query files, and the meaning of formulas that are the same. *)
From Verif Require Import Base BaseLemmas NetSpec PqlSyntax PqlSpec PqlModel PqlProofs BinSpec BinModel BinProofs.
From Coq Require Import Permutation.
Set Implicit Arguments.

(** ** Meaning *)
Lemma same_holds : forall c f, same (of_cond c) f -> exists c', f = of_cond c' /\ forall net pi, holds net pi c <-> holds net pi c'.
Proof.
  assert (L : forall l, Forall (fun c => forall f, same (of_cond c) f -> exists c', f = of_cond c' /\ forall net pi, holds net pi c <-> holds net pi c') l ->
    forall l', Forall2 same (map of_cond l) l' -> exists lc, l' = map of_cond lc /\ Forall2 (fun c c' => forall net pi, holds net pi c <-> holds net pi c') l lc).
  { induction l as [|c l IH]; intros H l' F; inversion F as [|? y ? ys S1 S2]; subst; [exists []; split; [reflexivity|constructor]|].
    inversion H as [|? ? Ha Hb]; subst. destruct (Ha _ S1) as (c' & -> & K). destruct (IH Hb _ S2) as (lc & -> & K2).
    exists (c' :: lc). split; [reflexivity|constructor; auto]. }
  induction c using cond_ind'; cbn [of_cond]; intros f S; inversion S; subst;
    try match goal with IH : forall f, same (of_cond ?c) f -> _, K : same (of_cond ?c) ?x |- _ => destruct (IH _ K) as (x1 & -> & E1); clear IH K end;
    try match goal with IH : forall f, same (of_cond ?c) f -> _, K : same (of_cond ?c) ?x |- _ => destruct (IH _ K) as (x2 & -> & E2); clear IH K end.
  - exists (CBool b). split; [reflexivity|tauto].
  - exists CDead. split; [reflexivity|tauto].
  - exists (CNot x1). split; [reflexivity|]. intros net pi. cbn [holds]. rewrite (E1 net pi). tauto.
  - destruct (L l H l') as (lc & -> & F); [assumption|]. exists (CAnd lc). split; [reflexivity|]. intros net pi. cbn [holds].
    clear - F. induction F as [|c c' l lc A B IH]; cbn [map fold_right]; [tauto|]. rewrite (A net pi), IH. tauto.
  - destruct (L l H l') as (lc & -> & F); [assumption|]. exists (COr lc). split; [reflexivity|]. intros net pi. cbn [holds].
    clear - F. induction F as [|c c' l lc A B IH]; cbn [map fold_right]; [tauto|]. rewrite (A net pi), IH. tauto.
  - exists (CCmp o a' b'). split; [reflexivity|]. intros net pi. cbn [holds]. rewrite H3, H4. tauto.
  - exists (CConj n cs). split; [reflexivity|tauto].
  - exists (CEX x1). split; [reflexivity|]. intros net pi. cbn [holds]. split; intros (rho & A & B & C); exists rho; (split; [exact A|split; [exact B|apply E1; exact C]]).
  - exists (CAX x1). split; [reflexivity|]. intros net pi. cbn [holds]. split; intros A rho B C; apply E1; auto.
  - exists (CEF x1). split; [reflexivity|]. intros net pi. cbn [holds]. split; intros (rho & A & i & C); exists rho; (split; [exact A|exists i; apply E1; exact C]).
  - exists (CAF x1). split; [reflexivity|]. intros net pi. cbn [holds]. split; intros A rho B; destruct (A rho B) as (i & C); exists i; apply E1; exact C.
  - exists (CEG x1). split; [reflexivity|]. intros net pi. cbn [holds]. split; intros (rho & A & C); exists rho; (split; [exact A|intros i; apply E1; apply C]).
  - exists (CAG x1). split; [reflexivity|]. intros net pi. cbn [holds]. split; intros A rho B i; apply E1; apply A; exact B.
  - exists (CEU x2 x1). split; [reflexivity|]. intros net pi. cbn [holds].
    split; intros (rho & A & i & C & D); exists rho; (split; [exact A|exists i; split; [apply E1; exact C|intros j Hj; apply E2; apply D; exact Hj]]).
  - exists (CAU x2 x1). split; [reflexivity|]. intros net pi. cbn [holds].
    split; intros A rho B; destruct (A rho B) as (i & C & D); exists i; (split; [apply E1; exact C|intros j Hj; apply E2; apply D; exact Hj]).
  - exists (CE x1). split; [reflexivity|]. intros net pi. cbn [holds]. split; intros (rho & A & C); exists rho; (split; [exact A|apply E1; exact C]).
  - exists (CA x1). split; [reflexivity|]. intros net pi. cbn [holds]. split; intros A rho B; apply E1; apply A; exact B.
  - exists (CF x1). split; [reflexivity|]. intros net pi. cbn [holds]. split; intros (i & C); exists i; apply E1; exact C.
  - exists (CG x1). split; [reflexivity|]. intros net pi. cbn [holds]. split; intros A i; apply E1; apply A.
  - exists (CX x1). split; [reflexivity|]. intros net pi. cbn [holds]. apply E1.
  - exists (CU x2 x1). split; [reflexivity|]. intros net pi. cbn [holds].
    split; intros (i & C & D); exists i; (split; [apply E1; exact C|intros j Hj; apply E2; apply D; exact Hj]).
Qed.

(** ** Files *)
Definition named_same (q q' : named) : Prop := fst q' = fst q /\ same (snd q) (snd q').

Lemma rname_w : forall kv r, ~ In 0%N (fst kv) -> (N.of_nat (snd kv) < 2 ^ 32)%N ->
  rname ((w32 (N.of_nat (snd kv)) ++ fst kv ++ [0%N]) ++ r) = Ok ((N.of_nat (snd kv), fst kv), r).
Proof.
  intros kv r H1 H2. unfold rname. rewrite <- !app_assoc. rewrite r32_w32 by exact H2. cbn [bind fst snd]. rewrite getline_app by exact H1. reflexivity.
Qed.
Lemma set_names_spec : forall l tbl, (forall kv, In kv l -> (fst kv < N.of_nat (length tbl))%N) -> NoDup (map fst l) ->
  exists tbl', set_names l tbl = Ok tbl' /\ length tbl' = length tbl /\
    (forall kv, In kv l -> nth_error tbl' (N.to_nat (fst kv)) = Some (snd kv)) /\
    (forall i, ~ In (N.of_nat i) (map fst l) -> nth_error tbl' i = nth_error tbl i).
Proof.
  induction l as [|[i s] l IH]; intros tbl H Hd; [exists tbl; split; [reflexivity|split; [reflexivity|split; [intros kv []|auto]]]|].
  cbn [map fst] in Hd. inversion Hd as [|? ? Hn Hd']; subst. cbn [set_names]. assert (Hi := H (i, s) (or_introl eq_refl)). cbn [fst] in Hi.
  replace (i <? N.of_nat (length tbl))%N with true by (symmetry; apply N.ltb_lt; exact Hi).
  destruct (IH (upd tbl (N.to_nat i) s)) as (tbl' & E & Hl & H1 & H2); [intros kv Hkv; rewrite upd_length; apply H; right; exact Hkv|exact Hd'|].
  exists tbl'. rewrite upd_length in Hl. split; [exact E|]. split; [exact Hl|]. split.
  - intros kv [<-|Hk]; [|apply H1; exact Hk]. cbn [fst snd]. rewrite H2.
    + apply nth_error_upd_eq. lia.
    + rewrite N2Nat.id. exact Hn.
  - intros j Hj. cbn [map fst In] in Hj. rewrite H2 by tauto. apply nth_error_upd_neq. intros <-. apply Hj. left. rewrite N2Nat.id. reflexivity.
Qed.

Lemma body_spec : forall (queries : list named) keep order, (forall i, In i order -> i < length queries) ->
  write_body queries keep order =
  Ok (flat_map (fun q => fst q ++ [0%N] ++ print (snd q)) (filter (fun q => kept keep (snd q)) (map (fun i => nth i queries ([], FDead)) order))).
Proof.
  intros queries keep. induction order as [|i order IH]; intros H; [reflexivity|].
  assert (Hi := H i (or_introl eq_refl)). cbn [write_body]. unfold rd. rewrite (@nth_error_nth' named queries i ([], FDead) Hi). cbn [bind].
  rewrite IH by (intros j Hj; apply H; right; exact Hj). cbn [bind map filter]. destruct (kept keep (snd (nth i queries ([], FDead)))); reflexivity.
Qed.

Lemma map_nth_seq : forall A (d : A) l, map (fun i => nth i l d) (seq 0 (length l)) = l.
Proof.
  intros A d l. induction l as [|x l IH]; [reflexivity|]. cbn [length seq map nth]. f_equal. rewrite <- seq_shift, map_map. exact IH.
Qed.

Theorem file_round_trip : forall names queries order keep,
  Permutation (map snd names) (seq 0 (length names)) -> (forall kv, In kv names -> ~ In 0%N (fst kv)) -> (N.of_nat (length names) < 2 ^ 31)%N ->
  Permutation order (seq 0 (length queries)) -> (N.of_nat (length queries) < 2 ^ 32)%N ->
  (forall q, In q queries -> ~ In 0%N (fst q) /\ fit (length names) (snd q) = true) ->
  exists bs tbl qs, write_file names queries order keep = Ok bs /\ read_file bs = Ok (tbl, qs) /\
    length tbl = length names /\ (forall kv, In kv names -> nth_error tbl (snd kv) = Some (fst kv)) /\
    Forall2 named_same (filter (fun q => kept keep (snd q)) (map (fun i => nth i queries ([], FDead)) order)) qs.
Proof.
  intros names queries order keep Hp Hz Hn Ho Hq Hf.
  set (sel := filter (fun q => kept keep (snd q)) (map (fun i => nth i queries ([], FDead)) order)).
  assert (Hord : forall i, In i order -> i < length queries) by (intros i Hi; apply (Permutation_in _ Ho) in Hi; apply in_seq in Hi; lia).
  assert (Hperm : Permutation (map (fun i => nth i queries ([], FDead)) order) queries).
  { rewrite (Permutation_map _ Ho). replace (map (fun i => nth i queries ([], FDead)) (seq 0 (length queries))) with queries; [reflexivity|].
    symmetry. apply map_nth_seq. }
  assert (Hcnt : length (filter (fun q => kept keep (snd q)) queries) = length sel).
  { apply Permutation_length. unfold sel. symmetry. clear - Hperm. induction Hperm; cbn [filter]; auto.
    - destruct (kept keep (snd x)); auto.
    - destruct (kept keep (snd y)), (kept keep (snd x)); auto. constructor.
    - etransitivity; eauto. }
  assert (Hsel : forall q, In q sel -> ~ In 0%N (fst q) /\ fit (length names) (snd q) = true).
  { intros q Hin. apply filter_In in Hin. apply Hf. apply (Permutation_in _ Hperm). apply Hin. }
  assert (Hsl : length sel <= length queries).
  { rewrite <- Hcnt. clear. induction queries as [|q queries IH]; cbn; [lia|]. destruct (kept keep (snd q)); cbn; lia. }
  unfold write_file. rewrite Hcnt. rewrite (body_spec queries keep order Hord). fold sel. cbn [bind].
  eexists. destruct (@times_n_spec (list N * nat) (N * list N) (fun kv => w32 (N.of_nat (snd kv)) ++ fst kv ++ [0%N]) rname
      (fun kv y => y = (N.of_nat (snd kv), fst kv)) names (flat_map (fun q => fst q ++ [0%N] ++ print (snd q)) sel)) as (kvs & E1 & F1).
  { intros kv _. rewrite app_length. unfold w32. rewrite le_length. lia. }
  { intros kv Hk r. exists (N.of_nat (snd kv), fst kv). split; [|reflexivity]. apply rname_w; [apply Hz; exact Hk|].
    assert (In (snd kv) (seq 0 (length names))) by (apply (Permutation_in _ Hp), in_map; exact Hk). apply in_seq in H. lia. }
  assert (Ekvs : kvs = map (fun kv => (N.of_nat (snd kv), fst kv)) names).
  { clear - F1. induction F1 as [|a b l l' A B IH]; [reflexivity|]. cbn. congruence. }
  subst kvs.
  destruct (@set_names_spec (map (fun kv => (N.of_nat (snd kv), fst kv)) names) (repeat [] (length names))) as (tbl & E2 & Hl & H1 & _).
  { intros kv Hk. apply in_map_iff in Hk. destruct Hk as (x & <- & Hx). rewrite repeat_length. cbn [fst].
    assert (In (snd x) (seq 0 (length names))) by (apply (Permutation_in _ Hp), in_map; exact Hx). apply in_seq in H. lia. }
  { rewrite map_map. cbn [fst]. rewrite <- (map_map snd N.of_nat). apply FinFun.Injective_map_NoDup; [intros a b K; lia|].
    apply (Permutation_NoDup (Permutation_sym Hp)). apply seq_NoDup. }
  rewrite repeat_length in Hl.
  destruct (@times_n_spec named named (fun q => fst q ++ [0%N] ++ print (snd q)) (rquery (length names)) named_same sel []) as (qs & E3 & F3).
  { intros q _. rewrite !app_length. pose proof (print_len (snd q)). lia. }
  { intros q Hin r. destruct (Hsel q Hin) as (Z1 & Z2). destruct (@parse_query_ok (length names) (snd q) r Z2) as (f' & E & S).
    exists (fst q, f'). unfold rquery. rewrite <- !app_assoc. rewrite getline_app by exact Z1. cbn [fst snd]. rewrite E. cbn [bind fst snd]. split; [reflexivity|split; [reflexivity|exact S]]. }
  rewrite app_nil_r in E3. exists tbl, qs. split; [reflexivity|]. split.
  - unfold read_file, named in *. rewrite r32_w32 by lia. cbn [bind fst snd]. rewrite r32_w32 by lia. cbn [bind fst snd]. fold sel. rewrite E1. cbn [bind fst snd].
    rewrite Nat2N.id, E2. cbn [bind]. rewrite Hl, E3. reflexivity.
  - split; [exact Hl|]. split; [|exact F3]. intros kv Hk. assert (K := H1 (N.of_nat (snd kv), fst kv)). cbn [fst snd] in K. rewrite Nat2N.id in K. apply K.
    apply in_map_iff. exists kv. split; [reflexivity|exact Hk].
Qed.
