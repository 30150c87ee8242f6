(** Written queries mean what the formulas mean (C38). *)
From Verif Require Import Base PqlSyntax XqSyntax XqSpec XqModel XqExp XqForm.
Local Open Scope string_scope.

(** ** Numbers *)
Lemma digit_digit : forall d, (d < 10)%N -> digit_val (digit d) = Some (Z.of_N d).
Proof.
  intros d H. assert (d = 0 \/ d = 1 \/ d = 2 \/ d = 3 \/ d = 4 \/ d = 5 \/ d = 6 \/ d = 7 \/ d = 8 \/ d = 9)%N as D by lia.
  repeat (destruct D as [->|D]; [reflexivity|]). subst d. reflexivity.
Qed.
Lemma dec_S : forall f n tail, dec (S f) n tail =
  if (n / 10 =? 0)%N then String (digit (n mod 10)) tail else dec f (n / 10) (String (digit (n mod 10)) tail).
Proof. reflexivity. Qed.
Lemma dec_digits : forall f n tail acc, (n < 2 ^ N.of_nat f)%N ->
  exists k, digits_val acc (dec (S f) n tail) = digits_val (acc * 10 ^ Z.of_N k + Z.of_N n)%Z tail.
Proof.
  induction f as [|f IH]; intros n tail acc B; rewrite dec_S.
  - replace n with 0%N by (change (2 ^ N.of_nat 0)%N with 1%N in B; lia). exists 1%N. change ((0 / 10 =? 0)%N) with true. cbv iota.
    cbn [digits_val]. change (0 mod 10)%N with 0%N. rewrite digit_digit by lia. f_equal.
  - assert (M : (n mod 10 < 10)%N) by (apply N.mod_lt; lia). pose proof (N.div_mod n 10 ltac:(lia)) as DM.
    destruct (n / 10 =? 0)%N eqn:E.
    + apply N.eqb_eq in E. exists 1%N. cbn [digits_val]. rewrite digit_digit by exact M. f_equal. rewrite E in DM. change (10 ^ Z.of_N 1)%Z with 10%Z. lia.
    + apply N.eqb_neq in E. rewrite Nat2N.inj_succ, N.pow_succ_r' in B.
      assert (Q : (n / 10 < 2 ^ N.of_nat f)%N) by (clear - DM B; set (a := (n / 10)%N) in *; set (b := (n mod 10)%N) in *; clearbody a b; set (c := (2 ^ N.of_nat f)%N) in *; clearbody c; lia).
      destruct (IH (n / 10)%N (String (digit (n mod 10)) tail) acc Q) as (k & K). exists (k + 1)%N. rewrite K.
      cbn [digits_val]. rewrite digit_digit by exact M. f_equal. rewrite N2Z.inj_add, Z.pow_add_r by lia. change (10 ^ Z.of_N 1)%Z with 10%Z. clear - DM. set (a := (n / 10)%N) in *; set (b := (n mod 10)%N) in *; clearbody a b. set (c := (10 ^ Z.of_N k)%Z). clearbody c. lia.
Qed.
Lemma dec_nonempty : forall f n tail, dec (S f) n tail <> "".
Proof.
  induction f as [|f IH]; intros n tail; rewrite dec_S; destruct (n / 10 =? 0)%N; try discriminate. apply IH.
Qed.
Lemma size_bound : forall n, (n < 2 ^ N.of_nat (N.size_nat n))%N.
Proof.
  intros [|p]; [reflexivity|]. cbn [N.size_nat]. induction p as [p IH|p IH|]; cbn [Pos.size_nat].
  - rewrite Nat2N.inj_succ, N.pow_succ_r'. lia.
  - rewrite Nat2N.inj_succ, N.pow_succ_r'. lia.
  - reflexivity.
Qed.
Lemma show_N_natural : forall n, natural (show_N n) = Some (Z.of_N n).
Proof.
  intros n. unfold natural, show_N. pose proof (dec_nonempty (N.size_nat n) n "") as NE.
  destruct (dec (S (N.size_nat n)) n "") eqn:E; [contradiction|]. rewrite <- E.
  destruct (dec_digits (N.size_nat n) n "" 0 (size_bound n)) as (k & K). rewrite K. cbn [digits_val]. reflexivity.
Qed.
Lemma natural_number : forall s z, natural s = Some z -> number s = Some z.
Proof.
  intros [|a s] z H; [discriminate H|]. destruct (natural_head _ _ _ H) as (_ & A & B). unfold number. rewrite A, B. exact H.
Qed.
Lemma show_N_number : forall n, number (show_N n) = Some (Z.of_N n).
Proof. intros n. apply natural_number, show_N_natural. Qed.
Lemma show_Z_number : forall z, number (show_Z z) = Some z.
Proof.
  intros z. unfold show_Z. destruct (z <? 0)%Z eqn:E.
  - unfold number. change (Ascii.eqb "-" "-") with true. cbv iota. rewrite show_N_natural. cbn [option_map]. f_equal. lia.
  - rewrite show_N_number. f_equal. lia.
Qed.

(** ** Expressions *)
Lemma place_node_ok : forall p, name_ok p = true -> place_ok (place_node p) = true /\ nospace (text_of (place_node p)) = p.
Proof.
  intros p H. unfold name_ok in H. apply andb_true_iff in H as (A & B). apply String.eqb_eq in B.
  unfold place_ok, place_node, leaf. cbn [is_tag tag_of text_of]. rewrite B, A. auto.
Qed.
Lemma places_ok : forall ps, forallb name_ok ps = true -> forallb place_ok (map place_node ps) = true.
Proof. intros ps H. rewrite forallb_forall in *. intros k K. apply in_map_iff in K as (p & <- & P). apply place_node_ok; auto. Qed.
Lemma places_val : forall ps F (en : env F) r, forallb name_ok ps = true ->
  vsum (map (xplace (F:=F)) (map place_node ps)) en r = vsum (map (tokens_of (F:=F)) ps) en r.
Proof.
  induction ps as [|p ps IH]; intros F en r H; cbn [map]; auto. cbn [forallb] in H. apply andb_true_iff in H as (A & B).
  rewrite !vsum_cons, IH by auto. unfold xplace. rewrite (proj2 (place_node_ok p A)). reflexivity.
Qed.

Definition exp_tree (t : xml) (v : forall F, val F) (m : N) : Prop :=
  wf_exp t = true /\ (size t <= m)%N /\ forall F (en : env F) r, xval t en r = v F en r.
Lemma const_tree : forall z, i32 z = true -> exp_tree (const_node z) (fun F => const z) (absN z).
Proof.
  intros z H. unfold exp_tree, const_node, leaf. cbn [wf_exp size xval]. rewrite show_Z_number. split; [auto|]. split; [lia|]. auto.
Qed.
Lemma tokens_tree : forall ps, ps <> [] -> forallb name_ok ps = true ->
  exp_tree (elem Ttokens (map place_node ps)) (fun F => vsum (map (tokens_of (F:=F)) ps)) 0.
Proof.
  intros ps N0 H. unfold exp_tree, elem. cbn [wf_exp size xval]. rewrite (places_ok _ H). split; [|split; [lia|]].
  - destruct ps; [congruence|reflexivity].
  - intros F en r. apply places_val, H.
Qed.
Lemma token_tree : forall p, name_ok p = true -> exp_tree (elem Ttokens [place_node p]) (fun F => tokens_of p) 0.
Proof.
  intros p H. destruct (tokens_tree [p] ltac:(discriminate) ltac:(cbn [forallb]; rewrite H; reflexivity)) as (A & B & C).
  split; [exact A|]. split; [exact B|]. intros F en r. rewrite C. cbn [map]. rewrite vsum_cons, vsum_nil. lia.
Qed.

(** several trees *)
Definition trees (ts : list xml) (vs : list (forall F, val F)) (ms : list N) : Prop :=
  forallb wf_exp ts = true /\ Forall2 N.le (map size ts) ms /\
  forall F (en : env F) r, map (fun t => xval t en r) ts = map (fun v => v F en r) vs.
Lemma trees_nil : trees [] [] []. Proof. repeat split. constructor. Qed.
Lemma trees_app : forall a va ma b vb mb, trees a va ma -> trees b vb mb -> trees (a ++ b) (va ++ vb) (ma ++ mb).
Proof.
  intros a va ma b vb mb (A1 & A2 & A3) (B1 & B2 & B3). split; [rewrite forallb_app, A1, B1; reflexivity|].
  split; [rewrite map_app; apply Forall2_app; auto|]. intros F en r. rewrite !map_app. f_equal; auto.
Qed.
Lemma trees_one : forall t v m, exp_tree t v m -> trees [t] [v] [m].
Proof. intros t v m (A & B & C). split; [cbn [forallb]; rewrite A; reflexivity|]. split; [constructor; [exact B|constructor]|]. intros. cbn [map]. f_equal; auto. Qed.
Lemma trees_len : forall ts vs ms, trees ts vs ms -> List.length ts = List.length vs.
Proof.
  intros ts vs ms (_ & _ & C). set (F := @mkFrame nat nat (fun n => n) (fun _ _ => True) (fun _ n => Some n) (fun _ _ => 0%N) (fun _ _ => True) (fun _ => True) (fun _ _ => True) [] []).
  pose proof (f_equal (@List.length Z) (C F (fun _ => None) 0)) as H. rewrite !map_length in H. exact H.
Qed.
Lemma trees_sum : forall ts vs ms F (en : env F) r, trees ts vs ms -> vsum (map (xval (F:=F)) ts) en r = vsum (map (fun v => v F) vs) en r.
Proof.
  intros ts vs ms F en r (_ & _ & C). specialize (C F en r). revert vs C. induction ts as [|t ts IH]; intros [|v vs] C; try discriminate C; cbn [map] in *; auto.
  injection C as C1 C2. rewrite !vsum_cons, C1, (IH _ C2). reflexivity.
Qed.
Lemma trees_prod : forall ts vs ms F (en : env F) r, trees ts vs ms -> vprod (map (xval (F:=F)) ts) en r = vprod (map (fun v => v F) vs) en r.
Proof.
  intros ts vs ms F en r (_ & _ & C). specialize (C F en r). revert vs C. induction ts as [|t ts IH]; intros [|v vs] C; try discriminate C; cbn [map] in *; auto.
  injection C as C1 C2. rewrite !vprod_cons, C1, (IH _ C2). reflexivity.
Qed.
Lemma sum_mono : forall a b, Forall2 N.le a b -> (sumN a <= sumN b)%N.
Proof. induction 1; cbn [sumN]; lia. Qed.
Lemma prod_mono : forall a b, Forall2 N.le a b -> (prodN a <= prodN b)%N.
Proof. induction 1; unfold prodN in *; cbn [fold_right]; [lia|]. apply N.mul_le_mono; [lia|assumption]. Qed.
Lemma sumN_app : forall a b, sumN (a ++ b) = (sumN a + sumN b)%N.
Proof. induction a as [|x a IH]; intros b; cbn [app sumN]; auto. rewrite IH. lia. Qed.
Lemma prodN_app : forall a b, prodN (a ++ b) = (prodN a * prodN b)%N.
Proof.
  induction a as [|x a IH]; intros b; unfold prodN in *.
  - cbn [app fold_right]. lia.
  - cbn [app fold_right]. rewrite IH. lia.
Qed.
Lemma prodN_zero : forall A (l : list A), prodN (map (fun _ => 0%N) l) = 1%N.
Proof. induction l as [|a l IH]; auto. cbn [map]. unfold prodN in *. cbn [fold_right]. rewrite IH. reflexivity. Qed.

Definition nv (e : nexpr) : forall F, val F := fun F => nval e.
Lemma map_nv : forall F es, map (fun v : forall F, val F => v F) (map nv es) = map (nval (F:=F)) es.
Proof. intros. rewrite map_map. reflexivity. Qed.

Lemma print_exp_ok : forall e, exp_ok e = true -> exists t, print_exp e = [t] /\ exp_tree t (nv e) (exp_size e).
Proof.
  induction e as [z|p|e IH|es IH|c ids es IH|c ids es IH|n e IH] using nexpr_ind'; intros H; cbn [exp_ok] in H.
  all: try (assert (KS : forallb exp_ok es = true -> exists ts, flat_map print_exp es = ts /\ trees ts (map nv es) (map exp_size es));
    [intros A; clear H; induction IH as [|e es P IH K]; cbn [flat_map map]; [exists []; split; [reflexivity|apply trees_nil]|];
     cbn [forallb] in A; apply andb_true_iff in A as (A1 & A2); destruct (P A1) as (t & E & T); destruct (K A2) as (ts & ET & TT);
     exists (t :: ts); rewrite E, ET; split; [reflexivity|]; exact (trees_app _ _ _ _ _ _ (trees_one _ _ _ T) TT)|]).
  - eexists. split; [reflexivity|]. apply const_tree, H.
  - eexists. split; [reflexivity|]. apply token_tree, H.
  - destruct (IH H) as (t & E & (W & S & V)). cbn [print_exp]. rewrite E. eexists. split; [reflexivity|].
    unfold exp_tree, elem, leaf. split; [|split].
    + cbn [wf_exp forallb nonempty]. rewrite W. reflexivity.
    + cbn [size map sumN exp_size]. change (number "0") with (Some 0%Z). cbv iota beta. change (absN 0) with 0%N. lia.
    + intros F en r. cbn [xval map]. unfold vdiff. rewrite vsum_cons, vsum_nil, (V F en r). change (number "0") with (Some 0%Z). unfold nv, const. cbn [nval]. lia.
  - apply andb_true_iff in H as (L & A). destruct (KS A) as (ts & ET & TT). cbn [print_exp]. rewrite ET. eexists. split; [reflexivity|].
    pose proof (trees_len _ _ _ TT) as LT. rewrite map_length in LT. destruct TT as (W & S & V).
    unfold exp_tree, elem. cbn [wf_exp size xval exp_size]. rewrite W. split; [destruct ts; [cbn in LT; destruct es; discriminate|reflexivity]|]. split; [apply sum_mono, S|].
    intros F en r. destruct es as [|e1 [|e2 es]]; try discriminate L. destruct ts as [|t1 [|t2 ts]]; try discriminate LT.
    pose proof (trees_sum _ _ _ F en r (conj W (conj S V))) as SM. rewrite map_nv in SM. specialize (V F en r). cbn [map] in V. injection V as V1 _.
    unfold vdiff, nv. cbn [map nval] in *. rewrite !vsum_cons in *. unfold nv in V1. lia.
  - apply andb_true_iff in H as (H & NE). apply andb_true_iff in H as (H & A). apply andb_true_iff in H as (C & I).
    destruct (KS A) as (ts & ET & TT). cbn [print_exp]. rewrite ET.
    set (hc := if (c =? 0)%Z then [] else [const_node c]). set (hi := match ids with [] => [] | _ => [elem Ttokens (map place_node ids)] end).
    assert (HC : exists vc mc, trees hc vc mc /\ sumN mc = absN c /\ List.length hc = (if (c =? 0)%Z then 0 else 1)%nat /\
      forall F (en : env F) r, vsum (map (fun v => v F) vc) en r = c).
    { unfold hc. destruct (c =? 0)%Z eqn:E.
      - apply Z.eqb_eq in E. subst c. exists [], []. split; [apply trees_nil|]. repeat split.
      - exists [fun F => const c], [absN c]. split; [apply trees_one, const_tree, C|]. cbn [sumN List.length]. split; [lia|]. split; [reflexivity|].
        intros F en r. cbn [map]. rewrite vsum_cons, vsum_nil. unfold const. lia. }
    assert (HI : exists vi mi, trees hi vi mi /\ sumN mi = 0%N /\ List.length hi = (match ids with [] => 0 | _ => 1 end)%nat /\
      forall F (en : env F) r, vsum (map (fun v => v F) vi) en r = vsum (map (tokens_of (F:=F)) ids) en r).
    { unfold hi. destruct ids as [|p ids'].
      - exists [], []. split; [apply trees_nil|]. repeat split.
      - eexists [_], [_]. split; [apply trees_one, tokens_tree; [discriminate|exact I]|]. split; [reflexivity|]. split; [reflexivity|].
        intros F en r. set (q := p :: ids'). cbn [map]. rewrite vsum_cons, vsum_nil. lia. }
    destruct HC as (vc & mc & TC & SC & LC & VC). destruct HI as (vi & mi & TI & SI & LI & VI).
    pose proof (trees_app _ _ _ _ _ _ TC (trees_app _ _ _ _ _ _ TI TT)) as TA.
    pose proof (trees_len _ _ _ TT) as LT. rewrite map_length in LT.
    rewrite <- LC, <- LI, <- LT, <- Nat.add_assoc, <- !app_length.
    destruct TA as (W & S & V). set (body := (hc ++ hi ++ ts)%list) in *.
    assert (VS : forall F (en : env F) r, vsum (map (xval (F:=F)) body) en r = nval (NPlus c ids es) en r).
    { intros F en r. rewrite (trees_sum _ _ _ F en r (conj W (conj S V))). rewrite !map_app, !vsum_app, VC, VI, map_nv. cbn [nval]. lia. }
    assert (SS : (sumN (map size body) <= exp_size (NPlus c ids es))%N).
    { etransitivity; [apply sum_mono, S|]. rewrite !sumN_app, SC, SI. cbn [exp_size]. lia. }
    destruct body as [|t1 [|t2 l]] eqn:EB.
    + exfalso. destruct (c =? 0)%Z, ids, es; cbn [negb orb nonempty] in NE; try discriminate NE; subst hc hi; cbn in EB;
        try discriminate EB; destruct ts; try discriminate EB; try discriminate LT.
    + cbn [List.length Nat.leb]. exists t1. split; [reflexivity|]. cbn [forallb] in W. rewrite andb_true_r in W. cbn [map sumN] in SS.
      split; [exact W|]. split; [lia|]. intros F en r. specialize (VS F en r). cbn [map] in VS. rewrite vsum_cons, vsum_nil in VS. unfold nv. lia.
    + cbn [List.length Nat.leb]. eexists. split; [reflexivity|]. unfold exp_tree, elem. cbn [wf_exp size xval].
      split; [cbn [nonempty]; rewrite W; reflexivity|]. split; [exact SS|]. exact VS.
  - apply andb_true_iff in H as (H & NE). apply andb_true_iff in H as (H & A). apply andb_true_iff in H as (C & I).
    destruct (KS A) as (ts & ET & TT). cbn [print_exp]. rewrite ET.
    set (hc := if (c =? 1)%Z then [] else [const_node c]). set (hi := map (fun p => elem Ttokens [place_node p]) ids).
    assert (HC : exists vc mc, trees hc vc mc /\ prodN mc = N.max 1 (absN c) /\ List.length hc = (if (c =? 1)%Z then 0 else 1)%nat /\
      forall F (en : env F) r, vprod (map (fun v => v F) vc) en r = c).
    { unfold hc. destruct (c =? 1)%Z eqn:E.
      - apply Z.eqb_eq in E. subst c. exists [], []. split; [apply trees_nil|]. repeat split.
      - exists [fun F => const c], [absN c]. split; [apply trees_one, const_tree, C|]. unfold prodN. cbn [fold_right List.length]. split; [lia|]. split; [reflexivity|].
        intros F en r. cbn [map]. rewrite vprod_cons, vprod_nil. unfold const. lia. }
    assert (HI : trees hi (map (fun p F => tokens_of p) ids) (map (fun _ => 0%N) ids)).
    { unfold hi. clear - I. induction ids as [|p ids IH]; cbn [map]; [apply trees_nil|]. cbn [forallb] in I. apply andb_true_iff in I as (I1 & I2).
      exact (trees_app _ _ _ _ _ _ (trees_one _ _ _ (token_tree p I1)) (IH I2)). }
    destruct HC as (vc & mc & TC & SC & LC & VC).
    pose proof (trees_app _ _ _ _ _ _ TC (trees_app _ _ _ _ _ _ HI TT)) as TA.
    pose proof (trees_len _ _ _ TT) as LT. rewrite map_length in LT.
    assert (LI : List.length hi = List.length ids) by apply map_length.
    destruct TA as (W & S & V). set (body := (hc ++ hi ++ ts)%list) in *.
    replace ((if (c =? 1)%Z then 0 else 1) + List.length es + List.length ids)%nat with (List.length body)
      by (unfold body; rewrite !app_length, LC, LI, LT; lia).
    assert (VS : forall F (en : env F) r, vprod (map (xval (F:=F)) body) en r = nval (NMul c ids es) en r).
    { intros F en r. rewrite (trees_prod _ _ _ F en r (conj W (conj S V))). rewrite !map_app, !vprod_app, VC, map_nv. cbn [nval].
      rewrite map_map. change (map (fun x => tokens_of x) ids) with (map (tokens_of (F:=F)) ids). ring. }
    assert (SS : (prodN (map size body) <= exp_size (NMul c ids es))%N).
    { etransitivity; [apply prod_mono, S|]. rewrite !prodN_app, SC, prodN_zero. cbn [exp_size]. lia. }
    destruct body as [|t1 [|t2 l]] eqn:EB.
    + exfalso. destruct (c =? 1)%Z, ids, es; cbn [negb orb nonempty] in NE; try discriminate NE; subst hc hi; cbn in EB;
        try discriminate EB; destruct ts; try discriminate EB; try discriminate LT.
    + cbn [List.length Nat.leb]. exists t1. split; [reflexivity|]. cbn [forallb] in W. rewrite andb_true_r in W. unfold prodN in SS. cbn [map fold_right] in SS.
      split; [exact W|]. split; [lia|]. intros F en r. specialize (VS F en r). cbn [map] in VS. rewrite vprod_cons, vprod_nil in VS. unfold nv. lia.
    + cbn [List.length Nat.leb]. eexists. split; [reflexivity|]. unfold exp_tree, elem. cbn [wf_exp size xval].
      split; [cbn [nonempty]; rewrite W; reflexivity|]. split; [exact SS|]. exact VS.
  - destruct (IH H) as (t & E & (W & S & V)). cbn [print_exp]. rewrite E. eexists. split; [reflexivity|].
    unfold exp_tree, elem_named. cbn [wf_exp size xval exp_size single forallb map sumN]. rewrite W. split; [reflexivity|]. split; [lia|].
    intros F en r. unfold nv. cbn [nval]. unfold scope_val. destruct (en n); apply V.
Qed.

(** ** Conditions *)
Definition nice (t : xml) (c : ncond) : Prop := wf_form t = true /\ small t = true /\ says c t.

Lemma nice_list : forall l, Forall (fun c => cond_ok c = true -> exists t, print_cond c = Ok [t] /\ nice t c) l ->
  forallb cond_ok l = true ->
  exists ts, mapR print_cond l = Ok (map (fun t => [t]) ts) /\ Forall2 nice ts l.
Proof.
  induction 1 as [|c l P H IH]; intros A; cbn [mapR]; [exists []; split; [reflexivity|constructor]|].
  cbn [forallb] in A. apply andb_true_iff in A as (A1 & A2). destruct (P A1) as (t & E & N1). destruct (IH A2) as (ts & ET & N2).
  exists (t :: ts). rewrite E. cbn [bind]. rewrite ET. cbn [bind map]. split; [reflexivity|]. constructor; auto.
Qed.
Lemma concat_single : forall A (l : list A), List.concat (map (fun t => [t]) l) = l.
Proof. induction l as [|a l IH]; cbn [map List.concat app]; congruence. Qed.
Lemma nice_wf : forall ts l, Forall2 nice ts l -> forallb wf_form ts = true /\ forallb small ts = true /\ Forall2 (fun k c => says c k) ts l.
Proof.
  induction 1 as [|t c ts l (A & B & C) H (IA & IB & IC)]; cbn [forallb]; auto. rewrite A, B, IA, IB. auto.
Qed.

Lemma cmp_nice : forall o t u (v w : forall F, val F) m n, exp_tree t v m -> exp_tree u w n -> small_num m = true -> small_num n = true ->
  let x := elem (match o with OpLt => Tlt | OpLe => Tle | OpEq => Teq | OpNe => Tne end) [t; u] in
  wf_form x = true /\ small x = true /\ forall F (e : env F) r, xsat x e r <-> compares o (v F) (w F) e r.
Proof.
  intros o t u v w m n (A & B & C) (A' & B' & C') S S'. unfold small_num in *. apply N.ltb_lt in S, S'.
  assert (SS : forallb (fun k => (size k <? 2 ^ 63)%N) [t; u] = true).
  { cbn [forallb]. rewrite !andb_true_iff. repeat split; apply N.ltb_lt; lia. }
  destruct o; unfold elem; (split; [cbn [wf_form pair forallb]; rewrite A, A'; reflexivity|]); (split; [exact SS|]);
    intros F e r; cbn [xsat map vtwo]; unfold compares; rewrite (C F e r), (C' F e r); tauto.
Qed.

Lemma N_i32 : forall n, i32 (Z.of_N n) = true -> small_num (absN (Z.of_N n)) = true.
Proof.
  intros n H. unfold i32 in H. apply andb_true_iff in H as (_ & H). apply Z.ltb_lt in H. unfold small_num, absN. apply N.ltb_lt.
  rewrite Z.abs_eq by lia. rewrite N2Z.id. change (2 ^ 31)%Z with 2147483648%Z in H. change (2 ^ 63)%N with 9223372036854775808%N. lia.
Qed.
Lemma num_tree : forall n, i32 (Z.of_N n) = true -> exp_tree (leaf Tconstant (show_N n)) (fun F => const (Z.of_N n)) (absN (Z.of_N n)).
Proof.
  intros n H. unfold exp_tree, leaf. cbn [wf_exp size xval]. rewrite show_N_number. split; [exact H|]. split; [lia|]. reflexivity.
Qed.
Lemma ge_tree : forall p lo, name_ok p = true -> i32 (Z.of_N lo) = true ->
  let x := elem Tge [elem Ttokens [place_node p]; leaf Tconstant (show_N lo)] in
  wf_form x = true /\ small x = true /\ forall F (e : env F) r, xsat x e r <-> (lo <= tok F (first F r) p)%N.
Proof.
  intros p lo P L. destruct (token_tree p P) as (A & B & C). destruct (num_tree lo L) as (A' & B' & C').
  pose proof (N_i32 _ L) as S. unfold small_num in S. apply N.ltb_lt in S.
  remember (elem Ttokens [place_node p]) as t. remember (leaf Tconstant (show_N lo)) as u. unfold elem. split; [|split].
  - cbn [wf_form pair forallb]. rewrite A, A'. reflexivity.
  - cbn [small forallb]. unfold small_num. rewrite !andb_true_iff. repeat split; apply N.ltb_lt; lia.
  - intros F e r. cbn [xsat map vtwo]. unfold compares. rewrite (C F e r), (C' F e r). unfold const, tokens_of. lia.
Qed.
Lemma le_tree : forall p hi, name_ok p = true -> i32 (Z.of_N hi) = true ->
  let x := elem Tle [elem Ttokens [place_node p]; leaf Tconstant (show_N hi)] in
  wf_form x = true /\ small x = true /\ forall F (e : env F) r, xsat x e r <-> (tok F (first F r) p <= hi)%N.
Proof.
  intros p hi P L. destruct (cmp_nice OpLe _ _ _ _ _ _ (token_tree p P) (num_tree hi L) eq_refl (N_i32 _ L)) as (A & B & C).
  split; [exact A|]. split; [exact B|]. intros F e r. rewrite (C F e r). unfold compares, const, tokens_of. lia.
Qed.
(** one constraint *)
Lemma cons_trees : forall c, cons_ok c = true ->
  forallb wf_form (print_cons c) = true /\ forallb small (print_cons c) = true /\
  forall F (e : env F) r, pall (map (xsat (F:=F)) (print_cons c)) e r <-> within c e r.
Proof.
  intros ((p & lo) & hi) H. cbn [cons_ok] in H. apply andb_true_iff in H as (H & Hhi). apply andb_true_iff in H as (P & L).
  destruct (ge_tree p lo P L) as (GA & GB & GC). unfold print_cons, within, pall.
  assert (HI : hi = u32max \/ i32 (Z.of_N hi) = true) by (apply orb_true_iff in Hhi as [E|E]; [left; apply N.eqb_eq, E|auto]).
  assert (LO : (lo =? 0)%N = true -> lo = 0%N) by apply N.eqb_eq.
  set (g := elem Tge _) in *. clearbody g. destruct (hi =? u32max)%N eqn:EH.
  - apply N.eqb_eq in EH. subst hi. destruct (lo =? 0)%N; cbn [app forallb map]; rewrite ?GA, ?GB.
    + rewrite (LO eq_refl). split; [reflexivity|]. split; [reflexivity|]. intros F e r. split; [intros _; split; [lia|auto]|intros _ q []].
    + split; [reflexivity|]. split; [reflexivity|]. intros F e r. rewrite <- (GC F e r). split; [intros H; split; [apply H; left; reflexivity|auto]|intros (H & _) q [<-|[]]; exact H].
  - destruct HI as [->|HI]; [rewrite N.eqb_refl in EH; discriminate|]. destruct (le_tree p hi P HI) as (LA & LB & LC).
    apply N.eqb_neq in EH. set (l := elem Tle _) in *. clearbody l. destruct (lo =? 0)%N; cbn [app forallb map]; rewrite ?GA, ?GB, ?LA, ?LB.
    + rewrite (LO eq_refl). split; [reflexivity|]. split; [reflexivity|]. intros F e r. rewrite <- (LC F e r).
      split; [intros H; split; [lia|right; apply H; left; reflexivity]|intros (_ & [H|H]) q [<-|[]]; [contradiction|exact H]].
    + split; [reflexivity|]. split; [reflexivity|]. intros F e r. rewrite <- (LC F e r), <- (GC F e r).
      split; [intros H; split; [|right]; apply H; [left|right; left]; reflexivity|intros (K & [H|H]) q [<-|[<-|[]]]; try contradiction; auto].
Qed.
Lemma all_cons : forall cs, forallb cons_ok cs = true ->
  forallb wf_form (flat_map print_cons cs) = true /\ forallb small (flat_map print_cons cs) = true /\
  forall F (e : env F) r, pall (map (xsat (F:=F)) (flat_map print_cons cs)) e r <-> pall (map (within (F:=F)) cs) e r.
Proof.
  induction cs as [|c cs IH]; intros H; cbn [flat_map map].
  - repeat split; intros; intros ? [].
  - cbn [forallb] in H. apply andb_true_iff in H as (H1 & H2). destruct (cons_trees c H1) as (A & B & C). destruct (IH H2) as (IA & IB & IC).
    rewrite !forallb_app, A, B, IA, IB. split; [reflexivity|]. split; [reflexivity|]. intros F e r. specialize (C F e r). specialize (IC F e r).
    unfold pall in *. rewrite map_app. split.
    + intros K p [<-|P]; [apply (proj1 C); intros q Q; apply K, in_or_app; auto|]. revert p P. apply (proj1 IC). intros q Q. apply K, in_or_app. auto.
    + intros K q Q. apply in_app_or in Q as [Q|Q]; revert q Q; [apply (proj2 C)|apply (proj2 IC)]; [apply K; left; reflexivity|intros q Q; apply K; right; exact Q].
Qed.
Lemma cons_nonempty : forall cs, forallb no_limit cs = false -> flat_map print_cons cs <> [].
Proof.
  induction cs as [|((p & lo) & hi) cs IH]; intros H; [discriminate H|]. cbn [forallb no_limit] in H. cbn [flat_map print_cons].
  destruct (lo =? 0)%N; cbn [andb app] in *; [|discriminate]. destruct (hi =? u32max)%N; cbn [andb app] in *; [auto|discriminate].
Qed.

Lemma says_one : forall t c F (OK : frame_ok F), says c t -> peq F (pone (map (xsat (F:=F)) [t])) (nsat c).
Proof. intros t c F OK H e r. cbn [map pone]. rewrite (H F OK e r). tauto. Qed.

Lemma print_cond_ok : forall c, cond_ok c = true -> exists t, print_cond c = Ok [t] /\ nice t c.
Proof.
  induction c as [b| |t|c IH|l IH|l IH|o a b|neg cs|o c IH|o c1 c2 IH1 IH2|n c IH|n c IH|n c IH| | | | |] using ncond_ind'; intros H; cbn [cond_ok] in H; try discriminate H.
  - exists (true_node b). split; [reflexivity|]. destruct b; (split; [reflexivity|split; [reflexivity|]]); intros F OK e r; cbn [nsat xsat true_node elem]; unfold pfalse; intuition congruence.
  - eexists. split; [reflexivity|]. split; [reflexivity|split; [reflexivity|]]. intros F OK e r. cbn. tauto.
  - eexists. split; [reflexivity|]. split; [reflexivity|split; [|]].
    { unfold elem, leaf. destruct (String.eqb t ""); reflexivity. }
    intros F OK e r. unfold elem. cbn [nsat xsat]. split.
    + intros K. eexists. split; [left; reflexivity|exact K].
    + intros (k & [<-|[]] & K). exact K.
  - destruct (IH H) as (t & E & W & S & M). cbn [print_cond]. rewrite E. cbn [bind]. eexists. split; [reflexivity|]. unfold elem.
    split; [cbn [wf_form single forallb]; rewrite W; reflexivity|]. split; [cbn [small forallb]; rewrite S; reflexivity|].
    intros F OK. change (peq F (nsat (NNot c)) (xsat (X Tnegation None "" [t]))). cbn [nsat xsat]. apply peq_sym, peq_not, says_one; auto.
  - destruct (nice_list _ IH H) as (ts & E & N). cbn [print_cond]. rewrite E. cbn [bind]. rewrite concat_single. destruct (nice_wf _ _ N) as (W & S & M).
    destruct l as [|c1 [|c2 l]].
    + eexists. split; [reflexivity|]. split; [reflexivity|split; [reflexivity|]]. intros F OK e r. cbn [nsat xsat elem true_node map]. unfold pall. split; [auto|intros _ ? []].
    + destruct ts as [|t [|]]; inversion N as [|? ? ? ? (W1 & S1 & M1) N']; subst; [|inversion N']. exists t. split; [reflexivity|].
      split; [exact W1|]. split; [exact S1|]. intros F OK e r. cbn [nsat map]. unfold pall. rewrite <- (M1 F OK e r). split; [intros K; apply K; left; auto|intros K p [<-|[]]; exact K].
    + eexists. split; [reflexivity|]. unfold elem. split; [cbn [wf_form]; rewrite W; destruct ts; [inversion N|reflexivity]|]. split; [exact S|].
      intros F OK e r. cbn [xsat]. rewrite <- (says_all _ _ F OK e r M). cbn [nsat]. unfold pall. split.
      * intros K c C. apply K, in_map, C.
      * intros K p P. apply in_map_iff in P as (c & <- & C). auto.
  - destruct (nice_list _ IH H) as (ts & E & N). cbn [print_cond]. rewrite E. cbn [bind]. rewrite concat_single. destruct (nice_wf _ _ N) as (W & S & M).
    destruct l as [|c1 [|c2 l]].
    + eexists. split; [reflexivity|]. split; [reflexivity|split; [reflexivity|]]. intros F OK e r. cbn [nsat xsat elem true_node map]. unfold pany, pfalse. split; [intros (? & [] & _)|intros []].
    + destruct ts as [|t [|]]; inversion N as [|? ? ? ? (W1 & S1 & M1) N']; subst; [|inversion N']. exists t. split; [reflexivity|].
      split; [exact W1|]. split; [exact S1|]. intros F OK e r. cbn [nsat map]. unfold pany. rewrite <- (M1 F OK e r). split; [intros (p & [<-|[]] & K); exact K|intros K; exists (nsat c1); cbn; auto].
    + eexists. split; [reflexivity|]. unfold elem. split; [cbn [wf_form]; rewrite W; destruct ts; [inversion N|reflexivity]|]. split; [exact S|].
      intros F OK e r. cbn [xsat]. rewrite <- (says_any _ _ F OK e r M). cbn [nsat]. unfold pany. split.
      * intros (p & P & K). apply in_map_iff in P as (c & <- & C). eauto.
      * intros (c & C & K). exists (nsat c). split; [apply in_map, C|exact K].
  - apply andb_true_iff in H as (H & S2). apply andb_true_iff in H as (H & S1). apply andb_true_iff in H as (A & B).
    destruct (print_exp_ok a A) as (t & E & T). destruct (print_exp_ok b B) as (u & E' & U). cbn [print_cond]. rewrite E, E'. eexists. split; [reflexivity|].
    destruct (cmp_nice o _ _ _ _ _ _ T U S1 S2) as (W & S & M). split; [exact W|]. split; [exact S|]. intros F OK e r. cbn [app]. rewrite (M F e r). reflexivity.
  - apply andb_true_iff in H as (H & NL). destruct (all_cons cs H) as (W & S & M).
    assert (INNER : exists t, match cs with
                 | [] => [true_node true]
                 | [(_, lo, hi)] => if ((lo =? 0) || (hi =? u32max))%N then flat_map print_cons cs else [elem Tconjunction (flat_map print_cons cs)]
                 | _ => [elem Tconjunction (flat_map print_cons cs)] end = [t] /\ wf_form t = true /\ small t = true /\
                 forall F (e : env F) r, xsat t e r <-> pall (map (within (F:=F)) cs) e r).
    { assert (CJ : cs <> [] -> let t := elem Tconjunction (flat_map print_cons cs) in wf_form t = true /\ small t = true /\
                 forall F (e : env F) r, xsat t e r <-> pall (map (within (F:=F)) cs) e r).
      { intros NE. unfold elem. split; [|split; [exact S|exact M]]. cbn [wf_form]. rewrite W.
        assert (forallb no_limit cs = false) as NL2 by (destruct cs; [congruence|apply negb_true_iff, NL]).
        pose proof (cons_nonempty cs NL2). destruct (flat_map print_cons cs); [congruence|reflexivity]. }
      destruct cs as [|((p & lo) & hi) [|c2 cs]].
      - exists (true_node true). split; [reflexivity|]. split; [reflexivity|]. split; [reflexivity|]. intros F e r. cbn [xsat true_node elem map]. unfold pall. split; [intros _ ? []|auto].
      - destruct ((lo =? 0) || (hi =? u32max))%N eqn:E; [|exists (elem Tconjunction (flat_map print_cons [(p, lo, hi)])); split; [reflexivity|apply CJ; discriminate]].
        clear CJ. cbn [forallb no_limit] in NL. cbn [flat_map app] in *. rewrite app_nil_r in *.
        assert (ONE : exists t, print_cons (p, lo, hi) = [t]).
        { cbn [print_cons]. destruct (lo =? 0)%N, (hi =? u32max)%N; try discriminate E; try discriminate NL; eexists; reflexivity. }
        destruct ONE as (t & ET). rewrite ET in *. exists t. split; [reflexivity|]. cbn [forallb] in W, S. rewrite andb_true_r in W, S.
        split; [exact W|]. split; [exact S|]. intros F e r. rewrite <- (M F e r). cbn [map]. unfold pall. split; [intros K q [<-|[]]; exact K|intros K; apply K; left; auto].
      - eexists. split; [reflexivity|]. apply CJ. discriminate. }
    destruct INNER as (t & ET & W1 & S1 & M1). cbn [print_cond]. rewrite ET. destruct neg.
    + eexists. split; [reflexivity|]. unfold elem. split; [cbn [wf_form single forallb]; rewrite W1; reflexivity|]. split; [cbn [small forallb]; rewrite S1; reflexivity|].
      intros F OK e r. cbn [nsat xsat map pone]. unfold pnot. rewrite (M1 F e r). tauto.
    + exists t. split; [reflexivity|]. split; [exact W1|]. split; [exact S1|]. intros F OK e r. rewrite (M1 F e r). cbn [nsat]. tauto.
  - destruct (IH H) as (t & E & W & S & M). cbn [print_cond]. rewrite E. cbn [bind]. eexists. split; [reflexivity|]. unfold elem.
    split; [destruct o; cbn [wf_form single forallb]; rewrite W; reflexivity|]. split; [destruct o; cbn [small forallb]; rewrite S; reflexivity|].
    intros F OK. pose proof (says_one _ _ F OK M) as P. apply peq_sym in P.
    change (peq F (nsat (N1 o c)) (xsat (match o with OControl => X Tcontrol None "" [t]
        | OEF => X Texists None "" [X Tfinally None "" [t]] | OEG => X Texists None "" [X Tglobally None "" [t]] | OEX => X Texists None "" [X Tnext None "" [t]]
        | OAG => X Tall None "" [X Tglobally None "" [t]] | OAF => X Tall None "" [X Tfinally None "" [t]] | OAX => X Tall None "" [X Tnext None "" [t]]
        | OA => X Tall None "" [t] | OE => X Texists None "" [t] | OG => X Tglobally None "" [t] | OF => X Tfinally None "" [t] | OX => X Tnext None "" [t] end))).
    destruct o; cbn [nsat xsat map pone] in *; auto using peq_ex, peq_all, peq_next, peq_fin, peq_glob, peq_control.
  - apply andb_true_iff in H as (H1 & H2). destruct (IH1 H1) as (t & E & W & S & M). destruct (IH2 H2) as (u & E' & W' & S' & M').
    cbn [print_cond]. rewrite E. cbn [bind]. rewrite E'. cbn [bind]. eexists. split; [reflexivity|]. unfold elem.
    split; [destruct o; cbn [wf_form single forallb]; rewrite W, W'; reflexivity|]. split; [destruct o; cbn [small forallb]; rewrite S, S'; reflexivity|].
    intros F OK. pose proof (says_one _ _ F OK M) as P. pose proof (says_one _ _ F OK M') as P'. apply peq_sym in P. apply peq_sym in P'. 
    assert (U : peq F (until (nsat c1) (nsat c2)) (until (xsat t) (xsat u))) by (apply peq_until; assumption).
    destruct o; unfold elem; [exact U|apply (peq_ex F _ _ U)|apply (peq_all F _ _ U)].
  - destruct (IH H) as (t & E & W & S & M). cbn [print_cond]. rewrite E. cbn [bind]. eexists. split; [reflexivity|]. unfold elem_named.
    split; [cbn [wf_form single forallb]; rewrite W; reflexivity|]. split; [cbn [small forallb]; rewrite S; reflexivity|].
    intros F OK. pose proof (says_one _ _ F OK M) as P. apply peq_sym in P. apply (peq_nex F n _ _ P).
  - destruct (IH H) as (t & E & W & S & M). cbn [print_cond]. rewrite E. cbn [bind]. eexists. split; [reflexivity|]. unfold elem_named.
    split; [cbn [wf_form single forallb]; rewrite W; reflexivity|]. split; [cbn [small forallb]; rewrite S; reflexivity|].
    intros F OK. pose proof (says_one _ _ F OK M) as P. apply peq_sym in P. apply (peq_nall F n _ _ P).
  - destruct (IH H) as (t & E & W & S & M). cbn [print_cond]. rewrite E. cbn [bind]. eexists. split; [reflexivity|]. unfold elem_named.
    split; [cbn [wf_form single forallb]; rewrite W; reflexivity|]. split; [cbn [small forallb]; rewrite S; reflexivity|].
    intros F OK. pose proof (says_one _ _ F OK M) as P. apply peq_sym in P. apply (peq_scope F n _ _ P).
Qed.

(** ** Files *)
Lemma print_read : forall c t a s, cond_ok c = true ->
  exists q, print_cond c = Ok [q] /\ good_query q = true /\ tag_of q <> Tbound /\ says c q /\
  exists c', parse_formula (X t a s [q]) = Ok (Some c') /\ same c c'.
Proof.
  intros c t a s H. destruct (print_cond_ok c H) as (q & E & W & S & M). exists q. split; [exact E|].
  assert (G : good_query q = true).
  { unfold good_query. rewrite S, andb_true_r. apply orb_true_iff. left. destruct q as [[] ? ? ?]; try discriminate W; exact W. }
  assert (NB : tag_of q <> Tbound) by (destruct q as [[] ? ? ?]; try discriminate W; discriminate).
  split; [exact G|]. split; [exact NB|]. split; [exact M|]. destruct (parse_query_ok t a s q G) as (c' & P & R). exists c'. split; [exact P|].
  assert (R' : says c' q) by (unfold reads in R; destruct (tag_of q); try exact R; congruence).
  intros F OK e r. rewrite (M F OK e r), (R' F OK e r). tauto.
Qed.
Lemma property_written : forall n q, n <> "" -> is_property (elem Tproperty [leaf Tid n; leaf Tother "Simplified"; elem Tformula [q]]) n q.
Proof.
  intros n q H. split; [reflexivity|]. split; [reflexivity|]. split; [exact H|]. split; [eexists _, _; reflexivity|].
  intros k j K T J TJ. cbn in K. destruct K as [<-|[<-|[<-|[]]]]; discriminate T.
Qed.
Lemma rd_lt : forall A (l : list A) i d, i < List.length l -> rd l i = Ok (nth i l d).
Proof. intros A l i d H. unfold rd. rewrite (nth_error_nth' l d H). reflexivity. Qed.
Lemma write_loop_ok : forall qs names solved keep order,
  (forall i, In i order -> i < List.length qs) -> List.length names = List.length qs -> List.length solved = List.length qs ->
  (forall i, In i (written keep solved order) -> cond_ok (nth i qs NDead) = true /\ nth i names "" <> "") ->
  exists xs ps, write_loop qs names solved keep order = Ok xs /\ List.length xs = List.length ps /\
    (forall j x p, nth_error xs j = Some x -> nth_error ps j = Some p -> is_property x (fst p) (snd p) /\ good_query (snd p) = true) /\
    map fst ps = map (fun i => nth i names "") (written keep solved order) /\
    Forall2 (fun p i => tag_of (snd p) <> Tbound /\ says (nth i qs NDead) (snd p)) ps (written keep solved order).
Proof.
  intros qs names solved keep order B LN LS. induction order as [|i order IH]; intros H; cbn [write_loop].
  - exists [], []. repeat split; auto; try constructor; destruct j; discriminate.
  - assert (BI : i < List.length qs) by (apply B; left; auto). rewrite (rd_lt _ solved i false) by lia. cbn [bind].
    assert (IH' : (forall k, In k (written keep solved order) -> In k (written keep solved (i :: order)))).
    { intros k. unfold written. cbn [filter]. destruct (keep || negb (nth i solved false)); [right; auto|auto]. }
    destruct IH as (xs & ps & E & L & P & M & R). { intros k K. apply B. right. exact K. } { intros k K. apply H, IH', K. }
    assert (EQ : negb (nth i solved false && negb keep) = (keep || negb (nth i solved false))).
    { destruct (nth i solved false), keep; reflexivity. }
    destruct (nth i solved false && negb keep) eqn:SK; cbn [negb] in EQ.
    + exists xs, ps. unfold written. cbn [filter]. rewrite <- EQ. auto.
    + assert (WR : written keep solved (i :: order) = i :: written keep solved order) by (unfold written; cbn [filter]; rewrite <- EQ; reflexivity).
      rewrite WR in *. destruct (H i (or_introl eq_refl)) as (CO & NE).
      rewrite (rd_lt _ qs i NDead) by lia. cbn [bind]. rewrite (rd_lt _ names i "") by lia. cbn [bind].
      destruct (print_read _ Tformula None "" CO) as (q & EP & G & NB & SY & _). unfold print_property. rewrite EP. cbn [bind]. rewrite E. cbn [bind].
      eexists _, ((nth i names "", q) :: ps). split; [reflexivity|]. split; [cbn [List.length]; congruence|]. split; [|split].
      * intros [|j] x p X1 X2; cbn [nth_error] in X1, X2; [|eapply P; eassumption]. injection X1 as <-. injection X2 as <-. cbn [fst snd]. split; [apply property_written, NE|exact G].
      * cbn [map fst]. congruence.
      * constructor; auto.
Qed.
Lemma chosen_all : forall A (l : list A) i, chosen [] i l = l.
Proof. intros A. induction l as [|a l IH]; intros i; cbn [chosen wantsb]; congruence. Qed.
Lemma write_read_ok : forall qs names solved keep order,
  (forall i, In i order -> i < List.length qs) -> List.length names = List.length qs -> List.length solved = List.length qs ->
  (forall i, In i (written keep solved order) -> cond_ok (nth i qs NDead) = true /\ nth i names "" <> "") ->
  exists x cs, write_queries qs names solved keep order = Ok x /\
    read_queries [] x = Ok (cs, map (fun i => nth i names "") (written keep solved order)) /\
    Forall2 (fun c i => same (nth i qs NDead) c) cs (written keep solved order).
Proof.
  intros qs names solved keep order B LN LS H. destruct (write_loop_ok qs names solved keep order B LN LS H) as (xs & ps & E & L & P & M & R).
  unfold write_queries. rewrite E. cbn [bind]. destruct (read_file_ok [] None "" xs ps L) as (cs & RD & RS).
  { intros j k p K1 K2 _. exact (P j k p K1 K2). }
  rewrite chosen_all in RD, RS. rewrite M in RD. eexists _, cs. split; [reflexivity|]. split; [exact RD|].
  clear - R RS. revert cs RS. induction R as [|p i ps l (NB & SY) R IH]; intros cs RS; inversion RS as [|c ? cs' ? RC RT]; subst; constructor; auto.
  assert (R' : says c (snd p)) by (unfold reads in RC; destruct (tag_of (snd p)); try exact RC; congruence).
  intros F OK e r. rewrite (SY F OK e r), (R' F OK e r). tauto.
Qed.
