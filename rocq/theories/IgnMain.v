(** The net without colours follows the coloured net (C44). *)
From Verif Require Import Base BaseLemmas NetSpec NetModel BuilderModel BuilderSpec BuilderMain
  ColSyntax ColSpec ColModel ColEval ColUnfold ColFinal ExpModel ExpSpec IgnModel IgnSpec IgnProofs.

(** ** Sums over calls *)
Lemma in_of_app : forall a c p u, in_of (a ++ c) p u = (in_of a p u + in_of c p u)%N.
Proof. intros. unfold in_of. rewrite map_app, sumN_app. reflexivity. Qed.
Lemma out_of_app : forall a c p u, out_of (a ++ c) u p = (out_of a u p + out_of c u p)%N.
Proof. intros. unfold out_of. rewrite map_app, sumN_app. reflexivity. Qed.

(** Calls that add no normal arc to [u]. *)
Definition silent (u : nat) (c : call) : Prop :=
  match c with CIn _ x false _ => x <> u | COut x _ _ => x <> u | _ => True end.
Lemma silent_sums : forall u l, (forall c, In c l -> silent u c) -> forall p, in_of l p u = 0%N /\ out_of l u p = 0%N.
Proof.
  intros u l H p. unfold in_of, out_of. split; apply sum_zero; intros c I; specialize (H c I); destruct c as [| |q x [|] w|x q w]; auto; cbn in H.
  - destruct (Nat.eqb_spec x u); [contradiction|]. rewrite andb_false_r. reflexivity.
  - destruct (Nat.eqb_spec x u); [contradiction|]. rewrite andb_false_r. reflexivity.
Qed.
Lemma block_sums : forall u pre blk post, (forall c, In c (pre ++ post) -> silent u c) ->
  forall p, in_of (pre ++ blk ++ post) p u = in_of blk p u /\ out_of (pre ++ blk ++ post) u p = out_of blk u p.
Proof.
  intros u pre blk post H p. rewrite !in_of_app, !out_of_app.
  destruct (silent_sums u pre) with (p := p) as [-> ->]. { intros; apply H, in_or_app; auto. }
  destruct (silent_sums u post) with (p := p) as [-> ->]. { intros; apply H, in_or_app; auto. } lia.
Qed.

Lemma init_of_one : forall cs p v, (forall w, In (CPlace p w) cs -> w = v) -> (exists w, In (CPlace p w) cs) -> init_of cs p = v.
Proof.
  intros cs p v. unfold init_of. induction cs as [|c cs IH] using rev_ind; intros U [w I]; [destruct I|].
  rewrite fold_left_app. cbn [fold_left]. 
  assert (R : ~ (exists x, c = CPlace p x) -> fold_left (fun acc c => match c with CPlace q k => if Nat.eqb q p then k else acc | _ => acc end) cs 0%N = v).
  { intros Nc. apply IH; [intros; apply U, in_or_app; auto|]. apply in_app_or in I. destruct I as [I|[I|[]]]; [eauto|exfalso; eauto]. }
  destruct c as [q k|q k|q x i k|x q k]; try (apply R; intros [y D]; discriminate).
  destruct (Nat.eqb_spec q p) as [->|D]; [|apply R; intros [y X]; inversion X; auto].
  apply U, in_or_app. right. left. reflexivity.
Qed.

Lemma sum_wrap : forall (l : list (nat * N)) s, (s + sumN (map snd l) < 4294967296)%N ->
  fold_left (fun s x => ((s + snd x) mod 4294967296)%N) l s = (s + sumN (map snd l))%N.
Proof.
  induction l as [|x l IH]; intros s H; cbn [map fold_left] in *.
  - cbn. lia.
  - rewrite sumN_cons in *. rewrite N.mod_small by lia. rewrite IH; lia.
Qed.

Section Main.
Variable n : cpn.
Notation tab := (cn_types n).
Notation vars := (cn_vars n).
Hypothesis OK : cpn_ok n.
Hypothesis AP : arcs_pos n.
Variable tname : nat -> option nat -> nat.
Hypothesis Inj : forall t k t' k', tname t k = tname t' k' -> t = t' /\ k = k'.

Lemma tabok : tab_ok n.
Proof. apply OK. Qed.

Lemma some_binding : binds n (fun v => val_of n (nth v vars 0) 0).
Proof.
  intros v ty H. erewrite nth_error_nth by eauto. destruct OK as (_ & V & _). destruct (V _ _ H) as [d D].
  apply val_typed; [apply tabok|]. eapply csize_pos; eauto. apply tabok.
Qed.

(** ** The calls of places and transitions *)
Lemma place_calls_ok : forall l k ps, place_calls n k l = Ok ps ->
  (forall c, In c ps -> exists i pl m, nth_error l i = Some pl /\ marking n pl = Ok m /\
     c = CPlace (k + i) (fold_left (fun s x => ((s + snd x) mod 4294967296)%N) (snd m) 0%N)) /\
  (forall i pl, nth_error l i = Some pl -> exists w, In (CPlace (k + i) w) ps).
Proof.
  induction l as [|pl l IH]; intros k ps H; cbn [place_calls] in H.
  - inversion H; subst. split; [intros c []|intros [|]; discriminate].
  - binv H m E. binv H r E2. inversion H; subst. destruct (IH _ _ E2) as [A B]. split.
    + intros c [<-|I].
      * exists 0, pl, m. rewrite Nat.add_0_r. auto.
      * destruct (A c I) as (i & pl' & m' & X & Y & ->). exists (S i), pl', m'. rewrite Nat.add_succ_r. auto.
    + intros [|i] pl' X.
      * rewrite Nat.add_0_r. eexists. left. reflexivity.
      * destruct (B i pl' X) as [w W]. exists w. right. rewrite Nat.add_succ_r. exact W.
Qed.

Lemma trans_calls_in : forall l k c, In c (trans_calls tname k l) -> exists t w, c = CTrans (tname t None) w.
Proof. induction l as [|x l IH]; intros k c I; [destruct I|]. destruct I as [<-|I]; eauto. Qed.

Lemma compile_arcs_ok : forall l r, compile_arcs n l = Ok r ->
  Forall2 (fun x y => fst x = fst y /\ compile tab vars (snd x) = Ok (snd y)) l r.
Proof.
  induction l as [|[p a] l IH]; intros r H; cbn [compile_arcs] in H; [inversion H; constructor|].
  binv H e E. binv H r' E2. inversion H; subst. constructor; auto.
Qed.
Lemma compile_trans_ok : forall l ts, compile_trans n l = Ok ts ->
  length ts = length l /\
  forall t tr, nth_error l t = Some tr -> exists i o, nth_error ts t = Some (i, o) /\ compile_arcs n (ct_in tr) = Ok i /\ compile_arcs n (ct_out tr) = Ok o.
Proof.
  induction l as [|x l IH]; intros ts H; cbn [compile_trans] in H.
  - inversion H; subst. split; auto. intros [|]; discriminate.
  - binv H i E1. binv H o E2. binv H r E3. inversion H; subst. destruct (IH _ eq_refl) as [L Q]. split; [cbn; auto|].
    intros [|t] tr X; [inversion X; subst; cbn; eauto|]. apply Q; auto.
Qed.

(** ** The blocks of calls of a transition *)
Lemma plain_split : forall l k i st, nth_error l i = Some st -> exists pre post,
  all_plain tname k l = pre ++ plain_trans tname (k + i) st ++ post /\
  (forall c, In c (pre ++ post) -> silent (tname (k + i) None) c).
Proof.
  assert (S1 : forall k st u, u <> tname k None -> forall c, In c (plain_trans tname k st) -> silent u c).
  { intros k st u D c I. unfold plain_trans in I. destruct I as [<-|I]; [exact Logic.I|]. apply in_app_or in I.
    destruct I as [I|I]; apply in_map_iff in I; destruct I as (x & <- & _); cbn; auto. }
  assert (S2 : forall l k u, (forall j, k <= j -> u <> tname j None) -> forall c, In c (all_plain tname k l) -> silent u c).
  { induction l as [|st l IH]; intros k u D c I; [destruct I|]. cbn [all_plain] in I. apply in_app_or in I. destruct I as [I|I].
    - eapply S1; eauto.
    - eapply IH; [|exact I]. intros j J. apply D. lia. }
  induction l as [|x l IH]; intros k i st H; [destruct i; discriminate H|]. destruct i as [|i].
  - inversion H; subst. exists [], (all_plain tname (S k) l). rewrite Nat.add_0_r. split; [reflexivity|].
    intros c I. eapply S2; [|exact I]. intros j J D. apply Inj in D. lia.
  - destruct (IH (S k) i st H) as (pre & post & E & Q). exists (plain_trans tname k x ++ pre), post. rewrite Nat.add_succ_r. cbn [all_plain]. split.
    + rewrite E, <- !app_assoc. reflexivity.
    + intros c I. rewrite <- app_assoc in I. apply in_app_or in I. destruct I as [I|I]; [|apply Q; auto].
      eapply S1; [|exact I]. intros D. apply Inj in D. lia.
Qed.

Lemma lower_first : forall l v, within l v -> Forall (fun r => ar_cur r = ar_lower r) l -> rle (curs l) v.
Proof.
  intros l v W. induction W as [|r k l v H W IH]; intros F; [left; reflexivity|]. inversion F; subst. destruct (IH H3) as [E|E].
  - cbn [curs map]. fold (curs l). rewrite E, H2. destruct (N.eq_dec (ar_lower r) k) as [->|D]; [left; reflexivity|right; constructor; lia].
  - right. constructor. exact E.
Qed.

Lemma ranges_first : forall st, Forall (fun r => ar_cur r = ar_lower r) (ranges st).
Proof. intros st. apply Forall_app. split; apply Forall_map; apply Forall_forall; reflexivity. Qed.

Lemma block_named : forall u l c, In c (CTrans u 0 :: variant_arcs u l) -> named c = Some u.
Proof.
  intros u l c [<-|I]; [reflexivity|]. unfold variant_arcs in I. apply in_flat_map in I. destruct I as (r & _ & I).
  destruct (0 <? ar_cur r)%N; [|destruct I]. destruct (ar_input r); destruct I as [<-|[]]; reflexivity.
Qed.

Lemma named_silent : forall u c, named c <> Some u -> silent u c.
Proof. intros u [| |p x [|] w|]; cbn; auto; congruence. Qed.

Lemma all_variants_ok : forall l fuel k cs counts, all_variants tname fuel k l = Ok (cs, counts) ->
  length counts = length l /\ (forall c, In c counts -> 0 < c) /\
  (forall c, In c cs -> exists t j x st, k <= t /\ nth_error l (t - k) = Some st /\ In c (CTrans (vname tname t j) 0 :: variant_arcs (vname tname t j) x) /\ map ar_place x = map ar_place (ranges st)) /\
  (forall i st v, nth_error l i = Some st -> within (ranges st) v -> exists pre post j,
     cs = pre ++ (CTrans (vname tname (k + i) j) 0 :: variant_arcs (vname tname (k + i) j) (with_cur (ranges st) v)) ++ post /\
     forall c, In c (pre ++ post) -> silent (vname tname (k + i) j) c).
Proof.
  induction l as [|st l IH]; intros fuel k cs counts H; cbn [all_variants] in H.
  - inversion H; subst. split; auto. split; [intros c []|]. split; [intros c []|]. intros [|]; discriminate.
  - binv H x E1. binv H r E2. inversion H; subst; clear H. destruct x as [cs1 k1], r as [cs2 k2]. cbn [fst snd] in *.
    destruct (variants_ok tname Inj _ _ _ _ _ _ E1) as (A1 & A2 & A3). destruct (IH _ _ _ _ E2) as (B1 & B2 & B3 & B4).
    split; [cbn; auto|]. split; [intros c [<-|I]; [lia|auto]|]. split.
    + intros c I. apply in_app_or in I. destruct I as [I|I].
      * destruct (A2 c I) as (j & l' & J & X & Y). exists k, j, l', st. rewrite Nat.sub_diag. auto.
      * destruct (B3 c I) as (t & j & l' & st' & J & X & Y & Z). exists t, j, l', st'. split; [lia|].
        replace (t - k) with (S (t - S k)) by lia. auto.
    + intros [|i] st' v X W.
      * inversion X; subst. rewrite Nat.add_0_r. destruct (A3 v W (lower_first _ _ W (ranges_first st'))) as (pre & post & j & J & -> & S0).
        exists pre, (post ++ cs2), j. split; [rewrite <- !app_assoc; reflexivity|]. intros c I. apply named_silent.
        rewrite app_assoc in I. apply in_app_or in I. destruct I as [I|I]; [auto|].
        destruct (B3 c I) as (t & j' & l' & st2 & T1 & _ & Y & _). rewrite (block_named _ _ _ Y). intros D. inversion D as [D2].
        apply vname_inj in D2; auto. lia.
      * rewrite Nat.add_succ_r. destruct (B4 i st' v X W) as (pre & post & j & -> & S0). exists (cs1 ++ pre), post, j.
        split; [rewrite <- !app_assoc; reflexivity|]. intros c I. rewrite <- app_assoc in I. apply in_app_or in I. destruct I as [I|I]; [|apply S0; auto].
        apply named_silent. destruct (A2 c I) as (j' & l' & _ & Y & _). rewrite (block_named _ _ _ Y). intros D. inversion D as [D2].
        apply vname_inj in D2; auto. lia.
Qed.

Lemma all_variants_first : forall l fuel k cs counts i st, all_variants tname fuel k l = Ok (cs, counts) -> nth_error l i = Some st ->
  exists pre post, cs = pre ++ (CTrans (tname (k + i) None) 0 :: variant_arcs (tname (k + i) None) (ranges st)) ++ post /\
    forall c, In c (pre ++ post) -> silent (tname (k + i) None) c.
Proof.
  induction l as [|x l IH]; intros fuel k cs counts i st H X; [destruct i; discriminate X|]. cbn [all_variants] in H.
  binv H y E1. binv H r E2. inversion H; subst; clear H. destruct y as [cs1 k1], r as [cs2 k2]. cbn [fst snd] in *. destruct i as [|i].
  - inversion X; subst. rewrite Nat.add_0_r. destruct (variants_first tname Inj _ _ _ _ _ E1) as (post & -> & S0). exists [], (post ++ cs2).
    split; [rewrite <- !app_assoc; reflexivity|]. intros c I. cbn [app] in I. apply named_silent. apply in_app_or in I. destruct I as [I|I]; auto.
    destruct (all_variants_ok _ _ _ _ _ E2) as (_ & _ & B3 & _). destruct (B3 c I) as (t & j' & l' & st2 & T1 & _ & Y & _). rewrite (block_named _ _ _ Y). intros D. inversion D as [D2].
    change (tname k None) with (vname tname k 0) in D2. apply vname_inj in D2; auto. lia.
  - rewrite Nat.add_succ_r. destruct (IH _ _ _ _ i st E2 X) as (pre & post & -> & S0). cbn [Nat.add] in *. exists (cs1 ++ pre), post.
    split; [rewrite <- !app_assoc; reflexivity|]. intros c I. rewrite <- app_assoc in I. apply in_app_or in I. destruct I as [I|I]; [|apply S0; auto].
    apply named_silent. destruct (variants_ok tname Inj _ _ _ _ _ _ E1) as (_ & A2 & _). destruct (A2 c I) as (j' & l' & _ & Y & _). rewrite (block_named _ _ _ Y). intros D. inversion D as [D2].
    change (tname (S (k + i)) None) with (vname tname (S (k + i)) 0) in D2. apply vname_inj in D2; auto. lia.
Qed.

(** ** The calls as a whole *)
Variable fuel : nat.
Variable cs : list call.
Variable bd : builder.
Hypothesis CS : ignorant_calls n tname fuel = Ok cs.
Hypothesis BD : do_calls b_empty cs = Ok bd.
Hypothesis NE : 0 < length (cn_pls n).
Notation np := (length (cn_pls n)).

(** Tokens that the arcs move to or from [p] for a binding. *)
Definition amount (b : assignment) (arcs : list (nat * aexp)) (p : nat) : N :=
  sumN (map (fun x => if Nat.eqb (fst x) p then tot n (ptype n (fst x)) (mval tab vars b (snd x)) else 0%N) arcs).

Lemma total_moved : forall b arcs p, tot n (ptype n p) (moved n b arcs p) = amount b arcs p.
Proof.
  intros b arcs p. unfold tot, moved, amount. rewrite sum_swap. apply sum_ext. intros x _.
  destruct (Nat.eqb_spec (fst x) p) as [->|D]; [reflexivity|]. apply sum_zero. reflexivity.
Qed.

Definition arcs_of (t : nat) (tr : ctrans) := nth_error (cn_trs n) t = Some tr.

Lemma arcs_typed : forall t tr x, arcs_of t tr -> In x (ct_in tr ++ ct_out tr) ->
  fst x < np /\ atyped n (snd x) (ptype n (fst x)).
Proof.
  intros t tr x E I. destruct OK as (_ & _ & _ & TT & _). destruct (TT _ _ E) as (_ & F1 & F2).
  assert (A : arc_ok n x). { apply in_app_or in I. destruct I as [I|I]; [rewrite Forall_forall in F1|rewrite Forall_forall in F2]; auto. }
  destruct A as (pl & P & A & _). split; [apply nth_error_lt in P; auto|]. unfold ptype. rewrite P. auto.
Qed.

Lemma amount_out : forall t tr b p, arcs_of t tr -> np <= p -> amount b (ct_in tr) p = 0%N /\ amount b (ct_out tr) p = 0%N.
Proof.
  intros t tr b p E L. unfold amount. split; apply sum_zero; intros x I; destruct (Nat.eqb_spec (fst x) p); auto;
    destruct (arcs_typed t tr x E); try (apply in_or_app; auto); lia.
Qed.

Lemma cs_shape : exists ps ts r, place_calls n 0 (cn_pls n) = Ok ps /\ compile_trans n (cn_trs n) = Ok ts /\
  (if any_negative ts then all_variants tname fuel 0 ts else Ok (all_plain tname 0 ts, [])) = Ok r /\
  cs = ps ++ trans_calls tname 0 (cn_trs n) ++ fst r ++ inhib_calls n tname (snd r).
Proof.
  unfold ignorant_calls in CS. pose proof CS as H. binv H ps E1. binv H ts E2. binv H r E3. inversion H. eauto 8.
Qed.

(** Compiled arcs of a transition, and the tokens they move. *)
Lemma compiled_counts : forall t tr l r b, arcs_of t tr -> (forall x, In x l -> In x (ct_in tr ++ ct_out tr)) -> compile_arcs n l = Ok r -> binds n b ->
  Forall2 (fun x y => fst x = fst y /\ fst x < np /\
    (min_count (snd y) <= tot n (ptype n (fst x)) (mval tab vars b (snd x)) <= upper_count (snd y))%N /\
    (has_negative (snd y) = false -> min_count (snd y) = upper_count (snd y) /\ min_count (snd y) <> 0%N)) l r.
Proof.
  intros t tr l r b E S C B. apply compile_arcs_ok in C. induction C as [|x y l r [X1 X2] C IH]; constructor.
  - destruct (arcs_typed t tr x E) as [L A]; [apply S; left; auto|]. destruct (count_compile n tabok b B _ _ _ A X2) as (P1 & P2 & P3).
    split; auto. split; auto. split; auto. intros G. split; auto. apply P3; auto. eapply AP; eauto. apply S. left. auto.
  - apply IH. intros; apply S; right; auto.
Qed.

Lemma no_neg : forall ts t i o x, any_negative ts = false -> nth_error ts t = Some (i, o) -> In x (i ++ o) -> has_negative (snd x) = false.
Proof.
  intros ts t i o x A E I. destruct (has_negative (snd x)) eqn:H; auto. exfalso.
  assert (any_negative ts = true); [|congruence]. unfold any_negative. apply existsb_exists. exists (i, o). split; [eapply nth_error_In; eauto|].
  apply existsb_exists. exists x. auto.
Qed.

Lemma weights : weights_pos cs.
Proof.
  destruct cs_shape as (ps & ts & r & P & C & R & E). destruct (compile_trans_ok _ _ C) as [TL CT].
  apply Forall_forall. intros c I. rewrite E in I. apply in_app_or in I. destruct I as [I|I].
  { destruct (place_calls_ok _ _ _ P) as [Q _]. destruct (Q c I) as (? & ? & ? & _ & _ & ->). exact Logic.I. }
  apply in_app_or in I. destruct I as [I|I].
  { destruct (trans_calls_in _ _ _ I) as (? & ? & ->). exact Logic.I. }
  apply in_app_or in I. destruct I as [I|I].
  - destruct (any_negative ts) eqn:AN.
    + destruct r as [rc counts]. destruct (all_variants_ok _ _ _ _ _ R) as (_ & _ & Q & _). destruct (Q c I) as (t & j & x & st & _ & _ & Y & _).
      destruct Y as [<-|Y]; [exact Logic.I|]. unfold variant_arcs in Y. apply in_flat_map in Y. destruct Y as (ar & _ & Y).
      destruct (N.ltb_spec 0 (ar_cur ar)); [|destruct Y]. destruct (ar_input ar); destruct Y as [<-|[]]; auto.
    + inversion R; subst r. cbn [fst] in I.
      assert (X : forall l k c, In c (all_plain tname k l) -> exists t st, nth_error l t = Some st /\ In c (plain_trans tname (k + t) st)).
      { clear. induction l as [|st l IH]; intros k c I; [destruct I|]. cbn [all_plain] in I. apply in_app_or in I. destruct I as [I|I].
        - exists 0, st. rewrite Nat.add_0_r. auto.
        - destruct (IH _ _ I) as (t & st' & X & Y). exists (S t), st'. rewrite Nat.add_succ_r. auto. }
      destruct (X _ _ _ I) as (t & [i o] & S1 & S2). assert (L : t < length (cn_trs n)) by (rewrite <- TL; apply nth_error_lt in S1; auto).
      destruct (@nth_error_ex _ _ _ L) as [tr TR]. destruct (CT _ _ TR) as (i' & o' & Q1 & Q2 & Q3). assert (i' = i /\ o' = o) by (split; congruence). destruct H as [-> ->].
      pose proof some_binding as B.
      assert (W : forall y, In y (i ++ o) -> (0 < min_count (snd y))%N).
      { intros y Iy. pose proof (no_neg _ _ _ _ _ AN Q1 Iy) as G.
        assert (Z : forall l r, (forall x, In x l -> In x (ct_in tr ++ ct_out tr)) -> compile_arcs n l = Ok r -> In y r -> (0 < min_count (snd y))%N).
        { intros l r S C2 Ir. pose proof (compiled_counts t tr l r _ TR S C2 B) as F. clear - F Ir G. induction F as [|x z l r H F IH]; [destruct Ir|].
          destruct Ir as [->|Ir]; [|auto]. destruct H as (_ & _ & _ & H). destruct (H G). lia. }
        apply in_app_or in Iy. destruct Iy as [Iy|Iy]; [apply (Z (ct_in tr) i)|apply (Z (ct_out tr) o)]; auto; intros; apply in_or_app; auto. }
      unfold plain_trans in S2. destruct S2 as [<-|S2]; [exact Logic.I|]. apply in_app_or in S2.
      destruct S2 as [S2|S2]; apply in_map_iff in S2; destruct S2 as (y & <- & Iy); apply W, in_or_app; auto.
  - unfold inhib_calls in I. apply in_flat_map in I. destruct I as ([[p t] w] & _ & I). destruct (nth_error (snd r) t).
    + apply in_map_iff in I. destruct I as (j & <- & _). exact Logic.I.
    + destruct I as [<-|[]]. exact Logic.I.
Qed.

Lemma call_place : forall c p, In c cs -> declares_place p c -> p < np.
Proof.
  destruct cs_shape as (ps & ts & r & P & C & R & E). destruct (compile_trans_ok _ _ C) as [TL CT].
  assert (ARC : forall t i o y, nth_error ts t = Some (i, o) -> In y (i ++ o) -> fst y < np).
  { intros t i o y S1 Iy. assert (L : t < length (cn_trs n)) by (rewrite <- TL; apply nth_error_lt in S1; auto).
    destruct (@nth_error_ex _ _ _ L) as [tr TR]. destruct (CT _ _ TR) as (i' & o' & Q1 & Q2 & Q3). assert (i' = i /\ o' = o) by (split; congruence). destruct H as [-> ->].
    assert (Z : forall l r, (forall x, In x l -> In x (ct_in tr ++ ct_out tr)) -> compile_arcs n l = Ok r -> In y r -> fst y < np).
    { intros l rr S C2 Ir. pose proof (compiled_counts t tr l rr _ TR S C2 some_binding) as F. clear - F Ir. induction F as [|x z l r H F IH]; [destruct Ir|].
      destruct Ir as [->|Ir]; [|auto]. destruct H as (<- & H & _). auto. }
    apply in_app_or in Iy. destruct Iy as [Iy|Iy]; [apply (Z (ct_in tr) i)|apply (Z (ct_out tr) o)]; auto; intros; apply in_or_app; auto. }
  intros c p I D. rewrite E in I. apply in_app_or in I. destruct I as [I|I].
  { destruct (place_calls_ok _ _ _ P) as [Q _]. destruct (Q c I) as (i & pl & m & X & _ & ->). cbn in D. subst. apply nth_error_lt in X. exact X. }
  apply in_app_or in I. destruct I as [I|I].
  { destruct (trans_calls_in _ _ _ I) as (? & ? & ->). destruct D. }
  apply in_app_or in I. destruct I as [I|I].
  - destruct (any_negative ts) eqn:AN.
    + destruct r as [rc counts]. destruct (all_variants_ok _ _ _ _ _ R) as (_ & _ & Q & _). destruct (Q c I) as (t & j & x & [i o] & _ & S1 & Y & PL).
      destruct Y as [<-|Y]; [destruct D|]. unfold variant_arcs in Y. apply in_flat_map in Y. destruct Y as (ar & Ia & Y).
      assert (Pa : ar_place ar < np).
      { apply (in_map ar_place) in Ia. rewrite PL in Ia. unfold ranges in Ia. rewrite map_app, !map_map in Ia. cbn [fst snd range_of ar_place] in Ia.
        rewrite <- map_app in Ia. apply in_map_iff in Ia. destruct Ia as (y & <- & Iy). eapply ARC; eauto. }
      destruct (0 <? ar_cur ar)%N; [|destruct Y]. destruct (ar_input ar); destruct Y as [<-|[]]; cbn in D; subst; auto.
    + inversion R; subst r. cbn [fst] in I.
      assert (X : forall l k c, In c (all_plain tname k l) -> exists t st, nth_error l t = Some st /\ In c (plain_trans tname (k + t) st)).
      { clear. induction l as [|st l IH]; intros k c I; [destruct I|]. cbn [all_plain] in I. apply in_app_or in I. destruct I as [I|I].
        - exists 0, st. rewrite Nat.add_0_r. auto.
        - destruct (IH _ _ I) as (t & st' & X & Y). exists (S t), st'. rewrite Nat.add_succ_r. auto. }
      destruct (X _ _ _ I) as (t & [i o] & S1 & S2). unfold plain_trans in S2. destruct S2 as [<-|S2]; [destruct D|]. apply in_app_or in S2.
      destruct S2 as [S2|S2]; apply in_map_iff in S2; destruct S2 as (y & <- & Iy); cbn in D; subst; eapply ARC; eauto; apply in_or_app; auto.
  - unfold inhib_calls in I. apply in_flat_map in I. destruct I as ([[q t] w] & Iq & I). destruct OK as (_ & _ & _ & _ & IH). destruct (IH _ _ _ Iq) as [L _].
    destruct (nth_error (snd r) t).
    + apply in_map_iff in I. destruct I as (j & <- & _). cbn in D. subst. auto.
    + destruct I as [<-|[]]. cbn in D. subst. auto.
Qed.

Lemma init_place_call : forall p, p < np -> exists w, In (CPlace p w) cs.
Proof.
  destruct cs_shape as (ps & ts & r & P & C & R & E). intros p L. destruct (@nth_error_ex _ _ _ L) as [pl PL].
  destruct (place_calls_ok _ _ _ P) as [_ Q]. destruct (Q p pl PL) as [w W]. exists w. rewrite E. apply in_or_app. left. exact W.
Qed.

Lemma places_iff : forall p, is_place cs p <-> p < np.
Proof.
  intros p. unfold is_place. rewrite Exists_exists. split.
  - intros (c & I & D). eapply call_place; eauto.
  - intros L. destruct (init_place_call p L) as [w W]. exists (CPlace p w). split; auto. reflexivity.
Qed.

Lemma init_tokens : forall p, p < np -> init_of cs p = total n (cinit n) p.
Proof.
  intros p L. apply init_of_one; [|apply init_place_call; auto].
  destruct cs_shape as (ps & ts & r & P & C & R & E). intros w I. rewrite E in I. apply in_app_or in I. destruct I as [I|I].
  - destruct (place_calls_ok _ _ _ P) as [Q _]. destruct (Q _ I) as (i & pl & m & X & Y & D). cbn in D. inversion D; subst i.
    destruct (marking_ok n OK p pl X) as (m' & E1 & RP & SM). assert (m' = m) by congruence. subst m'.
    rewrite (init_total n OK _ _ _ X RP). unfold msize in *. rewrite sum_wrap; [apply N.add_0_l|]. lia.
  - exfalso. apply in_app_or in I. destruct I as [I|I]; [destruct (trans_calls_in _ _ _ I) as (? & ? & D); discriminate|].
    apply in_app_or in I. destruct I as [I|I].
    + destruct (any_negative ts) eqn:AN.
      * destruct r as [rc counts]. destruct (all_variants_ok _ _ _ _ _ R) as (_ & _ & Q & _). destruct (Q _ I) as (t & j & x & st & _ & _ & Y & _).
        apply block_named in Y. discriminate.
      * inversion R; subst r. cbn [fst] in I. clear - I. revert I. generalize 0. induction ts as [|st l IH]; intros k I; [destruct I|].
        cbn [all_plain] in I. apply in_app_or in I. destruct I as [I|I]; [|eauto]. unfold plain_trans in I. destruct I as [I|I]; [discriminate|].
        apply in_app_or in I. destruct I as [I|I]; apply in_map_iff in I; destruct I as (y & D & _); discriminate.
    + unfold inhib_calls in I. apply in_flat_map in I. destruct I as ([[q t] v] & _ & I). destruct (nth_error (snd r) t).
      * apply in_map_iff in I. destruct I as (j & D & _). discriminate.
      * destruct I as [D|[]]. discriminate.
Qed.

Lemma calls_fine : calls_ok cs.
Proof. destruct (builder_accepts weights) as [[H _]|[_ H]]; [exact H|]. rewrite BD in H. discriminate. Qed.

(** With a subtraction in the net there are no inhibitor arcs, or the builder throws. *)
Lemma no_inhibitors : forall ts r, compile_trans n (cn_trs n) = Ok ts -> any_negative ts = true -> all_variants tname fuel 0 ts = Ok r ->
  cs = (match place_calls n 0 (cn_pls n) with Ok ps => ps | _ => [] end) ++ trans_calls tname 0 (cn_trs n) ++ fst r ++ inhib_calls n tname (snd r) ->
  cn_inh n = [].
Proof.
  intros ts [rc counts] C AN R E. cbn [fst snd] in E. destruct (compile_trans_ok _ _ C) as [TL CT]. destruct (all_variants_ok _ _ _ _ _ R) as (CL & CP & Q & _).
  destruct (cn_inh n) as [|[[p t] w] rest] eqn:EI; [reflexivity|exfalso].
  destruct OK as (_ & _ & _ & _ & IH). destruct (IH p t w) as [_ Lt]. { rewrite EI. left. reflexivity. }
  assert (Lc : t < length counts) by lia. destruct (@nth_error_ex _ _ _ Lc) as [k K]. pose proof (CP k (nth_error_In _ _ K)) as K0.
  assert (I : In (CIn p (tname t (Some 0)) true w) cs).
  { rewrite E. apply in_or_app; right. apply in_or_app; right. apply in_or_app; right. unfold inhib_calls. apply in_flat_map. exists (p, t, w).
    split; [rewrite EI; left; reflexivity|]. rewrite K. apply in_map_iff. exists 0. split; auto. apply in_seq. lia. }
  destruct (in_split _ _ I) as (l1 & l2 & S). destruct (calls_fine _ _ _ S) as [TR _].
  unfold is_trans in TR. apply Exists_exists in TR. destruct TR as (c & Ic & D). destruct c as [|u pl| |]; try (destruct D; fail). cbn in D. subst u.
  assert (Ic2 : In (CTrans (tname t (Some 0)) pl) cs) by (rewrite S; apply in_or_app; auto). clear S Ic. rewrite E in Ic2.
  apply in_app_or in Ic2. destruct Ic2 as [J|J].
  { destruct (place_calls n 0 (cn_pls n)) as [ps| | |] eqn:P; try (destruct J; fail). destruct (place_calls_ok _ _ _ P) as [X _].
    destruct (X _ J) as (? & ? & ? & _ & _ & D). discriminate. }
  apply in_app_or in J. destruct J as [J|J].
  { destruct (trans_calls_in _ _ _ J) as (t' & ? & D). inversion D as [[D1 D2]]. apply Inj in D1. destruct D1; discriminate. }
  apply in_app_or in J. destruct J as [J|J].
  - destruct (Q _ J) as (t' & j & x & st & _ & _ & Y & _). apply block_named in Y. cbn in Y. inversion Y as [Y2]. unfold vname in Y2. apply Inj in Y2.
    destruct Y2 as [_ Y2]. destruct (Nat.eqb_spec j 0); [discriminate|]. inversion Y2.
  - unfold inhib_calls in J. apply in_flat_map in J. destruct J as ([[q t2] v] & _ & J). destruct (nth_error counts t2).
    + apply in_map_iff in J. destruct J as (j & D & _). discriminate.
    + destruct J as [D|[]]. discriminate.
Qed.

Definition weight_of (b : assignment) (x : nat * aexp) : N := tot n (ptype n (fst x)) (mval tab vars b (snd x)).

(** Sums over the blocks. *)
Lemma plain_sums : forall t i o p,
  in_of (plain_trans tname t (i, o)) p (tname t None) = sumN (map (fun x => if Nat.eqb (fst x) p then min_count (snd x) else 0%N) i) /\
  out_of (plain_trans tname t (i, o)) (tname t None) p = sumN (map (fun x => if Nat.eqb (fst x) p then min_count (snd x) else 0%N) o).
Proof.
  intros t i o p. unfold plain_trans, in_of, out_of. cbn [fst snd map]. rewrite !sumN_cons, !N.add_0_l, !map_app, !sumN_app, !map_map. split.
  - rewrite (sum_zero _ o) by reflexivity. rewrite N.add_0_r. apply sum_ext. intros x _. rewrite Nat.eqb_refl, andb_true_r. reflexivity.
  - rewrite (sum_zero _ i) by reflexivity. rewrite N.add_0_l. apply sum_ext. intros x _. rewrite Nat.eqb_refl, andb_true_r. reflexivity.
Qed.

Lemma variant_sums : forall u l p,
  in_of (variant_arcs u l) p u = sumN (map (fun r => if ar_input r && Nat.eqb (ar_place r) p then ar_cur r else 0%N) l) /\
  out_of (variant_arcs u l) u p = sumN (map (fun r => if negb (ar_input r) && Nat.eqb (ar_place r) p then ar_cur r else 0%N) l).
Proof.
  intros u l p. induction l as [|r l [I1 I2]]; [split; reflexivity|]. unfold variant_arcs in *. cbn [flat_map map]. rewrite in_of_app, out_of_app, I1, I2, !sumN_cons.
  destruct (N.ltb_spec 0 (ar_cur r)) as [L|L].
  - destruct (ar_input r); unfold in_of, out_of; cbn [map negb andb]; rewrite ?sumN_cons; cbn [sumN fold_right]; rewrite ?Nat.eqb_refl, ?andb_true_r, ?N.add_0_r; split; reflexivity.
  - assert (ar_cur r = 0%N) by lia. rewrite H. unfold in_of, out_of. cbn [map sumN fold_right].
    destruct (ar_input r && Nat.eqb (ar_place r) p), (negb (ar_input r) && Nat.eqb (ar_place r) p); split; reflexivity.
Qed.

Notation counted b := (fun x y : nat * _ => fst x = fst y /\ fst x < np /\
    (min_count (snd y) <= weight_of b x <= upper_count (snd y))%N /\
    (has_negative (snd y) = false -> min_count (snd y) = upper_count (snd y) /\ min_count (snd y) <> 0%N)).

Lemma counted_plain : forall b p l r, Forall2 (counted b) l r -> (forall y, In y r -> has_negative (snd y) = false) ->
  sumN (map (fun x => if Nat.eqb (fst x) p then min_count (snd x) else 0%N) r) = amount b l p.
Proof.
  intros b p l r F. unfold amount. induction F as [|x y l r (H1 & _ & H2 & H3) F IH]; intros G; [reflexivity|]. cbn [map]. rewrite !sumN_cons, IH by (intros; apply G; right; auto).
  f_equal. rewrite H1. destruct (Nat.eqb (fst y) p); auto. destruct (H3 (G y (or_introl eq_refl))) as [E _]. unfold weight_of in *. rewrite H1 in H2. lia.
Qed.

Lemma counted_within : forall b inp l r, Forall2 (counted b) l r -> within (map (range_of inp) r) (map (weight_of b) l).
Proof. intros b inp l r F. induction F as [|x y l r (_ & _ & H & _) F IH]; constructor; auto. Qed.

Lemma counted_sums : forall b inp l r p (f : bool -> bool), Forall2 (counted b) l r ->
  sumN (map (fun a => if f (ar_input a) && Nat.eqb (ar_place a) p then ar_cur a else 0%N) (with_cur (map (range_of inp) r) (map (weight_of b) l))) =
  if f inp then amount b l p else 0%N.
Proof.
  intros b inp l r p f F. unfold amount, with_cur. induction F as [|x y l r (H1 & _) F IH]; [destruct (f inp); reflexivity|].
  cbn [map combine fst snd]. rewrite !sumN_cons, IH. cbn [range_of ar_input ar_place ar_cur]. rewrite <- H1. destruct (f inp); cbn [andb]; [reflexivity|lia].
Qed.

Lemma with_cur_app : forall l1 v1 l2 v2, length l1 = length v1 -> with_cur (l1 ++ l2) (v1 ++ v2) = with_cur l1 v1 ++ with_cur l2 v2.
Proof.
  unfold with_cur. induction l1 as [|x l1 IH]; intros [|k v1] l2 v2 H; try discriminate H; [reflexivity|]. cbn. f_equal. apply IH. cbn in H. lia.
Qed.

Lemma step_calls : forall t tr b, arcs_of t tr -> binds n b -> exists u, is_trans cs u /\
  (forall p, in_of cs p u = amount b (ct_in tr) p /\ out_of cs u p = amount b (ct_out tr) p) /\
  (forall p w, In (CIn p u true w) cs -> In (p, t, w) (cn_inh n)).
Proof.
  intros t tr b TR B. destruct cs_shape as (ps & ts & r & P & C & R & E). destruct (compile_trans_ok _ _ C) as [TL CT].
  destruct (CT _ _ TR) as (i & o & Q1 & Q2 & Q3).
  pose proof (compiled_counts t tr _ _ b TR (fun x I => in_or_app _ _ _ (or_introl I)) Q2 B) as F1.
  pose proof (compiled_counts t tr _ _ b TR (fun x I => in_or_app _ _ _ (or_intror I)) Q3 B) as F2.
  fold (weight_of b) in F1. 
  assert (SP : forall u c, In c ps -> silent u c).
  { intros u c I. destruct (place_calls_ok _ _ _ P) as [Q _]. destruct (Q c I) as (? & ? & ? & _ & _ & ->). exact Logic.I. }
  assert (ST : forall u c, In c (trans_calls tname 0 (cn_trs n)) -> silent u c).
  { intros u c I. destruct (trans_calls_in _ _ _ I) as (? & ? & ->). exact Logic.I. }
  assert (SI : forall u c, In c (inhib_calls n tname (snd r)) -> silent u c).
  { intros u c I. unfold inhib_calls in I. apply in_flat_map in I. destruct I as ([[p0 t0] w] & _ & I). destruct (nth_error (snd r) t0).
    - apply in_map_iff in I. destruct I as (j & <- & _). exact Logic.I.
    - destruct I as [<-|[]]. exact Logic.I. }
  destruct (any_negative ts) eqn:AN.
  - assert (NI : cn_inh n = []). { apply (no_inhibitors ts r C AN R). rewrite P. exact E. }
    destruct r as [rc counts]. destruct (all_variants_ok _ _ _ _ _ R) as (_ & _ & Q & V).
    destruct (V t (i, o) (map (weight_of b) (ct_in tr) ++ map (weight_of b) (ct_out tr)) Q1) as (pre & post & j & D & S).
    { unfold ranges. apply Forall2_app; apply counted_within; auto. }
    cbn [Nat.add] in *. cbn [fst snd] in *. exists (vname tname t j).
    assert (E2 : cs = (ps ++ trans_calls tname 0 (cn_trs n) ++ pre) ++
      (CTrans (vname tname t j) 0 :: variant_arcs (vname tname t j) (with_cur (ranges (i, o)) (map (weight_of b) (ct_in tr) ++ map (weight_of b) (ct_out tr)))) ++
      (post ++ inhib_calls n tname counts)).
    { rewrite E, D, <- !app_assoc. reflexivity. }
    split; [|split].
    + rewrite E2. apply Exists_exists. eexists. split; [apply in_or_app; right; left; reflexivity|]. reflexivity.
    + intros p.
      assert (SS : forall c, In c ((ps ++ trans_calls tname 0 (cn_trs n) ++ pre) ++ (post ++ inhib_calls n tname counts)) -> silent (vname tname t j) c).
      { intros c I2. apply in_app_or in I2. destruct I2 as [I2|I2]; apply in_app_or in I2; destruct I2 as [I2|I2]; auto.
        - apply in_app_or in I2. destruct I2 as [I2|I2]; auto. apply S, in_or_app; auto.
        - apply S, in_or_app; auto. }
      destruct (block_sums (vname tname t j) _ (CTrans (vname tname t j) 0 :: variant_arcs (vname tname t j) (with_cur (ranges (i, o)) (map (weight_of b) (ct_in tr) ++ map (weight_of b) (ct_out tr))))
        _ SS p) as [X1 X2].
      rewrite E2, X1, X2. clear X1 X2.
      assert (CI : forall u l q, in_of (CTrans u 0 :: l) q u = in_of l q u /\ out_of (CTrans u 0 :: l) u q = out_of l u q).
      { intros. unfold in_of, out_of. cbn [map]. rewrite !sumN_cons. split; apply N.add_0_l. }
      destruct (CI (vname tname t j) (variant_arcs (vname tname t j) (with_cur (ranges (i, o)) (map (weight_of b) (ct_in tr) ++ map (weight_of b) (ct_out tr)))) p) as [-> ->].
      destruct (variant_sums (vname tname t j) (with_cur (ranges (i, o)) (map (weight_of b) (ct_in tr) ++ map (weight_of b) (ct_out tr))) p) as [-> ->].
      unfold ranges. cbn [fst snd]. rewrite with_cur_app by (rewrite !map_length; clear - F1; induction F1; cbn; auto). rewrite !map_app, !sumN_app.
      pose proof (counted_sums b true _ _ p (fun x => x) F1) as Y1. pose proof (counted_sums b false _ _ p (fun x => x) F2) as Y2.
      pose proof (counted_sums b true _ _ p negb F1) as Y3. pose proof (counted_sums b false _ _ p negb F2) as Y4. cbn [negb] in *.
      rewrite Y1, Y2, Y3, Y4. lia.
    + intros p w I. exfalso. unfold inhib_calls in E. rewrite NI in E. cbn [flat_map] in E. rewrite app_nil_r in E. rewrite E in I.
      apply in_app_or in I. destruct I as [I|I]; [destruct (place_calls_ok _ _ _ P) as [Y _]; destruct (Y _ I) as (? & ? & ? & _ & _ & Z); discriminate|].
      apply in_app_or in I. destruct I as [I|I]; [destruct (trans_calls_in _ _ _ I) as (? & ? & Z); discriminate|].
      destruct (Q _ I) as (t' & j' & x & st & _ & _ & Y & _). destruct Y as [Y|Y]; [discriminate|]. unfold variant_arcs in Y. apply in_flat_map in Y. destruct Y as (ar & _ & Y).
      destruct (0 <? ar_cur ar)%N; [|destruct Y]. destruct (ar_input ar); destruct Y as [Y|[]]; discriminate.
  - inversion R; subst r. cbn [fst snd] in *. destruct (plain_split ts 0 t (i, o) Q1) as (pre & post & D & S). cbn [Nat.add] in *. exists (tname t None).
    assert (E2 : cs = (ps ++ trans_calls tname 0 (cn_trs n) ++ pre) ++ plain_trans tname t (i, o) ++ (post ++ inhib_calls n tname [])).
    { rewrite E, D, <- !app_assoc. reflexivity. }
    split; [|split].
    + rewrite E2. apply Exists_exists. eexists. split; [apply in_or_app; right; left; reflexivity|]. reflexivity.
    + intros p.
      assert (SS : forall c, In c ((ps ++ trans_calls tname 0 (cn_trs n) ++ pre) ++ (post ++ inhib_calls n tname [])) -> silent (tname t None) c).
      { intros c I2. apply in_app_or in I2. destruct I2 as [I2|I2]; apply in_app_or in I2; destruct I2 as [I2|I2]; auto.
        - apply in_app_or in I2. destruct I2 as [I2|I2]; auto. apply S, in_or_app; auto.
        - apply S, in_or_app; auto. }
      destruct (block_sums _ _ (plain_trans tname t (i, o)) _ SS p) as [X1 X2]. rewrite E2, X1, X2. destruct (plain_sums t i o p) as [-> ->].
      split; eapply counted_plain; eauto; intros y I; eapply no_neg; eauto; apply in_or_app; auto.
    + intros p w I. rewrite E in I.
      apply in_app_or in I. destruct I as [I|I]; [destruct (place_calls_ok _ _ _ P) as [Y _]; destruct (Y _ I) as (? & ? & ? & _ & _ & Z); discriminate|].
      apply in_app_or in I. destruct I as [I|I]; [destruct (trans_calls_in _ _ _ I) as (? & ? & Z); discriminate|].
      apply in_app_or in I. destruct I as [I|I].
      * exfalso. clear - I. revert I. generalize 0. generalize (tname t None). induction ts as [|st l IH]; intros u k I; [destruct I|].
        cbn [all_plain] in I. apply in_app_or in I. destruct I as [I|I]; [|eauto]. unfold plain_trans in I. destruct I as [I|I]; [discriminate|].
        apply in_app_or in I. destruct I as [I|I]; apply in_map_iff in I; destruct I as (y & D & _); discriminate.
      * unfold inhib_calls in I. apply in_flat_map in I. destruct I as ([[q t2] v] & I2 & I). replace (nth_error (@nil nat) t2) with (@None nat) in I by (destruct t2; reflexivity). destruct I as [I|[]].
        inversion I as [[D1 D2 D3]]. apply Inj in D2. destruct D2 as [<- _]. subst. exact I2.
Qed.

Lemma total_step : forall t tr b M M' p, arcs_of t tr -> cenabled n M t tr b ->
  (forall p v, M' p v = (M p v - moved n b (ct_in tr) p v + moved n b (ct_out tr) p v)%N) ->
  (amount b (ct_in tr) p <= total n M p)%N /\ total n M' p = (total n M p - amount b (ct_in tr) p + amount b (ct_out tr) p)%N.
Proof.
  intros t tr b M M' p TR (B & _ & EN & _) F. rewrite <- !total_moved. unfold total, tot.
  assert (L : (sumN (map (moved n b (ct_in tr) p) (values tab (ptype n p))) <= sumN (map (M p) (values tab (ptype n p))))%N) by (apply sum_le; auto).
  split; auto. 
  assert (X : (sumN (map (M' p) (values tab (ptype n p))) + sumN (map (moved n b (ct_in tr) p) (values tab (ptype n p))) =
    sumN (map (M p) (values tab (ptype n p))) + sumN (map (moved n b (ct_out tr) p) (values tab (ptype n p))))%N).
  { rewrite <- !sum_add. apply sum_ext. intros v _. rewrite F. specialize (EN p v). lia. }
  lia.
Qed.
(** The transition with the name of [t] takes at most what [t] takes with any binding. *)
Lemma counted_least : forall b p l r, Forall2 (counted b) l r ->
  (sumN (map (fun a => if ar_input a && Nat.eqb (ar_place a) p then ar_cur a else 0%N) (map (range_of true) r)) <= amount b l p)%N.
Proof.
  intros b p l r F. unfold amount. induction F as [|x y l r (H1 & _ & H2 & _) F IH]; [cbn; lia|]. cbn [map]. rewrite !sumN_cons. cbn [range_of ar_input ar_place ar_cur andb].
  rewrite H1. unfold weight_of in H2. rewrite H1 in H2. destruct (Nat.eqb (fst y) p); lia.
Qed.

Lemma plain_calls : forall t tr b, arcs_of t tr -> binds n b -> is_trans cs (tname t None) /\
  (forall p, (in_of cs p (tname t None) <= amount b (ct_in tr) p)%N) /\
  (forall p w, In (CIn p (tname t None) true w) cs -> In (p, t, w) (cn_inh n)).
Proof.
  intros t tr b TR B. destruct cs_shape as (ps & ts & r & P & C & R & E). destruct (compile_trans_ok _ _ C) as [TL CT].
  destruct (CT _ _ TR) as (i & o & Q1 & Q2 & Q3).
  pose proof (compiled_counts t tr _ _ b TR (fun x I => in_or_app _ _ _ (or_introl I)) Q2 B) as F1. fold (weight_of b) in F1.
  assert (SP : forall u c, In c ps -> silent u c).
  { intros u c I. destruct (place_calls_ok _ _ _ P) as [Q _]. destruct (Q c I) as (? & ? & ? & _ & _ & ->). exact Logic.I. }
  assert (ST : forall u c, In c (trans_calls tname 0 (cn_trs n)) -> silent u c).
  { intros u c I. destruct (trans_calls_in _ _ _ I) as (? & ? & ->). exact Logic.I. }
  assert (SI : forall u c, In c (inhib_calls n tname (snd r)) -> silent u c).
  { intros u c I. unfold inhib_calls in I. apply in_flat_map in I. destruct I as ([[p0 t0] w] & _ & I). destruct (nth_error (snd r) t0).
    - apply in_map_iff in I. destruct I as (j & <- & _). exact Logic.I.
    - destruct I as [<-|[]]. exact Logic.I. }
  destruct (any_negative ts) eqn:AN.
  - assert (NI : cn_inh n = []). { apply (no_inhibitors ts r C AN R). rewrite P. exact E. }
    destruct r as [rc counts]. destruct (all_variants_ok _ _ _ _ _ R) as (_ & _ & Q & _).
    destruct (all_variants_first _ _ _ _ _ _ _ R Q1) as (pre & post & D & S). cbn [Nat.add fst snd] in *.
    assert (E2 : cs = (ps ++ trans_calls tname 0 (cn_trs n) ++ pre) ++ (CTrans (tname t None) 0 :: variant_arcs (tname t None) (ranges (i, o))) ++ (post ++ inhib_calls n tname counts)).
    { rewrite E, D, <- !app_assoc. reflexivity. }
    split; [|split].
    + rewrite E2. apply Exists_exists. eexists. split; [apply in_or_app; right; left; reflexivity|]. reflexivity.
    + intros p.
      assert (SS : forall c, In c ((ps ++ trans_calls tname 0 (cn_trs n) ++ pre) ++ (post ++ inhib_calls n tname counts)) -> silent (tname t None) c).
      { intros c I2. apply in_app_or in I2. destruct I2 as [I2|I2]; apply in_app_or in I2; destruct I2 as [I2|I2]; auto.
        - apply in_app_or in I2. destruct I2 as [I2|I2]; auto. apply S, in_or_app; auto.
        - apply S, in_or_app; auto. }
      destruct (block_sums (tname t None) _ (CTrans (tname t None) 0 :: variant_arcs (tname t None) (ranges (i, o))) _ SS p) as [X1 _].
      rewrite E2, X1. clear X1.
      assert (CI : forall u l q, in_of (CTrans u 0 :: l) q u = in_of l q u) by (intros; unfold in_of; cbn [map]; rewrite !sumN_cons; apply N.add_0_l).
      rewrite CI. destruct (variant_sums (tname t None) (ranges (i, o)) p) as [-> _].
      unfold ranges. cbn [fst snd]. rewrite !map_app, !sumN_app. pose proof (counted_least b p _ _ F1) as Y1.
      assert (Y2 : sumN (map (fun r => if ar_input r && Nat.eqb (ar_place r) p then ar_cur r else 0%N) (map (range_of false) o)) = 0%N).
      { rewrite map_map. apply sum_zero. intros x _. reflexivity. }
      rewrite Y2, N.add_0_r. exact Y1.
    + intros p w I. exfalso. unfold inhib_calls in E. rewrite NI in E. cbn [flat_map] in E. rewrite app_nil_r in E. rewrite E in I.
      apply in_app_or in I. destruct I as [I|I]; [destruct (place_calls_ok _ _ _ P) as [Y _]; destruct (Y _ I) as (? & ? & ? & _ & _ & Z); discriminate|].
      apply in_app_or in I. destruct I as [I|I]; [destruct (trans_calls_in _ _ _ I) as (? & ? & Z); discriminate|].
      destruct (Q _ I) as (t' & j' & x & st & _ & _ & Y & _). destruct Y as [Y|Y]; [discriminate|]. unfold variant_arcs in Y. apply in_flat_map in Y. destruct Y as (ar & _ & Y).
      destruct (0 <? ar_cur ar)%N; [|destruct Y]. destruct (ar_input ar); destruct Y as [Y|[]]; discriminate.
  - inversion R; subst r. cbn [fst snd] in *. destruct (plain_split ts 0 t (i, o) Q1) as (pre & post & D & S). cbn [Nat.add] in *.
    assert (E2 : cs = (ps ++ trans_calls tname 0 (cn_trs n) ++ pre) ++ plain_trans tname t (i, o) ++ (post ++ inhib_calls n tname [])).
    { rewrite E, D, <- !app_assoc. reflexivity. }
    split; [|split].
    + rewrite E2. apply Exists_exists. eexists. split; [apply in_or_app; right; left; reflexivity|]. reflexivity.
    + intros p.
      assert (SS : forall c, In c ((ps ++ trans_calls tname 0 (cn_trs n) ++ pre) ++ (post ++ inhib_calls n tname [])) -> silent (tname t None) c).
      { intros c I2. apply in_app_or in I2. destruct I2 as [I2|I2]; apply in_app_or in I2; destruct I2 as [I2|I2]; auto.
        - apply in_app_or in I2. destruct I2 as [I2|I2]; auto. apply S, in_or_app; auto.
        - apply S, in_or_app; auto. }
      destruct (block_sums _ _ (plain_trans tname t (i, o)) _ SS p) as [X1 _]. rewrite E2, X1. destruct (plain_sums t i o p) as [-> _].
      assert (Y : sumN (map (fun x => if Nat.eqb (fst x) p then min_count (snd x) else 0%N) i) = amount b (ct_in tr) p) by (eapply counted_plain; eauto; intros y I; eapply no_neg; eauto; apply in_or_app; auto).
      rewrite Y. lia.
    + intros p w I. rewrite E in I.
      apply in_app_or in I. destruct I as [I|I]; [destruct (place_calls_ok _ _ _ P) as [Y _]; destruct (Y _ I) as (? & ? & ? & _ & _ & Z); discriminate|].
      apply in_app_or in I. destruct I as [I|I]; [destruct (trans_calls_in _ _ _ I) as (? & ? & Z); discriminate|].
      apply in_app_or in I. destruct I as [I|I].
      * exfalso. clear - I. revert I. generalize 0. generalize (tname t None). induction ts as [|st l IH]; intros u k I; [destruct I|].
        cbn [all_plain] in I. apply in_app_or in I. destruct I as [I|I]; [|eauto]. unfold plain_trans in I. destruct I as [I|I]; [discriminate|].
        apply in_app_or in I. destruct I as [I|I]; apply in_map_iff in I; destruct I as (y & D & _); discriminate.
      * unfold inhib_calls in I. apply in_flat_map in I. destruct I as ([[q t2] v] & I2 & I). replace (nth_error (@nil nat) t2) with (@None nat) in I by (destruct t2; reflexivity). destruct I as [I|[]].
        inversion I as [[D1 D2 D3]]. apply Inj in D2. destruct D2 as [<- _]. subst. exact I2.
Qed.
Lemma plain_there : forall t tr, arcs_of t tr -> is_trans cs (tname t None).
Proof. intros t tr H. destruct (plain_calls t tr _ H some_binding) as [Q _]. exact Q. Qed.
End Main.

(** What [t] needs at least: with fewer tokens than it takes, the transition with its name
    can fire. *)
Definition least (n : cpn) (net : cnet) (pidx tidx : nat -> nat) : Prop :=
  forall t M M' m, same_tokens n net pidx M m -> cstep n M t M' ->
    exists low low', step (to_pnet net) low (tidx t) low' /\ forall i, (tokens low i <= tokens m i)%N.

Theorem ignorant_full : forall n tname fuel net, cpn_ok n -> arcs_pos n -> 0 < length (cn_pls n) ->
  (forall t k t' k', tname t k = tname t' k' -> t = t' /\ k = k') ->
  ignorant_net n tname fuel = Ok net ->
  layout net /\ exists pnum tnum pidx tidx, numbers n tname fuel = Ok (pnum, tnum) /\
    (forall p, p < length (cn_pls n) -> pnum p = Some (pidx p)) /\ (forall t, t < length (cn_trs n) -> tnum t = Some (tidx t)) /\
    same_places n net pidx /\ follows n net pidx /\ least n net pidx tidx.
Proof.
  intros n tname fuel net OK AP NE Inj H. unfold ignorant_net in H. binv H cs E1. binv H bd E2. binv H r E3. inversion H; subst. clear H.
  assert (PI : forall p, is_place cs p <-> p < length (cn_pls n)) by (intros; eapply places_iff; eauto).
  assert (W : weights_pos cs) by (eapply weights; eauto).
  destruct (@builder_correct cs bd false W E2) as (net & ids & tids & pidx & tidx & M & LY & NP & NT & _ & HP & HT & L & I & S & _). { exists 0. apply PI. auto. }
  rewrite M in E3. inversion E3; subst. cbn [fst].
  split; [exact LY|]. destruct NP as (N1 & N2 & N3).
  assert (NUM : numbers n tname fuel = Ok (fun p => match index_of p (b_pnames bd) with Some i => nth i ids None | None => None end,
      fun t => match index_of (tname t None) (b_tnames bd) with Some i => nth i tids None | None => None end)).
  { unfold numbers. rewrite E1. cbn [bind]. rewrite E2. cbn [bind]. rewrite M. reflexivity. }
  do 2 eexists. exists pidx, (fun t => tidx (tname t None)). split; [exact NUM|].
  assert (THERE : forall t tr, nth_error (cn_trs n) t = Some tr -> is_trans cs (tname t None)).
  { intros t tr H. eapply plain_there; eauto. }
  split; [intros p Pp; apply PI in Pp; destruct (HP p Pp) as (i & -> & ->); reflexivity|].
  split; [intros t Lt; destruct (nth_error (cn_trs n) t) as [tr|] eqn:Et; [|apply nth_error_None in Et; lia]; destruct (HT _ (THERE t tr Et)) as (i & -> & ->); reflexivity|].
  assert (SPL : cn_places net = length (cn_pls n)).
  { apply Nat.le_antisymm.
    - assert (X : incl (seq 0 (cn_places net)) (map pidx (seq 0 (length (cn_pls n))))).
      { intros i Ii. apply in_seq in Ii. destruct (N3 i ltac:(lia)) as (x & Px & <-). apply in_map, in_seq. apply PI in Px. lia. }
      apply NoDup_incl_length in X; [|apply seq_NoDup]. rewrite map_length, !seq_length in X. auto.
    - assert (X : incl (map pidx (seq 0 (length (cn_pls n)))) (seq 0 (cn_places net))).
      { intros i Ii. apply in_map_iff in Ii. destruct Ii as (x & <- & Ix). apply in_seq in Ix. apply in_seq. split; [lia|]. apply N1, PI. lia. }
      apply NoDup_incl_length in X; [rewrite map_length, !seq_length in X; auto|].
      clear - N2 PI. assert (Y : forall l, NoDup l -> (forall x, In x l -> is_place cs x) -> NoDup (map pidx l)).
      { induction l as [|x l IH]; intros ND F; constructor; inversion ND; subst.
        - intros J. apply in_map_iff in J. destruct J as (y & Ey & J). apply N2 in Ey; [subst; auto|apply F; right; auto|apply F; left; auto].
        - apply IH; auto. intros. apply F. right. auto. }
      apply Y; [apply seq_NoDup|]. intros x Ix. apply PI. apply in_seq in Ix. lia. }
  split; [|split; [split|]].
  - split; auto. split; [intros; apply N1, PI; auto|]. intros; apply N2; auto; apply PI; auto.
  - split; auto. intros p Pp. rewrite I by (apply PI; auto). eapply init_tokens; eauto.
  - intros M0 t M' m [Lm Rm] (tr & b & TR & EN & F).
    assert (SC : exists u, is_trans cs u /\
      (forall p, in_of cs p u = amount n b (ct_in tr) p /\ out_of cs u p = amount n b (ct_out tr) p) /\
      (forall p w, In (CIn p u true w) cs -> In (p, t, w) (cn_inh n))) by (eapply step_calls; eauto; apply EN).
    destruct SC as (u & U1 & U2 & U3).
    assert (TS : forall p, (amount n b (ct_in tr) p <= total n M0 p)%N /\ total n M' p = (total n M0 p - amount n b (ct_in tr) p + amount n b (ct_out tr) p)%N)
      by (intros; eapply total_step; eauto).
    destruct (make_marking (is_place cs) (cn_places net) pidx (fun p => total n M' p)) as (m' & Lm' & Rm'); [repeat split; auto|].
    exists (tidx u), m'. split.
    + apply S; auto. split; auto. split.
      * intros p. split.
        { destruct (U2 p) as [-> _]. destruct (Nat.lt_ge_cases p (length (cn_pls n))) as [Lp|Lp].
          - rewrite Rm by auto. apply TS.
          - assert (Z : amount n b (ct_in tr) p = 0%N) by (eapply amount_out; eauto). rewrite Z. lia. }
        { intros w Iw. apply U3 in Iw. destruct OK as (_ & _ & _ & _ & IH). destruct (IH _ _ _ Iw) as [Lp _]. rewrite Rm by auto.
          destruct EN as (_ & _ & _ & EI). apply EI. auto. }
      * intros p Pp. rewrite Rm' by auto. destruct (U2 p) as [-> ->]. apply PI in Pp. rewrite Rm by auto. apply TS.
    + split; auto. intros p Pp. apply Rm'. apply PI. auto.
  - intros t M0 M' m [Lm Rm] (tr & b & Et & EN & F).
    assert (PC : is_trans cs (tname t None) /\ (forall p, (in_of cs p (tname t None) <= amount n b (ct_in tr) p)%N) /\
      (forall p w, In (CIn p (tname t None) true w) cs -> In (p, t, w) (cn_inh n))) by (eapply plain_calls; eauto; apply EN).
    destruct PC as (U1 & U2 & U3).
    assert (TS : forall p, (amount n b (ct_in tr) p <= total n M0 p)%N).
    { intros p. assert (X : (amount n b (ct_in tr) p <= total n M0 p)%N /\ total n M' p = (total n M0 p - amount n b (ct_in tr) p + amount n b (ct_out tr) p)%N)
      by (eapply total_step; eauto). apply X. }
    destruct (make_marking (is_place cs) (cn_places net) pidx (fun p => in_of cs p (tname t None))) as (low & Ll & Rl); [repeat split; auto|].
    destruct (make_marking (is_place cs) (cn_places net) pidx (fun p => out_of cs (tname t None) p)) as (low' & Ll' & Rl'); [repeat split; auto|].
    assert (LE : forall p, p < length (cn_pls n) -> (tokens low (pidx p) <= total n M0 p)%N).
    { intros p Pp. rewrite Rl by (apply PI; auto). specialize (U2 p). specialize (TS p). lia. }
    exists low, low'. split.
    + apply S; auto. split; auto. split.
      * intros p. split.
        { destruct (Nat.lt_ge_cases p (length (cn_pls n))) as [Lp|Lp]; [rewrite Rl by (apply PI; auto); lia|].
          assert (Z : amount n b (ct_in tr) p = 0%N) by (eapply amount_out; eauto). specialize (U2 p). rewrite Z in U2. lia. }
        { intros w Iw. apply U3 in Iw. destruct OK as (_ & _ & _ & _ & IH). destruct (IH _ _ _ Iw) as [Lp _]. destruct EN as (_ & _ & _ & EI). specialize (EI _ _ Iw). specialize (LE p Lp). lia. }
      * intros p Pp. rewrite Rl' by auto. rewrite Rl by auto. lia.
    + intros i. destruct (Nat.lt_ge_cases i (cn_places net)) as [Li|Li].
      * destruct (N3 i Li) as (p & Pp & <-). apply PI in Pp. rewrite Rm by auto. apply LE; auto.
      * unfold tokens. rewrite nth_overflow by lia. lia.
Qed.

Theorem ignorant_follows : forall n tname fuel net, cpn_ok n -> arcs_pos n -> 0 < length (cn_pls n) ->
  (forall t k t' k', tname t k = tname t' k' -> t = t' /\ k = k') ->
  ignorant_net n tname fuel = Ok net ->
  layout net /\ exists pidx, same_places n net pidx /\ follows n net pidx.
Proof.
  intros n tname fuel net OK AP NE Inj H. destruct (ignorant_full n tname fuel net OK AP NE Inj H) as (L & pnum & tnum & pidx & tidx & _ & _ & _ & P & F & _). eauto.
Qed.

Lemma ignorant_sorted : forall n tname fuel net, cpn_ok n -> arcs_pos n -> 0 < length (cn_pls n) ->
  (forall t k t' k', tname t k = tname t' k' -> t = t' /\ k = k') ->
  ignorant_net n tname fuel = Ok net -> sorted_arcs net.
Proof.
  intros n tname fuel net OK AP NE Inj H. unfold ignorant_net in H. binv H cs E1. binv H bd E2. binv H r E3. inversion H; subst. clear H.
  assert (PI : forall p, is_place cs p <-> p < length (cn_pls n)) by (intros; eapply places_iff; eauto).
  assert (W : weights_pos cs) by (eapply weights; eauto).
  destruct r as [[net ids] tids]. eapply (@builder_sorted cs bd false net ids tids W E2); auto. exists 0. apply PI. auto.
Qed.
