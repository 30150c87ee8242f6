(** The search of the explicit engine is exact (C37). *)
From Verif Require Import Base BaseLemmas ColSyntax ColSpec ColModel ColRadix ColEval ExpSyntax ExpSpec ExpModel ExpSet ExpCodec ExpArc ExpComp ExpGen ExpNet ExpEnc.
From Coq Require Import Permutation.

Lemma kquery_ind' : forall P : kquery -> Prop,
  (forall l, Forall P l -> P (KQAnd l)) -> (forall l, Forall P l -> P (KQOr l)) -> (forall x, P x -> P (KQNot x)) ->
  (forall l r, P (KQLt l r)) -> (forall l r, P (KQLe l r)) -> (forall l r, P (KQEq l r)) -> (forall l r, P (KQNe l r)) ->
  P KQDead -> (forall t, P (KQFire t)) -> forall q, P q.
Proof.
  intros P HA HO HN H1 H2 H3 H4 HD HF. fix IH 1. intros [l|l|x|l r|l r|l r|l r| |t];
    [apply HA; induction l; constructor; [apply IH|assumption]|apply HO; induction l; constructor; [apply IH|assumption]|apply HN; apply IH|..]; clear IH; auto.
Qed.

Section Search.
Variable n : cpn.
Hypothesis OK : cpn_ok n.
Hypothesis EO : exp_ok n.
Variable net : knet.
Hypothesis BUILD : build n = Ok net.
Notation PPn := (PP n OK net BUILD).
Notation VPn := (VP n EO net BUILD).
Notation TGn := (trans_good n OK EO net BUILD).

(** ** Queries *)

Lemma term_ok' : forall M Mc x z, krep n net M Mc -> term_ok x -> term_count M x = Ok z -> z = tval n Mc x /\ (0 <= z)%Z.
Proof.
  intros M Mc [k|p] z R T H; cbn [term_count tval term_ok] in *.
  - inversion H; subst. rewrite Z.mod_small by lia. lia.
  - binv H m E. apply rd_ok_inv in E. inversion H; subst.
    assert (L : p < length (cn_pls n)).
    { destruct (build_inv n net BUILD) as (_ & _ & BP & _). pose proof (@nth_error_lt _ _ _ _ E) as L. rewrite (proj1 (proj1 R)), BP, map_length in L. auto. }
    destruct (@nth_error_ex _ _ _ L) as [pl EP]. rewrite (krep_total n OK net BUILD _ _ _ _ _ R EP E). lia.
Qed.

Lemma can_fire_ok : forall M Mc t r, krep n net M Mc -> can_fire net M t = Ok r -> (r = true <-> exists M', cstep n Mc t M').
Proof.
  intros M Mc t r R H. unfold can_fire in H. binv H kt ET. apply rd_ok_inv in ET. binv H x EX. inversion H; subst. clear H.
  pose proof (find_next_ok net PPn VPn M kt 0 x (proj1 R) (TGn _ _ ET) (or_introl eq_refl) EX) as Q.
  destruct (of_trans n net BUILD _ _ ET) as (tr & E1 & E2). destruct (build_trans_ok n OK EO net BUILD _ _ _ E1 E2) as [CT TG].
  destruct x as [[k b]|].
  - split; auto. intros _. destruct Q as (_ & (BG & KE & _) & _).
    destruct (assign_ok n EO net BUILD _ _ _ _ CT BG) as [B A].
    eexists. exists tr, (assign_of (kt_vars kt) b). split; auto. split; [eapply enabled_iff; eauto|]. intros p v. apply eq_refl.
  - split; [discriminate|]. intros [Mc' S]. destruct (step_complete n OK EO net BUILD _ _ _ _ R S) as (kt' & b & ET' & BG & KE & _).
    assert (kt' = kt) by congruence. subst kt'. destruct Q as [_ Q]. exfalso. eapply Q; eauto.
Qed.

Lemma has_deadlock_ok : forall M Mc fuel tid r, krep n net M Mc -> has_deadlock net M fuel tid = Ok r ->
  (r = true <-> forall t, tid <= t < tid + fuel -> ~ exists M', cstep n Mc t M').
Proof.
  intros M Mc fuel. induction fuel as [|f IH]; intros tid r R H; cbn [has_deadlock] in H.
  - inversion H. split; auto. intros; lia.
  - binv H c E. pose proof (can_fire_ok _ _ _ _ R E) as Q. destruct c.
    + inversion H; subst. split; [discriminate|]. intros X. exfalso. apply (X tid); [lia|]. apply Q. auto.
    + rewrite (IH _ _ R H). split; intros X t L.
      * destruct (Nat.eq_dec t tid) as [->|]; [|apply X; lia]. intros S. apply Q in S. discriminate.
      * apply X. lia.
Qed.

Lemma query_eval_ok : forall q M Mc v, krep n net M Mc -> query_ok q -> query_eval net M q = Ok v -> (v = true <-> qholds n Mc q).
Proof.
  intros q M Mc v R. revert v. induction q as [l IH|l IH|x IH|l r|l r|l r|l r| |t] using kquery_ind'; intros v QO H.
  - cbn [query_eval qholds query_ok] in *. revert v H QO. induction IH as [|x l HX F IHl]; intros v H QO.
    + inversion H. tauto.
    + destruct QO as [Q1 Q2]. binv H w E. pose proof (HX _ Q1 E) as X. destruct w.
      * rewrite (IHl _ H Q2). tauto.
      * inversion H; subst. split; [discriminate|]. intros [A _]. apply X in A. discriminate.
  - cbn [query_eval qholds query_ok] in *. revert v H QO. induction IH as [|x l HX F IHl]; intros v H QO.
    + inversion H. split; [discriminate|tauto].
    + destruct QO as [Q1 Q2]. binv H w E. pose proof (HX _ Q1 E) as X. destruct w.
      * inversion H; subst. tauto.
      * rewrite (IHl _ H Q2). split; [tauto|]. intros [A|A]; auto. apply X in A. discriminate.
  - cbn [query_eval qholds query_ok] in *. binv H w E. pose proof (IH _ QO E) as X. inversion H; subst. destruct w; cbn [negb].
    + split; [discriminate|]. intros A. exfalso. apply A. apply X. auto.
    + split; auto. intros _ A. apply X in A. discriminate.
  - cbn [query_eval qholds query_ok] in *. destruct QO as [Q1 Q2]. binv H a E1. binv H b E2. inversion H; subst.
    destruct (term_ok' _ _ _ _ R Q1 E1) as [-> _]. destruct (term_ok' _ _ _ _ R Q2 E2) as [-> _]. apply Z.ltb_lt.
  - cbn [query_eval qholds query_ok] in *. destruct QO as [Q1 Q2]. binv H a E1. binv H b E2. inversion H; subst.
    destruct (term_ok' _ _ _ _ R Q1 E1) as [-> _]. destruct (term_ok' _ _ _ _ R Q2 E2) as [-> _]. apply Z.leb_le.
  - cbn [query_eval qholds query_ok] in *. destruct QO as [Q1 Q2]. binv H a E1. binv H b E2. inversion H; subst.
    destruct (term_ok' _ _ _ _ R Q1 E1) as [-> _]. destruct (term_ok' _ _ _ _ R Q2 E2) as [-> _]. apply Z.eqb_eq.
  - cbn [query_eval qholds query_ok] in *. destruct QO as [Q1 Q2]. binv H a E1. binv H b E2. inversion H; subst.
    destruct (term_ok' _ _ _ _ R Q1 E1) as [-> _]. destruct (term_ok' _ _ _ _ R Q2 E2) as [-> _].
    destruct (Z.eqb_spec (tval n Mc l) (tval n Mc r)); cbn; split; try discriminate; try congruence; auto.
  - cbn [query_eval qholds] in *. rewrite (has_deadlock_ok _ _ _ _ _ R H). cbn [plus]. split.
    + intros X (t & M' & S). apply (X t); [|eauto]. destruct (step_complete n OK EO net BUILD _ _ _ _ R S) as (kt & b & ET & _).
      pose proof (@nth_error_lt _ _ _ _ ET). lia.
    + intros X t _ [M' S]. apply X. eauto.
  - cbn [query_eval qholds] in *. eapply can_fire_ok; eauto.
Qed.

(** ** The state space *)

Definition sameM (M M2 : kmark) : Prop :=
  forall p m m2, nth_error M p = Some m -> nth_error M2 p = Some m2 -> forall c, ms_get m2 c = ms_get m c.

Lemma crun_app : forall M ts M' ts' M'', crun n M ts M' -> crun n M' ts' M'' -> crun n M (ts ++ ts') M''.
Proof. intros M ts M' ts' M'' H. revert ts' M''. induction H; intros; cbn; auto. econstructor; eauto. Qed.
Lemma creach_step : forall M t M', creach n M -> cstep n M t M' -> creach n M'.
Proof. intros M t M' [ts H] S. exists (ts ++ [t]). eapply crun_app; [exact H|]. econstructor; [exact S|constructor]. Qed.

Definition reachM (M : kmark) : Prop := exists Mc, creach n Mc /\ krep n net M Mc.

Lemma sizes32 : Forall (fun sizes => (N.of_nat (total_size sizes) < 4294967296)%N) (kn_places net).
Proof.
  apply Forall_forall. intros sizes I. apply In_nth_error in I. destruct I as [p E]. destruct (place_sizes n net BUILD _ _ E) as (pl & EP & ->).
  rewrite total_prod, (prod_sizes n OK _ _ EP). destruct (place_type n OK _ _ EP) as [d D].
  pose proof EO as EO1. destruct EO1 as (_ & S & _). specialize (S (cp_type pl)).
  pose proof (Permutation_length (enc_perm n (T n OK) (cp_type pl) d D)) as L. rewrite map_length, seq_length in L. lia.
Qed.

Section Loop.
Variable C : Type.
Variable gen : kmark -> C -> res (gout C).
Variable start : C.
Variable pick : nat -> nat.
Variable qt : quant.
Variable q : kquery.
Variable ginv : kmark -> C -> Prop.
Variable todo : kmark -> C -> nat -> binding -> Prop.
Hypothesis GS : forall M, mgood net M -> ginv M start /\ forall t b, t < length (kn_trans net) -> todo M start t b.
Hypothesis GN : forall M c r, mgood net M -> ginv M c -> gen M c = Ok r ->
    match r with
    | GDone _ => forall t tr b, nth_error (kn_trans net) t = Some tr -> bgood net tr b -> kenabled M tr b -> ~ todo M c t b
    | GSkip c' => ginv M c' /\
        forall t tr b, nth_error (kn_trans net) t = Some tr -> bgood net tr b -> kenabled M tr b -> todo M c t b -> todo M c' t b
    | GSucc c' M' t k => ginv M c' /\ exists tr b, nth_error (kn_trans net) t = Some tr /\ valid net M tr k b /\ find_next net M tr k = Ok (Some (k, b)) /\ kfire M tr b = Ok M' /\
        forall t1 tr1 b1, nth_error (kn_trans net) t1 = Some tr1 -> bgood net tr1 b1 -> kenabled M tr1 b1 -> todo M c t1 b1 ->
          todo M c' t1 b1 \/ (t1 = t /\ same_on (kt_vars tr) b1 b)
    end.

(** The path that the map gives for a state. *)
Inductive chain (map : smap) : nat -> kmark -> list (nat * nat) -> Prop :=
| ch0 : chain map 0 (kn_init net) []
| chS : forall pred id M M' l t kt k b, chain map pred M l -> pred < id -> find_step map id = Some (pred, t, k) ->
    nth_error (kn_trans net) t = Some kt -> valid net M kt k b -> find_next net M kt k = Ok (Some (k, b)) -> kfire M kt b = Ok M' ->
    chain map id (List.map ms_shrink M') (l ++ [(t, k)]).

Lemma find_step_fresh : forall map nx s id, id < nx -> find_step ((nx, s) :: map) id = find_step map id.
Proof. intros. cbn. destruct (Nat.eqb_spec nx id); [lia|auto]. Qed.
Lemma chain_add : forall map nx s id M l, chain map id M l -> id < nx -> chain ((nx, s) :: map) id M l.
Proof.
  intros map nx s id M l H. induction H; intros L; [constructor|]. eapply chS; eauto; [apply IHchain; lia|]. rewrite find_step_fresh; auto.
Qed.

(** The binding of [t] leads to a marking that was seen. *)
Definition followed (seen : list kmark) (M : kmark) (kt : ktrans) (b : binding) : Prop :=
  exists b' M' M2, same_on (kt_vars kt) b b' /\ kfire M kt b' = Ok M' /\ In M2 seen /\ mgood net M2 /\ sameM M' M2.

Definition notearly (M : kmark) : Prop := exists v, query_eval net M q = Ok v /\ early qt v = false.

Record linv (waiting : list (wstate C)) (passed : list (list N)) (full : bool) (nextid : nat) (map : smap) (seen : list kmark) : Prop := mkLI {
  li_passed : forall e, In e passed <-> In e (List.map (fun M => fst (encode net M)) seen);
  li_init : In (kn_init net) seen;
  li_seen : forall M, In M seen -> reachM M /\ notearly M;
  li_full : full = true -> forall M, In M seen -> snd (encode net M) = true;
  li_wait : forall id M c, In (id, M, c) waiting -> In M seen /\ ginv M c /\ id < nextid /\ exists l, chain map id M l;
  li_next : full = true -> forall M t kt b, In M seen -> nth_error (kn_trans net) t = Some kt -> bgood net kt b -> kenabled M kt b ->
    (exists id c, In (id, M, c) waiting /\ todo M c t b) \/ followed seen M kt b }.

Lemma mgood_reach : forall M, reachM M -> mgood net M.
Proof. intros M (Mc & _ & R). apply R. Qed.

Lemma in_passed_in : forall e l, in_passed e l = true <-> In e l.
Proof.
  intros e l. unfold in_passed. rewrite existsb_exists. split.
  - intros (x & I & E). destruct (list_eq_dec N.eq_dec e x); [subst; auto|discriminate].
  - intros I. exists e. split; auto. destruct (list_eq_dec N.eq_dec e e); auto.
Qed.

Lemma in_remove : forall {A} (l : list A) i x, In x (remove_at l i) -> In x l.
Proof. induction l as [|y l IH]; intros [|i] x H; cbn in *; auto. destruct H as [H|H]; eauto. Qed.
Lemma remove_in : forall {A} (l : list A) i x d, In x l -> In x (remove_at l i) \/ x = nth i l d.
Proof.
  induction l as [|y l IH]; intros i x d H; [contradiction|]. destruct i; cbn.
  - destruct H; auto.
  - destruct H as [->|H]; auto. destruct (IH i x d H); auto.
Qed.
Lemma in_upd : forall {A} (l : list A) i y x, In x (upd l i y) -> x = y \/ In x l.
Proof. induction l as [|z l IH]; intros [|i] y x H; cbn in *; auto. - destruct H; auto. - destruct H as [H|H]; auto. destruct (IH _ _ _ H); auto. Qed.
Lemma upd_in : forall {A} (l : list A) i y x d, In x l -> i < length l -> In x (upd l i y) \/ x = nth i l d.
Proof.
  induction l as [|z l IH]; intros i y x d H L; [contradiction|]. destruct i; cbn in *.
  - destruct H; auto.
  - destruct H as [->|H]; auto. destruct (IH i y x d H ltac:(lia)); auto.
Qed.
Lemma upd_in_new : forall {A} (l : list A) i y, i < length l -> In y (upd l i y).
Proof. induction l as [|z l IH]; intros [|i] y L; cbn in *; try lia; auto. right. apply IH. lia. Qed.

Definition closed (seen : list kmark) : Prop :=
  In (kn_init net) seen /\ (forall M, In M seen -> reachM M /\ notearly M) /\
  forall M t kt b, In M seen -> nth_error (kn_trans net) t = Some kt -> bgood net kt b -> kenabled M kt b -> followed seen M kt b.

Definition result_ok (r : sresult) : Prop :=
  match sr_id r with
  | Some id => exists M v l, chain (sr_map r) id M l /\ reachM M /\ query_eval net M q = Ok v /\ early qt v = true /\ sr_answer r = get_result qt true (sr_full r)
  | None => sr_answer r = get_result qt false (sr_full r) /\ (sr_full r = true -> exists seen, closed seen)
  end.

Lemma loop_ok : forall fuel waiting passed full nextid map seen r, linv waiting passed full nextid map seen ->
  search_loop net gen start pick qt q fuel waiting passed full nextid map = Ok r -> result_ok r.
Proof.
  induction fuel as [|f IH]; intros waiting passed full nextid map seen r LI H; cbn [search_loop] in H; [discriminate|].
  destruct waiting as [|w0 ws] eqn:EW.
  - inversion H; subst. unfold result_ok. cbn [sr_id sr_answer sr_full]. split; auto. intros ->. exists seen.
    split; [apply LI|]. split; [apply LI|]. intros M t kt b I ET BG KE.
    destruct (li_next _ _ _ _ _ _ LI eq_refl M t kt b I ET BG KE) as [(id & c & [] & _)|F]. auto.
  - rewrite <- EW in *. set (i := pick f mod length waiting) in *.
    assert (LI0 : i < length waiting) by (unfold i; apply Nat.mod_upper_bound; subst waiting; cbn; lia).
    destruct (nth i waiting w0) as [[id M] c] eqn:EN.
    assert (IW : In (id, M, c) waiting) by (rewrite <- EN; apply nth_In; auto).
    destruct (li_wait _ _ _ _ _ _ LI _ _ _ IW) as (IS & GI & IL & l & CH). destruct (li_seen _ _ _ _ _ _ LI _ IS) as [RM NE].
    pose proof (mgood_reach _ RM) as MG. binv H g EG. pose proof (GN _ _ _ MG GI EG) as GO. destruct g as [|c'|c' M' t k].
    + eapply IH; [|exact H]. constructor; try apply LI.
      * intros id' M' c' I. apply in_remove in I. eapply LI; eauto.
      * intros FU M' t kt b I ET BG KE. destruct (li_next _ _ _ _ _ _ LI FU M' t kt b I ET BG KE) as [(id' & c' & I' & TD)|F]; auto.
        destruct (remove_in waiting i _ w0 I') as [I2|E2]; [left; eauto|]. rewrite EN in E2. inversion E2; subst. exfalso. eapply GO; eauto.
    + destruct GO as [GI' GT]. eapply IH; [|exact H]. constructor; try apply LI.
      * intros id' M' c2 I. apply in_upd in I. destruct I as [E|I]; [|eapply LI; eauto]. inversion E; subst. eauto.
      * intros FU M' t kt b I ET BG KE. destruct (li_next _ _ _ _ _ _ LI FU M' t kt b I ET BG KE) as [(id' & c2 & I' & TD)|F]; auto.
        left. destruct (upd_in waiting i (id, M, c') _ w0 I' LI0) as [I2|E2]; [eauto|]. rewrite EN in E2. inversion E2; subst.
        exists id, c'. split; [apply upd_in_new; auto|eauto].
    + destruct GO as (GI' & kt & b & ET & V & FN & KF & GT). set (M1 := List.map ms_shrink M') in *.
      destruct RM as (Mc & RC & RR). destruct (step_sound n OK EO net BUILD _ _ _ _ _ _ _ RR ET V KF) as (Mc' & ST & RR').
      pose proof (krep_shrink n OK net BUILD _ _ RR') as R1. fold M1 in R1.
      assert (RM1 : reachM M1) by (exists Mc'; split; [eapply creach_step; eauto|auto]).
      pose proof (mgood_reach _ RM1) as MG1.
      assert (SH : sameM M' M1).
      { intros p m m1 E1 E2 c0. unfold M1 in E2. rewrite nth_error_map, E1 in E2. cbn in E2. inversion E2; subst.
        destruct (@nth_error_len _ _ M' (kn_places net) p m (proj1 (proj1 RR')) E1) as [sizes ES].
        destruct (proj2 (proj1 RR') _ _ _ E1 ES) as [W _]. apply (proj1 (proj2 (shrink_ok _ _ W))). }
      destruct (encode net M1) as [e ok] eqn:EE.
      assert (NX : forall seen', incl seen seen' -> (exists M2, In M2 seen' /\ mgood net M2 /\ sameM M' M2) -> full = true ->
        forall M3 t3 kt3 b3, In M3 seen -> nth_error (kn_trans net) t3 = Some kt3 -> bgood net kt3 b3 -> kenabled M3 kt3 b3 ->
         (exists id3 c3, In (id3, M3, c3) (upd waiting i (id, M, c')) /\ todo M3 c3 t3 b3) \/ followed seen' M3 kt3 b3).
      { intros seen' INC (M2 & I2 & MG2 & SM) FU M3 t3 kt3 b3 I3 ET3 BG3 KE3.
        destruct (li_next _ _ _ _ _ _ LI FU M3 t3 kt3 b3 I3 ET3 BG3 KE3) as [(id' & c2 & I' & TD)|(b' & Mx & My & F1 & F2 & F3 & F4 & F5)].
        - destruct (upd_in waiting i (id, M, c') _ w0 I' LI0) as [I4|E4]; [left; eauto|]. rewrite EN in E4. inversion E4; subst id' M3 c2.
          destruct (GT _ _ _ ET3 BG3 KE3 TD) as [TD'|[-> SB]].
          + left. exists id, c'. split; [apply upd_in_new; auto|auto].
          + right. assert (kt3 = kt) by congruence. subst kt3. exists b, M', M2. auto 6.
        - right. exists b', Mx, My. auto 7. }
      destruct (in_passed e passed) eqn:EP.
      * eapply IH with (seen := seen); [|exact H]. apply in_passed_in in EP. apply (li_passed _ _ _ _ _ _ LI) in EP.
        apply in_map_iff in EP. destruct EP as (M2 & E2 & I2). constructor; try apply LI.
        -- intros FU. apply andb_true_iff in FU. destruct FU as [FU _]. apply LI. auto.
        -- intros id' M3 c2 I. apply in_upd in I. destruct I as [E|I].
           ++ inversion E; subst. split; [auto|]. split; [auto|]. split; [lia|eauto].
           ++ destruct (li_wait _ _ _ _ _ _ LI _ _ _ I) as (A1 & A2 & A3 & A4). split; [auto|]. split; [auto|]. split; [lia|auto].
        -- intros FU. apply andb_true_iff in FU. destruct FU as [FU ->]. apply NX; auto; [apply incl_refl|].
           pose proof (mgood_reach _ (proj1 (li_seen _ _ _ _ _ _ LI _ I2))) as MG2. exists M2. split; auto. split; auto.
           pose proof (li_full _ _ _ _ _ _ LI FU _ I2) as OK2. intros p m m2 E1' E2' c0.
           destruct (@nth_error_len _ _ M' M1 p m) with (2 := E1') as [m1 EM1]; [unfold M1; rewrite map_length; auto|].
           rewrite <- (SH _ _ _ E1' EM1 c0).
           assert (EE2 : encode net M2 = (e, true)) by (destruct (encode net M2); cbn in *; congruence).
           apply (encode_inj net sizes32 M1 M2 e true MG1 MG2 EE EE2 eq_refl p m1 m2 EM1 E2').
      * binv H v EVQ. destruct (early qt v) eqn:EA.
        -- inversion H; subst. unfold result_ok. cbn [sr_id sr_map sr_answer sr_full]. exists M1, v, (l ++ [(t, k)]). split; [|auto].
           unfold M1. eapply chS with (pred := id) (kt := kt) (b := b); eauto; [apply chain_add; auto|]. cbn. rewrite Nat.eqb_refl. reflexivity.
        -- eapply IH with (seen := M1 :: seen); [|exact H]. constructor.
           ++ intros x. cbn [List.map]. rewrite EE. cbn [fst In]. rewrite (li_passed _ _ _ _ _ _ LI). tauto.
           ++ right. apply LI.
           ++ intros M3 [<-|I]; [|apply LI; auto]. split; auto. exists v. auto.
           ++ intros FU M3 I. apply andb_true_iff in FU. destruct FU as [FU OKE]. destruct I as [<-|I]; [rewrite EE; auto|]. eapply LI; eauto.
           ++ intros id' M3 c2 I. apply in_app_iff in I. destruct I as [I|[E|[]]].
              ** apply in_upd in I. destruct I as [E|I].
                 --- inversion E; subst. split; [right; auto|]. split; [auto|]. split; [lia|]. exists l. apply chain_add; auto.
                 --- destruct (li_wait _ _ _ _ _ _ LI _ _ _ I) as (A1 & A2 & A3 & l4 & A4). split; [right; auto|]. split; [auto|]. split; [lia|].
                     exists l4. apply chain_add; auto.
              ** inversion E; subst. split; [left; auto|]. split; [apply GS; auto|]. split; [lia|]. exists (l ++ [(t, k)]).
                 unfold M1. eapply chS with (pred := id) (kt := kt) (b := b); eauto; [apply chain_add; auto|]. cbn. rewrite Nat.eqb_refl. reflexivity.
           ++ intros FU M3 t3 kt3 b3 I ET3 BG3 KE3. apply andb_true_iff in FU. destruct FU as [FU OKE].
              destruct I as [<-|I].
              ** left. exists nextid, start. split; [apply in_app_iff; right; left; auto|]. apply GS; auto. eapply nth_error_lt; eauto.
              ** destruct (NX (M1 :: seen) (incl_tl _ (incl_refl _)) (ex_intro _ M1 (conj (or_introl eq_refl) (conj MG1 SH))) FU M3 t3 kt3 b3 I ET3 BG3 KE3)
                   as [(id3 & c3 & I3 & TD)|F]; auto.
                 left. exists id3, c3. split; auto. apply in_app_iff. auto.
Qed.

Lemma search_ok : forall fuel r, search net gen start pick qt q fuel = Ok r -> result_ok r.
Proof.
  intros fuel r H. unfold search in H. destruct (encode net (kn_init net)) as [e full] eqn:EE. binv H v EVQ.
  pose proof (init_rep n OK net BUILD) as R0.
  assert (RM : reachM (kn_init net)) by (exists (cinit n); split; [exists []; constructor|auto]).
  destruct (early qt v) eqn:EA.
  - inversion H; subst. unfold result_ok. cbn [sr_id sr_map sr_answer sr_full]. exists (kn_init net), v, []. split; [constructor|auto].
  - assert (NE : notearly (kn_init net)) by (exists v; auto).
    destruct (Nat.eqb_spec (length (kn_trans net)) 0) as [L0|NZ].
    + inversion H; subst. unfold result_ok. cbn [sr_id sr_answer sr_full]. split; auto. intros _. exists [kn_init net].
      split; [left; auto|]. split; [intros M [<-|[]]; auto|]. intros M t kt b _ ET. pose proof (@nth_error_lt _ _ _ _ ET). lia.
    + eapply loop_ok with (seen := [kn_init net]); [|exact H]. pose proof (mgood_reach _ RM) as MG. constructor.
      * intros x. cbn [List.map]. rewrite EE. cbn. tauto.
      * left. auto.
      * intros M [<-|[]]. auto.
      * intros -> M [<-|[]]. rewrite EE. auto.
      * intros id M c [E|[]]. inversion E; subst. split; [left; auto|]. split; [apply GS; auto|]. split; [lia|]. exists []. constructor.
      * intros _ M t kt b [<-|[]] ET BG KE. left. exists 0, start. split; [left; auto|]. apply GS; auto. eapply nth_error_lt; eauto.
Qed.

Lemma closed_reach : forall seen, closed seen -> forall Mc, creach n Mc -> exists M, In M seen /\ krep n net M Mc.
Proof.
  intros seen (CI & CS & CF) Mc [ts H].
  assert (G : forall M0 ts Mc, crun n M0 ts Mc -> (exists M, In M seen /\ krep n net M M0) -> exists M, In M seen /\ krep n net M Mc).
  { clear Mc ts H. intros M0 ts Mc H. induction H as [|M0 t M' ts M'' S H IH]; auto. intros (M & I & R). apply IH.
    destruct (step_complete n OK EO net BUILD _ _ _ _ R S) as (kt & b & ET & BG & KE & F).
    destruct (CF M t kt b I ET BG KE) as (b' & Mx & M2 & F1 & F2 & F3 & F4 & F5). exists M2. split; auto.
    eapply krep_same; eauto. }
  apply (G _ _ _ H). exists (kn_init net). split; auto. apply init_rep; auto.
Qed.

Lemma answer_ok : forall r, query_ok q -> result_ok r -> (sr_full r = true \/ sr_id r <> None) ->
  (sr_answer r = true <-> holds n qt q).
Proof.
  intros r QO RO F. unfold result_ok in RO. destruct (sr_id r) as [id|].
  - destruct RO as (M & v & l & _ & (Mc & RC & R) & EVQ & EA & ->). pose proof (query_eval_ok _ _ _ _ R QO EVQ) as Q.
    unfold get_result, early, holds in *. cbn [negb andb]. destruct qt.
    + destruct v; [|discriminate]. split; auto. intros _. exists Mc. split; auto. apply Q. auto.
    + destruct v; [discriminate|]. split; [discriminate|]. intros X. apply Q. apply X. auto.
  - destruct F as [F|F]; [|congruence]. destruct RO as [-> CL]. destruct (CL F) as [seen CS]. rewrite F. unfold get_result, holds. cbn [negb andb].
    assert (NO : forall Mc, creach n Mc -> exists v, early qt v = false /\ (v = true <-> qholds n Mc q)).
    { intros Mc RC. destruct (closed_reach _ CS Mc RC) as (M & I & R). destruct CS as (_ & CS & _). destruct (CS _ I) as [_ (v & EVQ & EA)].
      exists v. split; auto. eapply query_eval_ok; eauto. }
    unfold early in NO. destruct qt.
    + split; [discriminate|]. intros (Mc & RC & QH). destruct (NO _ RC) as (v & EA & Q). apply Q in QH. subst v. discriminate.
    + split; auto. intros _ Mc RC. destruct (NO _ RC) as (v & EA & Q). apply Q. destruct v; auto; discriminate.
Qed.
End Loop.
End Search.
