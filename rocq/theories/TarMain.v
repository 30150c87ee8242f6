(** The answers of trace abstraction refinement. *)
From Verif Require Import Base BaseLemmas NetSpec NetModel NetProofs PqlSyntax PqlSpec PqlModel PqlProofs RangeSpec RangeModel RangeProofs StubModel StubMain StubProofs StubTheory
  QueryModel TarModel TarSpec TarVec TarSem TarRc TarAut TarHoare TarCheck TarFree TarRun.

Lemma upds_mark : forall (A : Type) (f : A -> nat) l u n, nth n (fold_left (fun u x => Base.upd u (f x) true) l u) false = true ->
  nth n u false = true \/ exists x, In x l /\ f x = n.
Proof.
  intros A f. induction l as [|x l IH]; intros u n H; cbn [fold_left] in H; [auto|]. destruct (IH _ _ H) as [B|(y & B & C)]; [|right; exists y; split; [right; exact B|exact C]].
  destruct (Nat.eq_dec (f x) n) as [E|E]; [right; exists x; split; [left; reflexivity|exact E]|]. left. rewrite nth_upd_neq in B by auto. exact B.
Qed.
Lemma upds_keep : forall (A : Type) (f : A -> nat) l u n, nth n u false = true -> nth n (fold_left (fun u x => Base.upd u (f x) true) l u) false = true.
Proof.
  intros A f. induction l as [|x l IH]; intros u n H; cbn [fold_left]; [exact H|]. apply IH. destruct (Nat.eq_dec (f x) n) as [E|E]; [|rewrite nth_upd_neq by auto; exact H].
  rewrite E. rewrite nth_upd_eq; [reflexivity|]. destruct (Nat.le_gt_cases (length u) n) as [B|B]; [rewrite nth_overflow in H by exact B; discriminate|exact B].
Qed.
Lemma upds_len : forall (A : Type) (f : A -> nat) l u, length (fold_left (fun u x => Base.upd u (f x) true) l u) = length u.
Proof. intros A f. induction l as [|x l IH]; intros u; cbn [fold_left]; [reflexivity|]. rewrite IH. apply upd_length. Qed.
Lemma upds_set : forall (A : Type) (f : A -> nat) l u x, In x l -> f x < length u -> nth (f x) (fold_left (fun u x => Base.upd u (f x) true) l u) false = true.
Proof.
  intros A f. induction l as [|y l IH]; intros u x I H; cbn [fold_left]; [destruct I|]. destruct I as [->|I]; [|apply IH; [exact I|rewrite upd_length; exact H]].
  apply upds_keep. rewrite nth_upd_eq; [reflexivity|exact H].
Qed.

Lemma nth_map_seq : forall (f : nat -> N) n p, p < n -> nth p (map f (seq 0 n)) 0%N = f p.
Proof. intros f n p H. rewrite (nth_indep _ 0%N (f 0)) by (rewrite map_length, seq_length; exact H). rewrite map_nth, seq_nth by exact H. reflexivity. Qed.

Section Use.
  Variable net : cnet.
  Hypothesis L : layout net.
  Hypothesis P0 : 0 < cn_places net.
  Hypothesis NI : has_inhib net = false.
  Notation P := (to_pnet net).
  Notation np := (cn_places net).
  Notation nt := (cn_ntrans net).
  Notation pre := (in_slice net).
  Notation post := (out_slice net).
  Variable inq : list bool.
  (** the presets of the transitions in use are in use, and so are the places of the query *)
  Record in_use (ut up : list bool) : Prop := {
    us_len : length ut = S nt;
    us_plen : length up = np;
    us_zero : nth 0 ut false = true;
    us_inq : forall p, nth p inq false = true -> nth p up false = true;
    us_pre : forall t iv, t < nt -> nth (S t) ut false = true -> In iv (pre t) -> nth (iv_place iv) up false = true }.
  Definition marks (new : list nat) (up : list bool) : list bool :=
    fold_left (fun u t => fold_left (fun u iv => Base.upd u (iv_place iv) true) (pre t) u) new up.
  Lemma marks_keep : forall new up p, nth p up false = true -> nth p (marks new up) false = true.
  Proof. unfold marks. induction new as [|t new IH]; intros up p H; cbn [fold_left]; [exact H|]. apply IH. apply (upds_keep invariant iv_place). exact H. Qed.
  Lemma marks_len : forall new up, length (marks new up) = length up.
  Proof. unfold marks. induction new as [|t new IH]; intros up; cbn [fold_left]; [reflexivity|]. rewrite IH. apply (upds_len invariant iv_place). Qed.
  Lemma marks_set : forall new up t iv, In t new -> In iv (pre t) -> iv_place iv < length up -> nth (iv_place iv) (marks new up) false = true.
  Proof.
    induction new as [|s new IH]; intros up t iv I J H; [destruct I|]. unfold marks. cbn [fold_left]. destruct I as [->|I].
    - apply marks_keep. apply (upds_set invariant iv_place); assumption.
    - apply (IH _ t); [exact I|exact J|]. rewrite (upds_len invariant iv_place). exact H.
  Qed.
  Lemma update_in_use : forall ut up ut' up' b, in_use ut up -> update_use net ut up = (ut', up', b) ->
    in_use ut' up' /\ (b = false -> ut' = ut /\ up' = up /\ forall t, t < nt -> nth (S t) ut false = false -> touches net up t = false).
  Proof.
    intros ut up ut' up' b U E. unfold update_use in E. set (new := filter _ (seq 0 nt)) in E. injection E as <- <- Eb. fold (marks new up). split.
    - constructor.
      + rewrite (upds_len nat S). apply U.
      + rewrite marks_len. apply U.
      + apply (upds_keep nat S). apply U.
      + intros p H. apply marks_keep. apply U. exact H.
      + intros t iv Ht H J. apply (upds_mark nat S) in H. destruct H as [H|(t' & I & Et)].
        * apply marks_keep. eapply us_pre; eassumption.
        * injection Et as ->. eapply marks_set; [exact I|exact J|]. rewrite (us_plen _ _ U). exact (pre_place net L t iv Ht J).
    - intros ->. destruct new as [|t0 l0] eqn:En; [|discriminate]. cbn [fold_left]. split; [reflexivity|]. split; [reflexivity|]. intros t Ht Hu.
      destruct (touches net up t) eqn:Et; [|reflexivity]. exfalso. assert (X : In t new); [|rewrite En in X; destruct X].
      unfold new. apply filter_In. split; [apply in_seq; lia|]. rewrite Hu, Et. reflexivity.
  Qed.
  (** leaving out the unused transitions *)
  Definition agree (up : list bool) (m m1 : marking) : Prop := forall p, nth p up false = true -> tokens m p = tokens m1 p.
  Lemma project : forall ut up, in_use ut up -> (forall t, t < nt -> nth (S t) ut false = false -> touches net up t = false) ->
    forall m0 w m, run P m0 w m -> length m0 = np -> forall m1, length m1 = np -> agree up m0 m1 ->
    exists w' m', run P m1 w' m' /\ (forall t, In t w' -> nth (S t) ut false = true) /\ length m' = np /\ length m = np /\ agree up m m'.
  Proof.
    intros ut up U F m0 w m Ru. induction Ru as [m|m t m2 w m3 St Ru IH]; intros L0 m1 L1 A.
    - exists [], m1. split; [constructor|]. split; [intros t []|]. auto.
    - destruct (step_ft net L P0 NI m t m2 St L0) as (Ht & L2 & En & Ef). destruct (nth (S t) ut false) eqn:Eu.
      + set (m1' := map (fun p => (tokens m1 p - first_tokens (pre t) p + first_tokens (post t) p)%N) (seq 0 np)).
        assert (Out : forall p, np <= p -> first_tokens (pre t) p = 0%N /\ first_tokens (post t) p = 0%N).
        { intros p Hp. split; apply ft_out; intros I; apply in_map_iff in I; destruct I as (iv & <- & J); [pose proof (pre_place net L t iv Ht J)|pose proof (post_place net L t iv Ht J)]; lia. }
        assert (Tk : forall p, tokens m1' p = (tokens m1 p - first_tokens (pre t) p + first_tokens (post t) p)%N).
        { intros p. unfold tokens at 1, m1'. destruct (Nat.lt_ge_cases p np) as [Hp|Hp].
          - apply nth_map_seq. exact Hp.
          - rewrite nth_overflow by (rewrite map_length, seq_length; exact Hp). destruct (Out p Hp) as (X & Y). rewrite X, Y. unfold tokens. rewrite nth_overflow by lia. reflexivity. }
        assert (L1' : length m1' = np) by (unfold m1'; rewrite map_length; apply seq_length).
        assert (St1 : step P m1 t m1').
        { apply (step_mk net L P0 NI m1 t m1' Ht L1 L1'); [|exact Tk]. intros p. destruct (in_dec Nat.eq_dec p (map iv_place (pre t))) as [I|I].
          - apply in_map_iff in I. destruct I as (iv & Ep & J). rewrite <- (A p); [apply En|]. rewrite <- Ep. eapply us_pre; eassumption.
          - rewrite ft_out by exact I. lia. }
        destruct (IH L2 m1' L1') as (w' & m' & Ru' & Uw & A' & B' & C').
        { intros p Hp. rewrite Ef, Tk, (A p Hp). reflexivity. }
        exists (t :: w'), m'. split; [econstructor; eassumption|]. split; [|auto]. intros t' [<-|I]; [exact Eu|apply Uw; exact I].
      + specialize (F t Ht Eu). apply IH; [exact L2|exact L1|]. intros p Hp. rewrite Ef, !ft_out; [rewrite <- (A p Hp); lia| |].
        * intros I. apply in_map_iff in I. destruct I as (iv & Ep & J). assert (X : touches net up t = true); [|congruence]. apply existsb_exists. exists iv. split; [apply in_app_iff; right; exact J|rewrite Ep; exact Hp].
        * intros I. apply in_map_iff in I. destruct I as (iv & Ep & J). assert (X : touches net up t = true); [|congruence]. apply existsb_exists. exists iv. split; [apply in_app_iff; left; exact J|rewrite Ep; exact Hp].
  Qed.
End Use.

(** ** The value of a separate query *)
Lemma marking_eq : forall (m m' : marking), length m = length m' -> (forall p, tokens m p = tokens m' p) -> m = m'.
Proof. intros m m' H E. apply (nth_ext m m' 0%N 0%N H). intros n _. apply E. Qed.
Lemma hm_agree : forall P c m m', separate c -> ~ mentions_dead c -> (forall p, In p (compared c) -> tokens m p = tokens m' p) -> (hm P m c <-> hm P m' c).
Proof.
  intros P c m m'. unfold hm. induction c using cond_ind'; cbn [separate mentions_dead compared holds]; try tauto.
  - intros (Sl & _) Nd A. rewrite fr_and in Sl. rewrite fr_or in Nd. rewrite !fr_and. rewrite Forall_forall in H.
    assert (X : forall x, In x l -> holds P (fun _ => m) x <-> holds P (fun _ => m') x).
    { intros x I. apply (H x I (Sl x I)); [intros Y; apply Nd; exists x; auto|]. intros p Ip. apply A. apply in_flat_map. exists x. auto. }
    split; intros G x I; apply (X x I); apply G; exact I.
  - intros (Sl & _) Nd A. rewrite fr_and in Sl. rewrite fr_or in Nd. rewrite !fr_or. rewrite Forall_forall in H.
    assert (X : forall x, In x l -> holds P (fun _ => m) x <-> holds P (fun _ => m') x).
    { intros x I. apply (H x I (Sl x I)); [intros Y; apply Nd; exists x; auto|]. intros p Ip. apply A. apply in_flat_map. exists x. auto. }
    split; intros (x & I & G); exists x; (split; [exact I|]); apply (X x I); exact G.
  - intros _ _ A.
    assert (X : forall x, In x cs -> tokens m (c_place x) = tokens m' (c_place x)) by (intros x I; apply A; apply in_map; exact I).
    assert (Y : Forall (cons_holds m) cs <-> Forall (cons_holds m') cs).
    { rewrite !Forall_forall. split; intros F x I; specialize (F x I); unfold cons_holds in *; specialize (X x I); rewrite X in *; exact F. }
    match goal with |- context [CConj ?b _] => destruct b | |- context [if ?b then _ else _] => destruct b | b : bool |- _ => destruct b end; cbn [holds]; tauto.
Qed.

Section Main.
  Variable net : cnet.
  Hypothesis L : layout net.
  Hypothesis P0 : 0 < cn_places net.
  Hypothesis D : dirs_ok net.
  Hypothesis So : sorted_arcs net.
  Hypothesis NI : has_inhib net = false.
  Notation P := (to_pnet net).
  Notation np := (cn_places net).
  Notation nt := (cn_ntrans net).
  Notation pre := (in_slice net).
  Notation post := (out_slice net).
  Notation ev := (evaluate (net_deadb net)).
  Hypothesis W32 : forall t iv, t < nt -> In iv (pre t) \/ In iv (post t) -> (iv_tokens iv <= u32max)%N.
  Hypothesis Li : length (cn_init net) = np.
  Variable q : cond.
  Hypothesis Sq : separate q.
  Hypothesis Kq : forall p, In p (compared q) -> p < np.
  Notation inq := (in_query net q).
  Notation Q := (fun m => hm P m q).
  Lemma in_query_at : forall p, p < np -> nth p inq false = has_dead q || existsb (Nat.eqb p) (cond_places q).
  Proof.
    intros p H. unfold in_query. set (f := fun p => has_dead q || existsb (Nat.eqb p) (cond_places q)). rewrite (nth_indep _ false (f 0)) by (rewrite map_length, seq_length; exact H).
    rewrite map_nth, seq_nth by exact H. reflexivity.
  Qed.
  Lemma in_query_known : known_places net inq q.
  Proof.
    split.
    - intros p I. split; [apply Kq; exact I|]. rewrite in_query_at by (apply Kq; exact I). rewrite (cps_places q Sq). apply orb_true_iff. right. apply existsb_exists. exists p. split; [exact I|apply Nat.eqb_refl].
    - intros M p Hp. rewrite in_query_at by exact Hp. apply dead_mention in M. rewrite M. reflexivity.
  Qed.
  Definition Sat : Prop := exists m, reachable P (cn_init net) m /\ length m = np /\ ev m q = RTrue.
  Variable R : marking -> Prop.
  Hypothesis Rstep : forall m t m', R m -> step P m t m' -> R m'.
  Hypothesis Rlen : forall m, R m -> length m = np.
  Hypothesis Rfit : forall m, R m -> fits m.
  Hypothesis Rnz : forall m, R m -> exists p, p < np /\ tokens m p <> 0%N.
  Notation good := (good net R Q).
  Lemma ck_ok : forall T, good T -> forall tr b T', trace_ok net tr -> check net q inq tr T = Ok (b, T') -> good T' /\ (b = true -> Sat).
  Proof.
    intros T G tr b T' Tr C. apply (check_ok net L P0 D So NI W32 Li q inq Sq in_query_known R Rstep Rlen Rfit Rnz) with (tr := tr) (T := T); try assumption.
    intros tr' i. apply (find_free_ok net L P0 NI W32 q inq Sq (proj1 in_query_known) R Rstep Rlen Rfit).
  Qed.
  Lemma try_ok : forall rnd fuel steps T ut up k b, good T -> in_use net inq ut up -> try_loop net q inq rnd fuel steps T ut up k = Ok b ->
    (b = true -> Sat) /\ (b = false -> R (cn_init net) -> forall m, reachable P (cn_init net) m -> ~ Q m).
  Proof.
    intros rnd. induction fuel as [|fuel IH]; intros steps T ut up k b G U E; cbn [try_loop] in E; [discriminate|].
    unfold bind in E. destruct (run_tar net q inq rnd ut steps T k) as [[[[fin sat] T'] k']| | |] eqn:Er; try discriminate.
    destruct (run_tar_ok net P0 q inq R Q T G ut rnd Sat (ck_ok T G) steps k fin sat T' k' Er) as (G' & A & B).
    destruct fin; [|eapply IH; eassumption]. destruct sat; [injection E as <-; split; [intros _; apply A; reflexivity|discriminate]|].
    destruct (update_use net ut up) as [[ut' up'] more] eqn:Eu. destruct (update_in_use net L P0 inq ut up ut' up' more U Eu) as (U' & F).
    destruct more; [eapply IH; eassumption|]. injection E as <-. split; [discriminate|]. intros _ Ri m (w & Ru) Hm.
    destruct (F eq_refl) as (_ & _ & Tc). destruct (B eq_refl eq_refl) as (H & Hr).
    destruct (project net L P0 NI inq ut up U Tc _ w m Ru Li (cn_init net) Li) as (w' & m' & Ru' & Uw & L1 & L2 & Ag); [intros p _; reflexivity|].
    apply (ran_safe net L P0 NI R Rstep Rlen Rnz Q T G ut H _ Hr (us_zero _ _ _ _ U) _ w' m' Ru' Uw Ri).
    - exists (maximize T (ts_init T)). split; [apply Hr|]. apply (maximize_ok net R Q); [exact G|]. exact (g_init net R Q T G).
    - destruct (has_dead q) eqn:Dd.
      + replace m' with m; [exact Hm|]. apply marking_eq; [congruence|]. intros p. destruct (Nat.lt_ge_cases p np) as [Hp|Hp].
        * apply Ag. apply (us_inq _ _ _ _ U). rewrite in_query_at by exact Hp. rewrite Dd. reflexivity.
        * unfold tokens. rewrite !nth_overflow by lia. reflexivity.
      + apply (hm_agree P q m m' Sq); [intros X; apply dead_mention in X; congruence| |exact Hm]. intros p I. apply Ag. apply (us_inq _ _ _ _ U). exact (proj2 (proj1 in_query_known p I)).
  Qed.
  Lemma start_in_use : in_use net inq (true :: repeat false nt) inq.
  Proof.
    constructor.
    - cbn [length]. rewrite repeat_length. reflexivity.
    - unfold in_query. rewrite map_length. apply seq_length.
    - reflexivity.
    - auto.
    - intros t iv Ht H. exfalso. cbn [nth] in H. rewrite nth_repeat in H. discriminate.
  Qed.
  Lemma tar_ok : forall rnd fuel steps b, tar net q rnd fuel steps = Ok b ->
    (b = true -> Sat) /\ (b = false -> R (cn_init net) -> forall m, reachable P (cn_init net) m -> ~ Q m).
  Proof.
    intros rnd fuel steps b E. unfold tar in E. rewrite NI in E.
    assert (X : try_reach net q inq rnd fuel steps = Ok b -> (b = true -> Sat) /\ (b = false -> R (cn_init net) -> forall m, reachable P (cn_init net) m -> ~ Q m)).
    { intros H. unfold try_reach in H. destruct (update_use net (true :: repeat false nt) inq) as [[ut up] more] eqn:Eu.
      destruct (update_in_use net L P0 inq _ _ ut up more start_in_use Eu) as (U & _). eapply try_ok; [exact (good_new net P0 R Rlen Rnz Q)|exact U|exact H]. }
    destruct (ev (cn_init net) q) eqn:Ei; [|exact (X E)|exact (X E)]. injection E as <-. split; [|discriminate]. intros _.
    exists (cn_init net). split; [exists []; constructor|]. auto.
  Qed.
End Main.

(** ** Statements *)
Section Answers.
  Variable net : cnet.
  Hypothesis L : layout net.
  Hypothesis P0 : 0 < cn_places net.
  Hypothesis D : dirs_ok net.
  Hypothesis So : sorted_arcs net.
  Hypothesis NI : has_inhib net = false.
  Hypothesis W32 : forall t a, t < cn_ntrans net -> In a (tr_pre (net_trans net t)) \/ In a (tr_post (net_trans net t)) -> (arc_weight a <= u32max)%N.
  Hypothesis Li : length (cn_init net) = cn_places net.
  Hypothesis Fit : forall m, reachable (to_pnet net) (cn_init net) m -> forall p, (tokens m p <= u32max)%N.
  Variable q : cond.
  Hypothesis Sq : separate q.
  Hypothesis Kq : forall p, In p (compared q) -> p < cn_places net.
  Lemma W32' : forall t iv, t < cn_ntrans net -> In iv (in_slice net t) \/ In iv (out_slice net t) -> (iv_tokens iv <= u32max)%N.
  Proof.
    intros t iv Ht [I|I]; [apply (W32 t (inv_arc iv) Ht); left|apply (W32 t (out_arc_of iv) Ht); right]; unfold net_trans; cbn [tr_pre tr_post]; apply in_map; exact I.
  Qed.
  Lemma reach_len : forall m, reachable (to_pnet net) (cn_init net) m -> length m = cn_places net.
  Proof. intros m (w & Ru). rewrite (@StubTheory.run_length _ _ _ _ Ru). exact Li. Qed.
  Lemma tar_yes : forall rnd fuel steps, tar net q rnd fuel steps = Ok true -> exists m, reachable (to_pnet net) (cn_init net) m /\ sat (to_pnet net) m q.
  Proof.
    intros rnd fuel steps E.
    destruct (tar_ok net L P0 D So NI W32' Li q Sq Kq (fun _ => False)) with (rnd := rnd) (fuel := fuel) (steps := steps) (b := true) as (A & _); try tauto.
    destruct (A eq_refl) as (m & Rm & Lm & Ev). exists m. split; [exact Rm|]. intros pi M Ep.
    assert (F : fits m) by (exact (Fit m Rm)).
    pose proof (@evaluate_sound (to_pnet net) (net_deadb net) m F (deadb_spec net L P0 m Lm) q pi M Ep) as X. rewrite Ev in X. exact X.
  Qed.
  Lemma tar_no : (forall m, reachable (to_pnet net) (cn_init net) m -> exists p, tokens m p <> 0%N) ->
    forall rnd fuel steps, tar net q rnd fuel steps = Ok false -> forall m, reachable (to_pnet net) (cn_init net) m -> ~ sat (to_pnet net) m q.
  Proof.
    intros Nz rnd fuel steps E m Rm Sm.
    destruct (tar_ok net L P0 D So NI W32' Li q Sq Kq (reachable (to_pnet net) (cn_init net))) with (rnd := rnd) (fuel := fuel) (steps := steps) (b := false) as (_ & B).
    - intros a t b (w & Ra) St. exists (w ++ [t]). eapply run_snoc; eassumption.
    - exact reach_len.
    - exact Fit.
    - intros a Ra. destruct (Nz a Ra) as (p & Hp). exists p. split; [|exact Hp]. rewrite <- (reach_len a Ra). destruct (Nat.lt_ge_cases p (length a)) as [X|X]; [exact X|]. unfold tokens in Hp. rewrite nth_overflow in Hp by exact X. congruence.
    - exact E.
    - apply (B eq_refl) with (m := m); [exists []; constructor|exact Rm|]. apply (proj1 (sat_hm (to_pnet net) m q (ly_wf L) (separate_atomic q Sq))). exact Sm.
  Qed.
End Answers.

Lemma inhib_iff : forall net, has_inhib net = true <-> exists t a, t < cn_ntrans net /\ In a (tr_pre (net_trans net t)) /\ arc_inhib a = true.
Proof.
  intros net. unfold has_inhib, all_trans. rewrite existsb_exists. split.
  - intros (t & I & H). apply in_seq in I. apply existsb_exists in H. destruct H as (iv & J & E). exists t, (inv_arc iv). split; [lia|]. split; [|exact E].
    unfold net_trans. cbn [tr_pre]. apply in_map. exact J.
  - intros (t & a & Ht & I & E). exists t. split; [apply in_seq; lia|]. unfold net_trans in I. cbn [tr_pre] in I. apply in_map_iff in I. destruct I as (iv & <- & J).
    apply existsb_exists. exists iv. auto.
Qed.
Lemma plain_inhib : forall net, plain net -> has_inhib net = false.
Proof.
  intros net (_ & _ & _ & _ & _ & W & _). destruct (has_inhib net) eqn:E; [|reflexivity]. apply inhib_iff in E. destruct E as (t & a & Ht & I & E).
  destruct (W t a Ht (or_introl I)) as (_ & X). congruence.
Qed.
Theorem tar_satisfied : forall net q rnd fuel steps, plain net -> separate q -> (forall p, In p (compared q) -> p < cn_places net) ->
  tar net q rnd fuel steps = Ok true -> exists m, reachable (to_pnet net) (cn_init net) m /\ sat (to_pnet net) m q.
Proof.
  intros net q rnd fuel steps Pl Sq Kq E. pose proof (plain_inhib net Pl) as NI. destruct Pl as (L & P0 & D & So & Li & W & F).
  eapply (tar_yes net L P0 D So NI); try eassumption; [intros t a Ht I; apply (W t a Ht I)|intros m Rm p; apply F; exact Rm].
Qed.
Theorem tar_not_satisfied : forall net q rnd fuel steps, plain net -> separate q -> (forall p, In p (compared q) -> p < cn_places net) ->
  (forall m, reachable (to_pnet net) (cn_init net) m -> exists p, tokens m p <> 0%N) ->
  tar net q rnd fuel steps = Ok false -> forall m, reachable (to_pnet net) (cn_init net) m -> ~ sat (to_pnet net) m q.
Proof.
  intros net q rnd fuel steps Pl Sq Kq Nz E. pose proof (plain_inhib net Pl) as NI. destruct Pl as (L & P0 & D & So & Li & W & F).
  eapply (tar_no net L P0 D So NI); try eassumption; [intros t a Ht I; apply (W t a Ht I)|intros m Rm p; apply F; exact Rm].
Qed.
Theorem tar_inhibitor : forall net q rnd fuel steps t a, t < cn_ntrans net -> In a (tr_pre (net_trans net t)) -> arc_inhib a = true -> tar net q rnd fuel steps = Throw.
Proof. intros net q rnd fuel steps t a Ht I E. unfold tar. replace (has_inhib net) with true; [reflexivity|]. symmetry. apply inhib_iff. eauto. Qed.
