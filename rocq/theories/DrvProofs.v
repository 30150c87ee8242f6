(** The verdicts of the tool: invariants of the phases of the main function. *)
From Verif Require Import Base BaseLemmas NetSpec NetModel PqlSyntax PqlSpec PqlModel QuerySpec QueryModel QueryClass SearchModel QueueModel CmpModel CmpSpec SynSpec SynModel
  DrvModel DrvSpec.

Lemma verdicts_app : forall a b, verdicts (a ++ b) = verdicts a ++ verdicts b.
Proof. intros a b. unfold verdicts. apply flat_map_app. Qed.
Lemma in_verdicts : forall i ls, In i (verdicts ls) <-> exists b, In (LFormula i b) ls.
Proof.
  intros i ls. unfold verdicts. rewrite in_flat_map. split.
  - intros ([j b|j|] & H & K); cbn in K; [destruct K as [<-|[]]; eauto|contradiction|contradiction].
  - intros (b & H). exists (LFormula i b). split; [exact H|left; reflexivity].
Qed.
Lemma nodup_app : forall (A : Type) (a b : list A), NoDup a -> NoDup b -> (forall x, In x a -> ~ In x b) -> NoDup (a ++ b).
Proof.
  induction a as [|x a IH]; intros b Ha Hb D; cbn; [exact Hb|]. inversion Ha; subst. constructor.
  - rewrite in_app_iff. intros [H|H]; [contradiction|]. apply (D x); [left; reflexivity|exact H].
  - apply IH; auto. intros y Hy. apply D. right. exact Hy.
Qed.

Section Good.
  Variable net : cnet.
  Variable qs : list dq.

  (** an output: right verdicts, at most one each, only for [A]; if it ended well, for all of [B] *)
  Definition good (A B : nat -> Prop) (o : out) : Prop :=
    verdicts_right net qs (fst o) /\ NoDup (verdicts (fst o)) /\ (forall i, In i (verdicts (fst o)) -> A i) /\
    (snd o = Ok tt -> forall i, B i -> In i (verdicts (fst o))).
  Lemma good_weak : forall (A B A' B' : nat -> Prop) o, good A B o -> (forall i, A i -> A' i) -> (forall i, B' i -> B i) -> good A' B' o.
  Proof. intros A B A' B' o (H1 & H2 & H3 & H4) HA HB. repeat split; auto. Qed.
  Lemma good_emit : forall (A B A' B' : nat -> Prop) l o, good A B (l, Ok tt) -> good A' B' o -> (forall i, A i -> A' i -> False) ->
    good (fun i => A i \/ A' i) (fun i => B i \/ B' i) (emit l o).
  Proof.
    intros A B A' B' l o (H1 & H2 & H3 & H4) (K1 & K2 & K3 & K4) D. unfold good, emit in *. cbn [fst snd] in *. rewrite verdicts_app.
    split; [|split; [|split]].
    - intros i b Hi. apply in_app_iff in Hi. destruct Hi; auto.
    - apply nodup_app; auto. intros x X Y. apply (D x); auto.
    - intros i Hi. apply in_app_iff in Hi. destruct Hi; auto.
    - intros E i Hi. apply in_app_iff. destruct Hi; auto.
  Qed.
  Lemma good_nil : forall r, good (fun _ => False) (fun _ => r <> Ok tt) ([], r).
  Proof. intros r. split; [intros i b []|]. split; [constructor|]. split; [intros i []|]. cbn. intros E i H. contradiction. Qed.
  Lemma good_one : forall i b, (exists q, nth_error qs i = Some q /\ (b = true <-> true_of net q)) -> good (fun j => j = i) (fun j => j = i) ([LFormula i b], Ok tt).
  Proof.
    intros i b H. split; [intros j c [E|[]]; injection E as <- <-; exact H|]. split; [repeat constructor; intros []|]. split; cbn.
    - intros j [<-|[]]. reflexivity.
    - intros _ j ->. auto.
  Qed.

  (** The answer of the printer. *)
  Lemma printed_line : forall inv i v, v = Satisfied \/ v = NotSatisfied ->
    printed false false inv i v = [LFormula i (match v with Satisfied => negb inv | _ => inv end)].
  Proof. intros inv i v [->| ->]; destruct inv; reflexivity. Qed.
End Good.

Section Phases.
  Variable net net2 : cnet.
  Variable qs qs2 : list dq.
  Notation good := (good net qs).

  Lemma each_good : forall f l k A B, NoDup l ->
    (forall i b, In i l -> f i (nthq qs2 i) = Ok b -> exists q, nth_error qs i = Some q /\ (b = true <-> true_of net q)) ->
    good A B k -> (forall i, In i l -> A i -> False) ->
    good (fun i => In i l \/ A i) (fun i => In i l \/ B i) (each f qs2 l k).
  Proof.
    intros f l k A B. induction l as [|i l IH]; intros Hn Hf Hk Hd; cbn [each].
    - eapply good_weak; [exact Hk|auto|]. intros i [[]|H]; exact H.
    - inversion Hn; subst. specialize (IH H2 (fun j b Hj => Hf j b (or_intror Hj)) Hk (fun j Hj => Hd j (or_intror Hj))).
      destruct (f i (nthq qs2 i)) as [b| | |] eqn:E.
      2-4: eapply good_weak; [apply good_nil|intros j []|intros j _; cbn; discriminate].
      eapply good_weak; [eapply good_emit; [apply good_one; apply (Hf i b (or_introl eq_refl) E)|exact IH|]| |].
      + intros j -> [X|X]; [contradiction|]. apply (Hd i); [left; reflexivity|exact X].
      + cbn. intros j [->|[X|X]]; auto.
      + cbn. intros j [[<-|X]|X]; auto.
  Qed.

  Lemma upd_open : forall rs i r, i < length rs -> is_open (nth i rs OSynth) = false -> r <> Unknown -> map is_open (upd rs i (ORes r)) = map is_open rs.
  Proof.
    induction rs as [|x rs IH]; intros [|i] r Hi Ho Hr; cbn in *; try lia; auto.
    - f_equal. rewrite Ho. destruct r; congruence || reflexivity.
    - f_equal. apply IH; auto. lia.
  Qed.
  Lemma none_open_map : forall rs, none_open rs = forallb negb (map is_open rs).
  Proof. induction rs as [|x rs IH]; cbn; [reflexivity|]. rewrite <- IH. reflexivity. Qed.

  Lemma synths_good : forall o f l rs k A B, NoDup l ->
    (forall i, In i l -> i < length rs /\ is_open (nth i rs OSynth) = false) ->
    (forall i b, In i l -> f net2 i (nthq qs2 i) = Ok b -> exists q, nth_error qs i = Some q /\ (b = true <-> true_of net q)) ->
    (forall rs', map is_open rs' = map is_open rs -> good A B (k rs')) -> (forall i, In i l -> A i -> False) ->
    good (fun i => In i l \/ A i) (fun i => (none_open rs = false \/ length l <= 1 /\ forall j, ~ B j) /\ (In i l \/ B i)) (synths o f net2 qs2 l rs k).
  Proof.
    intros o f. induction l as [|i l IH]; intros rs k A B Hn Hl Hf Hk Hd; cbn [synths].
    - eapply good_weak; [apply Hk; reflexivity|auto|]. intros i (_ & [[]|H]); exact H.
    - destruct (o_tar o); [eapply good_weak; [apply good_nil|intros j []|intros j _; discriminate]|].
      inversion Hn; subst. destruct (f net2 i (nthq qs2 i)) as [b| | |] eqn:E.
      2-4: eapply good_weak; [apply good_nil|intros j []|intros j _; cbn; discriminate].
      set (rs' := upd rs i (ORes (if b then Satisfied else NotSatisfied))).
      assert (Hm : map is_open rs' = map is_open rs).
      { destruct (Hl i (or_introl eq_refl)). apply upd_open; auto. destruct b; discriminate. }
      assert (Hno : none_open rs' = none_open rs) by (rewrite !none_open_map, Hm; reflexivity).
      assert (G1 := good_one net qs i b (Hf i b (or_introl eq_refl) E)).
      rewrite Hno. destruct (none_open rs) eqn:O.
      + eapply good_weak; [eapply good_emit; [exact G1|apply (good_nil net qs (Ok tt))|]| |].
        * intros j _ [].
        * cbn. intros j [->|[]]. auto.
        * cbn. intros j ([X|(X & Y)] & Z); [discriminate X|]. destruct l; [|cbn in X; lia]. destruct Z as [[<-|[]]|Z]; [auto|]. exfalso. apply (Y j Z).
      + eapply good_weak; [eapply good_emit; [exact G1|apply (IH rs' k A B)|]| |].
        * exact H2.
        * intros j Hj. destruct (Hl j (or_intror Hj)) as (X & Y). unfold rs'. rewrite upd_length. split; [exact X|].
          rewrite nth_upd_neq by (intros ->; contradiction). exact Y.
        * intros j c Hj. apply Hf. right. exact Hj.
        * intros rs2 H. apply Hk. congruence.
        * intros j Hj. apply Hd. right. exact Hj.
        * intros j -> [X|X]; [contradiction|]. apply (Hd i (or_introl eq_refl) X).
        * cbn. intros j [->|[X|X]]; auto.
        * cbn. intros j (_ & [[<-|Z]|Z]); auto; right; (split; [left; exact Hno|auto]).
  Qed.

  Lemma siphons_id : forall f l rs k, (forall i, In i l -> nth i qs2 (QPlain (CBool false)) = QPlain CDead -> is_open (nth i rs OSynth) = false) ->
    siphons f net2 qs2 l rs k = k rs.
  Proof.
    intros f l rs k. induction l as [|i l IH]; intros H; cbn [siphons]; [reflexivity|].
    assert (X := IH (fun j Hj => H j (or_intror Hj))). specialize (H i (or_introl eq_refl)).
    destruct (nth i qs2 (QPlain (CBool false))) as [[]|]; auto. specialize (H eq_refl). destruct (nth i rs OSynth) as [[]| | |]; auto. discriminate H.
  Qed.

  Lemma goals_ok : forall l rs, length l = length rs ->
    (forall i q, nth_error l i = Some q -> is_open (nth i rs OSynth) = true -> plain_reach q = true) ->
    exists gs, goals l rs = Ok gs /\ length gs = length rs /\
      forall i q, nth_error l i = Some q -> is_open (nth i rs OSynth) = true ->
        exists c g, q = QPlain c /\ nth_error gs i = Some g /\ prepare_for_reachability c = Ok (Some g) /\ reach_query c.
  Proof.
    induction l as [|q l IH]; intros [|r rs] Hl Hr; cbn [goals]; try discriminate Hl; cbn [length] in Hl.
    - exists []. split; [reflexivity|]. split; [reflexivity|]. intros [|i] q X; discriminate X.
    - destruct (IH rs) as (gs & E & Lg & Hg); [lia|intros i x Hx; apply (Hr (S i) x Hx)|].
      assert (X : exists g, (if is_open r then match q with
              | QPlain c => p <- prepare_for_reachability c ;; match p with Some g => Ok g | None => UB end
              | QControl _ => UB end else Ok (body q, false)) = Ok g /\
              (is_open r = true -> exists c, q = QPlain c /\ prepare_for_reachability c = Ok (Some g) /\ reach_query c)).
      { destruct (is_open r) eqn:O; [|eexists; split; [reflexivity|discriminate]]. specialize (Hr 0 q eq_refl O). destruct q as [c|c]; cbn in Hr; [|discriminate].
        apply is_reachability_spec in Hr. destruct (prepare_spec c Hr false) as (g & inv & Ep & _). unfold prepare_for_reachability. rewrite Ep. cbn [bind].
        eexists. split; [reflexivity|]. intros _. exists c. auto. }
      destruct X as (g & Eg & Xg). rewrite Eg. cbn [bind]. rewrite E. cbn [bind]. exists (g :: gs). split; [reflexivity|]. split; [cbn; lia|].
      intros [|i] x Hx O; cbn in *; [|apply (Hg i x Hx O)]. injection Hx as <-. destruct (Xg O) as (c & A & B & C). exists c, g. auto.
  Qed.

  Lemma nth_open : forall rs i, nth i (map is_open rs) false = true -> i < length rs /\ is_open (nth i rs OSynth) = true.
  Proof. induction rs as [|x rs IH]; intros [|i] H; cbn in *; try discriminate; [split; [lia|exact H]|]. apply IH in H. destruct H. split; [lia|auto]. Qed.
  Lemma open_nth : forall rs i, is_open (nth i rs OSynth) = true -> nth i (map is_open rs) false = true.
  Proof. induction rs as [|x rs IH]; intros [|i] H; cbn in *; try discriminate; auto. Qed.

  Lemma reachability_good : forall o sr tr rs (G : cond -> Prop), wf_pnet (to_pnet net2) ->
    length qs2 = length qs -> length rs = length qs ->
    (forall i q q', is_open (nth i rs OSynth) = true -> nth_error qs i = Some q -> nth_error qs2 i = Some q' -> (true_of net q <-> true_of net2 q')) ->
    (forall i q, nth_error qs2 i = Some q -> is_open (nth i rs OSynth) = true -> plain_reach q = true /\
       forall c g inv, q = QPlain c -> prepare_for_reachability c = Ok (Some (g, inv)) -> G g) ->
    (o_tar o && (0 <? cn_places net2) = true -> reach_right net2 G (tr net2)) ->
    (o_tar o && (0 <? cn_places net2) = false -> reach_right net2 G (sr net2)) ->
    good (fun i => is_open (nth i rs OSynth) = true) (fun i => is_open (nth i rs OSynth) = true) (reachability o sr tr net2 qs2 rs).
  Proof.
    intros o sr tr rs G W L2 Lr Hs Ho Ht Hsr. unfold reachability.
    destruct (goals_ok qs2 rs) as (gs & E & Lg & Hg); [congruence|intros i q H1 H2; apply (Ho i q H1 H2)|]. rewrite E.
    set (handle := fun i r => printer_handle false false (snd (nth i gs (CBool false, false))) None r).
    set (e := if o_tar o && (0 <? cn_places net2) then tr else sr).
    assert (HR : reach_right net2 G (e net2)) by (unfold e; destruct (o_tar o && (0 <? cn_places net2)); auto).
    specialize (HR (map fst gs) (map is_open rs) handle).
    assert (X : calls_right net2 (map fst gs) (map is_open rs) (e net2 (map fst gs) (map is_open rs) handle)).
    { apply HR.
      - rewrite !map_length. congruence.
      - intros i g Hi Hn. apply nth_open in Hn. destruct Hn as (Hn1 & Hn2). destruct (nth_error qs2 i) as [q|] eqn:Eq; [|apply nth_error_None in Eq; lia].
        destruct (Hg i q Eq Hn2) as (c & [g' inv] & -> & Eg & Ep & Hr). rewrite nth_error_map, Eg in Hi. injection Hi as <-. cbn [fst].
        destruct (prepare_spec c Hr false) as (g2 & inv2 & Ep2 & At & _). unfold prepare_for_reachability in Ep. rewrite Ep2 in Ep. injection Ep as <- <-.
        split; [exact At|]. destruct (Ho i (QPlain c) Eq Hn2) as (_ & Hx). eapply Hx; [reflexivity|exact Ep2].
      - intros i r Hr. unfold handle. destruct r; cbn; try congruence; destruct (snd (nth i gs (CBool false, false))); discriminate.
      - intros i r. unfold handle. destruct r; reflexivity. }
    clear HR. destruct (e net2 (map fst gs) (map is_open rs) handle) as [calls st]. unfold calls_right in X. cbn [fst snd] in *. destruct X as (X1 & X2 & X3).
    set (pl := fun c : nat * rslt => printed false false (snd (nth (fst c) gs (CBool false, false))) (fst c) (snd c)).
    assert (V : verdicts (flat_map pl calls) = map fst calls).
    { clear - X1. induction calls as [|[i v] l IH]; cbn [flat_map map fst]; [reflexivity|]. rewrite verdicts_app, IH by (intros; apply X1; right; assumption).
      destruct (X1 i v (or_introl eq_refl)) as (_ & g & _ & Hv). unfold pl. cbn [fst snd]. rewrite printed_line by (destruct Hv as [(-> & _)|(-> & _)]; auto). reflexivity. }
    unfold DrvProofs.good. cbn [fst snd]. rewrite V. split; [|split; [exact X2|split]].
    - intros i b Hi. apply in_flat_map in Hi. destruct Hi as ([j v] & Hc & Hi). destruct (X1 j v Hc) as (Hop & g & Hn & Hv).
      unfold pl in Hi. cbn [fst snd] in Hi. rewrite printed_line in Hi by (destruct Hv as [(-> & _)|(-> & _)]; auto). destruct Hi as [Hi|[]]. injection Hi as -> <-.
      apply nth_open in Hop. destruct Hop as (Hn1 & Hn2). destruct (nth_error qs2 i) as [q2|] eqn:Eq2; [|apply nth_error_None in Eq2; lia].
      destruct (nth_error qs i) as [q|] eqn:Eq; [|apply nth_error_None in Eq; lia]. exists q. split; [reflexivity|].
      rewrite (Hs i q q2 Hn2 Eq Eq2). destruct (Hg i q2 Eq2 Hn2) as (c & [g' inv] & -> & Eg & Ep & Hr).
      rewrite nth_error_map, Eg in Hn. injection Hn as <-. cbn [fst] in *. rewrite (nth_error_nth _ _ (CBool false, false) Eg). cbn [snd].
      destruct (prepare_spec c Hr false) as (g2 & inv2 & Ep2 & At & Hsem). unfold prepare_for_reachability in Ep. rewrite Ep2 in Ep. injection Ep as <- <-.
      specialize (Hsem (to_pnet net2) (cn_init net2) W). cbn [true_of]. rewrite Hsem. unfold attainable in Hv.
      destruct Hv as [(-> & A)|(-> & A)]; destruct inv2; cbn [negb]; split; auto; try discriminate; try contradiction.
    - intros i Hi. apply in_map_iff in Hi. destruct Hi as ([j v] & <- & Hc). cbn [fst]. apply (nth_open rs j). apply (X1 j v Hc).
    - intros Est i Hi. apply X3; [exact Est|]. apply open_nth. exact Hi.
  Qed.
End Phases.

Lemma in_ids : forall p rs i, In i (ids p rs) <-> i < length rs /\ p (nth i rs OSynth) = true.
Proof. intros p rs i. unfold ids. rewrite filter_In, in_seq. split; intros (H & K); (split; [lia|exact K]). Qed.
Lemma ids_nodup : forall p rs, NoDup (ids p rs).
Proof. intros p rs. apply NoDup_filter, seq_NoDup. Qed.
Lemma none_open_spec : forall rs, none_open rs = true -> forall i, is_open (nth i rs OSynth) = false.
Proof.
  intros rs H i. unfold none_open in H. rewrite forallb_forall in H. destruct (nth_in_or_default i rs OSynth) as [X|X]; [|rewrite X; reflexivity].
  apply H in X. apply Bool.negb_true_iff in X. exact X.
Qed.
Lemma map_nth_open : forall rs rs' i, map is_open rs' = map is_open rs -> is_open (nth i rs' OSynth) = is_open (nth i rs OSynth).
Proof. intros rs rs' i H. rewrite <- (map_nth is_open rs' OSynth i), <- (map_nth is_open rs OSynth i), H. reflexivity. Qed.
Lemma open_lt : forall rs i, is_open (nth i rs OSynth) = true -> i < length rs.
Proof. intros rs i H. destruct (Nat.lt_ge_cases i (length rs)) as [L|L]; [exact L|]. rewrite nth_overflow in H by exact L. discriminate. Qed.

Section Verify.
  Variable net net2 : cnet.
  Variable qs qs2 : list dq.
  Variable o : dopts.
  Variable ctl ltl synth : cnet -> nat -> cond -> res bool.
  Variable siphon : cnet -> nat -> bool.
  Variable search tar : cnet -> list cond -> list bool -> (nat -> rslt -> rslt * bool) -> list (nat * rslt) * res unit.
  Variable rs : list outc.
  Variable G : cond -> Prop.
  Notation kind p := (fun i => p (nth i rs OSynth) = true).
  Hypothesis W : wf_pnet (to_pnet net2).
  Hypothesis L2 : length qs2 = length qs.
  Hypothesis Lr : length rs = length qs.
  Hypothesis Hs : forall i q q', pending (nth i rs OSynth) = true -> nth_error qs i = Some q -> nth_error qs2 i = Some q' -> (true_of net q <-> true_of net2 q').
  Hypothesis Kc : forall i q, nth_error qs2 i = Some q -> is_ctl (nth i rs OSynth) = true -> exists c, q = QPlain c.
  Hypothesis Kl : forall i q, nth_error qs2 i = Some q -> is_ltl (nth i rs OSynth) = true -> exists c, q = QPlain c.
  Hypothesis Ks : forall i q, nth_error qs2 i = Some q -> is_synth (nth i rs OSynth) = true -> exists c, q = QControl c.
  Hypothesis Ko : forall i q, nth_error qs2 i = Some q -> is_open (nth i rs OSynth) = true -> plain_reach q = true /\
       forall c g inv, q = QPlain c -> prepare_for_reachability c = Ok (Some (g, inv)) -> G g.
  Hypothesis Rc : engine_right (kind is_ctl) (sat (to_pnet net2) (cn_init net2)) qs2 (ctl net2).
  Hypothesis Rl : engine_right (kind is_ltl) (sat (to_pnet net2) (cn_init net2)) qs2 (ltl net2).
  Hypothesis Rs : engine_right (kind is_synth) (controls net2) qs2 (synth net2).
  Hypothesis Ht : o_tar o && (0 <? cn_places net2) = true -> reach_right net2 G (tar net2).
  Hypothesis Hsr : o_tar o && (0 <? cn_places net2) = false -> reach_right net2 G (search net2).

  Lemma single_good : forall (p : outc -> bool) (truth : cond -> Prop) f i b, (forall r, p r = true -> pending r = true) ->
    engine_right (kind p) truth qs2 f ->
    (forall q, nth_error qs2 i = Some q -> p (nth i rs OSynth) = true -> (true_of net2 q <-> truth (body q))) ->
    In i (ids p rs) -> f i (nthq qs2 i) = Ok b -> exists q, nth_error qs i = Some q /\ (b = true <-> true_of net q).
  Proof.
    intros p truth f i b Hp Hf Hq Hi E. apply in_ids in Hi. destruct Hi as (Hi & Hk).
    destruct (nth_error qs i) as [q|] eqn:Eq; [|apply nth_error_None in Eq; lia]. destruct (nth_error qs2 i) as [q2|] eqn:Eq2; [|apply nth_error_None in Eq2; lia].
    exists q. split; [reflexivity|]. rewrite (Hs i q q2 (Hp _ Hk) Eq Eq2), (Hq q2 eq_refl Hk). apply (Hf i q2 b Hk Eq2).
    unfold nthq in E. rewrite (nth_error_nth _ _ _ Eq2) in E. exact E.
  Qed.

  (** Everything gets an answer, unless control queries are dropped by an early exit. *)
  Definition all_reached : Prop :=
    (o_ltlalg o = true \/ ids is_ltl rs = []) /\ (ids is_ctl rs = [] \/ ids is_ltl rs = []) /\
    (ids is_synth rs = [] \/ none_open rs = false \/ ids is_ctl rs = [] /\ ids is_ltl rs = [] /\ length (ids is_synth rs) <= 1).

  Lemma reach_phase : forall rs', map is_open rs' = map is_open rs ->
    good net qs (kind is_open) (kind is_open) (reachability o search tar net2 qs2 rs').
  Proof.
    intros rs' E. assert (Hm := fun i => map_nth_open rs rs' i E). assert (Ll : length rs' = length rs) by (rewrite <- (map_length is_open rs'), E, map_length; reflexivity).
    eapply good_weak; [eapply (reachability_good net net2 qs qs2 o search tar rs' G); auto; try congruence| |].
    - intros i q q' Ho. apply Hs. rewrite Hm in Ho. destruct (nth i rs OSynth) as [[]| | |]; try discriminate Ho; reflexivity.
    - intros i q Hq Ho. rewrite Hm in Ho. apply (Ko i q Hq Ho).
    - cbn. intros i. rewrite Hm. auto.
    - cbn. intros i. rewrite Hm. auto.
  Qed.
  Lemma siphon_phase : forall rs' f k, map is_open rs' = map is_open rs -> siphons f net2 qs2 (seq 0 (length rs')) rs' k = k rs'.
  Proof.
    intros rs' f k E. assert (Hm := fun i => map_nth_open rs rs' i E). assert (Ll : length rs' = length rs) by (rewrite <- (map_length is_open rs'), E, map_length; reflexivity).
    apply siphons_id. intros i Hi Hq. destruct (is_open (nth i rs' OSynth)) eqn:O; [|reflexivity]. rewrite Hm in O.
    apply in_seq in Hi. destruct (nth_error qs2 i) as [q|] eqn:Eq; [|apply nth_error_None in Eq; lia]. rewrite (nth_error_nth _ _ _ Eq) in Hq. subst q.
    destruct (Ko i _ Eq O) as (X & _). discriminate X.
  Qed.
  Lemma last_phase : forall rs', map is_open rs' = map is_open rs ->
    good net qs (kind is_open) (kind is_open)
      (if o_siphon o then siphons siphon net2 qs2 (seq 0 (length rs')) rs' (fun r => if none_open r then stop else reachability o search tar net2 qs2 r)
       else reachability o search tar net2 qs2 rs').
  Proof.
    intros rs' E. destruct (o_siphon o); [|apply reach_phase; exact E]. rewrite siphon_phase by exact E.
    destruct (none_open rs') eqn:O; [|apply reach_phase; exact E]. eapply good_weak; [apply (good_nil net qs (Ok tt))|intros i []|].
    cbn. intros i Hi. rewrite <- (map_nth_open rs rs' i E) in Hi. rewrite (none_open_spec rs' O i) in Hi. discriminate.
  Qed.

  Lemma verify_good : good net qs (fun i => i < length rs /\ pending (nth i rs OSynth) = true) (fun i => i < length rs /\ all_reached /\ pending (nth i rs OSynth) = true)
    (verify o ctl ltl synth siphon search tar net2 qs2 rs).
  Proof.
    unfold verify.
    assert (P3 := synths_good net net2 qs qs2 o synth (ids is_synth rs) rs
      (fun rs' => if o_siphon o then siphons siphon net2 qs2 (seq 0 (length rs')) rs' (fun r => if none_open r then stop else reachability o search tar net2 qs2 r)
       else reachability o search tar net2 qs2 rs') (kind is_open) (kind is_open) (ids_nodup _ _)).
    cbn beta in P3. match type of P3 with ?X -> ?Y -> ?Z -> ?U -> _ => assert (H1 : X); [|assert (H2 : Y); [|assert (H3 : Z); [|assert (H4 : U); [|specialize (P3 H1 H2 H3 H4)]]]] end.
    { intros i Hi. apply in_ids in Hi. destruct Hi as (A & B). split; [exact A|]. destruct (nth i rs OSynth) as [[]| | |]; discriminate B || reflexivity. }
    { intros i b Hi. eapply single_good; [| |intros q Hq Hk|exact Hi]; [|exact Rs|].
      - intros r. destruct r; discriminate || reflexivity.
      - destruct (Ks i q Hq Hk) as (c & ->). reflexivity. }
    { exact last_phase. }
    { intros i Hi Ho. apply in_ids in Hi. destruct Hi as (A & B). cbn beta in Ho. destruct (nth i rs OSynth) as [[]| | |]; discriminate. }
    clear H1 H2 H3 H4. set (S3 := synths _ _ _ _ _ _ _) in *.
    set (A3 := fun i => In i (ids is_synth rs) \/ is_open (nth i rs OSynth) = true) in *.
    assert (P2 : good net qs A3 (fun i => all_reached /\ A3 i) (if negb (Nat.eqb (length (ids is_ltl rs)) 0) && o_ltlalg o && none_open rs then stop else S3)).
    { destruct (negb (Nat.eqb (length (ids is_ltl rs)) 0) && o_ltlalg o && none_open rs) eqn:E.
      - apply Bool.andb_true_iff in E. destruct E as (E & E3). apply Bool.andb_true_iff in E. destruct E as (E1 & E2).
        eapply good_weak; [apply (good_nil net qs (Ok tt))|intros i []|]. intros i ((_ & _ & R) & [X|X]).
        + destruct R as [R|[R|(_ & R & _)]]; [rewrite R in X; destruct X|congruence|]. rewrite R in E1. discriminate E1.
        + rewrite (none_open_spec rs E3 i) in X. discriminate.
      - eapply good_weak; [exact P3|auto|]. intros i ((_ & _ & R) & X). split; [|exact X].
        destruct (none_open rs) eqn:O; [|auto]. right. split.
        + destruct R as [R|[R|(_ & _ & R)]]; [rewrite R; cbn; lia|discriminate|exact R].
        + intros j. rewrite (none_open_spec rs O j). discriminate. }
    clear P3. set (S2 := if negb (Nat.eqb (length (ids is_ltl rs)) 0) && o_ltlalg o && none_open rs then stop else S3) in *.
    assert (P1 := each_good net qs qs2 (ltl net2) (if o_ltlalg o then ids is_ltl rs else []) S2 A3 (fun i => all_reached /\ A3 i)).
    match type of P1 with ?X -> ?Y -> ?Z -> ?U -> _ => assert (H1 : X); [|assert (H2 : Y); [|assert (H4 : U); [|specialize (P1 H1 H2 P2 H4)]]] end.
    { destruct (o_ltlalg o); [apply ids_nodup|constructor]. }
    { intros i b Hi. assert (Hi' : In i (ids is_ltl rs)) by (destruct (o_ltlalg o); [exact Hi|destruct Hi]). eapply single_good; [| |intros q Hq Hk|exact Hi']; [|exact Rl|].
      - intros r. destruct r; discriminate || reflexivity.
      - destruct (Kl i q Hq Hk) as (c & ->). reflexivity. }
    { intros i Hi X. assert (Hi' : In i (ids is_ltl rs)) by (destruct (o_ltlalg o); [exact Hi|destruct Hi]). apply in_ids in Hi'. destruct Hi' as (A & B).
      unfold A3 in X. rewrite in_ids in X. destruct (nth i rs OSynth) as [[]| | |]; destruct X as [(_ & X)|X]; discriminate. }
    clear H1 H2 H4 P2. set (S1 := each (ltl net2) _ _ _) in *. clearbody S1.
    set (A2 := fun i => In i (ids is_ltl rs) \/ A3 i).
    assert (P1' : good net qs A2 (fun i => all_reached /\ A2 i) (if negb (Nat.eqb (length (ids is_ctl rs)) 0) && none_open rs then stop else S1)).
    { destruct (negb (Nat.eqb (length (ids is_ctl rs)) 0) && none_open rs) eqn:E.
      - apply Bool.andb_true_iff in E. destruct E as (E1 & E3).
        eapply good_weak; [apply (good_nil net qs (Ok tt))|intros i []|]. intros i ((_ & R0 & R) & [X|[X|X]]).
        + destruct R0 as [R0|R0]; rewrite R0 in *; [discriminate E1|destruct X].
        + destruct R as [R|[R|(R & _)]]; [rewrite R in X; destruct X|congruence|]. rewrite R in E1. discriminate E1.
        + rewrite (none_open_spec rs E3 i) in X. discriminate.
      - eapply good_weak; [exact P1| |].
        + intros i [X|X]; [left|right; exact X]. destruct (o_ltlalg o); [exact X|destruct X].
        + intros i (R & [X|X]); [|auto]. left. destruct R as ([R|R] & _); rewrite R in *; [exact X|destruct X]. }
    clear P1. set (S0 := if negb (Nat.eqb (length (ids is_ctl rs)) 0) && none_open rs then stop else S1) in *.
    assert (P0 := each_good net qs qs2 (ctl net2) (ids is_ctl rs) S0 A2 (fun i => all_reached /\ A2 i)).
    match type of P0 with ?X -> ?Y -> ?Z -> ?U -> _ => assert (H1 : X); [|assert (H2 : Y); [|assert (H4 : U); [|specialize (P0 H1 H2 P1' H4)]]] end.
    { apply ids_nodup. }
    { intros i b Hi. eapply single_good; [| |intros q Hq Hk|exact Hi]; [|exact Rc|].
      - intros r. destruct r; discriminate || reflexivity.
      - destruct (Kc i q Hq Hk) as (c & ->). reflexivity. }
    { intros i Hi X. apply in_ids in Hi. destruct Hi as (A & B).
      unfold A2, A3 in X. rewrite !in_ids in X. destruct (nth i rs OSynth) as [[]| | |]; destruct X as [(_ & X)|[(_ & X)|X]]; discriminate. }
    eapply good_weak; [exact P0| |]; unfold A2, A3.
    - cbn beta. intros i X. rewrite !in_ids in X. split; [destruct X as [X|[X|[X|X]]]; [apply X..|apply open_lt; exact X]|]. destruct (nth i rs OSynth) as [[]| | |]; cbn in *; try reflexivity; destruct X as [(_ & X)|[(_ & X)|[(_ & X)|X]]]; discriminate.
    - cbn beta. intros i (Hi & R & X). rewrite !in_ids. destruct (nth i rs OSynth) as [[]| | |]; cbn in *; try discriminate; auto 8.
  Qed.
End Verify.

(** ** The siphon-trap analysis is never asked *)
Lemma synths_ext : forall o f net2 qs2 l rs k k', (forall i, In i l -> i < length rs /\ is_open (nth i rs OSynth) = false) -> NoDup l ->
  (forall rs', map is_open rs' = map is_open rs -> k rs' = k' rs') -> synths o f net2 qs2 l rs k = synths o f net2 qs2 l rs k'.
Proof.
  induction l as [|i l IH]; intros rs k k' Hl Hn Hk; cbn [synths]; [apply Hk; reflexivity|]. destruct (o_tar o); [reflexivity|].
  destruct (f net2 i (nthq qs2 i)) as [b| | |]; try reflexivity. f_equal. inversion Hn; subst.
  assert (Hm : map is_open (upd rs i (ORes (if b then Satisfied else NotSatisfied))) = map is_open rs) by (destruct (Hl i (or_introl eq_refl)); apply upd_open; auto; destruct b; discriminate).
  destruct (none_open _); [reflexivity|]. apply IH; auto.
  - intros j Hj. destruct (Hl j (or_intror Hj)) as (X & Y). rewrite upd_length. split; [exact X|]. rewrite nth_upd_neq by (intros ->; contradiction). exact Y.
  - intros rs2 H. apply Hk. congruence.
Qed.
Lemma verify_siphon : forall o ctl ltl synth s1 s2 search tar net2 qs2 rs, length qs2 = length rs ->
  (forall i q, nth_error qs2 i = Some q -> is_open (nth i rs OSynth) = true -> plain_reach q = true) ->
  verify o ctl ltl synth s1 search tar net2 qs2 rs = verify o ctl ltl synth s2 search tar net2 qs2 rs.
Proof.
  intros o ctl ltl synth s1 s2 search tar net2 qs2 rs Hl Ho. unfold verify.
  assert (X : synths o synth net2 qs2 (ids is_synth rs) rs
      (fun r => if o_siphon o then siphons s1 net2 qs2 (seq 0 (length r)) r (fun r => if none_open r then stop else reachability o search tar net2 qs2 r) else reachability o search tar net2 qs2 r) =
    synths o synth net2 qs2 (ids is_synth rs) rs
      (fun r => if o_siphon o then siphons s2 net2 qs2 (seq 0 (length r)) r (fun r => if none_open r then stop else reachability o search tar net2 qs2 r) else reachability o search tar net2 qs2 r)).
  { apply synths_ext; [|apply ids_nodup|].
    - intros i Hi. apply in_ids in Hi. destruct Hi as (A & B). split; [exact A|]. destruct (nth i rs OSynth) as [[]| | |]; discriminate B || reflexivity.
    - intros rs' E. destruct (o_siphon o); [|reflexivity]. assert (Hm := fun i => map_nth_open rs rs' i E). assert (Ll : length rs' = length rs) by (rewrite <- (map_length is_open rs'), E, map_length; reflexivity).
      assert (K : forall i, In i (seq 0 (length rs')) -> nth i qs2 (QPlain (CBool false)) = QPlain CDead -> is_open (nth i rs' OSynth) = false).
      { intros i Hi Hq. destruct (is_open (nth i rs' OSynth)) eqn:O; [|reflexivity]. rewrite Hm in O. apply in_seq in Hi. destruct (nth_error qs2 i) as [q|] eqn:Eq; [|apply nth_error_None in Eq; lia].
        rewrite (nth_error_nth _ _ _ Eq) in Hq. subst q. specialize (Ho i _ Eq O). discriminate Ho. }
      rewrite !siphons_id by exact K. reflexivity. }
  rewrite X. reflexivity.
Qed.
