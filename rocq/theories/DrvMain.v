(** The verdicts of the tool: the main function. *)
From Verif Require Import Base BaseLemmas NetSpec NetModel NetProofs PqlSyntax PqlSpec PqlModel PqlProofs PqlRuns QuerySpec QueryModel QueryClass QueryProofs SearchModel QueueModel CmpModel CmpSpec
  SynSpec SynModel DrvModel DrvSpec DrvProofs.

Definition const_at (l : list (bool * dq)) (i : nat) : Prop := exists sv b, nth_error l i = Some (sv, QPlain (CBool b)).

Lemma classify_length : forall o l i, length (fst (fst (classify o i l))) = length l.
Proof. induction l as [|[sv q] l IH]; intros i; cbn; [reflexivity|]. f_equal. apply IH. Qed.
Lemma classify_nth : forall o l i j sv q, nth_error l j = Some (sv, q) -> nth j (fst (fst (classify o i l))) OSynth = fst (fst (classify1 o (i + j) sv q)).
Proof.
  induction l as [|[sv q] l IH]; intros i [|j] sv' q' H; try discriminate H; cbn [nth_error] in H; cbn [classify fst nth].
  - injection H as -> ->. rewrite Nat.add_0_r. reflexivity.
  - rewrite (IH (S i) j sv' q' H). f_equal. f_equal. f_equal. lia.
Qed.
Lemma classify1_kind : forall o i sv q,
  match fst (fst (classify1 o i sv q)) with
  | ORes Unknown => o_approx o = true \/ plain_reach q = true /\ o_noreach o = false
  | ORes Satisfied => q = QPlain (CBool true)
  | ORes NotSatisfied => q = QPlain (CBool false)
  | OCTL => exists c, q = QPlain c /\ o_ltl o = false
  | OLTL => exists c, q = QPlain c /\ o_ltl o = true
  | OSynth => exists c, q = QControl c
  | _ => False
  end.
Proof.
  intros o i sv q. unfold classify1.
  assert (X : match fst (fst (if o_approx o then let a := answer false i Unknown in (ORes (fst a), snd a, true)
    else if o_noreach o || negb (plain_reach q) then
      (match q with QControl _ => OSynth | QPlain _ => if o_ltl o then OLTL else OCTL end, [], false)
    else (ORes Unknown, [], false))) with
  | ORes Unknown => o_approx o = true \/ plain_reach q = true /\ o_noreach o = false
  | ORes Satisfied => q = QPlain (CBool true)
  | ORes NotSatisfied => q = QPlain (CBool false)
  | OCTL => exists c, q = QPlain c /\ o_ltl o = false
  | OLTL => exists c, q = QPlain c /\ o_ltl o = true
  | OSynth => exists c, q = QControl c
  | _ => False
  end).
  { destruct (o_approx o); cbn; [auto|]. destruct (o_noreach o); cbn; [destruct q; [destruct (o_ltl o)|]; cbn; eauto|].
    destruct (plain_reach q) eqn:R; cbn; [auto|]. destruct q; [destruct (o_ltl o)|]; cbn; eauto. }
  destruct q as [[]|]; try exact X. destruct b; cbn; [reflexivity|]. destruct (sv && o_trace o); reflexivity.
Qed.
Lemma classify1_line : forall o i sv q, snd (fst (classify1 o i sv q)) = match q with QPlain (CBool b) => [LFormula i b] | _ => [] end.
Proof.
  intros o i sv q. unfold classify1.
  destruct q as [[]|]; try destruct b; try (destruct (sv && o_trace o)); try (destruct (o_approx o); [reflexivity|]);
    try (match goal with |- context [if ?x || ?y then _ else _] => destruct (x || y) end); reflexivity.
Qed.
Lemma classify1_done : forall o i sv q, snd (classify1 o i sv q) = true -> o_approx o = true \/ exists b, q = QPlain (CBool b).
Proof.
  intros o i sv q. unfold classify1.
  destruct q as [[]|]; try (destruct (o_approx o); [auto|]); try (match goal with |- context [if ?x || ?y then _ else _] => destruct (x || y) end); cbn; eauto; discriminate.
Qed.
Lemma classify_done : forall o l i, snd (classify o i l) = true -> o_approx o = true \/ forall j, j < length l -> const_at l j.
Proof.
  induction l as [|[sv q] l IH]; intros i H; cbn [classify snd] in H; [right; cbn; intros; lia|].
  apply Bool.andb_true_iff in H. destruct H as (H1 & H2). apply classify1_done in H1. apply IH in H2. destruct H1 as [H1|(b & ->)]; [auto|]. destruct H2 as [H2|H2]; [auto|].
  right. intros [|j] Hj; [exists sv, b; reflexivity|]. apply H2. cbn in Hj. lia.
Qed.
Lemma classify_good : forall net qs o l i,
  (forall j sv b, nth_error l j = Some (sv, QPlain (CBool b)) -> exists q, nth_error qs (i + j) = Some q /\ (b = true <-> true_of net q)) ->
  good net qs (fun k => exists j, k = i + j /\ const_at l j) (fun k => exists j, k = i + j /\ const_at l j) (snd (fst (classify o i l)), Ok tt).
Proof.
  intros net qs o. induction l as [|[sv q] l IH]; intros i H; cbn [classify fst snd].
  - eapply good_weak; [apply good_nil|intros j []|]. intros j (k & _ & sv & b & X). destruct k; discriminate X.
  - specialize (IH (S i)). match type of IH with ?X -> _ => assert (Y : X) end.
    { intros j s b Hj. rewrite Nat.add_succ_comm. apply (H (S j) s b Hj). }
    specialize (IH Y). rewrite classify1_line.
    destruct (match q with QPlain (CBool b) => true | _ => false end) eqn:C.
    + destruct q as [[]|]; try discriminate C. specialize (H 0 sv b eq_refl). rewrite Nat.add_0_r in H.
      eapply good_weak; [apply (good_emit net qs _ _ _ _ [LFormula i b] (snd (fst (classify o (S i) l)), Ok tt) (good_one net qs i b H) IH)| |].
      * intros j -> (k & E & _). lia.
      * cbn beta. intros j [->|(k & -> & X)]; [exists 0; split; [lia|exists sv, b; reflexivity]|]. exists (S k). split; [lia|exact X].
      * cbn beta. intros j (k & -> & X). destruct k; [left; lia|right]. exists k. split; [lia|exact X].
    + assert (E : match q with QPlain (CBool b) => [LFormula i b] | _ => [] end = []) by (destruct q as [[]|]; discriminate C || reflexivity). rewrite E. cbn [app].
      eapply good_weak; [exact IH| |]; cbn beta.
      * intros j (k & -> & X). exists (S k). split; [lia|exact X].
      * intros j (k & -> & X). destruct k; [|exists k; split; [lia|exact X]]. destruct X as (s & b & X). cbn in X. injection X as <- ->. discriminate C.
Qed.

(** The queries that the initial marking decides. *)
Lemma initial_true : forall net q, wf_pnet (to_pnet net) -> fits (cn_init net) -> (net_deadb net (cn_init net) = true <-> dead (to_pnet net) (cn_init net)) ->
  (true_of net (initial net q) <-> true_of net q).
Proof.
  intros net q W F D. unfold initial. destruct q as [c|c]; cbn [decide]; [|reflexivity].
  destruct (evaluate (net_deadb net) (cn_init net) c) eqn:E; [| |reflexivity].
  - cbn [true_of]. split; intros _ pi M P; [|reflexivity]. pose proof (@evaluate_sound (to_pnet net) (net_deadb net) (cn_init net) F D c pi M P) as S. rewrite E in S. exact S.
  - cbn [true_of]. destruct (runs_exist (to_pnet net) (cn_init net) W) as (pi & M & P). split; intros H; exfalso; [discriminate (H pi M P)|].
    pose proof (@evaluate_sound (to_pnet net) (net_deadb net) (cn_init net) F D c pi M P) as S. rewrite E in S. apply S, H; auto.
Qed.

Lemma start_facts : forall net, start_ok net -> wf_pnet (to_pnet net) /\ fits (cn_init net) /\ (net_deadb net (cn_init net) = true <-> dead (to_pnet net) (cn_init net)).
Proof.
  intros net (L & Hpl & Hl & Hf). split; [apply layout_wf; exact L|]. split.
  - intros p. specialize (Hf p). unfold u32max. lia.
  - destruct (@deadlocked_spec net (cn_init net) L Hpl Hl) as (d & Hd & Ed). unfold net_deadb. rewrite Hd. exact Ed.
Qed.

Section Run.
  Variable o : dopts.
  Variable simplify : list dq -> list dq.
  Variable reduce : list dq -> list outc -> res (cnet * list dq).
  Variable ctl ltl synth : cnet -> nat -> cond -> res bool.
  Variable siphon : cnet -> nat -> bool.
  Variable search tar : cnet -> list cond -> list bool -> (nat -> rslt -> rslt * bool) -> list (nat * rslt) * res unit.
  Variable net : cnet.
  Variable qs : list dq.
  Hypothesis HS0 : start_ok net.
  Hypothesis HP : parts_right o simplify reduce ctl ltl synth search tar net qs.
  Let HS := start_facts net HS0.
  Notation qs1 := (rewritten simplify net qs).
  Notation rs := (outcomes o simplify net qs).
  Notation tagged := (combine (map (solved net) qs) qs1).

  Lemma len1 : length qs1 = length qs.
  Proof. destruct HP as ((H & _) & _). rewrite H, map_length. reflexivity. Qed.
  Lemma len_rs : length rs = length qs.
  Proof. unfold outcomes, classified. rewrite classify_length, combine_length, map_length, len1. lia. Qed.
  Lemma rewritten_true : forall i q q', nth_error qs i = Some q -> nth_error qs1 i = Some q' -> (true_of net q <-> true_of net q').
  Proof.
    intros i q q' Hq Hq'. destruct HS as (W & F & D). rewrite <- (initial_true net q W F D). destruct HP as ((_ & H) & _). apply (H i); auto. rewrite nth_error_map, Hq. reflexivity.
  Qed.
  Lemma tagged_nth : forall i q, nth_error qs1 i = Some q -> exists sv, nth_error tagged i = Some (sv, q).
  Proof.
    intros i q H. assert (L := len1). assert (Hi : i < length qs1) by (apply nth_error_Some; congruence).
    generalize dependent qs1. clear. intros q1 H L Hi. revert q1 i H L Hi. generalize (map (solved net) qs) as l, (map_length (solved net) qs). intros l Hl. rewrite <- Hl. clear.
    induction l as [|x l IH]; intros [|y q1] [|i] H L Hi; cbn in *; try discriminate; try lia; [injection H as ->; eauto|]. apply IH; auto; lia.
  Qed.
  Lemma nth_tagged : forall i sv q, nth_error tagged i = Some (sv, q) -> nth_error qs1 i = Some q.
  Proof.
    generalize (map (solved net) qs) as l, qs1 as q1. induction l as [|x l IH]; intros [|y q1] [|i] sv q H; cbn in *; try discriminate; [injection H as _ ->; reflexivity|]. eapply IH; eauto.
  Qed.
  Lemma kind_of : forall i q, nth_error qs1 i = Some q ->
    match nth i rs OSynth with
    | ORes Unknown => o_approx o = true \/ plain_reach q = true /\ o_noreach o = false
    | ORes Satisfied => q = QPlain (CBool true)
    | ORes NotSatisfied => q = QPlain (CBool false)
    | OCTL => exists c, q = QPlain c /\ o_ltl o = false
    | OLTL => exists c, q = QPlain c /\ o_ltl o = true
    | OSynth => exists c, q = QControl c
    | _ => False
    end.
  Proof.
    intros i q H. destruct (tagged_nth i q H) as (sv & Ht). unfold outcomes, classified. rewrite (classify_nth o _ 0 i sv q Ht). apply classify1_kind.
  Qed.
  Lemma at_i : forall i, i < length qs -> exists q, nth_error qs1 i = Some q.
  Proof. intros i Hi. destruct (nth_error qs1 i) as [q|] eqn:E; [eauto|]. apply nth_error_None in E. rewrite len1 in E. lia. Qed.

  Lemma lines_good : good net qs (fun i => i < length qs /\ pending (nth i rs OSynth) = false) (const_at tagged) (snd (fst (classified o simplify net qs)), Ok tt).
  Proof.
    eapply good_weak; [apply (classify_good net qs o tagged 0)| |].
    - intros j sv b Hj. apply nth_tagged in Hj. cbn [Nat.add]. assert (Hl : j < length qs) by (rewrite <- len1; apply nth_error_Some; congruence).
      destruct (nth_error qs j) as [q|] eqn:E; [|apply nth_error_None in E; lia]. exists q. split; [reflexivity|]. rewrite (rewritten_true j q _ E Hj). cbn [true_of].
      destruct HS as (W & _). split; [intros -> pi M P; reflexivity|]. intros H. destruct (runs_exist (to_pnet net) (cn_init net) W) as (pi & M & P). exact (H pi M P).
    - cbn beta. intros i (j & -> & sv & b & Hj). cbn [Nat.add]. unfold outcomes, classified. rewrite (classify_nth o _ 0 j sv _ Hj). split.
      + apply nth_tagged in Hj. rewrite <- len1. apply nth_error_Some. congruence.
      + unfold classify1. destruct b; [reflexivity|]. destruct (sv && o_trace o); reflexivity.
    - cbn beta. intros i H. exists i. auto.
  Qed.
  Lemma const_pending : forall i, i < length qs -> pending (nth i rs OSynth) = false -> const_at tagged i.
  Proof.
    intros i Hi Hp. destruct (at_i i Hi) as (q & Hq). pose proof (kind_of i q Hq) as K. destruct (tagged_nth i q Hq) as (sv & Ht).
    exists sv. destruct (nth i rs OSynth) as [[]| | |]; try discriminate Hp; try contradiction; subst q; eauto.
  Qed.

  (** The condition under which no query is dropped. *)
  Definition no_drop : Prop :=
    o_verify o = true /\ o_approx o = false /\ (o_ltl o = true -> o_ltlalg o = true) /\ ((forall q, In q qs1 -> is_control q = false) \/ length qs = 1).

  Lemma ids_nil : forall p, (forall i, i < length rs -> p (nth i rs OSynth) = false) -> ids p rs = [].
  Proof.
    intros p H. destruct (ids p rs) as [|i l] eqn:E; [reflexivity|]. assert (X : In i (ids p rs)) by (rewrite E; left; reflexivity).
    apply in_ids in X. destruct X as (X & Y). rewrite (H i X) in Y. discriminate.
  Qed.
  Lemma reached : no_drop -> all_reached o rs.
  Proof.
    intros (_ & _ & Hl & Hc).
    assert (K : (forall i, i < length rs -> is_ctl (nth i rs OSynth) = false) \/ (forall i, i < length rs -> is_ltl (nth i rs OSynth) = false)).
    { destruct (o_ltl o) eqn:E; [left|right]; intros i Hi; rewrite len_rs in Hi; destruct (at_i i Hi) as (q & Hq); pose proof (kind_of i q Hq) as K;
        destruct (nth i rs OSynth); auto; destruct K as (c & _ & K); congruence. }
    split; [|split].
    - destruct (o_ltl o) eqn:E; [left; auto|right]. apply ids_nil. intros i Hi; rewrite len_rs in Hi; destruct (at_i i Hi) as (q & Hq); pose proof (kind_of i q Hq) as X;
        destruct (nth i rs OSynth); auto; destruct X as (c & _ & X); congruence.
    - destruct K as [K|K]; [left|right]; apply ids_nil; exact K.
    - destruct Hc as [Hc|Hc].
      + left. apply ids_nil. intros i Hi. rewrite len_rs in Hi. destruct (at_i i Hi) as (q & Hq). pose proof (kind_of i q Hq) as X. apply nth_error_In in Hq. apply Hc in Hq.
        destruct (nth i rs OSynth); auto. destruct X as (c & ->). discriminate Hq.
      + assert (Lr := len_rs). rewrite Hc in Lr. destruct rs as [|r [|]]; try discriminate Lr. destruct r; cbn; auto.
  Qed.

  Theorem driver_good : good net qs (fun i => i < length qs) (fun i => i < length qs /\ no_drop) (driver o simplify reduce ctl ltl synth siphon search tar net qs).
  Proof.
    unfold driver. destruct qs as [|q0 l0] eqn:Eqs; [eapply good_weak; [apply good_nil|intros i []|intros i _; discriminate]|]. rewrite <- Eqs in *. clear Eqs.
    set (ad := o_simplify o && snd (classified o simplify net qs)).
    assert (Had : ad = true -> no_drop -> forall i, i < length qs -> const_at tagged i).
    { intros H (_ & Ha & _) i Hi. apply Bool.andb_true_iff in H. destruct H as (_ & H). apply classify_done in H. destruct H as [H|H]; [congruence|]. apply H.
      rewrite combine_length, map_length, len1. lia. }
    assert (Hstop : forall r, (r = Ok tt -> no_drop -> ad = true) -> good net qs (fun i => i < length qs) (fun i => i < length qs /\ no_drop) (emit (snd (fst (classified o simplify net qs))) ([], r))).
    { intros r Hr. eapply good_weak; [eapply good_emit; [exact lines_good|apply good_nil|intros i _ []]| |].
      - cbn beta. intros i [(H & _)|[]]. exact H.
      - cbn beta. intros i (Hi & Hn). assert (Dec : r = Ok tt \/ r <> Ok tt) by (destruct r as [[]| | |]; auto; right; discriminate). destruct Dec as [D|D]; [left; apply Had; auto|right; exact D]. }
    destruct (ad && negb (o_write o)) eqn:E1; [apply Hstop; intros _ _; apply Bool.andb_true_iff in E1; apply E1|].
    destruct (prepared o simplify reduce net qs) as [[net2 qs2]| | |] eqn:Ep; [|apply Hstop; discriminate|apply Hstop; discriminate|apply Hstop; discriminate]. cbn [fst snd].
    destruct (ad || o_approx o || negb (o_verify o)) eqn:E2.
    { apply Hstop. intros _ (V & A & _). rewrite V, A in E2. destruct ad; [reflexivity|discriminate E2]. }
    assert (A0 : o_approx o = false) by (destruct (o_approx o); [destruct ad; discriminate E2|reflexivity]).
    assert (Ep' : if o_reduce o then (forall x, In x (outcomes o simplify net qs) -> is_synth x = false) /\ reduce (rewritten simplify net qs) (outcomes o simplify net qs) = Ok (net2, qs2)
       else net2 = net /\ qs2 = rewritten simplify net qs).
    { unfold prepared in Ep. destruct (o_reduce o); [|injection Ep as <- <-; split; reflexivity]. destruct (existsb is_synth (outcomes o simplify net qs)) eqn:Ex; [discriminate Ep|]. split; [|exact Ep].
      intros x X. destruct (is_synth x) eqn:Ix; [|reflexivity]. exfalso. assert (Y : existsb is_synth (outcomes o simplify net qs) = true) by (apply existsb_exists; eauto). congruence. }
    destruct (proj2 HP net2 qs2 Ep') as (W & (L2 & T) & Sh & Rc & Rl & Rs & G & HG & Ht & Hsr).
    assert (LL : length qs2 = length qs) by (rewrite L2; apply len1).
    assert (Shp : forall i q, nth_error qs2 i = Some q -> pending (nth i rs OSynth) = true -> exists q1, nth_error qs1 i = Some q1 /\ same_shape q1 q).
    { intros i q Hq Hp. destruct (at_i i) as (q1 & Hq1); [rewrite <- LL; apply nth_error_Some; congruence|]. exists q1. split; [exact Hq1|]. eapply Sh; eauto. }
    assert (V := verify_good net net2 qs qs2 o ctl ltl synth siphon search tar rs G W LL len_rs).
    match type of V with ?X1 -> ?X2 -> ?X3 -> ?X4 -> ?X5 -> _ => assert (H1 : X1); [|assert (H2 : X2); [|assert (H3 : X3); [|assert (H4 : X4); [|assert (H5 : X5); [|specialize (V H1 H2 H3 H4 H5 Rc Rl Rs Ht Hsr)]]]]] end.
    - intros i q q' Hp Hq Hq'. destruct (Shp i q' Hq' Hp) as (q1 & Hq1 & _). rewrite (rewritten_true i q q1 Hq Hq1). apply (T i); auto.
    - intros i q Hq Hk. destruct (Shp i q Hq) as (q1 & Hq1 & S1); [destruct (nth i rs OSynth); discriminate Hk || reflexivity|]. pose proof (kind_of i q1 Hq1) as K.
      destruct (nth i rs OSynth); try discriminate Hk. destruct K as (c & -> & _). destruct q as [c'|]; [eauto|destruct S1].
    - intros i q Hq Hk. destruct (Shp i q Hq) as (q1 & Hq1 & S1); [destruct (nth i rs OSynth); discriminate Hk || reflexivity|]. pose proof (kind_of i q1 Hq1) as K.
      destruct (nth i rs OSynth); try discriminate Hk. destruct K as (c & -> & _). destruct q as [c'|]; [eauto|destruct S1].
    - intros i q Hq Hk. destruct (Shp i q Hq) as (q1 & Hq1 & S1); [destruct (nth i rs OSynth); discriminate Hk || reflexivity|]. pose proof (kind_of i q1 Hq1) as K.
      destruct (nth i rs OSynth); try discriminate Hk. destruct K as (c & ->). destruct q as [|c']; [destruct S1|eauto].
    - intros i q Hq Hk. destruct (Shp i q Hq) as (q1 & Hq1 & S1); [destruct (nth i rs OSynth) as [[]| | |]; discriminate Hk || reflexivity|]. pose proof (kind_of i q1 Hq1) as K.
      split.
      + destruct (nth i rs OSynth) as [[]| | |]; try discriminate Hk. destruct K as [K|(K & _)]; [congruence|]. destruct q1 as [c1|]; [|discriminate K]. destruct q as [c|]; [|destruct S1]. cbn in *. congruence.
      + intros c g inv -> Hp. apply (HG i c g inv Hk Hq Hp).
    - eapply good_weak; [eapply good_emit; [exact lines_good|exact V|]| |].
      + cbn beta. intros i (_ & A) (_ & B). congruence.
      + cbn beta. intros i [(A & _)|(A & _)]; [exact A|]. rewrite <- len_rs. exact A.
      + cbn beta. intros i (Hi & Hn). destruct (pending (nth i rs OSynth)) eqn:Pd; [right|left; apply const_pending; auto].
        split; [rewrite len_rs; exact Hi|]. split; [apply reached; exact Hn|reflexivity].
  Qed.
End Run.

Theorem driver_siphon : forall o simplify reduce ctl ltl synth s1 s2 search tar net qs,
  length (simplify (map (initial net) qs)) = length qs ->
  (forall net2 qs2, prepared o simplify reduce net qs = Ok (net2, qs2) -> length qs2 = length qs /\
     forall i q q', nth_error (rewritten simplify net qs) i = Some q -> nth_error qs2 i = Some q' -> is_open (nth i (outcomes o simplify net qs) OSynth) = true -> same_shape q q') ->
  driver o simplify reduce ctl ltl synth s1 search tar net qs = driver o simplify reduce ctl ltl synth s2 search tar net qs.
Proof.
  intros o simplify reduce ctl ltl synth s1 s2 search tar net qs Hl Hp. unfold driver. destruct qs as [|q0 l0] eqn:Eqs; [reflexivity|]. rewrite <- Eqs in *. clear Eqs.
  f_equal. destruct (_ && _); [reflexivity|]. destruct (prepared o simplify reduce net qs) as [[net2 qs2]| | |]; try reflexivity. cbn [fst snd].
  destruct (Hp net2 qs2 eq_refl) as (L2 & Sh). destruct (o_simplify o && snd (classified o simplify net qs)); [reflexivity|]. cbn [orb].
  destruct (o_approx o) eqn:Ap; [reflexivity|]. destruct (o_verify o); [|reflexivity]. cbn [orb negb].
  assert (L1 : length (rewritten simplify net qs) = length qs) by exact Hl.
  apply verify_siphon.
  - unfold outcomes, classified. rewrite classify_length, combine_length, map_length. lia.
  - intros i q Hq O. destruct (nth_error (rewritten simplify net qs) i) as [q1|] eqn:E1.
    2: { apply nth_error_None in E1. assert (i < length qs2) by (apply nth_error_Some; congruence). lia. }
    specialize (Sh i q1 q E1 Hq O).
    assert (X : exists sv, nth_error (combine (map (solved net) qs) (rewritten simplify net qs)) i = Some (sv, q1)).
    { assert (Hi : i < length (map (solved net) qs)) by (rewrite map_length, <- L1; apply nth_error_Some; congruence).
      clear - E1 Hi. revert i E1 Hi. generalize (rewritten simplify net qs) as l2. generalize (map (solved net) qs) as l1.
      induction l1 as [|x l1 IH]; intros [|y l2] [|i] H Hi; cbn in *; try discriminate; try lia; [injection H as ->; eauto|]. apply IH; auto. lia. }
    destruct X as (sv & X). unfold outcomes, classified in O. rewrite (classify_nth o _ 0 i sv q1 X) in O. pose proof (classify1_kind o i sv q1) as K. cbn [Nat.add] in O.
    destruct (fst (fst (classify1 o i sv q1))) as [[]| | |]; try discriminate O. destruct K as [K|(K & _)]; [congruence|].
    destruct q1 as [c1|]; [|discriminate K]. destruct q as [c|]; [|destruct Sh]. cbn in *. congruence.
Qed.
