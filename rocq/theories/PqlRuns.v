(** Every marking of a well-formed net has a maximal run. *)
From Verif Require Import Base BaseLemmas NetSpec NetProofs PqlSyntax PqlSpec PqlModel PqlProofs PqlPush PushRules PushProofs.

Definition fire_fun (tr : trans) (m : marking) : marking :=
  map (fun p => tokens m p - weight_at (tr_pre tr) p + weight_at (tr_post tr) p)%N (seq 0 (length m)).
Lemma fire_fun_fires : forall tr m, NoDup (map arc_place (tr_pre tr)) -> enabled tr m -> fires tr m (fire_fun tr m).
Proof.
  intros tr m Hn He. split; [exact He|]. split.
  - unfold fire_fun. rewrite map_length, seq_length. reflexivity.
  - intros p Hp. split; [apply weight_at_le; auto|]. unfold fire_fun. unfold tokens at 1.
    set (g := fun p0 => (tokens m p0 - weight_at (tr_pre tr) p0 + weight_at (tr_post tr) p0)%N).
    rewrite nth_indep with (d' := g 0) by (rewrite map_length, seq_length; exact Hp).
    rewrite map_nth. rewrite seq_nth by exact Hp. reflexivity.
Qed.
Definition next (net : pnet) (m : marking) : marking :=
  match find (fun tr => enabledb tr m) (pn_trans net) with
  | Some tr => fire_fun tr m
  | None => m
  end.
Lemma runs_exist : forall net m, wf_pnet net -> exists pi, maximal net pi /\ pi 0 = m.
Proof.
  intros net m Hw. exists (fun n => Nat.iter n (next net) m). split; [|reflexivity].
  intros i. cbn [Nat.iter nat_rect]. fold (Nat.iter i (next net) m). set (x := Nat.iter i (next net) m).
  change (Nat.iter (S i) (next net) m) with (next net x). unfold next.
  destruct (find (fun tr => enabledb tr x) (pn_trans net)) as [tr|] eqn:F.
  - left. apply find_some in F. destruct F as (Hin & He). apply enabledb_spec in He.
    destruct (In_nth_error _ _ Hin) as (t & Ht). exists t, tr. split; [exact Ht|].
    apply fire_fun_fires; auto. apply (Hw tr Hin).
  - right. split; [|reflexivity]. intros t tr Ht He. apply enabledb_spec in He.
    apply nth_error_In in Ht. pose proof (find_none _ _ F tr Ht) as G. cbn in G. congruence.
Qed.

(** pushNegation at the level of markings *)
Theorem push_sat : forall net deadb m0 initrw fuel negated c r,
  wf_pnet net -> (initrw = true -> fits m0 /\ (deadb m0 = true <-> dead net m0)) ->
  stf c = true -> in_range c = true ->
  push deadb m0 initrw fuel false negated c = Ok r ->
  stf r = true /\ in_range r = true /\
  forall m, (initrw = true -> m = m0) -> (sat net m r <-> if negated then ~ sat net m c else sat net m c).
Proof.
  intros net deadb m0 initrw fuel negated c r Hw Hi Hs Hr Hp.
  assert (Hc : cls true c = true) by (apply cls_split; auto).
  pose proof (@push_ok net deadb m0 initrw Hi fuel true false negated c Hc) as G. rewrite Hp in G. destruct G as (A & B).
  apply cls_split in A. destruct A as (A1 & A2). split; [exact A2|]. split; [exact A1|].
  intros m Hm.
  assert (E : forall pi, maximal net pi -> pi 0 = m -> (holds net pi r <-> holds net pi (notif negated c))).
  { intros pi M P. apply B. split; [exact M|]. intros _ E. rewrite P. auto. }
  destruct (runs_exist net m Hw) as (pi & M & P).
  assert (S : forall d, stf d = true -> (sat net m d <-> holds net pi d)).
  { intros d Hd. split; [intros H; apply H; auto|]. intros H rho Mr Pr. apply (stf_state net d Hd pi rho); congruence. }
  pose proof (S r A2) as S1. pose proof (S c Hs) as S2. pose proof (E pi M P) as E1. destruct negated; cbn [notif holds] in *; tauto.
Qed.
Theorem push_defined : forall net deadb m0 initrw fuel nested negated c,
  (initrw = true -> fits m0 /\ (deadb m0 = true <-> dead net m0)) ->
  in_range c = true -> stf c = true \/ ltl c = true ->
  push deadb m0 initrw fuel nested negated c <> Throw /\ push deadb m0 initrw fuel nested negated c <> UB.
Proof.
  intros net deadb m0 initrw fuel nested negated c Hi Hr Hs.
  assert (exists k, cls k c = true) as (k & Hc).
  { destruct Hs as [Hs|Hs]; [exists true|exists false]; apply cls_split; auto. }
  pose proof (@push_ok net deadb m0 initrw Hi fuel k nested negated c Hc) as G.
  destruct (push deadb m0 initrw fuel nested negated c); cbn [good] in G; try contradiction; split; discriminate.
Qed.
(** linear-time formulas, on every run *)
Theorem push_ltl : forall net fuel negated c r,
  ltl c = true -> in_range c = true -> push (fun _ => false) [] false fuel false negated c = Ok r ->
  ltl r = true /\ in_range r = true /\
  forall pi, maximal net pi -> (holds net pi r <-> if negated then ~ holds net pi c else holds net pi c).
Proof.
  intros net fuel negated c r Hs Hr Hp.
  assert (Hc : cls false c = true) by (apply cls_split; auto).
  assert (Hi : false = true -> fits [] /\ ((fun _ : list N => false) [] = true <-> dead net [])) by discriminate.
  pose proof (@push_ok net (fun _ => false) [] false Hi fuel false false negated c Hc) as G. rewrite Hp in G. destruct G as (A & B).
  apply cls_split in A. destruct A as (A1 & A2). split; [exact A2|]. split; [exact A1|].
  intros pi M. rewrite (B pi (conj M (fun _ H => match Bool.diff_false_true H with end))). destruct negated; cbn [notif holds]; tauto.
Qed.
(** evaluation at the level of markings *)
Theorem evaluate_sat : forall net deadb m c, wf_pnet net -> fits m -> (deadb m = true <-> dead net m) ->
  stf c = true ->
  (evaluate deadb m c = RTrue -> sat net m c) /\
  (evaluate deadb m c = RFalse -> ~ sat net m c) /\
  (atomic c = true -> evaluate deadb m c <> RUnknown).
Proof.
  intros net deadb m c Hw Hf Hd Hs. split; [|split].
  - intros E pi M P. pose proof (@evaluate_sound net deadb m Hf Hd c pi M P) as S. rewrite E in S. exact S.
  - intros E H. destruct (runs_exist net m Hw) as (pi & M & P).
    pose proof (@evaluate_sound net deadb m Hf Hd c pi M P) as S. rewrite E in S. apply S, H; auto.
  - intros A. eapply evaluate_known; eauto.
Qed.
Theorem evaluate_path : forall net deadb pi c, maximal net pi -> fits (pi 0) -> (deadb (pi 0) = true <-> dead net (pi 0)) ->
  (evaluate deadb (pi 0) c = RTrue -> holds net pi c) /\ (evaluate deadb (pi 0) c = RFalse -> ~ holds net pi c).
Proof.
  intros net deadb pi c M Hf Hd. pose proof (@evaluate_sound net deadb (pi 0) Hf Hd c pi M eq_refl) as S.
  destruct (evaluate deadb (pi 0) c); cbn [tv_sound] in S; split; intros; auto; discriminate.
Qed.
Theorem make_log_sat : forall isor l, Forall (fun c => in_range c = true /\ stf c = true) l ->
  exists r, make_log isor l = Ok r /\ in_range r = true /\ stf r = true /\
    forall net pi, holds net pi r <-> if isor then exists c, In c l /\ holds net pi c else forall c, In c l -> holds net pi c.
Proof.
  intros isor l H.
  assert (Hl : Forall (fun c => cls true c = true) l) by (eapply Forall_impl; [|exact H]; intros c Hc; apply cls_split; exact Hc).
  destruct (@make_log_spec true isor l Hl) as (r & A & B & C). apply cls_split in B. exists r. split; [exact A|]. split; [apply B|].
  split; [apply B|]. intros net pi. rewrite C. destruct isor; cbn [J]; tauto.
Qed.
