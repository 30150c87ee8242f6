(** The on-the-fly graph computes satisfaction over its transition system. *)
From Verif Require Import Base BaseLemmas PqlSyntax PqlModel DgSpec CtlModel.
Set Implicit Arguments.

Lemma sub_app : forall p c i, sub c (p ++ [i]) = match sub c p with Some c' => child c' i | None => None end.
Proof.
  induction p as [|j p IH]; intros c i; cbn [sub app].
  - destruct (child c i); reflexivity.
  - destruct (child c j); [apply IH|reflexivity].
Qed.
Lemma pos_ne : forall (p : list nat) i (m m' : list N), (m, p ++ [i]) <> (m', p).
Proof. intros p i m m' H. injection H as _ H. apply (f_equal (@length nat)) in H. rewrite app_length in H. cbn in H. lia. Qed.

(** the formulas the engine accepts *)
Fixpoint frag (c : cond) : bool :=
  match c with
  | CBool _ | CDead | CCmp _ _ _ | CConj _ _ => true
  | CNot c | CEX c | CAX c | CEF c | CAF c => frag c
  | CAnd l | COr l => forallb frag l
  | CEU a b | CAU a b => frag a && frag b
  | _ => false
  end.
(** the number of negations above a position *)
Fixpoint negs (c : cond) (p : list nat) : nat :=
  match p with
  | [] => 0
  | i :: p => (match c with CNot _ => 1 | _ => 0 end) + match child c i with Some c' => negs c' p | None => 0 end
  end.
Lemma negs_app : forall p c c' i, sub c p = Some c' -> child c' i <> None -> negs c (p ++ [i]) = negs c p + match c' with CNot _ => 1 | _ => 0 end.
Proof.
  induction p as [|j p IH]; intros c c' i H Hi; cbn [sub app negs] in *.
  - injection H as <-. destruct (child c i); [cbn; lia|congruence].
  - destruct (child c j) as [d|]; [|discriminate]. rewrite (IH d c' i H Hi). lia.
Qed.

Section Ctl.
  Variable deadb : list N -> bool.
  Variable succs : list N -> list (list N).
  Variable root : cond.
  Notation ev := (evaluate deadb).
  Notation g := (dg deadb succs root).

  (** * Satisfaction, as least fixed points over the successor function *)
  Inductive EUi (a b : list N -> Prop) : list N -> Prop :=
  | EU_now : forall m, b m -> EUi a b m
  | EU_step : forall m m', a m -> In m' (succs m) -> EUi a b m' -> EUi a b m.
  Inductive AUi (a b : list N -> Prop) : list N -> Prop :=
  | AU_now : forall m, b m -> AUi a b m
  | AU_step : forall m, a m -> succs m <> [] -> (forall m', In m' (succs m) -> AUi a b m') -> AUi a b m.
  Fixpoint tsat (c : cond) (m : list N) : Prop :=
    match c with
    | CBool _ | CDead | CCmp _ _ _ | CConj _ _ => ev m c = RTrue
    | CNot c => ~ tsat c m
    | CAnd l => fold_right and True (map (fun c => tsat c m) l)
    | COr l => fold_right or False (map (fun c => tsat c m) l)
    | CEX c => exists m', In m' (succs m) /\ tsat c m'
    | CAX c => forall m', In m' (succs m) -> tsat c m'
    | CEF c => EUi (fun _ => True) (tsat c) m
    | CAF c => AUi (fun _ => True) (tsat c) m
    | CEU a b => EUi (tsat a) (tsat b) m
    | CAU a b => AUi (tsat a) (tsat b) m
    | _ => False
    end.
  Lemma tsat_and : forall l m, tsat (CAnd l) m <-> forall c, In c l -> tsat c m.
  Proof.
    intros l m. cbn [tsat]. induction l as [|c l IH]; cbn; [split; [intros _ c []|auto]|]. split.
    - intros (A & B) x [<-|Hx]; [exact A|]. apply IH; auto.
    - intros A. split; [apply A; auto|]. apply IH. intros x Hx. apply A. auto.
  Qed.
  Lemma tsat_or : forall l m, tsat (COr l) m <-> exists c, In c l /\ tsat c m.
  Proof.
    intros l m. cbn [tsat]. induction l as [|c l IH]; cbn; [split; [intros []|intros (c & [] & _)]|]. split.
    - intros [A|B]; [exists c; auto|]. apply IH in B. destruct B as (x & Hx & B). exists x. auto.
    - intros (x & [<-|Hx] & A); [auto|]. right. apply IH. exists x. auto.
  Qed.

  Lemma ev_and : forall m l, match ev m (CAnd l) with
    | RTrue => forall c, In c l -> ev m c = RTrue
    | RFalse => exists c, In c l /\ ev m c = RFalse
    | RUnknown => forall c, In c l -> ev m c <> RFalse end.
  Proof.
    intros m l. cbn [evaluate]. set (go := fix go (l : list cond) (r : tv) : tv := _).
    assert (G : forall l r, r <> RFalse -> match go l r with
      | RTrue => r = RTrue /\ forall c, In c l -> ev m c = RTrue
      | RFalse => exists c, In c l /\ ev m c = RFalse
      | RUnknown => forall c, In c l -> ev m c <> RFalse end).
    { clear l. induction l as [|c l IH]; intros r Hr.
      - cbn. destruct r; [split; [reflexivity|intros c []]|congruence|intros c []].
      - cbn [go]. fold go. destruct (ev m c) eqn:E.
        + specialize (IH r Hr). destruct (go l r).
          * destruct IH as (A & B). split; [exact A|]. intros x [<-|Hx]; auto.
          * destruct IH as (x & Hx & A). exists x. split; [right; exact Hx|exact A].
          * intros x [<-|Hx]; [congruence|auto].
        + exists c. split; [left; reflexivity|exact E].
        + assert (Hu : RUnknown <> RFalse) by discriminate. specialize (IH RUnknown Hu). destruct (go l RUnknown).
          * destruct IH as (A & B). discriminate.
          * destruct IH as (x & Hx & A). exists x. split; [right; exact Hx|exact A].
          * intros x [<-|Hx]; [congruence|auto]. }
    assert (Ht : RTrue <> RFalse) by discriminate. specialize (G l RTrue Ht). destruct (go l RTrue); [exact (proj2 G)|exact G|exact G].
  Qed.
  Lemma ev_or : forall m l, match ev m (COr l) with
    | RTrue => exists c, In c l /\ ev m c = RTrue
    | RFalse => forall c, In c l -> ev m c = RFalse
    | RUnknown => forall c, In c l -> ev m c <> RTrue end.
  Proof.
    intros m l. cbn [evaluate]. set (go := fix go (l : list cond) (r : tv) : tv := _).
    assert (G : forall l r, r <> RTrue -> match go l r with
      | RTrue => exists c, In c l /\ ev m c = RTrue
      | RFalse => r = RFalse /\ forall c, In c l -> ev m c = RFalse
      | RUnknown => forall c, In c l -> ev m c <> RTrue end).
    { clear l. induction l as [|c l IH]; intros r Hr.
      - cbn. destruct r; [congruence|split; [reflexivity|intros c []]|intros c []].
      - cbn [go]. fold go. destruct (ev m c) eqn:E.
        + exists c. split; [left; reflexivity|exact E].
        + specialize (IH r Hr). destruct (go l r).
          * destruct IH as (x & Hx & A). exists x. split; [right; exact Hx|exact A].
          * destruct IH as (A & B). split; [exact A|]. intros x [<-|Hx]; auto.
          * intros x [<-|Hx]; [congruence|auto].
        + assert (Hu : RUnknown <> RTrue) by discriminate. specialize (IH RUnknown Hu). destruct (go l RUnknown).
          * destruct IH as (x & Hx & A). exists x. split; [right; exact Hx|exact A].
          * destruct IH as (A & B). discriminate.
          * intros x [<-|Hx]; [congruence|auto]. }
    assert (Ht : RFalse <> RTrue) by discriminate. specialize (G l RFalse Ht). destruct (go l RFalse); [exact G|exact (proj2 G)|exact G].
  Qed.

  Lemma ev_sound : forall c m, frag c = true -> match ev m c with RTrue => tsat c m | RFalse => ~ tsat c m | RUnknown => True end.
  Proof.
    induction c using cond_ind'; intros m Hf; cbn [frag] in Hf; try discriminate Hf.
    - cbn. destruct b; cbn; congruence.
    - cbn. destruct (deadb m); cbn; congruence.
    - specialize (IHc m Hf). cbn [evaluate tsat]. destruct (ev m c); auto.
    - rewrite Forall_forall in H. rewrite forallb_forall in Hf. assert (A := ev_and m l). destruct (ev m (CAnd l)); auto.
      + apply tsat_and. intros c Hc. specialize (H c Hc m (Hf c Hc)). rewrite (A c Hc) in H. exact H.
      + destruct A as (c & Hc & A). intros B. rewrite tsat_and in B. specialize (H c Hc m (Hf c Hc)). rewrite A in H. apply H. auto.
    - rewrite Forall_forall in H. rewrite forallb_forall in Hf. assert (A := ev_or m l). destruct (ev m (COr l)); auto.
      + destruct A as (c & Hc & A). apply tsat_or. exists c. split; [exact Hc|]. specialize (H c Hc m (Hf c Hc)). rewrite A in H. exact H.
      + intros B. rewrite tsat_or in B. destruct B as (c & Hc & B). specialize (H c Hc m (Hf c Hc)). rewrite (A c Hc) in H. auto.
    - cbn [evaluate tsat]. destruct (tvb _); auto; congruence.
    - cbn [evaluate tsat]. destruct (tvb _); auto; congruence.
    - exact I.
    - exact I.
    - cbn [evaluate tsat]. specialize (IHc m Hf). destruct (ev m c); cbn; auto. apply EU_now. exact IHc.
    - cbn [evaluate tsat]. specialize (IHc m Hf). destruct (ev m c); cbn; auto. apply AU_now. exact IHc.
    - apply andb_prop in Hf. destruct Hf as (H1 & H2). cbn [evaluate tsat]. specialize (IHc1 m H1). specialize (IHc2 m H2). unfold until_tv. destruct (ev m c2).
      + apply EU_now. exact IHc2.
      + destruct (ev m c1); auto. intros K. inversion K as [x Kb|x x' Ka]; subst; auto.
      + exact I.
    - apply andb_prop in Hf. destruct Hf as (H1 & H2). cbn [evaluate tsat]. specialize (IHc1 m H1). specialize (IHc2 m H2). unfold until_tv. destruct (ev m c2).
      + apply AU_now. exact IHc2.
      + destruct (ev m c1); auto. intros K. inversion K as [x Kb|x Ka]; subst; auto.
      + exact I.
  Qed.
  Lemma ev_true : forall c m, frag c = true -> ev m c = RTrue -> tsat c m.
  Proof. intros c m Hf E. assert (H := ev_sound c m Hf). rewrite E in H. exact H. Qed.
  Lemma ev_false : forall c m, frag c = true -> ev m c = RFalse -> ~ tsat c m.
  Proof. intros c m Hf E. assert (H := ev_sound c m Hf). rewrite E in H. exact H. Qed.

  (** * The value of a configuration *)
  Definition evalq (c : cond) : bool := match c with CBool _ | CDead | CCmp _ _ _ | CConj _ _ => true | _ => false end.
  Fixpoint gval (c : cond) (m : list N) : Prop :=
    match c with
    | CBool _ | CDead | CCmp _ _ _ | CConj _ _ => ev m root = RTrue
    | CNot c => ~ gval c m
    | _ => tsat c m
    end.
  Definition val (v : ctlconf) : Prop := match sub root (snd v) with Some c => gval c (fst v) | None => False end.
  Lemma gval_unknown : forall c m, ev m c = RUnknown -> (gval c m <-> tsat c m).
  Proof.
    induction c using cond_ind'; intros m E; try tauto.
    - destruct b; discriminate E.
    - cbn in E. destruct (deadb m); discriminate E.
    - cbn [gval tsat]. cbn [evaluate] in E. assert (Ec : ev m c = RUnknown) by (destruct (ev m c); congruence). specialize (IHc m Ec). tauto.
    - cbn [evaluate] in E. destruct (compare _ _ _); discriminate E.
    - cbn [evaluate] in E. destruct (xorb _ _); discriminate E.
  Qed.

  (** * Witnesses: why a configuration is true *)
  Inductive wit : ctlconf -> Prop :=
  | wit_neg : forall v e, In e (g v) -> h_neg e = true -> DgSpec.fires val e -> wit v
  | wit_pos : forall v e, In e (g v) -> h_neg e = false -> (forall t, In t (h_targets e) -> val t) -> (forall t, In t (h_targets e) -> wit t) -> wit v.
  Lemma wit_empty : forall v, In empty_edge (g v) -> wit v.
  Proof. intros v H. apply wit_pos with empty_edge; [exact H|reflexivity|intros t []|intros t []]. Qed.

  (** * Edges under construction *)
  Lemma add_other : forall src ts c, c <> src -> add_target src (false, ts) c = (false, c :: ts).
  Proof. intros src ts c H. unfold add_target. cbn [fst snd]. destruct (ctlconf_eq c src); [contradiction|reflexivity]. Qed.
  Lemma add_self : forall src ts, add_target src (false, ts) src = (true, []).
  Proof. intros src ts. unfold add_target. cbn [fst snd]. destruct (ctlconf_eq src src); [reflexivity|congruence]. Qed.
  Lemma add_targets_other : forall src l ts, (forall c, In c l -> c <> src) -> add_targets src (false, ts) l = (false, rev l ++ ts).
  Proof.
    induction l as [|c l IH]; intros ts H; [reflexivity|]. cbn [add_targets]. rewrite add_other by (apply H; left; reflexivity). cbn [fst].
    rewrite IH by (intros x Hx; apply H; right; exact Hx). cbn [rev]. rewrite <- app_assoc. reflexivity.
  Qed.

  Lemma and_ops_spec : forall m l i, match and_ops deadb m l i with
    | None => exists c, In c l /\ ev m c = RFalse
    | Some is => (forall k c, nth_error l k = Some c -> ev m c = RTrue \/ (ev m c = RUnknown /\ In (i + k) is)) /\
                 forall j, In j is -> exists k c, j = i + k /\ nth_error l k = Some c /\ ev m c = RUnknown
    end.
  Proof.
    intros m. induction l as [|c l IH]; intros i; cbn [and_ops].
    - split; [intros k c H; destruct k; discriminate H|intros j []].
    - specialize (IH (S i)). destruct (ev m c) eqn:E.
      + destruct (and_ops deadb m l (S i)) as [is|].
        * destruct IH as (A & B). split.
          -- intros [|k] x Hx; [injection Hx as <-; auto|]. replace (i + S k) with (S i + k) by lia. exact (A k x Hx).
          -- intros j Hj. destruct (B j Hj) as (k & x & K1 & K2 & K3). exists (S k), x. split; [lia|auto].
        * destruct IH as (x & Hx & A). exists x. split; [right; exact Hx|exact A].
      + exists c. split; [left; reflexivity|exact E].
      + destruct (and_ops deadb m l (S i)) as [is|].
        * destruct IH as (A & B). split.
          -- intros [|k] x Hx; [injection Hx as <-; right; split; [exact E|left; lia]|]. replace (i + S k) with (S i + k) by lia.
             destruct (A k x Hx) as [K|(K1 & K2)]; [auto|right; split; [exact K1|right; exact K2]].
          -- intros j [<-|Hj]; [exists 0, c; split; [lia|auto]|]. destruct (B j Hj) as (k & x & K1 & K2 & K3). exists (S k), x. split; [lia|auto].
        * destruct IH as (x & Hx & A). exists x. split; [right; exact Hx|exact A].
  Qed.
  Lemma or_ops_spec : forall m l i, match or_ops deadb m l i with
    | None => exists c, In c l /\ ev m c = RTrue
    | Some is => (forall k c, nth_error l k = Some c -> ev m c = RFalse \/ (ev m c = RUnknown /\ In (i + k) is)) /\
                 forall j, In j is -> exists k c, j = i + k /\ nth_error l k = Some c /\ ev m c = RUnknown
    end.
  Proof.
    intros m. induction l as [|c l IH]; intros i; cbn [or_ops].
    - split; [intros k c H; destruct k; discriminate H|intros j []].
    - specialize (IH (S i)). destruct (ev m c) eqn:E.
      + exists c. split; [left; reflexivity|exact E].
      + destruct (or_ops deadb m l (S i)) as [is|].
        * destruct IH as (A & B). split.
          -- intros [|k] x Hx; [injection Hx as <-; auto|]. replace (i + S k) with (S i + k) by lia. exact (A k x Hx).
          -- intros j Hj. destruct (B j Hj) as (k & x & K1 & K2 & K3). exists (S k), x. split; [lia|auto].
        * destruct IH as (x & Hx & A). exists x. split; [right; exact Hx|exact A].
      + destruct (or_ops deadb m l (S i)) as [is|].
        * destruct IH as (A & B). split.
          -- intros [|k] x Hx; [injection Hx as <-; right; split; [exact E|left; lia]|]. replace (i + S k) with (S i + k) by lia.
             destruct (A k x Hx) as [K|(K1 & K2)]; [auto|right; split; [exact K1|right; exact K2]].
          -- intros j [<-|Hj]; [exists 0, c; split; [lia|auto]|]. destruct (B j Hj) as (k & x & K1 & K2 & K3). exists (S k), x. split; [lia|auto].
        * destruct IH as (x & Hx & A). exists x. split; [right; exact Hx|exact A].
  Qed.

  (** loops over successors *)
  Definition unk (c : cond) (p : list nat) (l : list (list N)) (t : ctlconf) : Prop := exists m', In m' l /\ ev m' c = RUnknown /\ t = (m', p).
  Lemma au_loop_spec : forall c p src l ts, match au_loop deadb c p src l (false, ts) with
    | None => exists m', In m' l /\ ev m' c = RFalse
    | Some e => (fst e = true /\ snd e = [] /\ unk c p l src) \/
                (fst e = false /\ (forall m', In m' l -> ev m' c <> RFalse) /\ forall t, In t (snd e) <-> In t ts \/ unk c p l t)
    end.
  Proof.
    intros c p src. induction l as [|m' l IH]; intros ts; cbn [au_loop].
    - right. split; [reflexivity|]. split; [intros m' []|]. intros t. cbn. split; [auto|]. intros [H|(m' & [] & _)]. exact H.
    - assert (Up : forall t, unk c p l t -> unk c p (m' :: l) t) by (intros t (x & X1 & X2); exists x; split; [right; exact X1|exact X2]).
      destruct (ev m' c) eqn:E.
      + specialize (IH ts). destruct (au_loop deadb c p src l (false, ts)) as [e|].
        * destruct IH as [(A & B & C)|(A & B & C)]; [left; auto|right]. split; [exact A|]. split; [intros x [<-|Hx]; [congruence|auto]|].
          intros t. rewrite C. split; [intros [K|K]; auto|]. intros [K|(x & [<-|X1] & X2 & X3)]; [auto|congruence|right; exists x; auto].
        * destruct IH as (x & X1 & X2). exists x. split; [right; exact X1|exact X2].
      + exists m'. split; [left; reflexivity|exact E].
      + destruct (ctlconf_eq (m', p) src) as [Es|Es].
        * rewrite Es, add_self. cbn [fst]. left. split; [reflexivity|]. split; [reflexivity|]. exists m'. split; [left; reflexivity|]. split; [exact E|congruence].
        * rewrite (add_other ts Es). cbn [fst]. specialize (IH (@Datatypes.cons ctlconf (m', p) ts)). destruct (au_loop deadb c p src l (false, @Datatypes.cons ctlconf (m', p) ts)) as [e|].
          -- destruct IH as [(A & B & C)|(A & B & C)]; [left; auto|right]. split; [exact A|]. split; [intros x [<-|Hx]; [congruence|auto]|].
             intros t. rewrite C. cbn [In]. split.
             ++ intros [[K|K]|K]; [right; exists m'; split; [left; reflexivity|split; [exact E|congruence]]|auto|right; auto].
             ++ intros [K|(x & [<-|X1] & X2 & X3)]; [auto|left; left; congruence|right; exists x; auto].
          -- destruct IH as (x & X1 & X2). exists x. split; [right; exact X1|exact X2].
  Qed.
  Lemma af_loop_spec : forall c p src l ts, (forall m', ev m' c <> RFalse) ->
    let q := af_loop deadb c p src l (false, ts) in
    snd q = true /\ ((fst (fst q) = true /\ unk c p l src) \/ (fst (fst q) = false /\ forall t, In t (snd (fst q)) <-> In t ts \/ unk c p l t)).
  Proof.
    intros c p src l ts Hn. revert ts. induction l as [|m' l IH]; intros ts; cbn [af_loop].
    - cbn. split; [reflexivity|]. right. split; [reflexivity|]. intros t. split; [auto|]. intros [H|(m' & [] & _)]. exact H.
    - assert (Up : forall t, unk c p l t -> unk c p (m' :: l) t) by (intros t (x & X1 & X2); exists x; split; [right; exact X1|exact X2]).
      destruct (ev m' c) eqn:E.
      + destruct (IH ts) as (A & [(B & C)|(B & C)]); (split; [exact A|]); [left; auto|right]. split; [exact B|].
        intros t. rewrite C. split; [intros [K|K]; auto|]. intros [K|(x & [<-|X1] & X2 & X3)]; [auto|congruence|right; exists x; auto].
      + exfalso. apply (Hn m' E).
      + destruct (ctlconf_eq (m', p) src) as [Es|Es].
        * rewrite Es, add_self. cbn [fst snd]. split; [reflexivity|]. left. split; [reflexivity|]. exists m'. split; [left; reflexivity|]. split; [exact E|congruence].
        * rewrite (add_other ts Es). cbn [fst snd]. destruct (IH (@Datatypes.cons ctlconf (m', p) ts)) as (A & [(B & C)|(B & C)]); (split; [exact A|]); [left; auto|right]. split; [exact B|].
          intros t. rewrite C. cbn [In]. split.
          -- intros [[K|K]|K]; [right; exists m'; split; [left; reflexivity|split; [exact E|congruence]]|auto|right; auto].
          -- intros [K|(x & [<-|X1] & X2 & X3)]; [auto|left; left; congruence|right; exists x; auto].
  Qed.
  Lemma ax_loop_spec : forall c p src l ts u, (forall m', (m', p) <> src) -> match ax_loop deadb c p src l (false, ts) u with
    | None => exists m', In m' l /\ ev m' c = RFalse
    | Some (e, u') => fst e = false /\ (forall m', In m' l -> ev m' c <> RFalse) /\ (forall t, In t (snd e) <-> In t ts \/ unk c p l t) /\
        (u' = false -> u = false /\ forall m', In m' l -> ev m' c = RTrue)
    end.
  Proof.
    intros c p src l ts u Hs. revert ts u. induction l as [|m' l IH]; intros ts u; cbn [ax_loop].
    - split; [reflexivity|]. split; [intros m' []|]. split; [intros t; cbn; split; [auto|intros [H|(m' & [] & _)]; exact H]|]. intros ->. split; [reflexivity|intros m' []].
    - assert (Up : forall t, unk c p l t -> unk c p (m' :: l) t) by (intros t (x & X1 & X2); exists x; split; [right; exact X1|exact X2]).
      destruct (ev m' c) eqn:E.
      + specialize (IH ts u). destruct (ax_loop deadb c p src l (false, ts) u) as [[e u']|].
        * destruct IH as (A & B & C & D). split; [exact A|]. split; [intros x [<-|Hx]; [congruence|auto]|]. split.
          -- intros t. rewrite C. split; [intros [K|K]; auto|]. intros [K|(x & [<-|X1] & X2 & X3)]; [auto|congruence|right; exists x; auto].
          -- intros Hu. destruct (D Hu) as (D1 & D2). split; [exact D1|]. intros x [<-|Hx]; auto.
        * destruct IH as (x & X1 & X2). exists x. split; [right; exact X1|exact X2].
      + exists m'. split; [left; reflexivity|exact E].
      + rewrite (add_other ts (Hs m')). specialize (IH (@Datatypes.cons ctlconf (m', p) ts) true). destruct (ax_loop deadb c p src l (false, @Datatypes.cons ctlconf (m', p) ts) true) as [[e u']|].
        * destruct IH as (A & B & C & D). split; [exact A|]. split; [intros x [<-|Hx]; [congruence|auto]|]. split.
          -- intros t. rewrite C. cbn [In]. split.
             ++ intros [[K|K]|K]; [right; exists m'; split; [left; reflexivity|split; [exact E|congruence]]|auto|right; auto].
             ++ intros [K|(x & [<-|X1] & X2 & X3)]; [auto|left; left; congruence|right; exists x; auto].
          -- intros Hu. destruct (D Hu) as (D1 & _). discriminate.
        * destruct IH as (x & X1 & X2). exists x. split; [right; exact X1|exact X2].
  Qed.
  Definition lefts (left : option ctlconf) : list ctlconf := match left with Some x => [x] | None => [] end.
  Lemma eu_loop_spec : forall c p src left valid l acc, (forall x, left = Some x -> x <> src) -> (left <> None \/ valid = true) ->
    let q := eu_loop deadb c p src left valid l acc in
    ((exists m', In m' l /\ ev m' c = RTrue) /\ fst q = [mkHedge false (lefts left)] /\ (snd q = false -> left = None)) \/
    ((forall m', In m' l -> ev m' c <> RTrue) /\ snd q = true /\
     forall h, In h (fst q) <-> In h acc \/ exists m', In m' l /\ ev m' c = RUnknown /\ (m', p) <> src /\ h = mkHedge false (lefts left ++ [(m', p)])).
  Proof.
    intros c p src left valid l acc Hl Hv. revert acc. assert (Hg : match left with None => negb valid | Some _ => false end = false).
    { destruct left; [reflexivity|]. destruct Hv as [Hv|Hv]; [congruence|rewrite Hv; reflexivity]. }
    induction l as [|m' l IH]; intros acc; cbn [eu_loop].
    - right. cbn [fst snd]. split; [intros m' []|]. split; [reflexivity|]. intros h. split; [auto|]. intros [H|(m' & [] & _)]. exact H.
    - rewrite Hg. destruct (ev m' c) eqn:E.
      + left. split; [exists m'; split; [left; reflexivity|exact E]|]. cbn [fst snd]. destruct left as [x|].
        * unfold new_draft. rewrite (add_other [] (Hl x eq_refl)). split; [reflexivity|]. intros K. discriminate.
        * split; [reflexivity|reflexivity].
      + destruct (IH acc) as [((x & X1 & X2) & A)|(A & B & C)].
        * left. split; [exists x; split; [right; exact X1|exact X2]|exact A].
        * right. split; [intros x [<-|Hx]; [congruence|auto]|]. split; [exact B|]. intros h. rewrite C. split.
          -- intros [K|(x & X1 & X2)]; [auto|right; exists x; split; [right; exact X1|exact X2]].
          -- intros [K|(x & [<-|X1] & X2 & X3)]; [auto|congruence|right; exists x; auto].
      + set (acc' := acc ++ commit _). destruct (IH acc') as [((x & X1 & X2) & A)|(A & B & C)].
        * left. split; [exists x; split; [right; exact X1|exact X2]|exact A].
        * right. split; [intros x [<-|Hx]; [congruence|auto]|]. split; [exact B|]. intros h. rewrite C. unfold acc'. rewrite in_app_iff.
          assert (Hc : In h (commit (match left with Some x => add_target src (add_target src new_draft (m', p)) x | None => add_target src new_draft (m', p) end)) <->
            (m', p) <> src /\ h = mkHedge false (lefts left ++ [(m', p)])).
          { unfold new_draft. destruct (ctlconf_eq (m', p) src) as [Es|Es].
            - rewrite Es, add_self. destruct left; cbn; (split; [intros []|intros (K & _); congruence]).
            - rewrite (add_other [] Es). destruct left as [x|].
              + rewrite (add_other _ (Hl x eq_refl)). cbn. split; [intros [K|[]]; split; [exact Es|symmetry; exact K]|intros (_ & K); left; symmetry; exact K].
              + cbn. split; [intros [K|[]]; split; [exact Es|symmetry; exact K]|intros (_ & K); left; symmetry; exact K]. }
          rewrite Hc. split.
          -- intros [[K|(K1 & K2)]|(x & X1 & X2)]; [auto|right; exists m'; split; [left; reflexivity|auto]|right; exists x; split; [right; exact X1|exact X2]].
          -- intros [K|(x & [<-|X1] & X2 & X3)]; [auto|auto|right; exists x; auto].
  Qed.
  Lemma eu_loop_stop : forall c p src l acc, eu_loop deadb c p src None false l acc = (acc, true).
  Proof. intros c p src l acc. destruct l; reflexivity. Qed.
  Lemma ef_loop_spec : forall c p src l acc,
    let q := ef_loop deadb c p src l acc in
    ((exists m', In m' l /\ ev m' c = RTrue) /\ q = ([empty_edge], false)) \/
    ((forall m', In m' l -> ev m' c <> RTrue) /\ snd q = true /\
     forall h, In h (fst q) <-> In h acc \/ exists m', In m' l /\ ev m' c = RUnknown /\ (m', p) <> src /\ h = mkHedge false [(m', p)]).
  Proof.
    intros c p src. induction l as [|m' l IH]; intros acc; cbn [ef_loop].
    - right. cbn [fst snd]. split; [intros m' []|]. split; [reflexivity|]. intros h. split; [auto|]. intros [H|(m' & [] & _)]. exact H.
    - destruct (ev m' c) eqn:E.
      + left. split; [exists m'; split; [left; reflexivity|exact E]|reflexivity].
      + destruct (IH acc) as [((x & X1 & X2) & A)|(A & B & C)].
        * left. split; [exists x; split; [right; exact X1|exact X2]|exact A].
        * right. split; [intros x [<-|Hx]; [congruence|auto]|]. split; [exact B|]. intros h. rewrite C. split.
          -- intros [K|(x & X1 & X2)]; [auto|right; exists x; split; [right; exact X1|exact X2]].
          -- intros [K|(x & [<-|X1] & X2 & X3)]; [auto|congruence|right; exists x; auto].
      + set (acc' := acc ++ commit _). destruct (IH acc') as [((x & X1 & X2) & A)|(A & B & C)].
        * left. split; [exists x; split; [right; exact X1|exact X2]|exact A].
        * right. split; [intros x [<-|Hx]; [congruence|auto]|]. split; [exact B|]. intros h. rewrite C. unfold acc'. rewrite in_app_iff.
          assert (Hc : In h (commit (add_target src new_draft (m', p))) <-> (m', p) <> src /\ h = mkHedge false [(m', p)]).
          { unfold new_draft. destruct (ctlconf_eq (m', p) src) as [Es|Es].
            - rewrite Es, add_self. cbn. split; [intros []|intros (K & _); congruence].
            - rewrite (add_other [] Es). cbn. split; [intros [K|[]]; split; [exact Es|symmetry; exact K]|intros (_ & K); left; symmetry; exact K]. }
          rewrite Hc. split.
          -- intros [[K|(K1 & K2)]|(x & X1 & X2)]; [auto|right; exists m'; split; [left; reflexivity|auto]|right; exists x; split; [right; exact X1|exact X2]].
          -- intros [K|(x & [<-|X1] & X2 & X3)]; [auto|auto|right; exists x; auto].
  Qed.
  Lemma ex_loop_spec : forall c p src l acc, (forall m', (m', p) <> src) ->
    let q := ex_loop deadb c p src l acc in
    ((exists m', In m' l /\ ev m' c = RTrue) /\ q = [empty_edge]) \/
    ((forall m', In m' l -> ev m' c <> RTrue) /\
     forall h, In h q <-> In h acc \/ exists m', In m' l /\ ev m' c = RUnknown /\ h = mkHedge false [(m', p)]).
  Proof.
    intros c p src l acc Hs. revert acc. induction l as [|m' l IH]; intros acc; cbn [ex_loop].
    - right. split; [intros m' []|]. intros h. split; [auto|]. intros [H|(m' & [] & _)]. exact H.
    - destruct (ev m' c) eqn:E.
      + left. split; [exists m'; split; [left; reflexivity|exact E]|reflexivity].
      + destruct (IH acc) as [((x & X1 & X2) & A)|(A & C)].
        * left. split; [exists x; split; [right; exact X1|exact X2]|exact A].
        * right. split; [intros x [<-|Hx]; [congruence|auto]|]. intros h. rewrite C. split.
          -- intros [K|(x & X1 & X2)]; [auto|right; exists x; split; [right; exact X1|exact X2]].
          -- intros [K|(x & [<-|X1] & X2 & X3)]; [auto|congruence|right; exists x; auto].
      + unfold new_draft. rewrite (add_other [] (Hs m')). cbn [snd]. destruct (IH (acc ++ [mkHedge false [(m', p)]])) as [((x & X1 & X2) & A)|(A & C)].
        * left. split; [exists x; split; [right; exact X1|exact X2]|exact A].
        * right. split; [intros x [<-|Hx]; [congruence|auto]|]. intros h. rewrite C, in_app_iff. cbn [In]. split.
          -- intros [[K|[K|[]]]|(x & X1 & X2)]; [auto|right; exists m'; split; [left; reflexivity|auto]|right; exists x; split; [right; exact X1|exact X2]].
          -- intros [K|(x & [<-|X1] & X2 & X3)]; [auto|auto|right; exists x; auto].
  Qed.
End Ctl.
