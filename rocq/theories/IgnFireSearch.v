(** What the search of the check finds out (C44). *)
From Verif Require Import Base BaseLemmas NetSpec NetModel NetProofs PqlSyntax PqlModel SearchModel SearchMain IgnFireModel.

Section Search.
Variable net : cnet.
Variable timeout : nat -> bool.
Variable pick : nat -> nat -> nat.
Hypothesis LY : layout net.
Notation init := (cn_init net).
Hypothesis LI : length init = cn_places net.
Hypothesis FI : fits32 init.

Definition mk_ok (m : list N) : Prop := length m = cn_places net /\ fits32 m.

(** What a result says about the markings stored so far. *)
Definition says (seen : list (list N)) (q : cond) (r : rslt) : Prop :=
  match r with
  | Satisfied => fire_eval init q = RTrue \/ (fire_eval init q = RFalse /\ exists m, fire_eval m q = RTrue)
  | Unknown => In init seen /\ forall m, In m seen -> fire_eval m q = RFalse
  | Ignore => True
  | NotSatisfied => False
  end.

Lemma ignored : forall (qs : list cond) (rs : list rslt) (P : cond -> rslt -> Prop), length qs = length rs -> (forall q, P q Ignore) -> Forall2 P qs (map (fun _ => Ignore) rs).
Proof. induction qs as [|q qs IH]; intros [|r rs] P L H; try discriminate L; constructor; auto. Qed.
Lemma F2_length : forall A B (P : A -> B -> Prop) l r, Forall2 P l r -> length l = length r.
Proof. induction 1; cbn; auto. Qed.

Lemma check_each_says : forall m seen qs rs rs' d, Forall2 (says seen) qs rs -> check_each m qs rs = (rs', d) -> Forall2 (says (m :: seen)) qs rs'.
Proof.
  intros m seen. induction qs as [|q qs IH]; intros rs rs' d F H; inversion F as [|? r ? rt S F']; subst; cbn [check_each] in H.
  - injection H as <- <-. constructor.
  - destruct (check_each m qs rt) as [rt' d'] eqn:E. specialize (IH _ _ _ F' E). destruct r; cbn [is_unknown] in H.
    + injection H as <- <-. constructor; auto.
    + destruct S.
    + destruct S as [S1 S2]. destruct (fire_eval m q) eqn:V; injection H as <- <-; constructor; auto.
      * right. split; [auto|]. exists m. exact V.
      * split; [right; auto|]. intros x [<-|I]; auto.
      * exact I.
    + injection H as <- <-. constructor; auto.
Qed.

Lemma check_queries_says : forall i m seen qs rs rs' d, Forall2 (says seen) qs rs -> check_queries timeout i m qs rs = (rs', d) -> Forall2 (says (m :: seen)) qs rs'.
Proof.
  intros i m seen qs rs rs' d F H. unfold check_queries in H. destruct (timeout i).
  - injection H as <- <-. apply ignored; [eapply F2_length; eauto|]. intros q. exact I.
  - eapply check_each_says; eauto.
Qed.

Lemma same_eq : forall a b, same a b = true <-> a = b.
Proof. intros a b. unfold same. destruct (list_eq_dec N.eq_dec a b); split; auto; discriminate. Qed.

Lemma store_says : forall qs ms seen wait rs i seen' wait' rs' i' d, store timeout qs ms seen wait rs i = (seen', wait', rs', i', d) ->
  Forall2 (says seen) qs rs ->
  Forall2 (says seen') qs rs' /\ (forall m, In m seen -> In m seen') /\ (forall m, In m seen' -> In m seen \/ In m ms) /\
  (forall m, In m wait' -> In m wait \/ In m seen') /\ (forall m, In m wait -> In m wait') /\ (forall m, In m seen' -> In m seen \/ In m wait') /\
  (d = false -> forall m, In m ms -> In m seen').
Proof.
  intros qs. induction ms as [|m ms IH]; intros seen wait rs i seen' wait' rs' i' d H F; cbn [store] in H.
  - injection H as <- <- <- <- <-. repeat (split; [now auto|]). intros _ m [].
  - destruct (existsb (same m) seen) eqn:X.
    + destruct (IH _ _ _ _ _ _ _ _ _ H F) as (A1 & A2 & A3 & A4 & A5 & A6 & A7). split; auto. split; auto.
      split; [intros x I; destruct (A3 x I); auto; right; right; auto|]. split; auto. split; auto. split; auto.
      intros D x [<-|I]; auto. apply A2. apply existsb_exists in X. destruct X as (y & Iy & E). apply same_eq in E. subst. exact Iy.
    + destruct (check_queries timeout i m qs rs) as [rs1 d1] eqn:C. pose proof (check_queries_says _ _ _ _ _ _ _ F C) as F1. destruct d1.
      * injection H as <- <- <- <- <-. split; auto. split; [intros; right; auto|]. split; [intros x [<-|I]; auto; right; left; auto|].
        split; [intros x [<-|I]; auto; right; left; auto|]. split; [intros; right; auto|]. split; [intros x [<-|I]; auto; right; left; auto|]. discriminate.
      * destruct (IH _ _ _ _ _ _ _ _ _ H F1) as (A1 & A2 & A3 & A4 & A5 & A6 & A7). split; auto. split; [intros; apply A2; right; auto|].
        split; [intros x I; destruct (A3 x I) as [[<-|J]|J]; auto; right; [left|right]; auto|].
        split; [intros x I; destruct (A4 x I) as [[<-|J]|J]; auto; right; apply A2; left; auto|]. split; [intros; apply A5; right; auto|].
        split; [intros x I; destruct (A6 x I) as [[<-|J]|J]; auto; right; apply A5; left; auto|].
        intros D x [<-|I]; auto. apply A2. left. auto.
Qed.

(** The result when the search is over. *)
Definition final (q : cond) (r : rslt) : Prop :=
  match r with
  | Satisfied => fire_eval init q = RTrue \/ (fire_eval init q = RFalse /\ exists m, fire_eval m q = RTrue)
  | NotSatisfied => forall m, reachable (to_pnet net) init m -> fire_eval m q = RFalse
  | _ => True
  end.

Lemma says_final : forall seen qs rs, Forall2 (says seen) qs rs -> Forall2 final qs rs.
Proof. intros seen qs rs F. induction F as [|q r qs rs S F IH]; constructor; auto. destruct r; cbn in *; auto. destruct S. Qed.

Lemma split_at : forall A (l : list A) k d x, k < length l -> In x l -> x = nth k l d \/ In x (firstn k l ++ skipn (S k) l).
Proof.
  induction l as [|y l IH]; intros k d x K I; [destruct I|]. destruct k as [|k].
  - destruct I as [<-|I]; auto.
  - cbn [length] in K. destruct I as [<-|I]; [right; left; auto|]. destruct (IH k d x ltac:(lia) I) as [E|E]; [left; exact E|right]. right. exact E.
Qed.
Lemma split_in : forall A (l : list A) k x, In x (firstn k l ++ skipn (S k) l) -> In x l.
Proof.
  induction l as [|y l IH]; intros k x I; [destruct k; exact I|]. destruct k as [|k]; [right; exact I|]. destruct I as [<-|I]; [left; auto|right; eapply IH; exact I].
Qed.

Lemma explore_final : forall steps qs seen wait rs i rs',
  Forall2 (says seen) qs rs -> In init seen -> (forall m, In m seen -> mk_ok m) -> (forall m, In m wait -> In m seen) ->
  (forall m, In m seen -> In m wait \/ forall t m', step (to_pnet net) m t m' -> In m' seen) ->
  explore net timeout pick steps qs seen wait rs i = Ok rs' -> Forall2 final qs rs'.
Proof.
  induction steps as [|steps IH]; intros qs seen wait rs i rs' F II OK W CL H; [discriminate H|]. cbn [explore] in H.
  destruct wait as [|w wait0] eqn:Ew.
  - injection H as <-.
    assert (R : forall m, reachable (to_pnet net) init m -> In m seen).
    { intros m (ts & R). revert II R. generalize init. induction ts as [|t ts IHt]; intros a Ia R; inversion R; subst; auto.
      eapply IHt; [|eassumption]. destruct (CL a Ia) as [[]|X]. eapply X; eauto. }
    clear - F R. induction F as [|q r qs rs S F IH]; cbn [finish map]; constructor; auto. destruct r; cbn in *; auto; destruct S; auto.
  - rewrite <- Ew in *. cbn zeta in H. set (k := pick i (length wait) mod length wait) in *.
    assert (K : k < length wait) by (apply Nat.mod_upper_bound; rewrite Ew; discriminate).
    assert (Iw : In (nth k wait []) wait) by (apply nth_In; exact K). destruct (OK _ (W _ Iw)) as [O1 O2].
    destruct (net_stream net (nth k wait [])) as [l e] eqn:NS. pose proof (@net_stream_ok net (nth k wait []) LY O1 O2) as [N1 N2]. rewrite NS in N1, N2. cbn [fst snd] in N1, N2.
    destruct (store timeout qs (map snd l) seen (firstn k wait ++ skipn (S k) wait) rs i) as [[[[seen' wait''] rs1] i'] d] eqn:ST.
    destruct (store_says _ _ _ _ _ _ _ _ _ _ _ ST F) as (A1 & A2 & A3 & A4 & A5 & A6 & A7). destruct d.
    + injection H as <-. eapply says_final; eauto.
    + destruct N2 as [[E N2]|[E _]]; [|rewrite E in H; discriminate H]. rewrite E in H. cbn [bind] in H.
      eapply IH; [exact A1|auto| | | |exact H].
      * intros m I. destruct (A3 m I) as [J|J]; auto. apply in_map_iff in J. destruct J as ((t & x) & Ex & J). cbn in Ex. subst x. destruct (N1 _ _ J) as (_ & B1 & B2). split; auto.
      * intros m I. destruct (A4 m I) as [J|J]; auto. apply A2, W. eapply split_in; eauto.
      * intros m I. destruct (A6 m I) as [J|J]; auto. destruct (CL m J) as [Q|Q].
        -- destruct (split_at _ wait k [] m K Q) as [->|X]; [|auto]. right. intros t m' S. apply A7; auto. apply in_map_iff. exists (t, m'). split; auto.
        -- right. intros t m' S. apply A2. eapply Q; eauto.
Qed.

Theorem search_final : forall steps qs rs, fire_search net timeout pick steps qs = Ok rs -> Forall2 final qs rs.
Proof.
  intros steps qs rs H. unfold fire_search in H.
  destruct (check_queries timeout 0 init qs (map (fun _ => Unknown) qs)) as [rs0 d] eqn:C.
  assert (F : Forall2 (says [init]) qs rs0).
  { unfold check_queries in C. destruct (timeout 0).
    - injection C as <- <-. apply ignored; [rewrite map_length; auto|]. intros q. exact I.
    - clear H. revert rs0 d C. induction qs as [|q qs IH]; intros rs0 d C; cbn [map check_each] in C; [injection C as <- <-; constructor|].
      destruct (check_each init qs (map (fun _ => Unknown) qs)) as [r1 d1] eqn:E. cbn [is_unknown] in C.
      destruct (fire_eval init q) eqn:V; injection C as <- <-; constructor; eauto.
      + left. exact V.
      + split; [left; auto|]. intros m [<-|[]]. exact V.
      + exact I. }
  destruct d; [injection H as <-; eapply says_final; eauto|].
  eapply explore_final; [exact F|left; auto| | | |exact H].
  - intros m [<-|[]]. split; auto.
  - auto.
  - intros m [<-|[]]. left. left. auto.
Qed.
End Search.
