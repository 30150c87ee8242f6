(** pushNegation preserves the meaning of formulas. *)
From Verif Require Import Base NetSpec PqlSyntax PqlSpec PqlModel PqlProofs PqlPush PushRules.
From Coq Require Import Classical_Prop Permutation.
Set Implicit Arguments.

(** * Comparisons *)
Lemma remdup_nil_r : forall a, remdup a [] = (a, []).
Proof. intros [|x a]; reflexivity. Qed.
Lemma remdup_cons : forall x a y b, remdup (x :: a) (y :: b) =
  if x <? y then (x :: fst (remdup a (y :: b)), snd (remdup a (y :: b)))
  else if Nat.eqb x y then remdup a b
  else (fst (remdup (x :: a) b), y :: snd (remdup (x :: a) b)).
Proof. reflexivity. Qed.
Lemma remdup_sum : forall (f : nat -> Z) a b,
  (fold_right Z.add 0 (map f a) - fold_right Z.add 0 (map f b) =
   fold_right Z.add 0 (map f (fst (remdup a b))) - fold_right Z.add 0 (map f (snd (remdup a b))))%Z.
Proof.
  intros f. induction a as [|x a IHa]; intros b.
  - destruct b; reflexivity.
  - induction b as [|y b IHb].
    + rewrite remdup_nil_r. reflexivity.
    + rewrite remdup_cons. destruct (x <? y).
      * specialize (IHa (y :: b)). destruct (remdup a (y :: b)) as (r1 & r2).
        cbn [fst snd map fold_right] in *. lia.
      * destruct (Nat.eqb_spec x y) as [<-|Hne].
        -- specialize (IHa b). cbn [map fold_right]. lia.
        -- destruct (remdup (x :: a) b) as (r1 & r2). cbn [fst snd map fold_right] in *. lia.
Qed.
Lemma remdup_disjoint : forall a b, (forall p, In p a -> ~ In p b) -> remdup a b = (a, b).
Proof.
  induction a as [|x a IHa]; intros b.
  - destruct b; reflexivity.
  - induction b as [|y b IHb]; intros H.
    + apply remdup_nil_r.
    + rewrite remdup_cons. destruct (x <? y).
      * rewrite IHa; [reflexivity|]. intros p Hp. apply H. right; auto.
      * destruct (Nat.eqb_spec x y) as [<-|Hne].
        -- exfalso. apply (H x); left; auto.
        -- rewrite IHb; [reflexivity|]. intros p Hp Hb. apply (H p Hp). right; auto.
Qed.
Lemma disjoint_spec : forall i j, forallb (fun p => negb (existsb (Nat.eqb p) j)) i = true <-> forall p, In p i -> ~ In p j.
Proof.
  intros i j. rewrite forallb_forall. split; intros H p Hp.
  - intros Hj. specialize (H p Hp). apply negb_true_iff in H.
    assert (existsb (Nat.eqb p) j = true) by (apply existsb_exists; exists p; split; auto; apply Nat.eqb_refl). congruence.
  - apply negb_true_iff. destruct (existsb (Nat.eqb p) j) eqn:E; auto. exfalso. apply existsb_exists in E.
    destruct E as (q & Hq & E). apply Nat.eqb_eq in E. subst. eapply H; eauto.
Qed.
Lemma cancel_spec : forall a b a' b' o, cmp_range o a b = true -> cancel a b = (a', b') ->
  (forall o, cmp_range o a b = true -> cmp_range o a' b' = true) /\
  (forall m, den m a - den m b = den m a' - den m b')%Z.
Proof.
  intros a b a' b' o Hr. unfold cancel.
  destruct a; try (intros E; injection E as <- <-; auto; fail);
  destruct b; try (intros E; injection E as <- <-; auto; fail).
  - intros E. injection E as <- <-. split; [reflexivity|]. intros m. cbn [den].
    pose proof (remdup_sum (fun p => Z.of_N (tokens m p)) ids ids0). lia.
  - assert (D : forall p, In p ids -> ~ In p ids0) by (apply disjoint_spec; exact Hr).
    rewrite (remdup_disjoint _ _ D). cbn [fst snd]. intros E. injection E as <- <-. auto.
Qed.
Lemma cmp_range_swap : forall a b,
  (cmp_range OpLt a b = true -> cmp_range OpLe b a = true) /\ (cmp_range OpLe a b = true -> cmp_range OpLt b a = true) /\
  cmp_range OpNe a b = cmp_range OpEq a b.
Proof.
  intros a b. split; [|split].
  - destruct a, b; cbn [cmp_range]; auto; try (intros H; exact H).
    rewrite !disjoint_spec. intros H p Hp Hq. eapply H; eauto.
  - destruct a, b; cbn [cmp_range]; auto; try (intros H; exact H).
    rewrite !disjoint_spec. intros H p Hp Hq. eapply H; eauto.
  - destruct a, b; reflexivity.
Qed.
Lemma comm_size_den : forall m m' e, comm_size e = Some 0 -> den m e = den m' e.
Proof.
  intros m m' e. destruct e; try discriminate; cbn [comm_size]; intros E; injection E as E;
    destruct ids, es; try discriminate E; reflexivity.
Qed.
Lemma is_trivial_den : forall m m' a b, is_trivial a b = true -> den m a = den m' a /\ den m b = den m' b.
Proof.
  intros m m' a b. unfold is_trivial.
  destruct (comm_size a) as [n|] eqn:Ea; [destruct (comm_size b) as [k|] eqn:Eb|].
  - rewrite Nat.eqb_eq. intros H. assert (n = 0) by lia. assert (k = 0) by lia. subst.
    split; apply comm_size_den; auto.
  - rewrite andb_true_iff. intros (A & B). split; apply place_free_den; auto.
  - rewrite andb_true_iff. intros (A & B). split; apply place_free_den; auto.
Qed.
Lemma can_neg_den : forall m e, can_neg e = false -> (0 <= den m e)%Z.
Proof.
  assert (S1 : forall m es, Forall (fun e => can_neg e = false -> (0 <= den m e)%Z) es -> existsb can_neg es = false ->
     (0 <= fold_right Z.add 0 (map (den m) es) /\ 0 <= fold_right Z.mul 1 (map (den m) es))%Z).
  { intros m es H. induction H as [|e es He _ IH]; cbn [existsb map fold_right]; [lia|].
    rewrite orb_false_iff. intros (A & B). specialize (He A). specialize (IH B). nia. }
  assert (S2 : forall m ids, (0 <= fold_right Z.add 0 (map (fun p => Z.of_N (tokens m p)) ids) /\
     0 <= fold_right Z.mul 1 (map (fun p => Z.of_N (tokens m p)) ids))%Z).
  { intros m. induction ids as [|p ids IH]; cbn [map fold_right]; [lia|]. pose proof (N2Z.is_nonneg (tokens m p)). nia. }
  intros m. induction e using expr_ind'; cbn [can_neg den]; try discriminate; try lia; auto.
  - intros A. apply orb_false_iff in A. destruct A as (A & B). specialize (S1 m es H B). specialize (S2 m ids). lia.
  - intros A. apply orb_false_iff in A. destruct A as (A & B). specialize (S1 m es H B). specialize (S2 m ids).
    apply Z.mul_nonneg_nonneg; [apply Z.mul_nonneg_nonneg|]; lia.
Qed.
Lemma cmp_shift : forall o x y x' y', (x - y = x' - y')%Z -> cmp_holds o x y <-> cmp_holds o x' y'.
Proof. intros [| | |] x y x' y' H; cbn [cmp_holds]; lia. Qed.

Lemma cls_not : forall k c, cls k (CNot c) = cls k c. Proof. reflexivity. Qed.
Lemma cls_EF : forall k x, cls k (CEF x) = true -> k = true /\ cls true x = true.
Proof. intros [|] x; unfold cls; cbn [in_range stf ltl]; [auto|]. rewrite andb_false_r. discriminate. Qed.
Lemma cls_notif : forall k b c, cls k (notif b c) = cls k c.
Proof. intros k [|] c; auto. Qed.

Section PushP.
  Variable net : pnet.
  Variable deadb : list N -> bool.
  Variable m0 : marking.
  Variable initrw : bool.
  Hypothesis Hinit : initrw = true -> fits m0 /\ (deadb m0 = true <-> dead net m0).

  Definition pos (nested : bool) (pi : path) : Prop :=
    maximal net pi /\ (nested = false -> initrw = true -> pi 0 = m0).
  Definition eqat (nested : bool) (c d : cond) : Prop := forall pi, pos nested pi -> holds net pi c <-> holds net pi d.
  Definition good (k nested : bool) (c : cond) (x : res cond) : Prop :=
    match x with
    | Ok r => cls k r = true /\ eqat nested r c
    | NoFuel => True
    | _ => False
    end.
  Lemma eqat_refl : forall n c, eqat n c c. Proof. intros n c pi _. tauto. Qed.
  Lemma eqat_trans : forall n c d e, eqat n c d -> eqat n d e -> eqat n c e.
  Proof. intros n c d e H H' pi M. rewrite (H pi M). apply H', M. Qed.
  Lemma eqat_sym : forall n c d, eqat n c d -> eqat n d c. Proof. intros n c d H pi M. rewrite (H pi M). tauto. Qed.
  Lemma eqp_eqat : forall n c d, eqp net c d -> eqat n c d. Proof. intros n c d H pi (M & _). apply H, M. Qed.
  Lemma eqat_true : forall c d, eqat true c d -> eqp net c d. Proof. intros c d H pi M. apply H. split; auto. discriminate. Qed.
  Lemma eqat_notif : forall n b c d, eqat n c d -> eqat n (notif b c) (notif b d).
  Proof. intros n b c d H pi M. specialize (H pi M). destruct b; cbn [notif holds]; tauto. Qed.
  Lemma notif_notif : forall n b c, eqat n (notif (negb b) (CNot c)) (notif b c).
  Proof. intros n [|] c pi M; cbn [notif negb holds]; tauto. Qed.

  Lemma good_eq : forall k n c d x, good k n d x -> eqat n d c -> good k n c x.
  Proof. intros k n c d [r| | |] H E; cbn in *; auto. destruct H. split; auto. eapply eqat_trans; eauto. Qed.
  Lemma good_ok : forall k n c r, cls k r = true -> eqat n r c -> good k n c (Ok r).
  Proof. intros. split; auto. Qed.
  Lemma good_rw : forall k n c x, good k n c x -> good k n c (y <- x ;; Ok (init_rw deadb m0 initrw n y)).
  Proof.
    intros k n c [r| | |] H; cbn [bind] in *; auto. destruct H as (A & B). unfold init_rw.
    destruct (negb n && initrw) eqn:E; [|split; auto]. apply andb_true_iff in E. destruct E as (E1 & E2).
    apply negb_true_iff in E1. subst n. destruct (Hinit E2) as (Hf & Hd).
    destruct (evaluate deadb m0 r) eqn:Ev; (split; [try apply cls_bool; auto|]); auto; intros pi (M & P); rewrite <- (B pi (conj M P));
      specialize (P eq_refl E2); pose proof (@evaluate_sound net deadb m0 Hf Hd r pi M P) as S; rewrite Ev in S; cbn [tv_sound] in S; cbn [holds].
    - tauto.
    - split; [discriminate|tauto].
  Qed.
  Lemma good_bind : forall k k' n n' c d x (f : cond -> res cond), good k' n' d x ->
    (forall a, cls k' a = true -> eqat n' a d -> good k n c (f a)) -> good k n c (bind x f).
  Proof. intros k k' n n' c d [r| | |] f H G; cbn [bind good] in *; auto. destruct H. apply G; auto. Qed.

  Lemma make_good : forall k n (isor : bool) l c, Forall (fun c => cls k c = true) l ->
    eqat n (if isor then COr l else CAnd l) c -> good k n c (make_log isor l).
  Proof.
    intros k n isor l c Hl E. destruct (@make_log_spec k isor l Hl) as (r & -> & A & B). split; auto.
    eapply eqat_trans; [|exact E]. intros pi _. rewrite B, J_log. tauto.
  Qed.

  (** * pushAnd and pushOr *)
  Definition wrap (isor : bool) (x : cond) : cond := if isor then CEF x else CNot (CEF x).
  Definition split_post (k n neg isor : bool) (l nef other : list cond) (x : res split) : Prop :=
    match x with
    | Ok (Stop c) => c = CBool isor /\ forall pi, pos n pi -> J isor net pi (map (notif neg) l) <-> isor = true
    | Ok (Parts nef' other') => Forall (fun x => cls k (CEF x) = true) nef' /\ Forall (fun c => cls k c = true) other' /\
        forall pi, pos n pi -> J isor net pi (map (wrap isor) nef' ++ other') <->
          op2 isor (J isor net pi (map (wrap isor) nef ++ other)) (J isor net pi (map (notif neg) l))
    | NoFuel => True
    | _ => False
    end.
  Lemma J_nil_op : forall isor pi (A : Prop), op2 isor A (J isor net pi []) <-> A.
  Proof.
    intros [|] pi A; cbn.
    - split; [intros [H|(c & [] & _)]; auto|auto].
    - split; [tauto|]. intros H. split; auto. intros c [].
  Qed.
  Lemma split_spec : forall k n neg isor visit ef,
    (forall c, cls k c = true -> good k n (notif neg c) (visit c)) ->
    (forall c x, ef c = Some x -> c = wrap isor x) ->
    forall l nef other, Forall (fun c => cls k c = true) l ->
    Forall (fun x => cls k (CEF x) = true) nef -> Forall (fun c => cls k c = true) other ->
    split_post k n neg isor l nef other (split_ops visit isor ef l nef other).
  Proof.
    intros k n neg isor visit ef HV HE. induction l as [|c l IH]; intros nef other Hl Hn Ho; cbn [split_ops].
    - split; auto. split; auto. intros pi _. cbn [map]. rewrite J_nil_op. tauto.
    - inversion Hl as [|? ? Hc Hl']; subst. specialize (HV c Hc). destruct (visit c) as [r| | |]; cbn [bind good] in *; auto.
      destruct HV as (Hr & Er).
      assert (CO : forall nef' other' x, split_post k n neg isor l nef' other' x ->
         (forall pi, pos n pi -> J isor net pi (map (wrap isor) nef' ++ other') <->
            op2 isor (J isor net pi (map (wrap isor) nef ++ other)) (holds net pi (notif neg c))) ->
         split_post k n neg isor (c :: l) nef other x).
      { intros nef' other' [[d|a b]| | |] H E; cbn [split_post] in *; auto.
        - destruct H as (-> & H). split; auto. intros pi P. specialize (H pi P). cbn [map]. rewrite J_cons, H.
          destruct isor; cbn [op2]; [tauto|]. split; [tauto|discriminate].
        - destruct H as (A & B & C). split; auto. split; auto. intros pi P. rewrite (C pi P), (E pi P). cbn [map].
          rewrite J_cons, op2_assoc. tauto. }
      assert (FIN : split_post k n neg isor (c :: l) nef other (match ef r with
           | Some x => split_ops visit isor ef l (nef ++ [x]) other
           | None => split_ops visit isor ef l nef (other ++ [r])
           end)).
      { destruct (ef r) as [x|] eqn:En.
        - apply HE in En. apply CO with (nef' := nef ++ [x]) (other' := other).
          + apply IH; auto. apply Forall_app. split; auto. constructor; auto. subst r. destruct isor; exact Hr.
          + intros pi P. rewrite <- (Er pi P), En, map_app. cbn [map]. rewrite !J_app, J_one.
            destruct isor; cbn [op2]; tauto.
        - apply CO with (nef' := nef) (other' := other ++ [r]).
          + apply IH; auto. apply Forall_app; auto.
          + intros pi P. rewrite <- (Er pi P), !J_app, J_one. destruct isor; cbn [op2]; tauto. }
      destruct r as [b| | | | | | | | | | | | | | | | | | | |]; auto.
      destruct (Bool.eqb_spec b isor) as [->|Hb].
      + split; auto. intros pi P. cbn [map]. rewrite J_cons, <- (Er pi P). cbn [holds].
        destruct isor; cbn [op2]; [tauto|]. split; [tauto|discriminate].
      + apply CO with (nef' := nef) (other' := other); auto. intros pi P. rewrite <- (Er pi P). cbn [holds].
        destruct isor, b; try congruence; cbn [op2]; tauto.
  Qed.

  Lemma wrap_or : forall isor n nef o, (forall net pi, holds net pi o <-> J true net pi nef) ->
    eqat n (wrap isor (COr nef)) (wrap isor o).
  Proof.
    intros isor n nef o H pi (M & _).
    assert (E : holds net pi (CEF (COr nef)) <-> holds net pi (CEF o)).
    { apply eq_EF; auto. intros rho _. rewrite H. apply (J_log true). }
    destruct isor; cbn [wrap]; [exact E|]. cbn [holds] in *. tauto.
  Qed.
  Lemma wrap_map : forall isor pi nef, maximal net pi -> nef <> [] ->
    J isor net pi (map (wrap isor) nef) <-> holds net pi (wrap isor (COr nef)).
  Proof.
    intros isor pi nef M _. destruct isor; cbn [wrap].
    - rewrite (EF_or nef M). rewrite (holds_or net pi (map CEF nef)). cbn [J]. tauto.
    - assert (E := EF_or nef M). change (holds net pi (CNot (CEF (COr nef)))) with (~ holds net pi (CEF (COr nef))). rewrite E, holds_or.
      cbn [J]. split.
      + intros H (c & Hc & G). apply in_map_iff in Hc. destruct Hc as (x & <- & Hx). apply (H (CNot (CEF x))); auto.
        apply in_map_iff. exists x; auto.
      + intros H c Hc. apply in_map_iff in Hc. destruct Hc as (x & <- & Hx). intros G. apply H. exists (CEF x). split; auto. apply in_map, Hx.
  Qed.
  Definition finish (isor : bool) := if isor then finish_or else finish_and.
  Lemma finish_good : forall k n isor nef other c,
    Forall (fun x => cls k (CEF x) = true) nef -> Forall (fun c => cls k c = true) other ->
    (forall pi, pos n pi -> J isor net pi (map (wrap isor) nef ++ other) <-> holds net pi c) ->
    good k n c (finish isor nef other).
  Proof.
    intros k n isor nef other c Hn Ho E.
    assert (M1 : forall l, Forall (fun c => cls k c = true) l ->
       (forall pi, pos n pi -> J isor net pi l <-> holds net pi c) -> good k n c (make_log isor l)).
    { intros l Hl El. apply make_good; auto. intros pi P. rewrite J_log. auto. }
    assert (M2 : forall x, cls k x = true -> (forall pi, pos n pi -> J isor net pi [x] <-> holds net pi c) -> good k n c (Ok x)).
    { intros x Hx Ex. apply good_ok; auto. intros pi P. rewrite <- (Ex pi P). rewrite J_one. tauto. }
    assert (M3 : nef <> [] -> good k n c (o <- make_or nef ;;
      let other' := other ++ [wrap isor o] in
      match other' with [x] => Ok x | _ => make_log isor other' end)).
    { intros Hne.
      assert (Hk : k = true /\ Forall (fun c => cls true c = true) nef).
      { split; [destruct nef as [|x nef]; [congruence|]; inversion Hn as [|? ? Hx]; subst; apply (cls_EF _ _ Hx)|].
        rewrite Forall_forall in *. intros x Hx. apply (cls_EF _ _ (Hn x Hx)). }
      destruct Hk as (-> & Hk). destruct (@make_log_spec true true nef Hk) as (o & A & B & C). unfold make_or. rewrite A. cbn [bind].
      assert (Hw : Forall (fun c => cls true c = true) (other ++ [wrap isor o])).
      { apply Forall_app. split; auto. constructor; auto. destruct isor; exact B. }
      assert (Ew : forall pi, pos n pi -> J isor net pi (other ++ [wrap isor o]) <-> holds net pi c).
      { intros pi P. rewrite <- (E pi P), !J_app, J_one, (wrap_map isor (proj1 P) Hne), (@wrap_or isor n nef o C pi P). apply op2_comm. }
      cbv zeta. destruct (other ++ [wrap isor o]) as [|x [|y l]]; auto. inversion Hw; auto. }
    destruct isor; unfold finish, finish_or, finish_and, make_or, make_and in *; cbn [wrap] in *.
    - destruct nef as [|x nef].
      + cbn [map app] in E. destruct other as [|y [|z other]].
        * apply good_ok; [apply cls_bool|]. intros pi P. rewrite <- (E pi P). cbn. split; [discriminate|intros (d & [] & _)].
        * inversion Ho; subst. auto.
        * auto.
      + assert (N : x :: nef <> []) by discriminate. destruct nef as [|x' nef]; [|exact (M3 N)].
        destruct other as [|y other]; [|exact (M3 N)]. inversion Hn; subst. apply M2; auto.
    - destruct nef as [|x nef].
      + cbn [map app] in E. destruct other as [|y [|z other]].
        * apply good_ok; [apply cls_bool|]. intros pi P. rewrite <- (E pi P). cbn. tauto.
        * inversion Ho; subst. auto.
        * auto.
      + assert (N : x :: nef <> []) by discriminate. destruct nef as [|x' nef]; [|exact (M3 N)].
        destruct other as [|y other]; [|exact (M3 N)]. inversion Hn; subst. apply M2; auto.
  Qed.
  Lemma push_log_good : forall k n neg (isor : bool) visit l,
    (forall c, cls k c = true -> good k n (notif neg c) (visit c)) -> Forall (fun c => cls k c = true) l ->
    good k n (if isor then COr (map (notif neg) l) else CAnd (map (notif neg) l))
      (if isor then push_or visit l else push_and visit l).
  Proof.
    intros k n neg isor visit l HV Hl.
    pose (ef := if isor then as_ef else as_nef).
    assert (HE : forall c x, ef c = Some x -> c = wrap isor x).
    { intros c x. unfold ef. destruct isor; cbn [wrap].
      - destruct c; cbn; intros H; congruence.
      - destruct c as [| |c| | | | | | | | | | | | | | | | | |]; cbn; try discriminate. destruct c; try discriminate. congruence. }
    pose proof (@split_spec k n neg isor visit ef HV HE l [] [] Hl (Forall_nil _) (Forall_nil _)) as S.
    set (c := if isor then COr (map (notif neg) l) else CAnd (map (notif neg) l)).
    assert (Hc : forall pi, holds net pi c <-> J isor net pi (map (notif neg) l)) by (intros pi; apply J_log).
    assert (G : good k n c (s <- split_ops visit isor ef l [] [] ;;
       match s with Stop c => Ok c | Parts nef other => finish isor nef other end)).
    { destruct (split_ops visit isor ef l [] []) as [[d|nef other]| | |]; cbn [split_post bind] in *; auto.
      - destruct S as (-> & S). apply good_ok; [apply cls_bool|]. intros pi P. rewrite Hc, (S pi P). cbn [holds]. tauto.
      - destruct S as (A & B & S). apply finish_good; auto. intros pi P. rewrite (S pi P), Hc. cbn [map app].
        rewrite op2_comm. apply J_nil_op. }
    unfold finish, ef in G. destruct isor; exact G.
  Qed.

  (** * Comparisons *)
  Lemma cmp_good : forall k n negated o a b, o = OpLt \/ o = OpLe -> cls k (CCmp o a b) = true ->
    good k n (notif negated (CCmp o a b))
      (let '(a, b) := cancel a b in
       Ok (if is_trivial a b then CBool (xorb (compare o (eval m0 a) (eval m0 b)) negated)
           else if negated then CCmp (match o with OpLt => OpLe | _ => OpLt end) b a else CCmp o a b)).
  Proof.
    intros k n negated o a b Ho Hc. rewrite cls_cmp in Hc. destruct (cancel a b) as [a' b'] eqn:Ec.
    destruct (cancel_spec _ _ _ Hc Ec) as (A & B). specialize (A o Hc).
    assert (H : forall pi, holds net pi (CCmp o a b) <-> cmp_holds o (den (pi 0) a') (den (pi 0) b')).
    { intros pi. cbn [holds]. apply cmp_shift, B. }
    destruct (is_trivial a' b') eqn:Et.
    - apply good_ok; [apply cls_bool|]. intros pi _. specialize (H pi).
      destruct (is_trivial_den m0 (pi 0) _ _ Et) as (D1 & D2). rewrite <- D1, <- D2, <- !eval_den, <- compare_spec in H.
      destruct negated; cbn [notif]; cbn [holds] in H |- *; destruct (compare o (eval m0 a') (eval m0 b')); cbn [xorb]; rewrite H;
        split; congruence.
    - destruct (cmp_range_swap a' b') as (S1 & S2 & _). destruct negated; cbn [notif].
      + apply good_ok.
        * rewrite cls_cmp. destruct Ho as [->| ->]; auto.
        * intros pi _. specialize (H pi). change (holds net pi (CNot (CCmp o a b))) with (~ holds net pi (CCmp o a b)).
          rewrite H. destruct Ho as [->| ->]; cbn [holds cmp_holds]; lia.
      + apply good_ok; [rewrite cls_cmp; auto|]. intros pi _. rewrite (H pi). cbn [holds]. tauto.
  Qed.
  Lemma equal_good : forall k n negated (noteq : bool) a b, cls k (CCmp (if noteq then OpNe else OpEq) a b) = true ->
    good k n (notif negated (CCmp (if noteq then OpNe else OpEq) a b)) (Ok (push_equal m0 a b negated noteq)).
  Proof.
    intros k n negated noteq a b Hc. rewrite cls_cmp in Hc. unfold push_equal. destruct (cancel a b) as [a' b'] eqn:Ec.
    set (o := if noteq then OpNe else OpEq) in *.
    destruct (cancel_spec _ _ _ Hc Ec) as (A & B). specialize (A o Hc).
    assert (H : forall pi, holds net pi (CCmp o a b) <-> cmp_holds o (den (pi 0) a') (den (pi 0) b')).
    { intros pi. cbn [holds]. apply cmp_shift, B. }
    assert (A' : cmp_range OpEq a' b' = true /\ cmp_range OpNe a' b' = true).
    { destruct (cmp_range_swap a' b') as (_ & _ & E). unfold o in A. destruct noteq; split; congruence. }
    assert (H2 : forall pi, holds net pi (notif negated (CCmp o a b)) <->
        if Bool.eqb negated noteq then den (pi 0) a' = den (pi 0) b' else den (pi 0) a' <> den (pi 0) b').
    { intros pi. specialize (H pi). unfold o in *. destruct negated, noteq; cbn [notif Bool.eqb]; cbn [holds cmp_holds] in H |- *; rewrite H; lia. }
    assert (Z0 : forall e, place_free e && (eval m0 e =? 0)%Z = true -> forall m, den m e = 0%Z).
    { intros e He m. apply andb_true_iff in He. destruct He as (P & Q). apply Z.eqb_eq in Q. rewrite eval_den in Q. rewrite <- Q.
      apply place_free_den, P. }
    assert (RW : forall e, can_neg e = false ->
      (forall pi, holds net pi (notif negated (CCmp o a b)) <-> if Bool.eqb negated noteq then den (pi 0) e = 0%Z else den (pi 0) e <> 0%Z) ->
      good k n (notif negated (CCmp o a b)) (Ok (if Bool.eqb negated noteq then CCmp OpLe e (Lit 0) else CCmp OpLe (Lit 1) e))).
    { intros e Hn E. apply good_ok.
      - destruct (Bool.eqb negated noteq); rewrite cls_cmp; destruct e; reflexivity.
      - intros pi _. rewrite E. pose proof (can_neg_den (pi 0) e Hn). destruct (Bool.eqb negated noteq); cbn [holds cmp_holds den]; lia. }
    destruct (is_trivial a' b') eqn:Et.
    - apply good_ok; [apply cls_bool|]. intros pi _. specialize (H pi).
      destruct (is_trivial_den m0 (pi 0) _ _ Et) as (D1 & D2). rewrite <- D1, <- D2, <- !eval_den, <- compare_spec in H.
      fold o. destruct negated; cbn [notif]; cbn [holds] in H |- *; destruct (compare o (eval m0 a') (eval m0 b')); cbn [xorb]; rewrite H;
        split; congruence.
    - cbv zeta. destruct (place_free a' && (eval m0 a' =? 0)%Z && negb (can_neg b')) eqn:E1.
      { apply andb_true_iff in E1. destruct E1 as (E1 & E2). apply negb_true_iff in E2. apply RW; auto.
        intros pi. rewrite H2, (Z0 _ E1). destruct (Bool.eqb negated noteq); split; congruence. }
      destruct (place_free b' && (eval m0 b' =? 0)%Z && negb (can_neg a')) eqn:E3.
      { apply andb_true_iff in E3. destruct E3 as (E3 & E4). apply negb_true_iff in E4. apply RW; auto.
        intros pi. rewrite H2, (Z0 _ E3). destruct (Bool.eqb negated noteq); split; congruence. }
      destruct (Bool.eqb negated noteq) eqn:Eb; (apply good_ok; [rewrite cls_cmp; apply A'|]); intros pi _; rewrite H2;
        cbn [holds cmp_holds]; tauto.
  Qed.

  (** * The visitor *)
  Lemma demorgan : forall n (isor : bool) l,
    eqat n (if isor then COr (map (notif true) l) else CAnd (map (notif true) l)) (CNot (if isor then CAnd l else COr l)).
  Proof.
    intros n isor l pi _. rewrite J_log. change (holds net pi (CNot (if isor then CAnd l else COr l))) with (~ holds net pi (if isor then CAnd l else COr l)).
    replace (if isor then CAnd l else COr l) with (if negb isor then COr l else CAnd l) by (destruct isor; auto).
    rewrite J_log. destruct isor; cbn [J negb].
    - split.
      + intros (c & Hc & H) G. apply in_map_iff in Hc. destruct Hc as (x & <- & Hx). apply H, G, Hx.
      + intros H. apply NNPP. intros N. apply H. intros c Hc. apply NNPP. intros G. apply N.
        exists (CNot c). split; [apply (in_map CNot), Hc|exact G].
    - split.
      + intros H (c & Hc & G). apply (H (CNot c)); [apply (in_map CNot), Hc|exact G].
      + intros H c Hc. apply in_map_iff in Hc. destruct Hc as (x & <- & Hx). intros G. apply H. eauto.
  Qed.
  Lemma map_notif_false : forall l, map (notif false) l = l.
  Proof. induction l; cbn; congruence. Qed.

  Definition P (f : nat) : Prop := forall k n negated c, cls k c = true ->
    good k n (notif negated c) (push deadb m0 initrw f n negated c).

  (** continue with an equivalent formula *)
  Lemma again : forall f k n negated c d, P f -> cls k d = true -> eqp net d c ->
    good k n (notif negated c) (push deadb m0 initrw f n negated d).
  Proof. intros f k n negated c d IH Hd E. eapply good_eq; [apply IH, Hd|]. apply eqat_notif, eqp_eqat, E. Qed.
  Lemma stop : forall k n negated c d, cls k d = true -> eqp net d c -> good k n (notif negated c) (Ok (notif negated d)).
  Proof. intros k n negated c d Hd E. apply good_ok; [rewrite cls_notif; auto|]. apply eqat_notif, eqp_eqat, E. Qed.
  Lemma again_or : forall f k n negated c l, P f -> Forall (fun c => cls k c = true) l -> eqp net (COr l) c ->
    good k n (notif negated c) (o <- make_or l ;; push deadb m0 initrw f n negated o).
  Proof.
    intros f k n negated c l IH Hl E. destruct (@make_log_spec k true l Hl) as (o & A & B & C). unfold make_or. rewrite A. cbn [bind].
    apply again; auto. intros pi M. rewrite C, <- (E pi M). symmetry. apply (J_log true).
  Qed.
  Lemma cls_split : forall k c, cls k c = true <-> in_range c = true /\ (if k then stf c else ltl c) = true.
  Proof. intros. unfold cls. apply andb_true_iff. Qed.

  Lemma is_dead_eq : forall c, is_dead c = true -> c = CDead. Proof. intros c; destruct c; try discriminate; auto. Qed.
  Lemma is_ndead_eq : forall c, is_ndead c = true -> c = CNot CDead.
  Proof. intros c; destruct c; try discriminate. intros H. apply is_dead_eq in H. now subst. Qed.
  Lemma or_snoc : forall pi l x, holds net pi (COr (l ++ [x])) <-> holds net pi (COr l) \/ holds net pi x.
  Proof.
    intros pi l x. rewrite !holds_or. split.
    - intros (c & Hc & H). apply in_app_iff in Hc. destruct Hc as [Hc|[<-|[]]]; [left; eauto|auto].
    - intros [(c & Hc & H)|H]; [exists c|exists x]; (split; [apply in_app_iff; cbn [In]|]); auto.
  Qed.
  Lemma cls_until : forall k a b, (cls k (CEU a b) = true -> k = true /\ cls true a = true /\ cls true b = true) /\
    (cls k (CAU a b) = true -> k = true /\ cls true a = true /\ cls true b = true) /\
    (cls k (CU a b) = true -> k = false /\ cls false a = true /\ cls false b = true).
  Proof.
    intros [|] a b; repeat split; rewrite !cls_split in *; cbn [in_range stf ltl] in *; rewrite ?andb_true_iff in *; try tauto; destruct H; try discriminate.
  Qed.
  Lemma until_cls : forall a b, cls true a = true -> cls true b = true -> cls true (CEU a b) = true /\ cls true (CAU a b) = true.
  Proof. intros a b. rewrite !cls_split. cbn [in_range stf]. rewrite !andb_true_iff. tauto. Qed.

  Lemma push_CBool : forall f, P f -> forall k n negated b, cls k (CBool b) = true ->
    good k n (notif negated (CBool b)) (push deadb m0 initrw (S f) n negated (CBool b)).
  Proof.
    intros f IH k n negated b Hc. cbn [push].
    apply good_rw, good_ok; [apply cls_bool|]. intros pi _. destruct negated, b; cbn [notif xorb holds]; split; congruence.
  Qed.
  Lemma push_CDead : forall f, P f -> forall k n negated, cls k (CDead ) = true ->
    good k n (notif negated (CDead )) (push deadb m0 initrw (S f) n negated (CDead )).
  Proof.
    intros f IH k n negated  Hc. cbn [push].
    apply good_rw, good_ok; [rewrite cls_notif; auto|apply eqat_refl].
  Qed.
  Lemma push_CNot : forall f, P f -> forall k n negated c, cls k (CNot c) = true ->
    good k n (notif negated (CNot c)) (push deadb m0 initrw (S f) n negated (CNot c)).
  Proof.
    intros f IH k n negated c Hc. cbn [push].
    apply good_rw. eapply good_eq; [apply IH, Hc|].
      intros pi _. destruct negated; cbn [negb notif holds]; tauto.
  Qed.
  Lemma push_CAnd : forall f, P f -> forall k n negated l, cls k (CAnd l) = true ->
    good k n (notif negated (CAnd l)) (push deadb m0 initrw (S f) n negated (CAnd l)).
  Proof.
    intros f IH k n negated l Hc. cbn [push].
    apply good_rw. assert (Hl := proj1 (cls_list k l) Hc).
      destruct negated; cbn [notif].
      + eapply good_eq; [apply (@push_log_good k n true true _ l); auto|].
        apply (@demorgan n true l).
      + eapply good_eq; [apply (@push_log_good k n false false _ l); auto|].
        rewrite map_notif_false. apply eqat_refl.
  Qed.
  Lemma push_COr : forall f, P f -> forall k n negated l, cls k (COr l) = true ->
    good k n (notif negated (COr l)) (push deadb m0 initrw (S f) n negated (COr l)).
  Proof.
    intros f IH k n negated l Hc. cbn [push].
    apply good_rw. assert (Hl := proj1 (cls_or k l) Hc).
      destruct negated; cbn [notif].
      + eapply good_eq; [apply (@push_log_good k n true false _ l); auto|].
        apply (@demorgan n false l).
      + eapply good_eq; [apply (@push_log_good k n false true _ l); auto|].
        rewrite map_notif_false. apply eqat_refl.
  Qed.
  Lemma push_CCmp : forall f, P f -> forall k n negated o a b, cls k (CCmp o a b) = true ->
    good k n (notif negated (CCmp o a b)) (push deadb m0 initrw (S f) n negated (CCmp o a b)).
  Proof.
    intros f IH k n negated o a b Hc. cbn [push].
    destruct o; apply good_rw.
      + apply (@equal_good k n negated false a b Hc).
      + apply (@equal_good k n negated true a b Hc).
      + apply (@cmp_good k n negated OpLt a b (or_introl eq_refl) Hc).
      + apply (@cmp_good k n negated OpLe a b (or_intror eq_refl) Hc).
  Qed.
  Lemma push_CConj : forall f, P f -> forall k n negated neg cs, cls k (CConj neg cs) = true ->
    good k n (notif negated (CConj neg cs)) (push deadb m0 initrw (S f) n negated (CConj neg cs)).
  Proof.
    intros f IH k n negated neg cs Hc. cbn [push].
    apply good_rw, good_ok; [exact Hc|]. intros pi _. destruct negated, neg; cbn [xorb notif holds]; tauto.
  Qed.
  Lemma push_CEX : forall f, P f -> forall k n negated c, cls k (CEX c) = true ->
    good k n (notif negated (CEX c)) (push deadb m0 initrw (S f) n negated (CEX c)).
  Proof.
    intros f IH k n negated c Hc. cbn [push].
    apply good_rw. destruct k; [|unfold cls in Hc; cbn in Hc; rewrite andb_false_r in Hc; discriminate].
      eapply good_bind; [apply (IH true true negated c Hc)|]. intros a Ha Ea. apply eqat_true in Ea.
      destruct negated; cbn [notif] in *.
      + eapply good_eq; [apply (IH true n false (CAX a) Ha)|]. apply eqp_eqat. cbn [notif].
        eapply eqp_trans; [apply eq_AX, Ea|apply not_EX].
      + assert (E := eq_EX Ea). assert (D : good true n (CEX c) (Ok (CEX a))) by (apply good_ok; auto; apply eqp_eqat, E).
        destruct a; auto. destruct b; apply good_ok; auto; apply eqp_eqat; (eapply eqp_trans; [apply eqp_sym|exact E]);
          [apply EX_true|apply EX_false].
  Qed.
  Lemma push_CAX : forall f, P f -> forall k n negated c, cls k (CAX c) = true ->
    good k n (notif negated (CAX c)) (push deadb m0 initrw (S f) n negated (CAX c)).
  Proof.
    intros f IH k n negated c Hc. cbn [push].
    apply good_rw. destruct k; [|unfold cls in Hc; cbn in Hc; rewrite andb_false_r in Hc; discriminate].
      eapply good_bind; [apply (IH true true negated c Hc)|]. intros a Ha Ea. apply eqat_true in Ea.
      destruct negated; cbn [notif] in *.
      + eapply good_eq; [apply (IH true n false (CEX a) Ha)|]. apply eqp_eqat. cbn [notif].
        eapply eqp_trans; [apply eq_EX, Ea|apply not_AX].
      + assert (E := eq_AX Ea). assert (D : good true n (CAX c) (Ok (CAX a))) by (apply good_ok; auto; apply eqp_eqat, E).
        destruct a; auto. destruct b; apply good_ok; auto; apply eqp_eqat; (eapply eqp_trans; [apply eqp_sym|exact E]);
          [apply AX_true|apply AX_false].
  Qed.
  Lemma push_CEF : forall f, P f -> forall k n negated c, cls k (CEF c) = true ->
    good k n (notif negated (CEF c)) (push deadb m0 initrw (S f) n negated (CEF c)).
  Proof.
    intros f IH k n negated c Hc. cbn [push].
    apply good_rw. destruct (cls_EF _ _ Hc) as (-> & Hx).
      eapply good_bind; [apply (IH true true false c Hx)|]. cbn [notif]. intros a Ha Ea. apply eqat_true in Ea.
      assert (E := eq_EF Ea).
      assert (D : good true n (notif negated (CEF c)) (Ok (notif negated (CEF a)))) by (apply stop; auto).
      assert (B : forall d, cls true d = true -> eqp net d (CEF a) -> good true n (notif negated (CEF c)) (push deadb m0 initrw f n negated d)).
      { intros d Hd Ed. apply again; auto. eapply eqp_trans; eauto. }
      destruct (is_ndead a) eqn:Ea1; [apply is_ndead_eq in Ea1; subst a; apply B; auto; apply eqp_sym, EF_ndead|].
      destruct (negb (temporal a)); [exact D|].
      destruct a; try exact D.
      + apply again_or; auto.
        * apply cls_or in Ha. rewrite Forall_forall in *. intros x Hx'. apply in_map_iff in Hx'. destruct Hx' as (y & <- & Hy). apply (Ha y Hy).
        * eapply eqp_trans; [apply eqp_sym, EF_or|exact E].
      + apply stop; auto. eapply eqp_trans; [apply eqp_sym, EF_EF|exact E].
      + apply B; auto. apply eqp_sym, EF_AF. apply cls_split in Ha. apply Ha.
      + apply cls_split in Ha. cbn [in_range stf] in Ha. rewrite !andb_true_iff in Ha. apply B.
        * apply cls_split. cbn [in_range stf]. tauto.
        * apply eqp_sym, EF_EU.
      + apply cls_split in Ha. cbn [in_range stf] in Ha. rewrite !andb_true_iff in Ha. apply B.
        * apply cls_split. cbn [in_range stf]. tauto.
        * apply eqp_sym, EF_AU. tauto.
  Qed.
  Lemma push_CAF : forall f, P f -> forall k n negated c, cls k (CAF c) = true ->
    good k n (notif negated (CAF c)) (push deadb m0 initrw (S f) n negated (CAF c)).
  Proof.
    intros f IH k n negated c Hc. cbn [push].
    apply good_rw. destruct k; [|unfold cls in Hc; cbn in Hc; rewrite andb_false_r in Hc; discriminate].
      eapply good_bind; [apply (IH true true false c Hc)|]. cbn [notif]. intros a Ha Ea. apply eqat_true in Ea.
      assert (E := eq_AF Ea).
      assert (D : good true n (notif negated (CAF c)) (Ok (notif negated (CAF a)))) by (apply stop; auto).
      assert (B : forall d, cls true d = true -> eqp net d (CAF a) -> good true n (notif negated (CAF c)) (push deadb m0 initrw f n negated d)).
      { intros d Hd Ed. apply again; auto. eapply eqp_trans; eauto. }
      destruct (is_ndead a) eqn:Ea1; [apply is_ndead_eq in Ea1; subst a; apply B; auto; apply eqp_sym, AF_ndead|].
      destruct a; try exact D.
      + destruct (filter is_ef l) as [|x l0] eqn:Ef; [exact D|]. rewrite <- Ef. clear Ef x l0.
        assert (Hl := proj1 (cls_or true l) Ha).
        assert (Hn : Forall (fun c => cls true c = true) (nefs l) /\ Forall (fun c => cls true c = true) (efs l)).
        { unfold nefs, efs. rewrite !Forall_forall in *. split; intros x Hx; apply filter_In in Hx; apply Hl, Hx. }
        destruct (@make_log_spec true true (nefs l) (proj1 Hn)) as (o & A1 & A2 & A3). unfold make_or at 1. fold (nefs l). rewrite A1. cbn [bind].
        apply again_or; auto.
        * apply Forall_app. split; [apply Hn|]. constructor; auto.
        * eapply eqp_trans; [|exact E]. intros pi M. apply cls_split in Ha. rewrite (AF_or l (proj2 Ha) M).
          rewrite or_snoc. fold (efs l).
          assert (Q : holds net pi (CAF o) <-> holds net pi (CAF (COr (nefs l)))).
          { apply eq_AF; auto. intros rho _. rewrite A3. symmetry. apply (J_log true). }
          rewrite Q. tauto.
      + apply stop; auto. eapply eqp_trans; [apply eqp_sym, AF_EF|exact E]. apply cls_split in Ha. apply Ha.
      + apply stop; auto. eapply eqp_trans; [apply eqp_sym, AF_AF|exact E]. apply cls_split in Ha. apply Ha.
      + apply cls_split in Ha. cbn [in_range stf] in Ha. rewrite !andb_true_iff in Ha. apply B.
        * apply cls_split. cbn [in_range stf]. tauto.
        * apply eqp_sym, AF_AU; tauto.
  Qed.
  Lemma push_CEG : forall f, P f -> forall k n negated c, cls k (CEG c) = true ->
    good k n (notif negated (CEG c)) (push deadb m0 initrw (S f) n negated (CEG c)).
  Proof.
    intros f IH k n negated c Hc. cbn [push].
    eapply good_eq; [apply (IH k n (negb negated) (CAF (CNot c)) Hc)|].
      intros pi (M & _). pose proof (not_EG c M) as E. cbn [holds] in E. destruct negated; cbn [negb notif holds]; tauto.
  Qed.
  Lemma push_CAG : forall f, P f -> forall k n negated c, cls k (CAG c) = true ->
    good k n (notif negated (CAG c)) (push deadb m0 initrw (S f) n negated (CAG c)).
  Proof.
    intros f IH k n negated c Hc. cbn [push].
    eapply good_eq; [apply (IH k n (negb negated) (CEF (CNot c)) Hc)|].
      intros pi (M & _). pose proof (not_AG c M) as E. cbn [holds] in E. destruct negated; cbn [negb notif holds]; tauto.
  Qed.
  Lemma push_CEU : forall f, P f -> forall k n negated c1 c2, cls k (CEU c1 c2) = true ->
    good k n (notif negated (CEU c1 c2)) (push deadb m0 initrw (S f) n negated (CEU c1 c2)).
  Proof.
    intros f IH k n negated c1 c2 Hc. cbn [push].
    apply good_rw. destruct (cls_until k c1 c2) as (U1 & U2 & _).
      destruct (U1 Hc) as (-> & H1 & H2). clear U1 U2.
      eapply good_bind; [apply (IH true true false c2 H2)|]. cbn [notif]. intros b Hb Eb. apply eqat_true in Eb.
      eapply good_bind; [apply (IH true true false c1 H1)|]. cbn [notif]. intros a Ha Ea. apply eqat_true in Ea.
      assert (E := eq_EU Ea Eb). assert (Sb : stf b = true) by (apply (cls_split true b), Hb).
      assert (D : good true n (notif negated (CEU c1 c2)) (Ok (notif negated (CEU a b)))).
      { apply stop; auto. apply until_cls; auto. }
      assert (B : forall d, cls true d = true -> eqp net d (CEU a b) -> good true n (notif negated (CEU c1 c2)) (push deadb m0 initrw f n negated d)).
      { intros d Hd Ed. apply again; auto. eapply eqp_trans; eauto. }
      assert (OR : forall l, b = COr l -> good true n (notif negated (CEU c1 c2))
         (o <- match filter (fun x => negb (is_ef x)) l with
               | [] => make_or (filter is_ef l)
               | _ => n <- make_or (filter (fun x => negb (is_ef x)) l) ;; make_or (filter is_ef l ++ [CEU c1 n])
               end ;;
          push deadb m0 initrw f n negated o)).
      { intros l ->. assert (Hl := proj1 (cls_or true l) Hb).
        assert (Hn : Forall (fun c => cls true c = true) (nefs l) /\ Forall (fun c => cls true c = true) (efs l)).
        { unfold nefs, efs. rewrite !Forall_forall in *. split; intros x Hx; apply filter_In in Hx; apply Hl, Hx. }
        destruct (filter (fun x => negb (is_ef x)) l) as [|x l0] eqn:En.
        - apply again_or; auto; [apply Hn|]. eapply eqp_trans; [|exact E]. intros pi M. fold (efs l).
          rewrite (EU_or a l Sb M). unfold nefs. rewrite En. pose proof (@EU_nil net a pi). tauto.
        - rewrite <- En. fold (nefs l). fold (efs l). clear x l0 En.
          destruct (@make_log_spec true true (nefs l) (proj1 Hn)) as (o & A1 & A2 & A3). unfold make_or at 1. rewrite A1. cbn [bind].
          apply again_or; auto.
          + apply Forall_app. split; [apply Hn|]. constructor; auto. apply until_cls; auto.
          + eapply eqp_trans; [|exact E]. intros pi M. rewrite or_snoc, (EU_or a l Sb M).
            assert (Q : holds net pi (CEU c1 o) <-> holds net pi (CEU a (COr (nefs l)))).
            { apply eq_EU; auto; [apply eqp_sym, Ea|]. intros rho _. rewrite A3. symmetry. apply (J_log true). }
            rewrite Q. tauto. }
      assert (R : good true n (notif negated (CEU c1 c2)) (match b with
            
            | CEF _ => Ok (notif negated b)
            | COr l =>
              match filter is_ef l with
              | [] => Ok (notif negated (CEU a b))
              | _ =>
                o <- match filter (fun x => negb (is_ef x)) l with
                     | [] => make_or (filter is_ef l)
                     | _ => n <- make_or (filter (fun x => negb (is_ef x)) l) ;; make_or (filter is_ef l ++ [CEU c1 n])
                     end ;;
                push deadb m0 initrw f n negated o
              end
            | _ => Ok (notif negated (CEU a b))
            end)).
      { destruct b; try exact D.
        - destruct (filter is_ef l) as [|x l0] eqn:Ef; [exact D|]. rewrite <- Ef. apply OR; auto.
        - apply stop; auto. eapply eqp_trans; [apply eqp_sym|exact E]. apply EU_EF.
      }
      destruct (is_ndead b) eqn:Eb1; [apply is_ndead_eq in Eb1; subst b; apply B; auto; apply eqp_sym, EU_ndead|].
      destruct (is_not b); [exact R|].
      destruct (is_dead a) eqn:Ea1; [apply is_dead_eq in Ea1; subst a; apply B; auto; apply eqp_sym, EU_dead, Sb|].
      destruct (is_ndead a) eqn:Ea2; [apply is_ndead_eq in Ea2; subst a; apply B; auto; apply eqp_sym, EU_live, Sb|].
      exact R.
  Qed.
  Lemma push_CAU : forall f, P f -> forall k n negated c1 c2, cls k (CAU c1 c2) = true ->
    good k n (notif negated (CAU c1 c2)) (push deadb m0 initrw (S f) n negated (CAU c1 c2)).
  Proof.
    intros f IH k n negated c1 c2 Hc. cbn [push].
    apply good_rw. destruct (cls_until k c1 c2) as (U1 & U2 & _).
      destruct (U2 Hc) as (-> & H1 & H2). clear U1 U2.
      eapply good_bind; [apply (IH true true false c2 H2)|]. cbn [notif]. intros b Hb Eb. apply eqat_true in Eb.
      eapply good_bind; [apply (IH true true false c1 H1)|]. cbn [notif]. intros a Ha Ea. apply eqat_true in Ea.
      assert (E := eq_AU Ea Eb). assert (Sb : stf b = true) by (apply (cls_split true b), Hb).
      assert (D : good true n (notif negated (CAU c1 c2)) (Ok (notif negated (CAU a b)))).
      { apply stop; auto. apply until_cls; auto. }
      assert (B : forall d, cls true d = true -> eqp net d (CAU a b) -> good true n (notif negated (CAU c1 c2)) (push deadb m0 initrw f n negated d)).
      { intros d Hd Ed. apply again; auto. eapply eqp_trans; eauto. }
      assert (OR : forall l, b = COr l -> good true n (notif negated (CAU c1 c2))
         (o <- match filter (fun x => negb (is_ef x)) l with
               | [] => make_or (filter is_ef l)
               | _ => n <- make_or (filter (fun x => negb (is_ef x)) l) ;; make_or (filter is_ef l ++ [CAU c1 n])
               end ;;
          push deadb m0 initrw f n negated o)).
      { intros l ->. assert (Hl := proj1 (cls_or true l) Hb).
        assert (Hn : Forall (fun c => cls true c = true) (nefs l) /\ Forall (fun c => cls true c = true) (efs l)).
        { unfold nefs, efs. rewrite !Forall_forall in *. split; intros x Hx; apply filter_In in Hx; apply Hl, Hx. }
        destruct (filter (fun x => negb (is_ef x)) l) as [|x l0] eqn:En.
        - apply again_or; auto; [apply Hn|]. eapply eqp_trans; [|exact E]. intros pi M. fold (efs l).
          rewrite (AU_or a l Sb M). unfold nefs. rewrite En. pose proof (@AU_nil net a pi M). tauto.
        - rewrite <- En. fold (nefs l). fold (efs l). clear x l0 En.
          destruct (@make_log_spec true true (nefs l) (proj1 Hn)) as (o & A1 & A2 & A3). unfold make_or at 1. rewrite A1. cbn [bind].
          apply again_or; auto.
          + apply Forall_app. split; [apply Hn|]. constructor; auto. apply until_cls; auto.
          + eapply eqp_trans; [|exact E]. intros pi M. rewrite or_snoc, (AU_or a l Sb M).
            assert (Q : holds net pi (CAU c1 o) <-> holds net pi (CAU a (COr (nefs l)))).
            { apply eq_AU; auto; [apply eqp_sym, Ea|]. intros rho _. rewrite A3. symmetry. apply (J_log true). }
            rewrite Q. tauto. }
      assert (R : good true n (notif negated (CAU c1 c2)) (match b with
            | CAF _ => push deadb m0 initrw f n negated b
            | CEF _ => Ok (notif negated b)
            | COr l =>
              match filter is_ef l with
              | [] => Ok (notif negated (CAU a b))
              | _ =>
                o <- match filter (fun x => negb (is_ef x)) l with
                     | [] => make_or (filter is_ef l)
                     | _ => n <- make_or (filter (fun x => negb (is_ef x)) l) ;; make_or (filter is_ef l ++ [CAU c1 n])
                     end ;;
                push deadb m0 initrw f n negated o
              end
            | _ => Ok (notif negated (CAU a b))
            end)).
      { destruct b; try exact D.
        - destruct (filter is_ef l) as [|x l0] eqn:Ef; [exact D|]. rewrite <- Ef. apply OR; auto.
        - apply stop; auto. eapply eqp_trans; [apply eqp_sym|exact E]. apply AU_EF. exact Sb.
        - apply B; auto. apply eqp_sym, AU_AF. exact Sb.
      }
      destruct (is_ndead b) eqn:Eb1; [apply is_ndead_eq in Eb1; subst b; apply B; auto; apply eqp_sym, AU_ndead|].
      destruct (is_not b); [exact R|].
      destruct (is_dead a) eqn:Ea1; [apply is_dead_eq in Ea1; subst a; apply B; auto; apply eqp_sym, AU_dead, Sb|].
      destruct (is_ndead a) eqn:Ea2; [apply is_ndead_eq in Ea2; subst a; apply B; auto; apply eqp_sym, AU_live, Sb|].
      exact R.
  Qed.
  Lemma push_CE : forall f, P f -> forall k n negated c, cls k (CE c) = true ->
    good k n (notif negated (CE c)) (push deadb m0 initrw (S f) n negated (CE c)).
  Proof.
    intros f IH k n negated c Hc. cbn [push].
    destruct k; [|unfold cls in Hc; cbn in Hc; rewrite andb_false_r in Hc; discriminate].
      assert (Hc' : cls false c = true) by exact Hc.
      eapply good_bind; [apply (IH false n negated c Hc')|]. intros a Ha Ea.
      destruct negated; cbn [notif] in *; apply good_ok; auto; intros pi (M & Hp); cbn [holds].
      + split.
        * intros H (r & A & B). refine (proj1 (Ea r _) (H r A) B). split; [apply A|]. intros Hn Hi. rewrite (proj2 A). auto.
        * intros H r A. apply (Ea r); [split; [apply A|intros Hn Hi; rewrite (proj2 A); auto]|]. intros B. apply H. eauto.
      + split; intros (r & A & B); exists r; (split; [exact A|]); apply (Ea r); auto; (split; [apply A|intros Hn Hi; rewrite (proj2 A); auto]).
  Qed.
  Lemma push_CA : forall f, P f -> forall k n negated c, cls k (CA c) = true ->
    good k n (notif negated (CA c)) (push deadb m0 initrw (S f) n negated (CA c)).
  Proof.
    intros f IH k n negated c Hc. cbn [push].
    eapply good_eq; [apply (IH k n (negb negated) (CE (CNot c)) Hc)|].
      intros pi (M & _). pose proof (not_A c M) as E. cbn [holds] in E. destruct negated; cbn [negb notif holds]; tauto.
  Qed.
  Lemma push_CF : forall f, P f -> forall k n negated c, cls k (CF c) = true ->
    good k n (notif negated (CF c)) (push deadb m0 initrw (S f) n negated (CF c)).
  Proof.
    intros f IH k n negated c Hc. cbn [push].
    apply good_rw. destruct k; [unfold cls in Hc; cbn in Hc; rewrite andb_false_r in Hc; discriminate|].
      eapply good_bind; [apply (IH false true false c Hc)|]. cbn [notif]. intros a Ha Ea. apply eqat_true in Ea.
      assert (E := eq_F Ea).
      assert (D : good false n (notif negated (CF c)) (Ok (notif negated (CF a)))) by (apply stop; auto).
      assert (B : forall d, cls false d = true -> eqp net d (CF a) -> good false n (notif negated (CF c)) (push deadb m0 initrw f n negated d)).
      { intros d Hd Ed. apply again; auto. eapply eqp_trans; eauto. }
      destruct (negb (temporal a)); [exact D|].
      destruct a; try exact D; try (unfold cls in Ha; cbn in Ha; rewrite andb_false_r in Ha; discriminate).
      + apply again_or; auto.
        * apply cls_or in Ha. rewrite Forall_forall in *. intros x Hx'. apply in_map_iff in Hx'. destruct Hx' as (y & <- & Hy). apply (Ha y Hy).
        * eapply eqp_trans; [apply eqp_sym, F_or|exact E].
      + apply stop; auto. eapply eqp_trans; [apply eqp_sym, F_F|exact E].
      + apply cls_split in Ha. cbn [in_range ltl] in Ha. rewrite !andb_true_iff in Ha. apply B.
        * apply cls_split. cbn [in_range ltl]. tauto.
        * apply eqp_sym, F_U.
  Qed.
  Lemma push_CG : forall f, P f -> forall k n negated c, cls k (CG c) = true ->
    good k n (notif negated (CG c)) (push deadb m0 initrw (S f) n negated (CG c)).
  Proof.
    intros f IH k n negated c Hc. cbn [push].
    eapply good_eq; [apply (IH k n (negb negated) (CF (CNot c)) Hc)|].
      intros pi (M & _). pose proof (not_G c M) as E. cbn [holds] in E. destruct negated; cbn [negb notif holds]; tauto.
  Qed.
  Lemma push_CX : forall f, P f -> forall k n negated c, cls k (CX c) = true ->
    good k n (notif negated (CX c)) (push deadb m0 initrw (S f) n negated (CX c)).
  Proof.
    intros f IH k n negated c Hc. cbn [push].
    apply good_rw. destruct k; [unfold cls in Hc; cbn in Hc; rewrite andb_false_r in Hc; discriminate|].
      eapply good_bind; [apply (IH false true negated c Hc)|]. intros a Ha Ea. apply eqat_true in Ea.
      assert (E : eqp net (CX a) (notif negated (CX c))).
      { intros pi M. specialize (Ea (shift 1 pi) (maximal_shift 1 M)). destruct negated; exact Ea. }
      destruct a; try (apply good_ok; auto; apply eqp_eqat; exact E).
  Qed.
  Lemma push_CU : forall f, P f -> forall k n negated c1 c2, cls k (CU c1 c2) = true ->
    good k n (notif negated (CU c1 c2)) (push deadb m0 initrw (S f) n negated (CU c1 c2)).
  Proof.
    intros f IH k n negated c1 c2 Hc. cbn [push].
    apply good_rw. destruct (cls_until k c1 c2) as (_ & _ & U3). destruct (U3 Hc) as (-> & H1 & H2).
      eapply good_bind; [apply (IH false true false c2 H2)|]. cbn [notif]. intros b Hb Eb. apply eqat_true in Eb.
      eapply good_bind; [apply (IH false true false c1 H1)|]. cbn [notif]. intros a Ha Ea. apply eqat_true in Ea.
      assert (E := eq_U Ea Eb).
      assert (D : good false n (notif negated (CU c1 c2)) (Ok (notif negated (CU a b)))).
      { apply stop; auto. rewrite cls_split in *. cbn [in_range ltl]. rewrite !andb_true_iff. tauto. }
      destruct b; auto. apply stop; auto. eapply eqp_trans; [apply eqp_sym, U_F|exact E].
  Qed.
  Lemma push_ok : forall f, P f.
  Proof.
    induction f as [|f IH]; intros k n negated c Hc; [exact I|].
    destruct c.
    - apply push_CBool; auto.
    - apply push_CDead; auto.
    - apply push_CNot; auto.
    - apply push_CAnd; auto.
    - apply push_COr; auto.
    - apply push_CCmp; auto.
    - apply push_CConj; auto.
    - apply push_CEX; auto.
    - apply push_CAX; auto.
    - apply push_CEF; auto.
    - apply push_CAF; auto.
    - apply push_CEG; auto.
    - apply push_CAG; auto.
    - apply push_CEU; auto.
    - apply push_CAU; auto.
    - apply push_CE; auto.
    - apply push_CA; auto.
    - apply push_CF; auto.
    - apply push_CG; auto.
    - apply push_CX; auto.
    - apply push_CU; auto.
  Qed.
End PushP.
