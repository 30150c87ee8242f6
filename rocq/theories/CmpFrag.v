(** The formulas that negation rewriting produces contain no negation of a negation. *)
From Verif Require Import Base BaseLemmas PqlSyntax PqlSpec PqlModel CtlProofs CtlFrag CmpSpec.
From Coq Require Import Permutation.
Set Implicit Arguments.

Fixpoint nfrag (c : cond) : bool :=
  match c with
  | CBool _ | CDead | CCmp _ _ _ | CConj _ _ => true
  | CNot c => negb (is_not c) && nfrag c
  | CEX c | CAX c | CEF c | CAF c => nfrag c
  | CAnd l | COr l => forallb nfrag l
  | CEU a b | CAU a b => nfrag a && nfrag b
  | _ => false
  end.
Lemma nfrag_split : forall c, nfrag c = frag c && one_neg c.
Proof.
  assert (F : forall l, Forall (fun c => nfrag c = frag c && one_neg c) l -> forallb nfrag l = forallb frag l && forallb one_neg l).
  { induction 1 as [|x l H _ IH]; [reflexivity|]. cbn [forallb]. rewrite H, IH. destruct (frag x), (one_neg x), (forallb frag l), (forallb one_neg l); reflexivity. }
  induction c using cond_ind'; cbn [nfrag frag one_neg]; auto.
  - rewrite IHc. destruct c; cbn [is_not negb andb]; try reflexivity. rewrite andb_false_r. reflexivity.
  - rewrite IHc1, IHc2. destruct (frag c1), (frag c2), (one_neg c1), (one_neg c2); reflexivity.
  - rewrite IHc1, IHc2. destruct (frag c1), (frag c2), (one_neg c1), (one_neg c2); reflexivity.
Qed.
Lemma nfrag_ctl : forall c, nfrag c = true -> ctl c = true.
Proof. intros c H. rewrite nfrag_split in H. apply andb_prop in H. apply frag_ctl, H. Qed.

Section Push.
  Variable deadb : list N -> bool.
  Variable m0 : list N.
  Variable initrw : bool.
  Notation push := (push deadb m0 initrw).
  Notation fall := (Forall (fun c => nfrag c = true)).
  Definition mk_nfrag := @make_log_P nfrag (fun _ => eq_refl) (fun _ => eq_refl) (fun _ _ => eq_refl) (fun _ => eq_refl).
  Definition mk_ctl := @make_log_P ctl (fun _ => eq_refl) (fun _ => eq_refl) (fun _ _ => eq_refl) (fun _ => eq_refl).
  Lemma notif_nfrag : forall b c, is_not c = false -> nfrag (notif b c) = nfrag c. Proof. intros [|] c H; [|reflexivity]. cbn [notif nfrag]. rewrite H. reflexivity. Qed.
  Lemma init_nfrag : forall nested c, nfrag c = true -> nfrag (init_rw deadb m0 initrw nested c) = true.
  Proof. intros nested c H. unfold init_rw. destruct (negb nested && initrw); [|exact H]. destruct (evaluate deadb m0 c); auto. Qed.
  Lemma split_nfrag : forall (visit : cond -> res cond) stop ef l nef other s,
    (forall c n, In c l -> visit c = Ok n -> nfrag n = true) -> (forall n x, ef n = Some x -> nfrag n = true -> nfrag x = true) ->
    fall nef -> fall other -> split_ops visit stop ef l nef other = Ok s ->
    match s with Stop c => nfrag c = true | Parts nef other => fall nef /\ fall other end.
  Proof.
    intros visit stop ef. induction l as [|c l IH]; intros nef other s Hv He Hn Ho H; cbn [split_ops] in H; [injection H as <-; auto|].
    destruct (visit c) as [n| | |] eqn:E; try discriminate H. cbn [bind] in H. assert (Hf := Hv c n (or_introl eq_refl) E).
    assert (Hv' : forall c n, In c l -> visit c = Ok n -> nfrag n = true) by (intros x y Hx; apply Hv; right; exact Hx).
    assert (G : match ef n with Some x => split_ops visit stop ef l (nef ++ [x]) other | None => split_ops visit stop ef l nef (other ++ [n]) end = Ok s ->
      match s with Stop c => nfrag c = true | Parts nef other => fall nef /\ fall other end).
    { intros K. destruct (ef n) as [x|] eqn:En.
      - apply (IH (nef ++ [x]) other s Hv' He); [apply Forall_app; split; [exact Hn|constructor; [apply (He n x En Hf)|constructor]]|exact Ho|exact K].
      - apply (IH nef (other ++ [n]) s Hv' He); [exact Hn|apply Forall_app; auto|exact K]. }
    destruct n; try (apply G; exact H). destruct (Bool.eqb b stop); [injection H as <-; reflexivity|]. apply (IH nef other s Hv' He Hn Ho H).
  Qed.
  Lemma finish_nfrag : forall (wrap : cond -> cond) isand nef other r,
    (forall c, nfrag (wrap c) = nfrag c) -> fall nef -> fall other ->
    match nef, other with
    | [], [] => Ok (CBool isand)
    | [x], [] => Ok (wrap x)
    | [], [x] => Ok x
    | [], _ => make_log (negb isand) other
    | _, _ => o <- make_or nef ;; let other' := other ++ [wrap o] in match other' with [x] => Ok x | _ => make_log (negb isand) other' end
    end = Ok r -> nfrag r = true.
  Proof.
    intros wrap isand nef other r Hw Hn Ho H.
    assert (G : (o <- make_or nef ;; let other' := other ++ [wrap o] in match other' with [x] => Ok x | _ => make_log (negb isand) other' end) = Ok r -> nfrag r = true).
    { intros K. destruct (make_or nef) as [o| | |] eqn:E; try discriminate K. cbn [bind] in K. assert (Fo := mk_nfrag true Hn E).
      assert (F : fall (other ++ [wrap o])) by (apply Forall_app; split; [exact Ho|constructor; [rewrite Hw; exact Fo|constructor]]).
      cbv zeta in K. destruct (other ++ [wrap o]) as [|a [|b l]]; [apply (mk_nfrag _ F K)|injection K as <-; inversion F; auto|apply (mk_nfrag _ F K)]. }
    destruct nef as [|x nef].
    - destruct other as [|y other]; [injection H as <-; reflexivity|]. destruct other as [|z other]; [injection H as <-; inversion Ho; auto|]. apply (mk_nfrag _ Ho H).
    - destruct nef as [|x2 nef]; [destruct other as [|y other]; [injection H as <-; inversion Hn; rewrite Hw; auto|apply G; exact H]|apply G; exact H].
  Qed.
  Lemma push_and_nfrag : forall visit l r, (forall c n, In c l -> visit c = Ok n -> nfrag n = true) -> push_and visit l = Ok r -> nfrag r = true.
  Proof.
    intros visit l r Hv H. unfold push_and in H. destruct (split_ops visit false as_nef l [] []) as [s| | |] eqn:E; try discriminate H. cbn [bind] in H.
    apply split_nfrag in E; [|exact Hv| |constructor|constructor].
    2:{ intros n x Hx Hf. destruct n; try discriminate Hx. destruct n; try discriminate Hx. injection Hx as <-. exact Hf. }
    destruct s as [c|nef other]; [injection H as <-; exact E|]. destruct E as (E1 & E2). apply (@finish_nfrag (fun x => CNot (CEF x)) true nef other r (fun _ => eq_refl) E1 E2). exact H.
  Qed.
  Lemma push_or_nfrag : forall visit l r, (forall c n, In c l -> visit c = Ok n -> nfrag n = true) -> push_or visit l = Ok r -> nfrag r = true.
  Proof.
    intros visit l r Hv H. unfold push_or in H. destruct (split_ops visit true as_ef l [] []) as [s| | |] eqn:E; try discriminate H. cbn [bind] in H.
    apply split_nfrag in E; [|exact Hv| |constructor|constructor].
    2:{ intros n x Hx Hf. destruct n; try discriminate Hx. injection Hx as <-. exact Hf. }
    destruct s as [c|nef other]; [injection H as <-; exact E|]. destruct E as (E1 & E2). apply (@finish_nfrag CEF false nef other r (fun _ => eq_refl) E1 E2). exact H.
  Qed.

  Lemma bindR : forall A B (x : res A) (f : A -> res B) r, bind x f = Ok r -> exists a, x = Ok a /\ f a = Ok r.
  Proof. intros A B [a| | |] f r H; try discriminate H. exists a. auto. Qed.
  Lemma fall_map_EF : forall l, forallb nfrag l = true -> fall (map CEF l).
  Proof. intros l H. rewrite forallb_forall in H. apply Forall_forall. intros x Hx. apply in_map_iff in Hx. destruct Hx as (y & <- & Hy). apply (H y Hy). Qed.
  Lemma forallb_filter : forall (P : cond -> bool) f l, forallb P l = true -> Forall (fun c => P c = true) (filter f l).
  Proof. intros P f l H. rewrite forallb_forall in H. apply Forall_forall. intros x Hx. apply filter_In in Hx. apply H, Hx. Qed.

  Theorem push_nfrag : forall fuel nested negated c r, ctl c = true -> push fuel nested negated c = Ok r -> nfrag r = true.
  Proof.
    induction fuel as [|f IH]; intros nested negated c r Hc H; [discriminate H|].
    assert (RW : forall x, bind x (fun y => Ok (init_rw deadb m0 initrw nested y)) = Ok r -> (forall y, x = Ok y -> nfrag y = true) -> nfrag r = true).
    { intros x K Hy. apply bindR in K. destruct K as (y & K1 & K2). injection K2 as <-. apply init_nfrag, Hy, K1. }
    assert (IHf : forall n b a y, nfrag a = true -> push f n b a = Ok y -> nfrag y = true) by (intros n b a y Ha; apply IH; apply nfrag_ctl; exact Ha).
    cbn [PqlModel.push] in H. destruct c as [b| |c|l|l|o a b|neg cs|c|c|c|c|c|c|a b|a b|c|c|c|c|c|a b]; cbn [ctl] in Hc; try discriminate Hc.
    - apply (RW _ H). intros y K. injection K as <-. reflexivity.
    - apply (RW _ H). intros y K. injection K as <-. rewrite notif_nfrag; reflexivity.
    - apply (RW _ H). intros y K. apply (IH _ _ _ _ Hc K).
    - rewrite forallb_forall in Hc. apply (RW _ H). intros y K. destruct negated; [apply push_or_nfrag in K|apply push_and_nfrag in K]; auto; intros x n Hx; apply IH; auto.
    - rewrite forallb_forall in Hc. apply (RW _ H). intros y K. destruct negated; [apply push_and_nfrag in K|apply push_or_nfrag in K]; auto; intros x n Hx; apply IH; auto.
    - assert (Cm : forall y : cond, match y with CBool _ | CCmp _ _ _ => True | _ => False end -> nfrag y = true) by (intros y; destruct y; try contradiction; reflexivity).
      destruct o; apply (RW _ H); intros y K.
      + injection K as <-. unfold push_equal. destruct (cancel a b) as [a' b']. apply Cm.
        repeat match goal with |- context [if ?x then _ else _] => destruct x end; exact I.
      + injection K as <-. unfold push_equal. destruct (cancel a b) as [a' b']. apply Cm.
        repeat match goal with |- context [if ?x then _ else _] => destruct x end; exact I.
      + destruct (cancel a b) as [a' b']. injection K as <-. apply Cm. repeat match goal with |- context [if ?x then _ else _] => destruct x end; exact I.
      + destruct (cancel a b) as [a' b']. injection K as <-. apply Cm. repeat match goal with |- context [if ?x then _ else _] => destruct x end; exact I.
    - apply (RW _ H). intros y K. injection K as <-. reflexivity.
    - apply (RW _ H). intros y K. apply bindR in K. destruct K as (a & A & K). assert (Fa := IH _ _ _ _ Hc A). destruct negated; [apply (IHf _ _ (CAX a) _ Fa K)|].
      destruct a; try (injection K as <-; exact Fa). destruct b; injection K as <-; reflexivity.
    - apply (RW _ H). intros y K. apply bindR in K. destruct K as (a & A & K). assert (Fa := IH _ _ _ _ Hc A). destruct negated; [apply (IHf _ _ (CEX a) _ Fa K)|].
      destruct a; try (injection K as <-; exact Fa). destruct b; injection K as <-; reflexivity.
    - apply (RW _ H). intros y K. apply bindR in K. destruct K as (a & A & K). assert (Fa := IH _ _ _ _ Hc A).
      destruct (is_ndead a); [apply (IHf _ _ a _ Fa K)|]. destruct (negb (temporal a)); [injection K as <-; rewrite notif_nfrag by reflexivity; exact Fa|].
      destruct a; try (injection K as <-; rewrite notif_nfrag by reflexivity; exact Fa).
      + apply bindR in K. destruct K as (o & O & K). apply (IHf _ _ o _ (mk_nfrag true (fall_map_EF _ Fa) O) K).
      + apply (IHf _ _ (CEF a) _ Fa K).
      + cbn [nfrag] in Fa. apply andb_prop in Fa. apply (IHf _ _ (CEF a2) _ (proj2 Fa) K).
      + cbn [nfrag] in Fa. apply andb_prop in Fa. apply (IHf _ _ (CEF a2) _ (proj2 Fa) K).
    - apply (RW _ H). intros y K. apply bindR in K. destruct K as (a & A & K). assert (Fa := IH _ _ _ _ Hc A).
      destruct (is_ndead a); [apply (IHf _ _ a _ Fa K)|].
      destruct a; try (injection K as <-; rewrite notif_nfrag by reflexivity; exact Fa).
      + destruct (filter is_ef l) as [|p pef] eqn:Ep; [injection K as <-; rewrite notif_nfrag by reflexivity; exact Fa|]. rewrite <- Ep in K.
        apply bindR in K. destruct K as (n & Nn & K). apply bindR in K. destruct K as (o & O & K). cbn [nfrag] in Fa.
        assert (Fn := mk_nfrag true (forallb_filter nfrag (fun x => negb (is_ef x)) l Fa) Nn).
        apply (IHf _ _ o _) in K; [exact K|]. apply (mk_nfrag true) in O; [exact O|]. apply Forall_app. split; [apply forallb_filter; exact Fa|constructor; [exact Fn|constructor]].
      + cbn [nfrag] in Fa. apply andb_prop in Fa. apply (IHf _ _ (CAF a2) _ (proj2 Fa) K).
    - apply IH in H; [exact H|exact Hc].
    - apply IH in H; [exact H|exact Hc].
    - apply andb_prop in Hc. destruct Hc as (Ca & Cb).
      apply (RW _ H). intros y K. apply bindR in K. destruct K as (b' & Bb & K). apply bindR in K. destruct K as (a' & Aa & K).
      assert (Fa := IH _ _ _ _ Ca Aa). assert (Fb := IH _ _ _ _ Cb Bb).
      assert (Fn : forall y, Ok (notif negated (CEU a' b')) = Ok y -> nfrag y = true) by (intros z Z; injection Z as <-; rewrite notif_nfrag by reflexivity; cbn; rewrite Fa, Fb; reflexivity).
      destruct (is_ndead b'); [apply (IHf _ _ b' _ Fb K)|].
      assert (Hrest : forall y, match b' with
            | CEF _ => Ok (notif negated b')
            | COr l =>
              match filter is_ef l with
              | [] => Ok (notif negated (CEU a' b'))
              | _ =>
                o <- match filter (fun x => negb (is_ef x)) l with
                     | [] => make_or (filter is_ef l)
                     | _ => n <- make_or (filter (fun x => negb (is_ef x)) l) ;; make_or (filter is_ef l ++ [CEU a n])
                     end ;;
                push f nested negated o
              end
            | _ => Ok (notif negated (CEU a' b'))
            end = Ok y -> nfrag y = true).
      { clear K. intros z K. destruct b'; try (apply Fn; exact K).
        - destruct (filter is_ef l) as [|p pef] eqn:Ep; [apply Fn; exact K|]. rewrite <- Ep in K. apply bindR in K. destruct K as (o & O & K). cbn [nfrag] in Fb.
          apply IH in K; [exact K|]. destruct (filter (fun x => negb (is_ef x)) l) as [|q npef] eqn:Eq.
          + apply nfrag_ctl. apply (mk_nfrag true (forallb_filter nfrag is_ef l Fb) O).
          + rewrite <- Eq in O. apply bindR in O. destruct O as (n & Nn & O). assert (Fn' := mk_nfrag true (forallb_filter nfrag _ l Fb) Nn).
            apply (mk_ctl true) in O; [exact O|]. apply Forall_app. split.
            * assert (X := forallb_filter nfrag is_ef l Fb). eapply Forall_impl; [|exact X]. intros x. apply nfrag_ctl.
            * constructor; [|constructor]. cbn [ctl]. rewrite Ca, (nfrag_ctl _ Fn'). reflexivity.
        - injection K as <-. rewrite notif_nfrag by reflexivity. exact Fb. }
      destruct (is_not b'); [destruct b'; apply Hrest; exact K|].
      destruct (is_dead a'); [apply (IHf _ _ b' _ Fb K)|]. destruct (is_ndead a'); [apply (IHf _ _ (CEF b') _ Fb K)|]. destruct b'; apply Hrest; exact K.
    - apply andb_prop in Hc. destruct Hc as (Ca & Cb).
      apply (RW _ H). intros y K. apply bindR in K. destruct K as (b' & Bb & K). apply bindR in K. destruct K as (a' & Aa & K).
      assert (Fa := IH _ _ _ _ Ca Aa). assert (Fb := IH _ _ _ _ Cb Bb).
      assert (Fn : forall y, Ok (notif negated (CAU a' b')) = Ok y -> nfrag y = true) by (intros z Z; injection Z as <-; rewrite notif_nfrag by reflexivity; cbn; rewrite Fa, Fb; reflexivity).
      destruct (is_ndead b'); [apply (IHf _ _ b' _ Fb K)|].
      assert (Hrest : forall y, match b' with
            | CAF _ => push f nested negated b'
            | CEF _ => Ok (notif negated b')
            | COr l =>
              match filter is_ef l with
              | [] => Ok (notif negated (CAU a' b'))
              | _ =>
                o <- match filter (fun x => negb (is_ef x)) l with
                     | [] => make_or (filter is_ef l)
                     | _ => n <- make_or (filter (fun x => negb (is_ef x)) l) ;; make_or (filter is_ef l ++ [CAU a n])
                     end ;;
                push f nested negated o
              end
            | _ => Ok (notif negated (CAU a' b'))
            end = Ok y -> nfrag y = true).
      { clear K. intros z K. destruct b'; try (apply Fn; exact K).
        - destruct (filter is_ef l) as [|p pef] eqn:Ep; [apply Fn; exact K|]. rewrite <- Ep in K. apply bindR in K. destruct K as (o & O & K). cbn [nfrag] in Fb.
          apply IH in K; [exact K|]. destruct (filter (fun x => negb (is_ef x)) l) as [|q npef] eqn:Eq.
          + apply nfrag_ctl. apply (mk_nfrag true (forallb_filter nfrag is_ef l Fb) O).
          + rewrite <- Eq in O. apply bindR in O. destruct O as (n & Nn & O). assert (Fn' := mk_nfrag true (forallb_filter nfrag _ l Fb) Nn).
            apply (mk_ctl true) in O; [exact O|]. apply Forall_app. split.
            * assert (X := forallb_filter nfrag is_ef l Fb). eapply Forall_impl; [|exact X]. intros x. apply nfrag_ctl.
            * constructor; [|constructor]. cbn [ctl]. rewrite Ca, (nfrag_ctl _ Fn'). reflexivity.
        - injection K as <-. rewrite notif_nfrag by reflexivity. exact Fb.
        - apply (IHf _ _ (CAF b') _ Fb K). }
      destruct (is_not b'); [destruct b'; apply Hrest; exact K|].
      destruct (is_dead a'); [apply (IHf _ _ b' _ Fb K)|]. destruct (is_ndead a'); [apply (IHf _ _ (CAF b') _ Fb K)|]. destruct b'; apply Hrest; exact K.
  Qed.
End Push.
