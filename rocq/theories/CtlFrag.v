(** The formulas that negation rewriting produces from CTL formulas. *)
From Verif Require Import Base BaseLemmas PqlSyntax PqlSpec PqlModel CtlProofs.
From Coq Require Import Permutation.
Set Implicit Arguments.

(** formulas of CTL *)
Fixpoint ctl (c : cond) : bool :=
  match c with
  | CBool _ | CDead | CCmp _ _ _ | CConj _ _ => true
  | CNot c | CEX c | CAX c | CEF c | CAF c | CEG c | CAG c => ctl c
  | CAnd l | COr l => forallb ctl l
  | CEU a b | CAU a b => ctl a && ctl b
  | _ => false
  end.
Lemma frag_ctl : forall c, frag c = true -> ctl c = true.
Proof.
  induction c using cond_ind'; cbn [frag ctl]; intros Hf; auto; try discriminate.
  - rewrite Forall_forall in H. rewrite forallb_forall in *. auto.
  - rewrite Forall_forall in H. rewrite forallb_forall in *. auto.
  - apply andb_prop in Hf. destruct Hf. rewrite IHc1, IHc2; auto.
  - apply andb_prop in Hf. destruct Hf. rewrite IHc1, IHc2; auto.
Qed.

Section Closed.
  Variable P : cond -> bool.
  Hypothesis Pand : forall l, P (CAnd l) = forallb P l.
  Hypothesis Por : forall l, P (COr l) = forallb P l.
  Hypothesis Pconj : forall n cs, P (CConj n cs) = true.
  Hypothesis Pbool : forall b, P (CBool b) = true.
  Notation all := (Forall (fun c => P c = true)).
  Lemma merge_into_P : forall isor conds n cs r, all conds -> merge_into isor conds n cs = Ok r -> all r.
  Proof.
    intros isor conds n cs r Hc H. unfold merge_into in H. destruct (if isor then n || singular cs else negb n || singular cs).
    - destruct conds as [|x conds]; [injection H as <-; constructor; auto|].
      assert (Hx : all (CConj n cs :: x :: conds)) by (constructor; auto).
      destruct x; try (injection H as <-; exact Hx). inversion Hc as [|? ? Hx1 Hx2]; subst.
      destruct (Bool.eqb neg isor).
      + destruct (merge_conj _ _ _); try discriminate H. injection H as <-. constructor; auto.
      + destruct (Bool.eqb n isor); [injection H as <-; exact Hx|]. destruct (merge_conj _ _ _); try discriminate H. injection H as <-. constructor; auto.
    - injection H as <-. apply Forall_app. auto.
  Qed.
  Lemma merge_leaf_P : forall isor aggr c conds r, all conds -> P c = true -> merge_leaf isor aggr c conds = Ok r -> all r.
  Proof.
    intros isor aggr c conds r Hc Hp H. unfold merge_leaf in H.
    assert (Hs : all (conds ++ [c])) by (apply Forall_app; auto).
    destruct aggr; [|injection H as <-; exact Hs]. destruct c; try (injection H as <-; exact Hs).
    - destruct (match o with OpNe => _ | OpEq => _ | _ => _ end); [injection H as <-; exact Hs|]. destruct (place_const a b); [|injection H as <-; exact Hs].
      apply merge_into_P in H; assumption.
    - apply merge_into_P in H; assumption.
  Qed.
  Lemma try_merge_P : forall isor aggr c conds r, all conds -> P c = true -> try_merge isor aggr c conds = Ok r -> all r.
  Proof.
    intros isor aggr. assert (L : forall l, Forall (fun c => forall conds r, all conds -> P c = true -> try_merge isor aggr c conds = Ok r -> all r) l ->
      all l -> forall conds r, all conds -> (fix all (l : list cond) (acc : list cond) : res (list cond) :=
        match l with [] => Ok acc | x :: l' => acc' <- try_merge isor aggr x acc ;; all l' acc' end) l conds = Ok r -> all r).
    { induction l as [|x l IH]; intros HI Hl conds r Hc H; [injection H as <-; exact Hc|].
      inversion HI as [|? ? I1 I2]; subst. inversion Hl as [|? ? L1 L2]; subst.
      destruct (try_merge isor aggr x conds) as [acc| | |] eqn:E; try discriminate H. cbn [bind] in H. apply (IH I2 L2 acc r (I1 _ _ Hc L1 E) H). }
    induction c using cond_ind'; intros conds r Hc Hp; cbn [try_merge]; intros K; try (eapply merge_leaf_P; eassumption).
    - destruct isor; [eapply merge_leaf_P; eassumption|]. rewrite Pand, forallb_forall in Hp. eapply (L l H); [rewrite Forall_forall; exact Hp|exact Hc|exact K].
    - destruct isor; [|eapply merge_leaf_P; eassumption]. rewrite Por, forallb_forall in Hp. eapply (L l H); [rewrite Forall_forall; exact Hp|exact Hc|exact K].
  Qed.
  Lemma try_merge_all_P : forall isor aggr l conds r, all conds -> all l -> try_merge_all isor aggr l conds = Ok r -> all r.
  Proof.
    intros isor aggr. induction l as [|x l IH]; intros conds r Hc Hl H; cbn [try_merge_all] in H; [injection H as <-; exact Hc|].
    inversion Hl as [|? ? L1 L2]; subst. destruct (try_merge isor aggr x conds) as [acc| | |] eqn:E; try discriminate H. cbn [bind] in H.
    apply (IH acc r); [apply try_merge_P in E; assumption|exact L2|exact H].
  Qed.
  Lemma make_log_P : forall isor l r, all l -> make_log isor l = Ok r -> P r = true.
  Proof.
    intros isor l r Hl H. unfold make_log in H. destruct l as [|x l]; [injection H as <-; apply Pbool|].
    destruct l as [|y l]; [injection H as <-; inversion Hl; auto|].
    destruct (try_merge_all isor true (x :: y :: l) []) as [c1| | |] eqn:E1; try discriminate H. cbn [bind] in H.
    destruct (try_merge_all isor false c1 []) as [c2| | |] eqn:E2; try discriminate H. cbn [bind] in H.
    assert (H1 : all c1) by (apply try_merge_all_P in E1; [exact E1|constructor|exact Hl]). assert (H2 : all c2) by (apply try_merge_all_P in E2; [exact E2|constructor|exact H1]).
    assert (H3 : forall c, In c (post_merge c2) -> P c = true).
    { intros c Hc. rewrite Forall_forall in H2. apply H2. unfold post_merge in Hc. apply in_app_iff in Hc. destruct Hc as [Hc|Hc]; apply filter_In in Hc; apply Hc. }
    destruct (post_merge c2) as [|a [|b l2]]; [injection H as <-; apply Pbool|injection H as <-; apply H3; left; reflexivity|].
    assert (H4 : forallb P (a :: b :: l2) = true) by (apply forallb_forall; exact H3).
    injection H as <-. destruct isor; [rewrite Por|rewrite Pand]; exact H4.
  Qed.
End Closed.

Section Push.
  Variable deadb : list N -> bool.
  Variable m0 : list N.
  Variable initrw : bool.
  Notation push := (push deadb m0 initrw).
  Notation fall := (Forall (fun c => frag c = true)).
  Definition mk_frag := @make_log_P frag (fun _ => eq_refl) (fun _ => eq_refl) (fun _ _ => eq_refl) (fun _ => eq_refl).
  Definition mk_ctl := @make_log_P ctl (fun _ => eq_refl) (fun _ => eq_refl) (fun _ _ => eq_refl) (fun _ => eq_refl).
  Lemma notif_frag : forall b c, frag (notif b c) = frag c. Proof. intros [|] c; reflexivity. Qed.
  Lemma init_frag : forall nested c, frag c = true -> frag (init_rw deadb m0 initrw nested c) = true.
  Proof. intros nested c H. unfold init_rw. destruct (negb nested && initrw); [|exact H]. destruct (evaluate deadb m0 c); auto. Qed.
  Lemma split_frag : forall (visit : cond -> res cond) stop ef l nef other s,
    (forall c n, In c l -> visit c = Ok n -> frag n = true) -> (forall n x, ef n = Some x -> frag n = true -> frag x = true) ->
    fall nef -> fall other -> split_ops visit stop ef l nef other = Ok s ->
    match s with Stop c => frag c = true | Parts nef other => fall nef /\ fall other end.
  Proof.
    intros visit stop ef. induction l as [|c l IH]; intros nef other s Hv He Hn Ho H; cbn [split_ops] in H; [injection H as <-; auto|].
    destruct (visit c) as [n| | |] eqn:E; try discriminate H. cbn [bind] in H. assert (Hf := Hv c n (or_introl eq_refl) E).
    assert (Hv' : forall c n, In c l -> visit c = Ok n -> frag n = true) by (intros x y Hx; apply Hv; right; exact Hx).
    assert (G : match ef n with Some x => split_ops visit stop ef l (nef ++ [x]) other | None => split_ops visit stop ef l nef (other ++ [n]) end = Ok s ->
      match s with Stop c => frag c = true | Parts nef other => fall nef /\ fall other end).
    { intros K. destruct (ef n) as [x|] eqn:En.
      - apply (IH (nef ++ [x]) other s Hv' He); [apply Forall_app; split; [exact Hn|constructor; [apply (He n x En Hf)|constructor]]|exact Ho|exact K].
      - apply (IH nef (other ++ [n]) s Hv' He); [exact Hn|apply Forall_app; auto|exact K]. }
    destruct n; try (apply G; exact H). destruct (Bool.eqb b stop); [injection H as <-; reflexivity|]. apply (IH nef other s Hv' He Hn Ho H).
  Qed.
  Lemma finish_frag : forall (wrap : cond -> cond) isand nef other r,
    (forall c, frag (wrap c) = frag c) -> fall nef -> fall other ->
    match nef, other with
    | [], [] => Ok (CBool isand)
    | [x], [] => Ok (wrap x)
    | [], [x] => Ok x
    | [], _ => make_log (negb isand) other
    | _, _ => o <- make_or nef ;; let other' := other ++ [wrap o] in match other' with [x] => Ok x | _ => make_log (negb isand) other' end
    end = Ok r -> frag r = true.
  Proof.
    intros wrap isand nef other r Hw Hn Ho H.
    assert (G : (o <- make_or nef ;; let other' := other ++ [wrap o] in match other' with [x] => Ok x | _ => make_log (negb isand) other' end) = Ok r -> frag r = true).
    { intros K. destruct (make_or nef) as [o| | |] eqn:E; try discriminate K. cbn [bind] in K. assert (Fo := mk_frag true Hn E).
      assert (F : fall (other ++ [wrap o])) by (apply Forall_app; split; [exact Ho|constructor; [rewrite Hw; exact Fo|constructor]]).
      cbv zeta in K. destruct (other ++ [wrap o]) as [|a [|b l]]; [apply (mk_frag _ F K)|injection K as <-; inversion F; auto|apply (mk_frag _ F K)]. }
    destruct nef as [|x nef].
    - destruct other as [|y other]; [injection H as <-; reflexivity|]. destruct other as [|z other]; [injection H as <-; inversion Ho; auto|]. apply (mk_frag _ Ho H).
    - destruct nef as [|x2 nef]; [destruct other as [|y other]; [injection H as <-; inversion Hn; rewrite Hw; auto|apply G; exact H]|apply G; exact H].
  Qed.
  Lemma push_and_frag : forall visit l r, (forall c n, In c l -> visit c = Ok n -> frag n = true) -> push_and visit l = Ok r -> frag r = true.
  Proof.
    intros visit l r Hv H. unfold push_and in H. destruct (split_ops visit false as_nef l [] []) as [s| | |] eqn:E; try discriminate H. cbn [bind] in H.
    apply split_frag in E; [|exact Hv| |constructor|constructor].
    2:{ intros n x Hx Hf. destruct n; try discriminate Hx. destruct n; try discriminate Hx. injection Hx as <-. exact Hf. }
    destruct s as [c|nef other]; [injection H as <-; exact E|]. destruct E as (E1 & E2). apply (@finish_frag (fun x => CNot (CEF x)) true nef other r (fun _ => eq_refl) E1 E2). exact H.
  Qed.
  Lemma push_or_frag : forall visit l r, (forall c n, In c l -> visit c = Ok n -> frag n = true) -> push_or visit l = Ok r -> frag r = true.
  Proof.
    intros visit l r Hv H. unfold push_or in H. destruct (split_ops visit true as_ef l [] []) as [s| | |] eqn:E; try discriminate H. cbn [bind] in H.
    apply split_frag in E; [|exact Hv| |constructor|constructor].
    2:{ intros n x Hx Hf. destruct n; try discriminate Hx. injection Hx as <-. exact Hf. }
    destruct s as [c|nef other]; [injection H as <-; exact E|]. destruct E as (E1 & E2). apply (@finish_frag CEF false nef other r (fun _ => eq_refl) E1 E2). exact H.
  Qed.

  Lemma bindR : forall A B (x : res A) (f : A -> res B) r, bind x f = Ok r -> exists a, x = Ok a /\ f a = Ok r.
  Proof. intros A B [a| | |] f r H; try discriminate H. exists a. auto. Qed.
  Lemma fall_map_EF : forall l, forallb frag l = true -> fall (map CEF l).
  Proof. intros l H. rewrite forallb_forall in H. apply Forall_forall. intros x Hx. apply in_map_iff in Hx. destruct Hx as (y & <- & Hy). apply (H y Hy). Qed.
  Lemma forallb_filter : forall (P : cond -> bool) f l, forallb P l = true -> Forall (fun c => P c = true) (filter f l).
  Proof. intros P f l H. rewrite forallb_forall in H. apply Forall_forall. intros x Hx. apply filter_In in Hx. apply H, Hx. Qed.

  Theorem push_frag : forall fuel nested negated c r, ctl c = true -> push fuel nested negated c = Ok r -> frag r = true.
  Proof.
    induction fuel as [|f IH]; intros nested negated c r Hc H; [discriminate H|].
    assert (RW : forall x, bind x (fun y => Ok (init_rw deadb m0 initrw nested y)) = Ok r -> (forall y, x = Ok y -> frag y = true) -> frag r = true).
    { intros x K Hy. apply bindR in K. destruct K as (y & K1 & K2). injection K2 as <-. apply init_frag, Hy, K1. }
    assert (IHf : forall n b a y, frag a = true -> push f n b a = Ok y -> frag y = true) by (intros n b a y Ha; apply IH; apply frag_ctl; exact Ha).
    cbn [PqlModel.push] in H. destruct c as [b| |c|l|l|o a b|neg cs|c|c|c|c|c|c|a b|a b|c|c|c|c|c|a b]; cbn [ctl] in Hc; try discriminate Hc.
    - apply (RW _ H). intros y K. injection K as <-. reflexivity.
    - apply (RW _ H). intros y K. injection K as <-. apply notif_frag.
    - apply (RW _ H). intros y K. apply (IH _ _ _ _ Hc K).
    - rewrite forallb_forall in Hc. apply (RW _ H). intros y K. destruct negated; [apply push_or_frag in K|apply push_and_frag in K]; auto; intros x n Hx; apply IH; auto.
    - rewrite forallb_forall in Hc. apply (RW _ H). intros y K. destruct negated; [apply push_and_frag in K|apply push_or_frag in K]; auto; intros x n Hx; apply IH; auto.
    - assert (Cm : forall y : cond, match y with CBool _ | CCmp _ _ _ => True | _ => False end -> frag y = true) by (intros y; destruct y; try contradiction; reflexivity).
      destruct o; apply (RW _ H); intros y K.
      + injection K as <-. unfold push_equal. destruct (cancel a b) as [a' b']. apply Cm.
        repeat match goal with |- context [if ?x then _ else _] => destruct x end; exact I.
      + injection K as <-. unfold push_equal. destruct (cancel a b) as [a' b']. apply Cm.
        repeat match goal with |- context [if ?x then _ else _] => destruct x end; exact I.
      + destruct (cancel a b) as [a' b']. injection K as <-. apply Cm. repeat match goal with |- context [if ?x then _ else _] => destruct x end; exact I.
      + destruct (cancel a b) as [a' b']. injection K as <-. apply Cm. repeat match goal with |- context [if ?x then _ else _] => destruct x end; exact I.
    - apply (RW _ H). intros y K. injection K as <-. reflexivity.
    - apply (RW _ H). intros y K. apply bindR in K. destruct K as (a & A & K). assert (Fa := IH _ _ _ _ Hc A). destruct negated; [apply (IHf _ _ (CAX a) _ Fa K)|].
      destruct a; try (injection K as <-; exact Fa). destruct b; injection K as <-; reflexivity.
    - apply (RW _ H). intros y K. apply bindR in K. destruct K as (a & A & K). assert (Fa := IH _ _ _ _ Hc A). destruct negated; [apply (IHf _ _ (CEX a) _ Fa K)|].
      destruct a; try (injection K as <-; exact Fa). destruct b; injection K as <-; reflexivity.
    - apply (RW _ H). intros y K. apply bindR in K. destruct K as (a & A & K). assert (Fa := IH _ _ _ _ Hc A).
      destruct (is_ndead a); [apply (IHf _ _ a _ Fa K)|]. destruct (negb (temporal a)); [injection K as <-; rewrite notif_frag; exact Fa|].
      destruct a; try (injection K as <-; rewrite notif_frag; exact Fa).
      + apply bindR in K. destruct K as (o & O & K). apply (IHf _ _ o _ (mk_frag true (fall_map_EF _ Fa) O) K).
      + apply (IHf _ _ (CEF a) _ Fa K).
      + cbn [frag] in Fa. apply andb_prop in Fa. apply (IHf _ _ (CEF a2) _ (proj2 Fa) K).
      + cbn [frag] in Fa. apply andb_prop in Fa. apply (IHf _ _ (CEF a2) _ (proj2 Fa) K).
    - apply (RW _ H). intros y K. apply bindR in K. destruct K as (a & A & K). assert (Fa := IH _ _ _ _ Hc A).
      destruct (is_ndead a); [apply (IHf _ _ a _ Fa K)|].
      destruct a; try (injection K as <-; rewrite notif_frag; exact Fa).
      + destruct (filter is_ef l) as [|p pef] eqn:Ep; [injection K as <-; rewrite notif_frag; exact Fa|]. rewrite <- Ep in K.
        apply bindR in K. destruct K as (n & Nn & K). apply bindR in K. destruct K as (o & O & K). cbn [frag] in Fa.
        assert (Fn := mk_frag true (forallb_filter frag (fun x => negb (is_ef x)) l Fa) Nn).
        apply (IHf _ _ o _) in K; [exact K|]. apply (mk_frag true) in O; [exact O|]. apply Forall_app. split; [apply forallb_filter; exact Fa|constructor; [exact Fn|constructor]].
      + cbn [frag] in Fa. apply andb_prop in Fa. apply (IHf _ _ (CAF a2) _ (proj2 Fa) K).
    - apply IH in H; [exact H|exact Hc].
    - apply IH in H; [exact H|exact Hc].
    - apply andb_prop in Hc. destruct Hc as (Ca & Cb).
      apply (RW _ H). intros y K. apply bindR in K. destruct K as (b' & Bb & K). apply bindR in K. destruct K as (a' & Aa & K).
      assert (Fa := IH _ _ _ _ Ca Aa). assert (Fb := IH _ _ _ _ Cb Bb).
      assert (Fn : forall y, Ok (notif negated (CEU a' b')) = Ok y -> frag y = true) by (intros z Z; injection Z as <-; rewrite notif_frag; cbn; rewrite Fa, Fb; reflexivity).
      destruct (is_ndead b'); [apply (IHf _ _ b' _ Fb K)|].
      assert (Hrest : forall y, match b' with
            | CEF _ => Ok (notif negated b')
            | COr l =>
              match filter is_ef l with
              | [] => Ok (notif negated (CEU a' b'))
              | _ =>
                o <- match filter (fun x => negb (is_ef x)) l with
                     | [] => make_or (filter is_ef l)
                     | _ => n <- make_or (filter (fun x => negb (is_ef x)) l) ;; make_or (filter is_ef l ++ [CEU a n])
                     end ;;
                push f nested negated o
              end
            | _ => Ok (notif negated (CEU a' b'))
            end = Ok y -> frag y = true).
      { clear K. intros z K. destruct b'; try (apply Fn; exact K).
        - destruct (filter is_ef l) as [|p pef] eqn:Ep; [apply Fn; exact K|]. rewrite <- Ep in K. apply bindR in K. destruct K as (o & O & K). cbn [frag] in Fb.
          apply IH in K; [exact K|]. destruct (filter (fun x => negb (is_ef x)) l) as [|q npef] eqn:Eq.
          + apply frag_ctl. apply (mk_frag true (forallb_filter frag is_ef l Fb) O).
          + rewrite <- Eq in O. apply bindR in O. destruct O as (n & Nn & O). assert (Fn' := mk_frag true (forallb_filter frag _ l Fb) Nn).
            apply (mk_ctl true) in O; [exact O|]. apply Forall_app. split.
            * assert (X := forallb_filter frag is_ef l Fb). eapply Forall_impl; [|exact X]. intros x. apply frag_ctl.
            * constructor; [|constructor]. cbn [ctl]. rewrite Ca, (frag_ctl _ Fn'). reflexivity.
        - injection K as <-. rewrite notif_frag. exact Fb. }
      destruct (is_not b'); [destruct b'; apply Hrest; exact K|].
      destruct (is_dead a'); [apply (IHf _ _ b' _ Fb K)|]. destruct (is_ndead a'); [apply (IHf _ _ (CEF b') _ Fb K)|]. destruct b'; apply Hrest; exact K.
    - apply andb_prop in Hc. destruct Hc as (Ca & Cb).
      apply (RW _ H). intros y K. apply bindR in K. destruct K as (b' & Bb & K). apply bindR in K. destruct K as (a' & Aa & K).
      assert (Fa := IH _ _ _ _ Ca Aa). assert (Fb := IH _ _ _ _ Cb Bb).
      assert (Fn : forall y, Ok (notif negated (CAU a' b')) = Ok y -> frag y = true) by (intros z Z; injection Z as <-; rewrite notif_frag; cbn; rewrite Fa, Fb; reflexivity).
      destruct (is_ndead b'); [apply (IHf _ _ b' _ Fb K)|].
      assert (Hrest : forall y, match b' with
            | CAF _ => push f nested negated b'
            | CEF _ => Ok (notif negated b')
            | COr l =>
              match filter is_ef l with
              | [] => Ok (notif negated (CAU a' b'))
              | _ =>
                o <- match filter (fun x => negb (is_ef x)) l with
                     | [] => make_or (filter is_ef l)
                     | _ => n <- make_or (filter (fun x => negb (is_ef x)) l) ;; make_or (filter is_ef l ++ [CAU a n])
                     end ;;
                push f nested negated o
              end
            | _ => Ok (notif negated (CAU a' b'))
            end = Ok y -> frag y = true).
      { clear K. intros z K. destruct b'; try (apply Fn; exact K).
        - destruct (filter is_ef l) as [|p pef] eqn:Ep; [apply Fn; exact K|]. rewrite <- Ep in K. apply bindR in K. destruct K as (o & O & K). cbn [frag] in Fb.
          apply IH in K; [exact K|]. destruct (filter (fun x => negb (is_ef x)) l) as [|q npef] eqn:Eq.
          + apply frag_ctl. apply (mk_frag true (forallb_filter frag is_ef l Fb) O).
          + rewrite <- Eq in O. apply bindR in O. destruct O as (n & Nn & O). assert (Fn' := mk_frag true (forallb_filter frag _ l Fb) Nn).
            apply (mk_ctl true) in O; [exact O|]. apply Forall_app. split.
            * assert (X := forallb_filter frag is_ef l Fb). eapply Forall_impl; [|exact X]. intros x. apply frag_ctl.
            * constructor; [|constructor]. cbn [ctl]. rewrite Ca, (frag_ctl _ Fn'). reflexivity.
        - injection K as <-. rewrite notif_frag. exact Fb.
        - apply (IHf _ _ (CAF b') _ Fb K). }
      destruct (is_not b'); [destruct b'; apply Hrest; exact K|].
      destruct (is_dead a'); [apply (IHf _ _ b' _ Fb K)|]. destruct (is_ndead a'); [apply (IHf _ _ (CAF b') _ Fb K)|]. destruct b'; apply Hrest; exact K.
  Qed.
End Push.
