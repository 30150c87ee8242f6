(** Proofs about linear programs and their collections. *)
From Verif Require Import Base NetModel LpSpec MemberModel LpModel.
Set Implicit Arguments.

Definition eqsem (q : equation) (x : nat -> Z) : Prop := above (eq_lo q) (row_value (eq_row q) x) /\ below (eq_hi q) (row_value (eq_row q) x).
Definition psem (p : prog) (x : nat -> Z) : Prop := Forall (fun q => eqsem q x) (pr_eqs p).
Definition sem (g : list prog) (x : nat -> Z) : Prop := Forall (fun p => psem p x) g.
Fixpoint msem (c : coll) (x : nat -> Z) : Prop :=
  match c with
  | Single _ _ p => psem p x
  | Union _ _ lps _ => fold_right or False (map (fun c => msem c x) lps)
  | Merge _ _ l r _ _ _ _ _ _ => msem l x /\ msem r x
  end.

Section CollInd.
  Variable P : coll -> Prop.
  Hypothesis HS : forall e v p, P (Single e v p).
  Hypothesis HU : forall e v lps c, Forall P lps -> P (Union e v lps c).
  Hypothesis HM : forall e v l r t a b f n k, P l -> P r -> P (Merge e v l r t a b f n k).
  Fixpoint coll_ind' (c : coll) : P c :=
    let fix all (l : list coll) : Forall P l :=
      match l with
      | [] => Forall_nil P
      | x :: l' => Forall_cons x (coll_ind' x) (all l')
      end in
    match c with
    | Single e v p => HS e v p
    | Union e v lps c => HU e v c (all lps)
    | Merge e v l r t a b f n k => HM e v t a b f n k (coll_ind' l) (coll_ind' r)
    end.
End CollInd.

(** * What a collection enumerates *)
Definition combos (Ll Lr : list (list prog)) : list (list prog) := flat_map (fun q => map (fun a => a ++ q) Ll) Lr.
Definition skip (n : nat) (L : list (list prog)) : list (list prog) :=
  if n <? length L then skipn n L else match L with [] => [] | _ => [last L []] end.
Fixpoint enum (c : coll) : list (list prog) :=
  match c with
  | Single _ _ p => [[p]]
  | Union _ _ lps _ => flat_map enum lps
  | Merge _ _ l r _ _ _ _ n _ => skip n (combos (enum l) (enum r))
  end.
Inductive Rest : coll -> list (list prog) -> Prop :=
| R_single : forall e v p, Rest (Single e v p) [[p]]
| R_union : forall e v l1 a l2 L, Rest a L -> Rest (Union e v (l1 ++ a :: l2) (length l1)) (L ++ flat_map enum l2)
| R_right : forall e v l r tmp re nsat curr Lr, Rest r Lr ->
    Rest (Merge e v l r tmp true true re nsat curr) (skip (nsat - curr) (combos (enum l) Lr))
| R_left : forall e v l r tmp (more : bool) re nsat curr g Ll Lr, Rest l Ll ->
    (forall x, psem tmp x <-> sem g x) -> pr_imp tmp = false -> (more = true -> Rest r Lr) -> (more = false -> Lr = []) ->
    Rest (Merge e v l r tmp false more re nsat curr) (skip (nsat - curr) (map (fun a => a ++ g) Ll ++ combos (enum l) Lr)).

(** [UB] stands for a crash (a collection whose members were all erased) *)
Definition post {A} (r : res A) (P : A -> Prop) : Prop :=
  match r with Ok a => P a | UB => True | _ => False end.
Lemma post_bind : forall A B (r : res A) (f : A -> res B) P Q, post r Q -> (forall a, Q a -> post (f a) P) -> post (bind r f) P.
Proof. intros A B [a| | |] f P Q H G; cbn in *; auto. Qed.
Lemma post_impl : forall A (r : res A) (P Q : A -> Prop), post r P -> (forall a, P a -> Q a) -> post r Q.
Proof. intros A [a| | |] P Q H G; cbn in *; auto. Qed.

(** leaves that are not known to be impossible *)
Fixpoint clean (c : coll) : Prop :=
  match c with
  | Single _ _ p => pr_imp p = false
  | Union _ _ lps _ => fold_right and True (map clean lps)
  | Merge _ _ l r _ _ _ _ _ _ => clean l /\ clean r
  end.
(** the parts that merging does not change *)
Inductive alike : coll -> coll -> Prop :=
| A_single : forall e v p, alike (Single e v p) (Single e v p)
| A_union : forall e v l l' c c', Forall2 alike l l' -> alike (Union e v l c) (Union e v l' c')
| A_merge : forall e v l l' r r' t t' a a' b b' f f' n k k', alike l l' -> alike r r' ->
    alike (Merge e v l r t a b f n k) (Merge e v l' r' t' a' b' f' n k').
Lemma alike_refl : forall c, alike c c.
Proof.
  induction c using coll_ind'; try constructor; auto. induction H; constructor; auto.
Qed.
Lemma alike_trans : forall a b c, alike a b -> alike b c -> alike a c.
Proof.
  induction a using coll_ind'; intros y z H1 H2.
  - inversion H1; subst. exact H2.
  - inversion H1 as [|e1 v1 l l' c1 c1' F1|]; subst. inversion H2 as [|e2 v2 m m' c2 c2' F2|]; subst. constructor. clear H1 H2. revert l' m' F1 F2.
    induction H; intros l' l'' A B; inversion A; subst; inversion B; subst; constructor; eauto.
  - inversion H1; subst. inversion H2; subst. constructor; eauto.
Qed.
Lemma alike_facts : forall a b, alike a b ->
  enum a = enum b /\ height a = height b /\ width a = width b /\ (clean a <-> clean b) /\ has_empty a = has_empty b /\ coll_res a = coll_res b /\ (forall x, msem a x <-> msem b x).
Proof.
  induction a using coll_ind'; intros y Hb; inversion Hb; subst; cbn [enum height width clean has_empty coll_res msem].
  - repeat split; auto.
  - assert (G : flat_map enum lps = flat_map enum l' /\ map height lps = map height l' /\ map width lps = map width l' /\
      (fold_right and True (map clean lps) <-> fold_right and True (map clean l')) /\
      (forall x, fold_right or False (map (fun c => msem c x) lps) <-> fold_right or False (map (fun c => msem c x) l'))).
    { match goal with F : Forall2 alike lps l' |- _ => revert F end. clear Hb. revert l'. induction H; intros l' F; inversion F; subst; cbn [flat_map map fold_right]; [repeat split; auto|].
      match goal with F : alike x _ |- _ => destruct (H _ F) as (A1 & A2 & A3 & A4 & _ & _ & A5) end.
      match goal with F : Forall2 alike l _ |- _ => destruct (IHForall _ F) as (B1 & B2 & B3 & B4 & B5) end.
      split; [congruence|]. split; [congruence|]. split; [congruence|]. split; [tauto|]. intros x0. rewrite A5, B5. tauto. }
    destruct G as (G1 & G2 & G3 & G4 & G5). rewrite G1, G2, G3. repeat split; try tauto; apply G5.
  - match goal with F : alike a1 _ |- _ => destruct (IHa1 _ F) as (A1 & A2 & A3 & A4 & _ & _ & A5) end.
    match goal with F : alike a2 _ |- _ => destruct (IHa2 _ F) as (B1 & B2 & B3 & B4 & _ & _ & B5) end.
    rewrite A1, B1, A2, B2, A3, B3. repeat split; try tauto; try (apply A5; tauto); try (apply B5; tauto); intros; rewrite ?A5, ?B5 in *; tauto.
Qed.

Lemma skip0 : forall L, skip 0 L = L.
Proof. intros [|a L]; reflexivity. Qed.
Lemma skip_S : forall n a L, L <> [] -> skip (S n) (a :: L) = skip n L.
Proof.
  intros n a L H. unfold skip. cbn [length skipn]. destruct (Nat.ltb_spec (S n) (S (length L))), (Nat.ltb_spec n (length L)); try lia; auto.
  destruct L; [congruence|reflexivity].
Qed.

Lemma reset_rest : forall c c', reset c = Ok c' -> Rest c' (enum c) /\ alike c c'.
Proof.
  induction c using coll_ind'; intros c' E; cbn [reset] in E.
  - injection E as <-. split; constructor.
  - destruct lps as [|a l]; [discriminate|]. inversion H; subst. destruct (reset a) as [a'| | |] eqn:Ea; try discriminate. cbn [bind] in E.
    injection E as <-. destruct (H2 a' eq_refl) as (R & A). split.
    + cbn [enum flat_map]. change (a' :: l) with ([] ++ a' :: l). change 0 with (@length coll []). constructor. exact R.
    + constructor. constructor; [exact A|]. clear. induction l; constructor; auto using alike_refl.
  - destruct (reset c2) as [r'| | |] eqn:Er; try discriminate. cbn [bind] in E. injection E as <-. destruct (IHc2 r' eq_refl) as (R & A).
    split; [|constructor; auto using alike_refl]. cbn [enum]. replace n with (n - 0) at 2 by lia. constructor. exact R.
Qed.
Lemma reset_post : forall c, post (reset c) (fun c' => Rest c' (enum c) /\ alike c c').
Proof.
  intros c. destruct (reset c) as [c'| | |] eqn:E; cbn [post]; auto using reset_rest.
  - exfalso. revert E. induction c using coll_ind'; cbn [reset]; try discriminate.
    + destruct lps as [|a l]; [discriminate|]. inversion H; subst. destruct (reset a); cbn [bind]; try discriminate. intros _. auto.
    + destruct (reset c2); cbn [bind]; try discriminate. auto.
  - exfalso. revert E. induction c using coll_ind'; cbn [reset]; try discriminate.
    + destruct lps as [|a l]; [discriminate|]. inversion H; subst. destruct (reset a); cbn [bind]; try discriminate. intros _. auto.
    + destruct (reset c2); cbn [bind]; try discriminate. auto.
Qed.

Section Union.
  Variable addr : lrow -> N.
  Hypothesis addr_inj : forall r s, addr r = addr s -> r = s.

  Lemma above_max : forall a b v, above (omax a b) v <-> above a v /\ above b v.
  Proof. intros [a|] [b|] v; cbn; lia. Qed.
  Lemma below_min : forall a b v, below (omin a b) v <-> below a v /\ below b v.
  Proof. intros [a|] [b|] v; cbn; lia. Qed.
  Lemma merge_eqs_cons : forall x a y b, merge_eqs addr (x :: a) (y :: b) =
    if (addr (eq_row x) <? addr (eq_row y))%N then x :: merge_eqs addr a (y :: b)
    else if (addr (eq_row y) <? addr (eq_row x))%N then y :: merge_eqs addr (x :: a) b
    else mkEq (eq_row x) (omax (eq_lo x) (eq_lo y)) (omin (eq_hi x) (eq_hi y)) :: merge_eqs addr a b.
  Proof. reflexivity. Qed.
  Lemma merge_eqs_sem : forall a b x, Forall (fun q => eqsem q x) (merge_eqs addr a b) <-> Forall (fun q => eqsem q x) a /\ Forall (fun q => eqsem q x) b.
  Proof.
    induction a as [|p a IHa]; [intros b x; destruct b; cbn; rewrite ?Forall_nil_iff; split; [auto|tauto|auto|tauto]|].
    induction b as [|q b IHb]; intros x.
    - cbn. rewrite Forall_nil_iff. tauto.
    - rewrite merge_eqs_cons. destruct (N.ltb_spec (addr (eq_row p)) (addr (eq_row q))).
      + rewrite Forall_cons_iff, IHa, (Forall_cons_iff _ p). tauto.
      + destruct (N.ltb_spec (addr (eq_row q)) (addr (eq_row p))).
        * rewrite Forall_cons_iff. rewrite IHb, (Forall_cons_iff _ q). tauto.
        * assert (E : eq_row p = eq_row q) by (apply addr_inj; lia).
          rewrite Forall_cons_iff, IHa, !Forall_cons_iff. unfold eqsem at 1. cbn [eq_row eq_lo eq_hi]. rewrite above_max, below_min.
          assert (Ep : eqsem p x <-> above (eq_lo p) (row_value (eq_row p) x) /\ below (eq_hi p) (row_value (eq_row p) x)) by reflexivity.
          assert (Eq : eqsem q x <-> above (eq_lo q) (row_value (eq_row p) x) /\ below (eq_hi q) (row_value (eq_row p) x)) by (rewrite E; reflexivity).
          rewrite Ep, Eq. tauto.
  Qed.
  Lemma make_union_sem : forall p q, pr_imp p = false -> pr_imp q = false ->
    pr_imp (make_union addr p q) = false /\ forall x, psem (make_union addr p q) x <-> psem p x /\ psem q x.
  Proof. intros p q A B. unfold make_union. rewrite A, B. split; [reflexivity|]. intros x. apply merge_eqs_sem. Qed.

  Lemma sem_app : forall a b x, sem (a ++ b) x <-> sem a x /\ sem b x.
  Proof. intros. unfold sem. apply Forall_app. Qed.

  (** one call of merge *)
  Definition stepped (c : coll) (pg : prog) (L : list (list prog)) (y : mresult) : Prop :=
    let '(c', p, _, more) := y in
    exists h tl, L = h :: tl /\ alike c c' /\ pr_imp p = false /\ (forall x, psem p x <-> psem pg x /\ sem h x) /\
      (if more then Rest c' tl else tl = []).

  Definition fresh_merge (c : coll) : Prop :=
    match c with Merge _ _ _ _ _ _ _ _ n k => n < k | _ => True end.

  Lemma clean_union : forall lps, fold_right and True (map clean lps) <-> Forall clean lps.
  Proof. induction lps; cbn; [split; auto|]. rewrite Forall_cons_iff, IHlps. tauto. Qed.

  Section Loop.
    Variable mrg : coll -> prog -> res mresult.
    Variable d : nat.
    Hypothesis Hm : forall c pg L, height c <= d -> clean c -> pr_imp pg = false -> Rest c L -> post (mrg c pg) (stepped c pg L).

    Lemma merge_loop_ok : forall k e v l r tmp mr more re nsat curr pg L,
      nsat - curr < k -> height l <= d -> height r <= d -> clean l -> clean r -> pr_imp pg = false ->
      Rest (Merge e v l r tmp mr more re nsat curr) L ->
      post (merge_loop addr mrg k e v l r tmp mr more re nsat curr pg)
        (fun y => stepped (Merge e v l r tmp mr more re nsat curr) pg L y /\ (snd y = true -> fresh_merge (fst (fst (fst y))))).
    Proof.
      induction k as [|k IH]; intros e v l r tmp mr more re nsat curr pg L Hk Hl Hr Cl Cr Hp R; [lia|]. cbn [merge_loop].
      (* the state after the right member has been asked *)
      assert (G : post (if mr then x <- mrg r no_prog ;; let '(r', tmp', re', more') := x in l' <- reset l ;; Ok (l', r', tmp', more', re') else Ok (l, r, tmp, more, re))
        (fun q => let '(l', r', tmp', more', re') := q in alike l l' /\ alike r r' /\ exists g Ll Lr, Rest l' Ll /\ (forall x, psem tmp' x <-> sem g x) /\ pr_imp tmp' = false /\
           (more' = true -> Rest r' Lr) /\ (more' = false -> Lr = []) /\ L = skip (nsat - curr) (map (fun a => a ++ g) Ll ++ combos (enum l) Lr))).
      { destruct mr.
        - assert (Rr : exists Lr, Rest r Lr /\ more = true /\ L = skip (nsat - curr) (combos (enum l) Lr)).
          { inversion R; subst. exists Lr. auto. }
          destruct Rr as (Lr & Rr & -> & EL). eapply post_bind; [apply (@Hm r no_prog Lr Hr Cr eq_refl Rr)|].
          intros [[[r' tmp'] re'] more'] (h & tl & E & A & P & S & M). eapply post_bind; [apply reset_post|]. intros l' (Rl & Al). cbn [post].
          split; [exact Al|]. split; [exact A|]. exists h, (enum l), tl. split; [exact Rl|]. split.
          { intros x. rewrite S. unfold psem at 1. cbn. split; [tauto|]. intros; split; auto. }
          split; [exact P|]. split; [intros ->; exact M|]. split; [intros ->; exact M|]. rewrite EL, E. reflexivity.
        - cbn [post]. split; [apply alike_refl|]. split; [apply alike_refl|]. inversion R; subst. exists g, Ll, Lr. auto 10. }
      eapply post_bind; [exact G|]. clear G. intros [[[[l1 r1] tmp1] more1] re1] (Al & Ar & g & Ll & Lr & Rl & St & Pt & Rr & Rr0 & EL).
      destruct (alike_facts Al) as (El & Hl1 & _ & Cl1 & _). destruct (alike_facts Ar) as (Er & Hr1 & _ & Cr1 & _).
      eapply post_bind; [apply (@Hm l1 pg Ll); [lia|apply Cl1, Cl|exact Hp|exact Rl]|].
      intros [[[l2 prog] le] more_left] (h & tl & E & A2 & P2 & S2 & M2).
      destruct (alike_facts A2) as (El2 & Hl2 & _ & Cl2 & _).
      assert (Al12 : alike l l2) by (eapply alike_trans; eauto).
      set (P' := map (fun a => a ++ g) tl ++ combos (enum l) Lr).
      assert (EL' : L = skip (nsat - curr) ((h ++ g) :: P')) by (rewrite EL, E; reflexivity).
      (* the state after the left member has been asked *)
      assert (R' : (more_left || more1) = true -> Rest (Merge e v l2 r1 tmp1 (negb more_left) more1 re1 nsat (S curr)) (skip (nsat - S curr) P')).
      { intros Hmore. assert (Enum : enum l2 = enum l) by congruence. destruct more_left; cbn [negb].
        - unfold P'. rewrite <- Enum. constructor; auto.
        - subst tl. cbn [orb] in Hmore. subst more1. unfold P'. cbn [map app]. rewrite <- Enum. constructor. apply Rr, eq_refl. }
      assert (D : (more_left || more1) = false -> P' = []).
      { intros H. apply orb_false_iff in H. destruct H as (-> & ->). specialize (Rr0 eq_refl). subst tl Lr. reflexivity. }
      rewrite P2. cbn [andb].
      destruct ((nsat <? S curr) || negb (more_left || more1)) eqn:B.
      + cbn [post]. split.
        * unfold stepped. exists (h ++ g), (skip (nsat - S curr) P'). destruct (make_union_sem prog tmp1 P2 Pt) as (U1 & U2).
          assert (EL2 : L = (h ++ g) :: skip (nsat - S curr) P').
          { rewrite EL'. apply orb_true_iff in B. destruct B as [B|B].
            - apply Nat.ltb_lt in B. replace (nsat - curr) with 0 by lia. replace (nsat - S curr) with 0 by lia. rewrite !skip0. reflexivity.
            - apply negb_true_iff in B. rewrite (D B). unfold skip at 2. cbn [length]. replace (nsat - S curr <? 0) with false by (symmetry; apply Nat.ltb_ge; lia).
              unfold skip. cbn [length last]. destruct (Nat.ltb_spec (nsat - curr) 1); [|reflexivity]. replace (nsat - curr) with 0 by lia. reflexivity. }
          split; [exact EL2|]. split; [constructor; eauto using alike_trans|]. split; [exact U1|]. split.
          { intros x. rewrite U2, S2, St, sem_app. tauto. }
          destruct (more_left || more1) eqn:Q; [apply R'; reflexivity|]. rewrite (D eq_refl). reflexivity.
        * cbn [fst snd fresh_merge]. intros Hmore. rewrite Hmore in B. rewrite orb_false_r in B. apply Nat.ltb_lt in B. exact B.
      + apply orb_false_iff in B. destruct B as (B1 & B2). apply Nat.ltb_ge in B1. apply negb_false_iff in B2. specialize (R' B2).
        eapply post_impl; [apply IH with (L := skip (nsat - S curr) P'); try tauto|].
        * lia.
        * lia.
        * lia.
        * intros [[[c' p] he] more'] ((h' & tl' & E' & A' & I') & F'). split; [|exact F'].
          exists h', tl'. split.
          { rewrite EL'. replace (nsat - curr) with (S (nsat - S curr)) by lia. rewrite skip_S; [exact E'|]. intros N. rewrite N in E'. cbn in E'.
            unfold skip in E'. cbn [length] in E'. destruct (Nat.ltb_spec (nsat - S curr) 0); [lia|discriminate]. }
          split; [|exact I']. eapply alike_trans; [|exact A']. constructor; eauto using alike_trans.
    Qed.
    Lemma merge_nth_ok : forall l1 a l2 pg L, height a <= d -> clean a -> pr_imp pg = false -> Rest a L ->
      post (merge_nth mrg (l1 ++ a :: l2) (length l1) pg)
        (fun y => let '(lps, p, he, more) := y in exists a', lps = l1 ++ a' :: l2 /\ stepped a pg L (a', p, he, more)).
    Proof.
      induction l1 as [|b l1 IH]; intros a l2 pg L Ha Ca Hp R; cbn [app length merge_nth].
      - eapply post_bind; [apply (@Hm a pg L Ha Ca Hp R)|]. intros [[[a' p] he] more] S. cbn [post]. exists a'. split; [reflexivity|exact S].
      - eapply post_bind; [apply (IH a l2 pg L Ha Ca Hp R)|]. intros [[[lps p] he] more] (a' & -> & S). cbn [post]. exists a'. split; [reflexivity|exact S].
    Qed.
  End Loop.
  Lemma reset_nth_ok : forall l1 l2, post (reset_nth (l1 ++ l2) (length l1))
    (fun l => match l2 with [] => l = l1 | b :: l3 => exists b', l = l1 ++ b' :: l3 /\ Rest b' (enum b) /\ alike b b' end).
  Proof.
    induction l1 as [|a l1 IH]; intros l2; cbn [app length reset_nth].
    - destruct l2 as [|b l3]; [reflexivity|]. eapply post_bind; [apply reset_post|]. intros b' (R & A). cbn [post]. exists b'. auto.
    - eapply post_bind; [apply (IH l2)|]. intros l Hl. cbn [post]. destruct l2 as [|b l3]; [subst; reflexivity|].
      destruct Hl as (b' & -> & R & A). exists b'. auto.
  Qed.
  Lemma all2_refl : forall l, Forall2 alike l l.
  Proof. induction l; constructor; auto using alike_refl. Qed.
  Lemma height_in : forall a lps, In a lps -> height a <= fold_right Nat.max 0 (map height lps).
  Proof. induction lps as [|b l IH]; intros []; cbn; [subst; lia|]. specialize (IH H). lia. Qed.
  Lemma merge_ok : forall d c pg L, height c <= d -> clean c -> pr_imp pg = false -> Rest c L ->
    post (merge addr d c pg) (fun y => stepped c pg L y /\ (snd y = true -> fresh_merge (fst (fst (fst y))))).
  Proof.
    induction d as [|d IH]; intros c pg L Hd Cc Hp R; [destruct c; cbn in Hd; lia|].
    assert (Hm : forall c pg L, height c <= d -> clean c -> pr_imp pg = false -> Rest c L -> post (merge addr d c pg) (stepped c pg L)).
    { intros c1 pg1 L1 A B C D. eapply post_impl; [apply IH; eauto|]. intros y Hy. apply Hy. }
    destruct c as [e v p|e v lps cur|e v l r tmp mr more re nsat curr]; cbn [merge].
    - cbn [post]. split; [|discriminate]. inversion R; subst. cbn [stepped]. exists [p], []. destruct (make_union_sem pg p Hp Cc) as (U1 & U2).
      split; [reflexivity|]. split; [apply alike_refl|]. split; [exact U1|]. split; [|reflexivity]. intros x. rewrite U2. unfold sem. rewrite Forall_cons_iff. split; [intros (? & ?); auto|tauto].
    - inversion R as [|e' v' l1 a l2 L' R' E1 E2| |]; subst. replace (length (l1 ++ a :: l2) <=? length l1) with false.
      2:{ symmetry. apply Nat.leb_gt. rewrite app_length. cbn. lia. }
      cbn [height] in Hd. cbn [clean] in Cc. apply clean_union in Cc. rewrite Forall_app, Forall_cons_iff in Cc.
      eapply post_bind; [apply (@merge_nth_ok _ _ Hm l1 a l2 pg L'); try tauto|].
      { assert (Ha := height_in a (l1 ++ a :: l2) (in_elt a l1 l2)). lia. }
      intros [[[lps p] he] more] (a' & -> & h & tl & -> & A & P & Sm & M).
      destruct more.
      + cbn [post]. split; [|cbn; auto]. exists h, (tl ++ flat_map enum l2). split; [reflexivity|]. split.
        { constructor. apply Forall2_app; [apply all2_refl|]. constructor; [exact A|apply all2_refl]. }
        split; [exact P|]. split; [exact Sm|]. replace (length l1 <? length (l1 ++ a' :: l2)) with true by (symmetry; apply Nat.ltb_lt; rewrite app_length; cbn; lia).
        constructor. exact M.
      + subst tl. replace (S (length l1)) with (length (l1 ++ [a'])) by (rewrite app_length; cbn; lia).
        replace (l1 ++ a' :: l2) with ((l1 ++ [a']) ++ l2) by (rewrite <- app_assoc; reflexivity).
        eapply post_bind; [apply reset_nth_ok|]. intros lps Hl. cbn [post]. split; [|cbn; auto].
        exists h, (flat_map enum l2). split; [reflexivity|].
        destruct l2 as [|b l3].
        * subst lps. split; [constructor; apply Forall2_app; [apply all2_refl|constructor; [exact A|constructor]]|]. split; [exact P|]. split; [exact Sm|].
          rewrite Nat.ltb_irrefl. reflexivity.
        * destruct Hl as (b' & -> & Rb & Ab). split.
          { constructor. rewrite <- app_assoc. apply Forall2_app; [apply all2_refl|]. constructor; [exact A|]. constructor; [exact Ab|apply all2_refl]. }
          split; [exact P|]. split; [exact Sm|]. replace (length (l1 ++ [a']) <? length ((l1 ++ [a']) ++ b' :: l3)) with true.
          2:{ symmetry. apply Nat.ltb_lt. rewrite (app_length (l1 ++ [a'])). cbn. lia. }
          cbn [flat_map]. constructor. exact Rb.
    - rewrite Hp. cbn [height] in Hd. cbn [clean] in Cc. apply (@merge_loop_ok _ d Hm); try tauto; lia.
  Qed.
End Union.
