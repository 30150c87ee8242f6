(** Proofs about makeAnd / makeOr and pushNegation. *)
From Verif Require Import Base NetSpec PqlSyntax PqlSpec PqlModel PqlProofs.
From Coq Require Import Classical_Prop Permutation.
Set Implicit Arguments.

(** * Merging of comparisons *)
Definition cls (k : bool) (c : cond) : bool := in_range c && (if k then stf c else ltl c).
Definition J (isor : bool) (net : pnet) (pi : path) (l : list cond) : Prop :=
  if isor then exists c, In c l /\ holds net pi c else forall c, In c l -> holds net pi c.
Definition op2 (isor : bool) (A B : Prop) : Prop := if isor then A \/ B else A /\ B.

Global Instance op2_iff (isor : bool) : Morphisms.Proper (Morphisms.respectful iff (Morphisms.respectful iff iff)) (op2 isor).
Proof. intros A A' H B B' H'. destruct isor; cbn; tauto. Qed.

Lemma J_app : forall isor net pi l1 l2, J isor net pi (l1 ++ l2) <-> op2 isor (J isor net pi l1) (J isor net pi l2).
Proof.
  intros [|] net pi l1 l2; cbn.
  - split.
    + intros (c & Hc & H). apply in_app_iff in Hc. destruct Hc; [left|right]; eauto.
    + intros [(c & Hc & H)|(c & Hc & H)]; exists c; rewrite in_app_iff; auto.
  - split.
    + intros H; split; intros c Hc; apply H, in_app_iff; auto.
    + intros (A & B) c Hc. apply in_app_iff in Hc. destruct Hc; auto.
Qed.
Lemma J_one : forall isor net pi c, J isor net pi [c] <-> holds net pi c.
Proof.
  intros [|] net pi c; cbn.
  - split; [intros (x & [<-|[]] & H); auto|]. intros H. exists c; auto.
  - split; [auto|]. intros H x [<-|[]]; auto.
Qed.
Lemma J_cons : forall isor net pi c l, J isor net pi (c :: l) <-> op2 isor (holds net pi c) (J isor net pi l).
Proof. intros. change (c :: l) with ([c] ++ l). rewrite J_app. destruct isor; cbn [op2]; rewrite J_one; tauto. Qed.
Lemma J_log : forall (isor : bool) net pi l, holds net pi (if isor then COr l else CAnd l) <-> J isor net pi l.
Proof. intros [|] net pi l; [apply holds_or|apply holds_and]. Qed.
Lemma op2_comm : forall isor (A B : Prop), op2 isor A B <-> op2 isor B A.
Proof. intros [|]; cbn; tauto. Qed.
Lemma op2_assoc : forall isor (A B C : Prop), op2 isor (op2 isor A B) C <-> op2 isor A (op2 isor B C).
Proof. intros [|]; cbn; tauto. Qed.

Lemma cls_list : forall k l, cls k (CAnd l) = true <-> Forall (fun c => cls k c = true) l.
Proof.
  intros k l. unfold cls at 1. cbn [in_range].
  replace (if k then stf (CAnd l) else ltl (CAnd l)) with (forallb (fun c => if k then stf c else ltl c) l) by (destruct k; reflexivity).
  rewrite andb_true_iff, !forallb_forall, Forall_forall. unfold cls. split.
  - intros (A & B) c Hc. rewrite (A c Hc), (B c Hc). reflexivity.
  - intros A. split; intros c Hc; specialize (A c Hc); apply andb_true_iff in A; tauto.
Qed.
Lemma cls_or : forall k l, cls k (COr l) = true <-> Forall (fun c => cls k c = true) l.
Proof. intros. rewrite <- cls_list. unfold cls. cbn [in_range stf ltl]. tauto. Qed.
Lemma cls_conj : forall k n cs, cls k (CConj n cs) = true <-> Forall (fun c => cons_proper c = true) cs.
Proof. intros. unfold cls. cbn [in_range stf ltl]. replace (if k then true else true) with true by (destruct k; auto). rewrite andb_true_r, forallb_forall, Forall_forall. tauto. Qed.
Lemma cls_cmp : forall k o a b, cls k (CCmp o a b) = cmp_range o a b.
Proof. intros. unfold cls. cbn [in_range stf ltl]. destruct k; apply andb_true_r. Qed.
Lemma cls_bool : forall k b, cls k (CBool b) = true.
Proof. intros [|] b; reflexivity. Qed.

(** Constraints. *)
Lemma cons_proper_spec : forall c, cons_proper c = true <->
  (c_lower c <= u32max)%N /\ (c_upper c <= u32max)%N /\ (0 < c_lower c \/ c_upper c < u32max)%N.
Proof.
  intros c. unfold cons_proper. rewrite !andb_true_iff, !N.leb_le, negb_true_iff, andb_false_iff, !N.eqb_neq. lia.
Qed.
Lemma no_cons_proper : forall c, cons_proper c = true -> no_cons c = false.
Proof.
  intros c H. apply cons_proper_spec in H. unfold no_cons. apply andb_false_iff. rewrite !N.eqb_neq. lia.
Qed.
Definition single (c : cons) : bool := ((c_lower c =? 0) || (c_upper c =? u32max))%N.
Lemma invert_spec : forall m c, cons_proper c = true -> single c = true ->
  cons_proper (invert c) = true /\ single (invert c) = true /\ (cons_holds m (invert c) <-> ~ cons_holds m c).
Proof.
  intros m c Hp Hs. pose proof (no_cons_proper _ Hp) as Hn. apply cons_proper_spec in Hp. destruct Hp as (A & B & C).
  unfold invert. rewrite Hn. unfold single in Hs. apply orb_true_iff in Hs. rewrite !N.eqb_eq in Hs.
  destruct (N.eqb_spec (c_lower c) 0) as [E|E].
  - assert (D : (c_upper c < u32max)%N) by lia.
    assert (M : ((c_upper c + 1) mod 2 ^ 32 = c_upper c + 1)%N) by (apply N.mod_small; unfold u32max in *; lia).
    rewrite M. split; [|split].
    + apply cons_proper_spec. cbn [c_lower c_upper]. lia.
    + unfold single. cbn [c_upper]. rewrite N.eqb_refl. apply orb_true_r.
    + unfold cons_holds. cbn [c_lower c_upper c_place]. split.
      * intros (P & _) (_ & [Q|Q]); lia.
      * intros P. split; auto. apply N.nlt_ge. intros Q. apply P. split; [lia|right; lia].
  - destruct Hs as [Hs|Hs]; [lia|]. rewrite Hs, N.eqb_refl. split; [|split].
    + apply cons_proper_spec. cbn [c_lower c_upper]. lia.
    + reflexivity.
    + unfold cons_holds. cbn [c_lower c_upper c_place]. split.
      * intros (_ & [Q|Q]) (P & _); lia.
      * intros P. split; [lia|]. right. apply N.nlt_ge. intros Q. apply P. split; [lia|auto].
Qed.
Lemma intersect_spec : forall m a b, c_place a = c_place b -> cons_proper a = true -> cons_proper b = true ->
  cons_proper (intersect a b) = true /\ (cons_holds m (intersect a b) <-> cons_holds m a /\ cons_holds m b).
Proof.
  intros m a b E Ha Hb. apply cons_proper_spec in Ha, Hb. split.
  - apply cons_proper_spec. unfold intersect. cbn [c_lower c_upper]. lia.
  - unfold cons_holds, intersect. cbn [c_lower c_upper c_place]. rewrite <- E. split.
    + intros (P & Q). split; (split; [lia|]); (destruct Q as [Q|Q]; [left; lia|]); destruct (N.min_spec (c_upper a) (c_upper b)); lia.
    + intros ((P1 & Q1) & (P2 & Q2)). split; [lia|]. destruct (N.min_spec (c_upper a) (c_upper b)) as [(_ & ->)|(_ & ->)]; auto.
Qed.
Lemma add_cons_spec : forall m c l, cons_proper c = true -> Forall (fun c => cons_proper c = true) l ->
  Forall (fun c => cons_proper c = true) (add_cons c l) /\
  (Forall (cons_holds m) (add_cons c l) <-> Forall (cons_holds m) l /\ cons_holds m c).
Proof.
  intros m c. induction l as [|d l IH]; intros Hc Hl; cbn [add_cons].
  - split; [constructor; auto|]. split.
    + intros H. inversion H; subst. split; auto.
    + intros (_ & H). constructor; auto.
  - inversion Hl as [|? ? Hd Hl']; subst. destruct (c_place d <? c_place c).
    + destruct (IH Hc Hl') as (A & B). split; [constructor; auto|]. split.
      * intros H. inversion H as [|? ? H1 H2]; subst. apply B in H2. destruct H2. split; auto.
      * intros (H & H'). inversion H; subst. constructor; auto. apply B; auto.
    + destruct (Nat.eqb_spec (c_place d) (c_place c)) as [E|E].
      * destruct (intersect_spec m d c E Hd Hc) as (A & B). split; [constructor; auto|]. split.
        -- intros H. inversion H as [|? ? H1 H2]; subst. apply B in H1. destruct H1. split; auto.
        -- intros (H & H'). inversion H; subst. constructor; auto. apply B; auto.
      * split; [constructor; auto|]. split.
        -- intros H. inversion H as [|? ? H1 H2]; subst. auto.
        -- intros (H & H'). constructor; auto.
Qed.
Lemma merge_conj_pos : forall this other,
  Forall (fun c => cons_proper c = true) this -> Forall (fun c => cons_proper c = true) other ->
  exists r, merge_conj false this other = Ok r /\ Forall (fun c => cons_proper c = true) r /\
    forall m, Forall (cons_holds m) r <-> Forall (cons_holds m) this /\ Forall (cons_holds m) other.
Proof.
  intros this other. unfold merge_conj. cbn [andb]. revert this.
  induction other as [|c other IH]; intros this Ht Ho; cbn [foldM].
  - exists this. split; auto. split; auto. intros m. split; [auto|tauto].
  - inversion Ho as [|? ? Hc Ho']; subst. rewrite (no_cons_proper _ Hc), andb_false_r. cbn [bind].
    destruct (IH (add_cons c this)) as (r & A & B & C); auto.
    { apply (add_cons_spec [] _ Hc Ht). }
    exists r. split; [exact A|]. split; auto. intros m. rewrite C.
    destruct (add_cons_spec m _ Hc Ht) as (_ & D). rewrite D. split.
    + intros ((P & Q) & R). auto.
    + intros (P & Q). inversion Q; subst. auto.
Qed.
Lemma merge_conj_neg : forall this c,
  Forall (fun c => cons_proper c = true) this -> cons_proper c = true -> single c = true ->
  exists r, merge_conj true this [c] = Ok r /\ Forall (fun c => cons_proper c = true) r /\
    forall m, Forall (cons_holds m) r <-> Forall (cons_holds m) this /\ ~ cons_holds m c.
Proof.
  intros this c Ht Hc Hs. unfold merge_conj. cbn [andb length Nat.ltb Nat.leb foldM].
  destruct (invert_spec [] _ Hc Hs) as (A & B & _). rewrite (no_cons_proper _ A).
  assert (E : negb (c_upper (invert c) =? u32max)%N && negb (c_lower (invert c) =? 0)%N && true = false).
  { unfold single in B. apply orb_true_iff in B. destruct B as [B|B]; rewrite B; cbn; rewrite ?andb_false_r; auto. }
  rewrite E. cbn [bind]. exists (add_cons (invert c) this). split; auto. split.
  - apply (add_cons_spec [] _ A Ht).
  - intros m. destruct (add_cons_spec m _ A Ht) as (_ & D). rewrite D.
    destruct (invert_spec m _ Hc Hs) as (_ & _ & F). rewrite F. tauto.
Qed.
Lemma singular_inv : forall cs, singular cs = true -> exists c, cs = [c] /\ single c = true.
Proof. intros [|c [|d cs]]; cbn; try discriminate. intros H. exists c. split; auto. Qed.

Definition hc (m : marking) (n : bool) (cs : list cons) : Prop :=
  if n then ~ Forall (cons_holds m) cs else Forall (cons_holds m) cs.
Lemma holds_conj : forall net pi n cs, holds net pi (CConj n cs) <-> hc (pi 0) n cs.
Proof. intros net pi [|] cs; cbn; tauto. Qed.

Lemma merge_into_spec : forall k isor conds n cs,
  Forall (fun c => cls k c = true) conds -> Forall (fun c => cons_proper c = true) cs ->
  exists r, merge_into isor conds n cs = Ok r /\ Forall (fun c => cls k c = true) r /\
    forall net pi, J isor net pi r <-> op2 isor (J isor net pi conds) (holds net pi (CConj n cs)).
Proof.
  intros k isor conds n cs Hk Hc. unfold merge_into.
  assert (Hfront : exists r, Ok (CConj n cs :: conds) = Ok r /\ Forall (fun c => cls k c = true) r /\
    forall net pi, J isor net pi r <-> op2 isor (J isor net pi conds) (holds net pi (CConj n cs))).
  { eexists. split; [reflexivity|]. split; [constructor; auto; apply cls_conj; auto|].
    intros net pi. rewrite J_cons. apply op2_comm. }
  destruct (if isor then n || singular cs else negb n || singular cs) eqn:Hcase.
  2:{ eexists. split; [reflexivity|]. split.
      - apply Forall_app. split; auto. constructor; auto. apply cls_conj; auto.
      - intros net pi. rewrite J_app. destruct isor; cbn [op2]; rewrite J_one; tauto. }
  destruct conds as [|x conds]; auto.
  destruct x; auto. rename neg into ln. rename cs0 into lcs.
  inversion Hk as [|? ? Hx Hk']; subst. apply cls_conj in Hx.
  destruct (Bool.eqb_spec ln isor) as [->|Hne].
  - destruct (Bool.eqb_spec isor n) as [->|Hd].
    + rewrite xorb_nilpotent. destruct (merge_conj_pos Hx Hc) as (r & A & B & C). rewrite A. cbn [bind].
      eexists. split; [reflexivity|]. split; [constructor; auto; apply cls_conj; auto|].
      intros net pi. rewrite !J_cons, !holds_conj. specialize (C (pi 0)).
      destruct n; cbn [hc op2]; tauto.
    + assert (Hsg : singular cs = true) by (destruct isor, n; cbn in *; congruence).
      destruct (singular_inv _ Hsg) as (c & -> & Hs). inversion Hc as [|? ? Hcp _]; subst.
      replace (xorb isor n) with true by (destruct isor, n; cbn; congruence).
      destruct (@merge_conj_neg _ c Hx Hcp Hs) as (r & A & B & C). rewrite A. cbn [bind].
      eexists. split; [reflexivity|]. split; [constructor; auto; apply cls_conj; auto|].
      intros net pi. rewrite !J_cons, !holds_conj. specialize (C (pi 0)).
      assert (S1 : Forall (cons_holds (pi 0)) [c] <-> cons_holds (pi 0) c).
      { split; [intros H; inversion H; auto|auto]. }
      destruct isor, n; try congruence; cbn [hc op2]; rewrite S1; try tauto.
  - destruct (Bool.eqb_spec n isor) as [->|Hn2]; auto.
    destruct n; cbn [xorb].
    + assert (Hsg : singular cs = true) by (destruct isor; cbn in *; congruence).
      destruct (singular_inv _ Hsg) as (c & -> & Hs). inversion Hc as [|? ? Hcp _]; subst.
      destruct (@merge_conj_neg _ c (Forall_nil _) Hcp Hs) as (r & A & B & C). rewrite A. cbn [bind].
      eexists. split; [reflexivity|]. split; [constructor; auto; apply cls_conj; auto|].
      intros net pi. rewrite (J_cons isor net pi (CConj false r)). rewrite op2_comm.
      assert (E : holds net pi (CConj false r) <-> holds net pi (CConj true [c])).
      { rewrite !holds_conj. cbn [hc]. rewrite C. split.
        - intros (_ & P) Q. inversion Q; auto.
        - intros P. split; auto. }
      destruct isor; cbn [op2]; rewrite E; tauto.
    + destruct (merge_conj_pos (Forall_nil _) Hc) as (r & A & B & C). rewrite A. cbn [bind].
      eexists. split; [reflexivity|]. split; [constructor; auto; apply cls_conj; auto|].
      intros net pi. rewrite (J_cons isor net pi (CConj false r)). rewrite op2_comm.
      assert (E : holds net pi (CConj false r) <-> holds net pi (CConj false cs)).
      { rewrite !holds_conj. cbn [hc]. rewrite C. split; [tauto|auto]. }
      destruct isor; cbn [op2]; rewrite E; tauto.
Qed.

(** One comparison of a place with a constant as a constraint. *)
Lemma u32_small : forall z, (0 <= z < 2 ^ 32)%Z -> Z.of_N (u32 z) = z.
Proof. intros z H. unfold u32. rewrite Z.mod_small by exact H. apply Z2N.id. lia. Qed.
Lemma u32range_spec : forall lo hi z, u32range lo hi z = true <-> (lo <= z < hi)%Z.
Proof. intros. unfold u32range. rewrite andb_true_iff, Z.leb_le, Z.ltb_lt. tauto. Qed.

Definition raw_cons (o : cmp) (inverted : bool) (p : nat) (v : N) : cons :=
  match o with
  | OpLe => if inverted then mkCons p v u32max else mkCons p 0 v
  | OpLt => if inverted then mkCons p ((v + 1) mod 2 ^ 32) u32max else mkCons p 0 (u32 (Z.of_N v - 1))
  | OpEq | OpNe => mkCons p v v
  end.
Lemma raw_cons_spec : forall o (inverted : bool) p z,
  (match o, inverted with
   | OpLt, false | OpLe, true => 1 <= z < 2 ^ 32
   | _, _ => 0 <= z < 2 ^ 32 - 1
   end)%Z ->
  let c := raw_cons o inverted p (u32 z) in
  cons_proper c = true /\ (o = OpLe \/ o = OpLt -> single c = true) /\
  forall m, cons_holds m c <->
    match o with
    | OpEq | OpNe => tokd m p = z
    | _ => if inverted then cmp_holds o z (tokd m p) else cmp_holds o (tokd m p) z
    end.
Proof.
  intros o inverted p z Hz c.
  assert (Hv : Z.of_N (u32 z) = z) by (apply u32_small; destruct o, inverted; lia).
  set (v := u32 z) in *.
  assert (Hlt : (Z.of_N v < 2 ^ 32)%Z) by (destruct o, inverted; lia).
  assert (U : Z.of_N u32max = (2 ^ 32 - 1)%Z) by reflexivity.
  unfold c, raw_cons, tokd. destruct o.
  1,2: rewrite cons_proper_spec; cbn [c_lower c_upper c_place]; assert (v < u32max)%N by (apply N2Z.inj_lt; destruct inverted; lia);
    split; [lia|split; [intros [E|E]; discriminate|]]; intros m; unfold cons_holds; cbn [c_lower c_upper c_place];
    split; [intros (A & [B|B]); lia|intros A; split; lia].
  - destruct inverted.
    + assert (E : ((v + 1) mod 2 ^ 32 = v + 1)%N) by (apply N.mod_small; lia). rewrite E.
      rewrite cons_proper_spec. cbn [c_lower c_upper c_place].
      assert (v < u32max)%N by (apply N2Z.inj_lt; lia).
      split; [lia|split; [intros _; unfold single; cbn [c_lower c_upper]; rewrite N.eqb_refl, ?orb_true_r; reflexivity|]]. intros m; unfold cons_holds; cbn [c_lower c_upper c_place cmp_holds].
      split; [intros (A & _); lia|intros A; split; [lia|auto]].
    + assert (E : Z.of_N (u32 (Z.of_N v - 1)) = (Z.of_N v - 1)%Z) by (apply u32_small; lia).
      rewrite cons_proper_spec. cbn [c_lower c_upper c_place].
      assert (u32 (Z.of_N v - 1) < u32max)%N by (apply N2Z.inj_lt; lia).
      split; [lia|split; [intros _; unfold single; cbn [c_lower c_upper]; rewrite N.eqb_refl, ?orb_true_r; reflexivity|]]. intros m; unfold cons_holds; cbn [c_lower c_upper c_place cmp_holds].
      split; [intros (_ & [A|A]); lia|intros A; split; [lia|right; lia]].
  - destruct inverted; rewrite cons_proper_spec; cbn [c_lower c_upper c_place].
    + split; [lia|split; [intros _; unfold single; cbn [c_lower c_upper]; rewrite N.eqb_refl, ?orb_true_r; reflexivity|]]. intros m; unfold cons_holds; cbn [c_lower c_upper c_place cmp_holds].
      split; [intros (A & _); lia|intros A; split; [lia|auto]].
    + assert (v < u32max)%N by (apply N2Z.inj_lt; lia).
      split; [lia|split; [intros _; unfold single; cbn [c_lower c_upper]; rewrite N.eqb_refl, ?orb_true_r; reflexivity|]]. intros m; unfold cons_holds; cbn [c_lower c_upper c_place cmp_holds].
      split; [intros (_ & [A|A]); lia|intros A; split; [lia|right; lia]].
Qed.

Lemma cmp_cons_spec : forall isor o a b, cmp_range o a b = true -> place_const a b = true ->
  match o with OpNe => negb isor | OpEq => isor | _ => false end = false ->
  cons_proper (cmp_cons isor o a b) = true /\
  forall net pi, holds net pi (CConj isor [cmp_cons isor o a b]) <-> holds net pi (CCmp o a b).
Proof.
  intros isor o a b Hr Hp Ho.
  assert (X : exists p z (inv : bool),
    cmp_parts a b = (p, z, inv) /\
    (match o, inv with
     | OpLt, false | OpLe, true => 1 <= z < 2 ^ 32
     | _, _ => 0 <= z < 2 ^ 32 - 1
     end)%Z /\
    (forall m, if inv then den m a = z /\ den m b = tokd m p else den m a = tokd m p /\ den m b = z)).
  { unfold place_const in Hp. apply orb_true_iff in Hp. rewrite !andb_true_iff in Hp. destruct Hp as [(P & Q)|(P & Q)].
    - destruct a; try discriminate P. exists p, (eval [] b), false. split; [reflexivity|].
      rewrite eval_den. cbn [cmp_range] in Hr. rewrite constant_place_free, Q in Hr. cbn [negb orb] in Hr. split.
      + destruct o; apply u32range_spec in Hr; exact Hr.
      + intros m. split; [reflexivity|]. apply place_free_den, Q.
    - destruct b; try discriminate P. assert (Ha : is_pl a = false) by (destruct a; auto; discriminate Q).
      exists p, (eval [] a), true. split; [destruct a; auto; discriminate Ha|].
      rewrite eval_den. split.
      + destruct a; try discriminate Ha; cbn [cmp_range] in Hr; rewrite constant_place_free, Q in Hr; cbn [negb orb] in Hr;
          destruct o; apply u32range_spec in Hr; exact Hr.
      + intros m. split; [|reflexivity]. apply place_free_den, Q. }
  destruct X as (p & z & inv & X1 & X2 & X3).
  destruct (raw_cons_spec o inv p z X2) as (R1 & R2 & R3).
  unfold cmp_cons. rewrite X1. fold (raw_cons o inv p (u32 z)). set (c := raw_cons o inv p (u32 z)) in *.
  assert (S1 : forall m x, Forall (cons_holds m) [x] <-> cons_holds m x).
  { intros m x. split; [intros H; inversion H; auto|auto]. }
  destruct o.
  - (* equality: only in conjunctions *)
    subst isor. cbn [negb]. split; auto. intros net pi. rewrite holds_conj. cbn [hc holds cmp_holds]. rewrite S1, R3.
    specialize (X3 (pi 0)). destruct inv; destruct X3 as (-> & ->); split; auto.
  - destruct isor; [|discriminate Ho]. split; auto. intros net pi. rewrite holds_conj. cbn [hc holds cmp_holds]. rewrite S1, R3.
    specialize (X3 (pi 0)). destruct inv; destruct X3 as (-> & ->); split; auto.
  - specialize (R2 (or_intror eq_refl)).
    destruct isor.
    + split; [apply (invert_spec [] _ R1 R2)|]. intros net pi. rewrite holds_conj. cbn [hc holds]. rewrite S1.
      destruct (invert_spec (pi 0) _ R1 R2) as (_ & _ & E). rewrite E, R3. specialize (X3 (pi 0)).
      destruct inv; destruct X3 as (-> & ->); cbn [cmp_holds]; lia.
    + split; auto. intros net pi. rewrite holds_conj. cbn [hc holds]. rewrite S1, R3. specialize (X3 (pi 0)).
      destruct inv; destruct X3 as (-> & ->); tauto.
  - specialize (R2 (or_introl eq_refl)).
    destruct isor.
    + split; [apply (invert_spec [] _ R1 R2)|]. intros net pi. rewrite holds_conj. cbn [hc holds]. rewrite S1.
      destruct (invert_spec (pi 0) _ R1 R2) as (_ & _ & E). rewrite E, R3. specialize (X3 (pi 0)).
      destruct inv; destruct X3 as (-> & ->); cbn [cmp_holds]; lia.
    + split; auto. intros net pi. rewrite holds_conj. cbn [hc holds]. rewrite S1, R3. specialize (X3 (pi 0)).
      destruct inv; destruct X3 as (-> & ->); tauto.
Qed.

Definition merged (k isor : bool) (conds : list cond) (c : cond) (x : res (list cond)) : Prop :=
  exists r, x = Ok r /\ Forall (fun c => cls k c = true) r /\
    forall net pi, J isor net pi r <-> op2 isor (J isor net pi conds) (holds net pi c).
Lemma merged_snoc : forall k isor conds c, Forall (fun c => cls k c = true) conds -> cls k c = true ->
  merged k isor conds c (Ok (conds ++ [c])).
Proof.
  intros k isor conds c Hk Hc. eexists. split; [reflexivity|]. split.
  - apply Forall_app. auto.
  - intros net pi. rewrite J_app. destruct isor; cbn [op2]; rewrite J_one; tauto.
Qed.
Lemma merge_leaf_spec : forall k isor aggr c conds,
  Forall (fun c => cls k c = true) conds -> cls k c = true -> merged k isor conds c (merge_leaf isor aggr c conds).
Proof.
  intros k isor aggr c conds Hk Hc. unfold merge_leaf. destruct aggr; [|apply merged_snoc; auto].
  destruct c; try (apply merged_snoc; auto; fail).
  - destruct (match o with OpNe => negb isor | OpEq => isor | _ => false end) eqn:E; [apply merged_snoc; auto|].
    destruct (place_const a b) eqn:P; [|apply merged_snoc; auto].
    rewrite cls_cmp in Hc. destruct (@cmp_cons_spec isor o a b Hc P E) as (A & B).
    destruct (@merge_into_spec k isor conds isor [cmp_cons isor o a b] Hk) as (r & R1 & R2 & R3); auto.
    exists r. split; auto. split; auto. intros net pi. rewrite R3. destruct isor; cbn [op2]; rewrite B; tauto.
  - apply cls_conj in Hc. exact (@merge_into_spec k isor conds neg cs Hk Hc).
Qed.

Lemma try_merge_spec : forall k isor aggr c conds,
  Forall (fun c => cls k c = true) conds -> cls k c = true -> merged k isor conds c (try_merge isor aggr c conds).
Proof.
  intros k isor aggr.
  assert (L : forall l conds,
    Forall (fun c => forall conds, Forall (fun c => cls k c = true) conds -> cls k c = true -> merged k isor conds c (try_merge isor aggr c conds)) l ->
    Forall (fun c => cls k c = true) conds -> Forall (fun c => cls k c = true) l ->
    merged k isor conds (if isor then COr l else CAnd l)
      ((fix all (l : list cond) (acc : list cond) : res (list cond) :=
        match l with
        | [] => Ok acc
        | x :: l' => acc' <- try_merge isor aggr x acc ;; all l' acc'
        end) l conds)).
  { induction l as [|x l IH]; intros conds HI Hk Hl.
    - exists conds. split; auto. split; auto. intros net pi. destruct isor; cbn; tauto.
    - inversion HI as [|? ? HI1 HI2]; subst. inversion Hl as [|? ? Hl1 Hl2]; subst.
      destruct (HI1 conds Hk Hl1) as (r & A & B & C). rewrite A. cbn [bind].
      destruct (IH r HI2 B Hl2) as (r2 & A2 & B2 & C2). exists r2. split; auto. split; auto.
      intros net pi. rewrite C2. rewrite !J_log.
      rewrite J_cons. specialize (C net pi). destruct isor; cbn [op2] in *; tauto. }
  induction c using cond_ind'; intros conds Hk Hc; cbn [try_merge]; try (apply merge_leaf_spec; auto; fail).
  - destruct isor; [apply merge_leaf_spec; auto|]. apply L; auto. apply cls_list; auto.
  - destruct isor; [|apply merge_leaf_spec; auto]. apply L; auto. apply cls_or; auto.
Qed.
Lemma try_merge_all_spec : forall k isor aggr l conds,
  Forall (fun c => cls k c = true) conds -> Forall (fun c => cls k c = true) l ->
  exists r, try_merge_all isor aggr l conds = Ok r /\ Forall (fun c => cls k c = true) r /\
    forall net pi, J isor net pi r <-> op2 isor (J isor net pi conds) (J isor net pi l).
Proof.
  intros k isor aggr. induction l as [|x l IH]; intros conds Hk Hl; cbn [try_merge_all].
  - exists conds. split; auto. split; auto. intros net pi. destruct isor; cbn; [|tauto].
    split; [auto|]. intros [A|(c & [] & _)]; auto.
  - inversion Hl as [|? ? Hl1 Hl2]; subst.
    destruct (@try_merge_spec k isor aggr x conds Hk Hl1) as (r & A & B & C). rewrite A. cbn [bind].
    destruct (IH r B Hl2) as (r2 & A2 & B2 & C2). exists r2. split; auto. split; auto.
    intros net pi. rewrite C2, J_cons. specialize (C net pi). destruct isor; cbn [op2] in *; tauto.
Qed.
Lemma post_merge_perm : forall l, Permutation l (post_merge l).
Proof.
  unfold post_merge. induction l as [|c l IH]; cbn [filter]; auto. destruct (temporal c); cbn [negb app].
  - apply Permutation_cons_app, IH.
  - constructor. exact IH.
Qed.
Lemma J_perm : forall isor net pi l l', Permutation l l' -> J isor net pi l <-> J isor net pi l'.
Proof.
  intros isor net pi l l' H. assert (H' := Permutation_sym H). destruct isor; cbn.
  - split; intros (c & Hc & G); exists c; split; auto; eapply Permutation_in; eauto.
  - split; intros G c Hc; apply G; eapply Permutation_in; eauto.
Qed.
Lemma make_log_spec : forall k isor l, Forall (fun c => cls k c = true) l ->
  exists r, make_log isor l = Ok r /\ cls k r = true /\ forall net pi, holds net pi r <-> J isor net pi l.
Proof.
  intros k isor l Hl. unfold make_log.
  assert (N0 : forall net pi, holds net pi (CBool (negb isor)) <-> J isor net pi []).
  { intros net pi. destruct isor; cbn; [|tauto]. split; [discriminate|]. intros (c & [] & _). }
  destruct l as [|x l].
  - eexists. split; [reflexivity|]. split; [apply cls_bool|]. exact N0.
  - destruct l as [|y l].
    + eexists. split; [reflexivity|]. inversion Hl; subst. split; auto. intros net pi. rewrite J_one. tauto.
    + destruct (@try_merge_all_spec k isor true (x :: y :: l) [] (Forall_nil _) Hl) as (r & A & B & C). rewrite A. cbn [bind].
      destruct (@try_merge_all_spec k isor false r [] (Forall_nil _) B) as (r2 & A2 & B2 & C2). rewrite A2. cbn [bind].
      pose proof (post_merge_perm r2) as P.
      assert (B3 : Forall (fun c => cls k c = true) (post_merge r2)).
      { rewrite Forall_forall in *. intros c Hc. apply B2. eapply Permutation_in; [apply Permutation_sym, P|exact Hc]. }
      assert (E : forall net pi, J isor net pi (post_merge r2) <-> J isor net pi (x :: y :: l)).
      { intros net pi. rewrite <- (J_perm isor net pi P), C2. specialize (C net pi). specialize (N0 net pi).
        assert (N1 : if isor then ~ J isor net pi [] else J isor net pi []).
        { destruct isor; [intros D; apply N0 in D; discriminate D|apply N0; reflexivity]. }
        destruct isor; cbn [op2] in C |- *; tauto. }
      destruct (post_merge r2) as [|z [|z' l']].
      * eexists. split; [reflexivity|]. split; [apply cls_bool|]. intros net pi. rewrite <- E. apply N0.
      * eexists. split; [reflexivity|]. inversion B3; subst. split; auto. intros net pi. rewrite <- E, J_one. tauto.
      * eexists. split; [reflexivity|]. split.
        -- destruct isor; [apply cls_or|apply cls_list]; auto.
        -- intros net pi. rewrite <- E. apply J_log.
Qed.
