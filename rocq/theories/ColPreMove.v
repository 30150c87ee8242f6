(** Moving the initial tokens of a place along its only consumer (C48). *)
From Verif Require Import Base BaseLemmas BuilderModel BuilderSpec CtlFrag ColSyntax ColSpec ColModel ColRadix ColEval ColGen ColUnfold ColMain ColRedModel ColRedSpec ColRedProofs ColRedMain ColRedTotal ColPreModel ColPreSpec.

Definition cnt (v : value) (ws : list value) : N := sumN (map (fun w => if value_eqb w v then 1%N else 0%N) ws).
Lemma veqb_refl : forall v, value_eqb v v = true.
Proof. intros v. apply value_eqb_eq. reflexivity. Qed.
Lemma cnt_cons : forall v w ws, cnt v (w :: ws) = ((if value_eqb w v then 1 else 0) + cnt v ws)%N.
Proof. reflexivity. Qed.
Lemma cnt_app : forall v a b, cnt v (a ++ b) = (cnt v a + cnt v b)%N.
Proof. intros v a b. induction a as [|w a IH]; [reflexivity|]. cbn [app]. rewrite !cnt_cons, IH. lia. Qed.
Lemma cnt_rep : forall v w k, cnt v (repeat w k) = if value_eqb w v then N.of_nat k else 0%N.
Proof. intros v w k. induction k as [|k IH]; [destruct (value_eqb w v); reflexivity|]. cbn [repeat]. rewrite cnt_cons, IH. destruct (value_eqb w v); lia. Qed.
Definition spread (f : value -> N) (l : list value) : list value := flat_map (fun w => repeat w (N.to_nat (f w))) l.
Lemma cnt_out : forall f v l, ~ In v l -> cnt v (spread f l) = 0%N.
Proof.
  intros f v l. induction l as [|w l IH]; intros H; [reflexivity|]. unfold spread in *. cbn [flat_map]. rewrite cnt_app, cnt_rep, IH by (intros K; apply H; right; exact K).
  destruct (value_eqb w v) eqn:E; [|reflexivity]. apply value_eqb_eq in E. subst. destruct H. left. reflexivity.
Qed.
Lemma cnt_in : forall f v l, NoDup l -> In v l -> cnt v (spread f l) = f v.
Proof.
  intros f v l. induction l as [|w l IH]; intros ND I; [destruct I|]. inversion ND as [|? ? N1 N2]; subst. unfold spread in *. cbn [flat_map]. rewrite cnt_app, cnt_rep. destruct I as [->|I].
  - pose proof (cnt_out f v l N1) as Z. unfold spread in Z. rewrite veqb_refl, Z. lia.
  - rewrite (IH N2 I). destruct (value_eqb w v) eqn:E; [|lia]. apply value_eqb_eq in E. subst. contradiction.
Qed.
Lemma spread_in : forall f l w, In w (spread f l) -> In w l.
Proof. intros f l w H. unfold spread in H. apply in_flat_map in H. destruct H as (u & I & J). apply repeat_spec in J. subst. exact I. Qed.

(** A colour for every type. *)
Definition some_value (tab : list tdecl) (ty : nat) : value := match nth_error tab ty with Some (TProd cs) => VT (map (fun _ => 0) cs) | _ => VE 0 end.
Lemma some_value_ok : forall n ty d, tab_ok n -> nth_error (cn_types n) ty = Some d -> vtyped (cn_types n) ty (some_value (cn_types n) ty).
Proof.
  intros n ty d (_ & T1 & T2 & _) E. unfold vtyped, some_value. rewrite E. destruct d as [k|cs]; [apply (T1 _ _ E)|]. assert (K : forall c, In c cs -> 0 < esize (cn_types n) c) by (intros c I; apply (T2 ty cs c E I)).
  clear -K. induction cs as [|c cs IH]; cbn [map]; constructor; [apply K; left; reflexivity|]. apply IH. intros; apply K; right; auto.
Qed.

Section Move.
Variable used_t used_p : nat -> bool.
Variable r r' : rnet.
Notation n := (r_net r).
Notation n' := (r_net r').
Variable p t x ty : nat.
Variable tr : ctrans.
Variable sk : bool.
Hypothesis ET : nth_error (cn_trs n) t = Some tr.
Hypothesis GN : ct_guard tr = None.
Hypothesis IN : ct_in tr = [(p, ANum [EVar x] 1)].
Hypothesis NR : ~ In t (r_trs r).
Hypothesis TOK : tab_ok n.
Hypothesis VOK : forall v ty, nth_error (cn_vars n) v = Some ty -> exists d, nth_error (cn_types n) ty = Some d.
Hypothesis TX : nth_error (cn_vars n) x = Some ty.
Hypothesis ONLY : forall u tru, nth_error (cn_trs n) u = Some tru -> u <> t -> ~ In p (map fst (ct_in tru)).
Hypothesis NOPRE : sk = true -> forall u tru, nth_error (cn_trs n) u = Some tru -> ~ In p (map fst (ct_out tru)).
Hypothesis INH : forall q u w, In (q, u, w) (cn_inh n) -> u <> t /\ q <> p /\ ~ In q (map fst (ct_out tr)).
Hypothesis OUTS : forall o, In o (ct_out tr) -> forall b v, mval (cn_types n) (cn_vars n) b (snd o) v = if value_eqb (b x) v then 1%N else 0%N.
Hypothesis ONE : one_arc (ct_out tr).
Hypothesis NSELF : ~ In p (map fst (ct_out tr)).
Hypothesis UT : used_t t = false.
Hypothesis UP : used_p p = false.
Hypothesis UO : forall q, In q (map fst (ct_out tr)) -> used_p q = false /\ forall u tru, nth_error (cn_trs n) u = Some tru -> In q (map fst (ct_in tru)) -> used_t u = false.
Hypothesis TYP : forall v, (0 < cinit n p v)%N -> vtyped (cn_types n) ty v.
Hypothesis R1 : cn_types n' = cn_types n.
Hypothesis R2 : cn_vars n' = cn_vars n.
Hypothesis R3 : forall q, ptype n' q = ptype n q.
Hypothesis R4 : forall u, u <> t -> nth_error (cn_trs n') u = nth_error (cn_trs n) u.
Hypothesis R5 : sk = false -> nth_error (cn_trs n') t = Some tr.
Hypothesis R6 : forall z, In z (cn_inh n') <-> In z (cn_inh n).
Hypothesis R7 : forall u, In u (r_trs r') <-> In u (r_trs r) \/ (sk = true /\ u = t).
Definition outb (q : nat) : bool := existsb (Nat.eqb q) (map fst (ct_out tr)).
Hypothesis R8 : forall q v, q <> p -> cinit n' q v = (cinit n q v + if outb q then cinit n p v else 0)%N.
Hypothesis R9 : sk = false -> forall v, cinit n' p v = 0%N.

Lemma outb_in : forall q, outb q = true <-> In q (map fst (ct_out tr)).
Proof. intros q. unfold outb. rewrite existsb_exists. split; [intros (y & I & E); apply Nat.eqb_eq in E; subst; exact I|intros I; exists q; split; [exact I|apply Nat.eqb_refl]]. Qed.
Lemma outb_p : outb p = false.
Proof. destruct (outb p) eqn:E; [|reflexivity]. apply outb_in in E. contradiction. Qed.
Lemma moved_eq : forall b l q v, moved n' b l q v = moved n b l q v.
Proof. intros. unfold moved. rewrite R1, R2. reflexivity. Qed.
Lemma in_t : forall b q v, moved n b (ct_in tr) q v = if Nat.eqb q p then (if value_eqb (b x) v then 1%N else 0%N) else 0%N.
Proof. intros b q v. rewrite IN. unfold moved. cbn. rewrite (Nat.eqb_sym p q). destruct (Nat.eqb q p); [|reflexivity]. destruct (value_eqb (b x) v); reflexivity. Qed.
Lemma out_t : forall b q v, moved n b (ct_out tr) q v = if outb q then (if value_eqb (b x) v then 1%N else 0%N) else 0%N.
Proof.
  intros b q v. destruct (outb q) eqn:E.
  - apply outb_in in E. destruct (find_arc q (ct_out tr)) as [a|] eqn:F; [|apply find_arc_none in F; contradiction]. rewrite (moved_one n b _ q v a ONE F). apply (OUTS (q, a)). apply find_arc_in. exact F.
  - apply moved_none. intros K. apply outb_in in K. congruence.
Qed.

Definition rel (M M' : cmark) : Prop := exists D : value -> N, (forall v, (D v <= M p v)%N) /\ (forall v, if sk then M p v = D v else M' p v = (M p v - D v)%N) /\
  forall q v, q <> p -> M' q v = (M q v + if outb q then D v else 0)%N.

Lemma total_rel : forall M M' q u w, rel M M' -> In (q, u, w) (cn_inh n) -> total n' M' q = total n M q.
Proof.
  intros M M' q u w (D & _ & _ & H) I. destruct (INH _ _ _ I) as (_ & NP & NO). unfold total. rewrite R1, R3. apply sum_ext. intros v _. rewrite H by exact NP.
  destruct (outb q) eqn:E; [apply outb_in in E; contradiction|lia].
Qed.
Lemma binds_eq : forall b, binds n' b <-> binds n b.
Proof. intros b. unfold binds. rewrite R1, R2. reflexivity. Qed.

(** A step of another transition. *)
Lemma other_fwd : forall M M' u M1, u <> t -> rel M M' -> rstep r M u M1 -> exists M1', rstep r' M' u M1' /\ rel M1 M1'.
Proof.
  intros M M' u M1 NE RL [NI (tru & b & EU & (B1 & B2 & B3 & B4) & F)]. pose proof RL as (D & D1 & D2 & D3).
  exists (fun q v => (M' q v - moved n b (ct_in tru) q v + moved n b (ct_out tru) q v)%N). split.
  - split; [rewrite R7; intros [K|[_ K]]; contradiction|]. exists tru, b. split; [rewrite R4; auto|]. split; [|intros; rewrite !moved_eq; reflexivity].
    split; [apply binds_eq; exact B1|]. split; [rewrite R1, R2; exact B2|]. split.
    + intros q v. rewrite moved_eq. destruct (Nat.eq_dec q p) as [->|E]; [rewrite moved_none by (apply (ONLY u tru EU NE)); lia|]. rewrite D3 by exact E. specialize (B3 q v). lia.
    + intros q w I. apply R6 in I. rewrite (total_rel M M' q u w RL I). apply B4. exact I.
  - exists D. pose proof (ONLY u tru EU NE) as NP. split; [|split].
    + intros v. rewrite F. rewrite moved_none by exact NP. specialize (D1 v). lia.
    + intros v. rewrite F. rewrite (moved_none n b (ct_in tru) p v NP). specialize (D1 v). specialize (D2 v). pose proof (fun H => moved_none n b (ct_out tru) p v (NOPRE H u tru EU)) as Z. destruct sk; [rewrite Z by reflexivity; lia|]. lia.
    + intros q v E. rewrite F, D3 by exact E. specialize (B3 q v). lia.
Qed.
Lemma t_fwd : forall M M' M1, rel M M' -> rstep r M t M1 -> exists M1', (rstep r' M' t M1' \/ (forall q v, M1' q v = M' q v)) /\ rel M1 M1'.
Proof.
  intros M M' M1 RL [NI (tru & b & EU & (B1 & B2 & B3 & B4) & F)]. rewrite ET in EU. injection EU as <-. pose proof RL as (D & D1 & D2 & D3).
  set (c := b x) in *. pose proof (B3 p c) as G. rewrite in_t, Nat.eqb_refl in G. fold c in G. rewrite veqb_refl in G.
  destruct (N.eq_dec (D c) 0) as [Z|Z].
  - destruct sk eqn:ES; [exfalso; specialize (D2 c); lia|].
    exists (fun q v => (M' q v - moved n b (ct_in tr) q v + moved n b (ct_out tr) q v)%N). split.
    + left. split; [rewrite R7; intros [K|[K _]]; [contradiction|discriminate K]|]. exists tr, b. split; [apply R5; reflexivity|]. split; [|intros; rewrite !moved_eq; reflexivity].
      split; [apply binds_eq; exact B1|]. split; [rewrite GN; discriminate|]. split.
      * intros q v. rewrite moved_eq, in_t. destruct (Nat.eqb_spec q p) as [->|E]; [|lia]. fold c. destruct (value_eqb c v) eqn:EV; [|lia]. apply value_eqb_eq in EV. subst v. specialize (D2 c). cbn beta in D2. lia.
      * intros q w I. apply R6 in I. destruct (INH _ _ _ I) as [K _]. contradiction.
    + exists D. split; [|split].
      * intros v. rewrite F, in_t, out_t, Nat.eqb_refl, outb_p. fold c. specialize (D1 v). destruct (value_eqb c v) eqn:EV; [|lia]. apply value_eqb_eq in EV. subst v. lia.
      * intros v. rewrite ES, F, in_t, out_t, Nat.eqb_refl, outb_p. fold c. specialize (D2 v). specialize (D1 v). rewrite D2. lia.
      * intros q v E. rewrite F, D3 by exact E. rewrite in_t. destruct (Nat.eqb_spec q p); [contradiction|]. lia.
  - exists M'. split; [right; reflexivity|]. exists (fun v => (D v - if value_eqb c v then 1 else 0)%N). split; [|split].
    + intros v. rewrite F, in_t, out_t, Nat.eqb_refl, outb_p. fold c. specialize (D1 v). lia.
    + intros v. rewrite F, in_t, out_t, Nat.eqb_refl, outb_p. fold c. specialize (D1 v). specialize (D2 v). destruct sk; [rewrite D2; lia|]. rewrite D2. destruct (value_eqb c v) eqn:EV; [|lia]. apply value_eqb_eq in EV. subst v. lia.
    + intros q v E. rewrite F, D3 by exact E. rewrite in_t, out_t. destruct (Nat.eqb_spec q p); [contradiction|]. fold c. destruct (outb q); [|lia]. destruct (value_eqb c v) eqn:EV; [|lia]. apply value_eqb_eq in EV. subst v. lia.
Qed.
Lemma rel_ext : forall M M' N', (forall q v, N' q v = M' q v) -> rel M N' -> rel M M'.
Proof. intros M M' N' E (D & D1 & D2 & D3). exists D. split; [exact D1|]. split; [intros v; specialize (D2 v); destruct sk; [exact D2|rewrite <- E; exact D2]|intros q v H; rewrite <- E; auto]. Qed.
Lemma forward : forall M, rreach r M -> exists M', rreach r' M' /\ rel M M'.
Proof.
  intros M H. induction H as [M E|M u M1 R (M' & R' & RL) S].
  - exists (cinit n'). split; [apply reach_init; reflexivity|]. exists (cinit n p). split; [intros v; rewrite E; lia|]. split; [|intros q v NE; rewrite E; apply R8; exact NE].
    intros v. rewrite E. destruct sk eqn:ES; [reflexivity|]. rewrite (R9 eq_refl). lia.
  - destruct (Nat.eq_dec u t) as [->|NE].
    + destruct (t_fwd M M' M1 RL S) as (M1' & [K|K] & RL1); [exists M1'; split; [eapply reach_step; eauto|exact RL1]|]. exists M'. split; [exact R'|]. exact (rel_ext _ _ _ K RL1).
    + destruct (other_fwd M M' u M1 NE RL S) as (M1' & K & RL1). exists M1'. split; [eapply reach_step; eauto|exact RL1].
Qed.

(** The tokens are moved one by one. *)
Lemma drain : forall ws M, rreach r M -> (forall w, In w ws -> vtyped (cn_types n) ty w) -> (forall v, (cnt v ws <= M p v)%N) ->
  exists M2, rreach r M2 /\ (forall v, M2 p v = (M p v - cnt v ws)%N) /\ forall q v, q <> p -> M2 q v = (M q v + if outb q then cnt v ws else 0)%N.
Proof.
  induction ws as [|w ws IH]; intros M R TW L.
  - exists M. split; [exact R|]. split; [intros v; unfold cnt; cbn; lia|]. intros q v _. unfold cnt. cbn. destruct (outb q); lia.
  - set (b := fun y => if Nat.eqb y x then w else match nth_error (cn_vars n) y with Some k => some_value (cn_types n) k | None => VE 0 end).
    assert (BX : b x = w) by (unfold b; rewrite Nat.eqb_refl; reflexivity).
    destruct (IH (fun q v => (M q v - moved n b (ct_in tr) q v + moved n b (ct_out tr) q v)%N)) as (M2 & A1 & A2 & A3).
    + apply (@reach_step _ M t); [exact R|]. split; [exact NR|]. exists tr, b. split; [exact ET|]. split; [|reflexivity]. split; [|split; [rewrite GN; discriminate|split]].
      * intros y k E. unfold b. destruct (Nat.eqb_spec y x) as [->|NE]; [rewrite TX in E; injection E as <-; apply TW; left; reflexivity|]. rewrite E. destruct (VOK _ _ E) as (d & ED). exact (some_value_ok n k d TOK ED).
      * intros q v. rewrite in_t, BX. destruct (Nat.eqb_spec q p) as [->|E]; [|lia]. specialize (L v). rewrite cnt_cons in L. lia.
      * intros q k I. destruct (INH _ _ _ I) as [K _]. contradiction.
    + intros; apply TW; right; auto.
    + intros v. rewrite in_t, out_t, Nat.eqb_refl, outb_p, BX. specialize (L v). rewrite cnt_cons in L. lia.
    + exists M2. split; [exact A1|]. split.
      * intros v. rewrite A2, in_t, out_t, Nat.eqb_refl, outb_p, BX, cnt_cons. lia.
      * intros q v E. rewrite A3 by exact E. rewrite in_t, out_t, BX, cnt_cons. destruct (Nat.eqb_spec q p); [contradiction|]. destruct (outb q); lia.
Qed.
Definition rel0 (M M' : cmark) : Prop := (forall q v, q <> p -> M' q v = M q v) /\ forall v, if sk then M p v = 0%N else M' p v = M p v.
Lemma rel0_rel : forall M M', rel0 M M' -> rel M M'.
Proof.
  intros M M' [A B]. exists (fun _ => 0%N). split; [intros; lia|]. split; [intros v; specialize (B v); destruct sk; lia|]. intros q v E. rewrite A by exact E. destruct (outb q); lia.
Qed.
Lemma backward : forall M', rreach r' M' -> exists M, rreach r M /\ rel0 M M'.
Proof.
  intros M' H. induction H as [M' E|M' u M1' R (M & RM & [A B]) [NI (tru & b & EU & (B1 & B2 & B3 & B4) & F)]].
  - destruct (values_spec n TOK ty) as [ND VI].
    assert (C : forall v, cnt v (spread (cinit n p) (values (cn_types n) ty)) = cinit n p v).
    { intros v. destruct (N.eq_dec (cinit n p v) 0) as [Z|Z].
      - destruct (In_dec (fun a b : value => match bool_dec (value_eqb a b) true with left e => left (proj1 (value_eqb_eq a b) e) | right f => right (fun e => f (proj2 (value_eqb_eq a b) e)) end) v (values (cn_types n) ty)) as [I|I]; [apply cnt_in; auto|rewrite cnt_out; auto].
      - apply cnt_in; [exact ND|]. apply VI. apply TYP. lia. }
    destruct (drain (spread (cinit n p) (values (cn_types n) ty)) (cinit n)) as (M2 & A1 & A2 & A3).
    + apply reach_init. reflexivity.
    + intros w I. apply VI. eapply spread_in. exact I.
    + intros v. rewrite C. lia.
    + exists M2. split; [exact A1|]. split; [intros q v NE; rewrite E, A3, C by exact NE; apply R8; exact NE|]. intros v. rewrite A2, C. destruct sk eqn:ES; [lia|]. rewrite E, (R9 eq_refl). lia.
  - assert (NT : sk = true -> u <> t) by (intros K ->; apply NI; apply R7; right; auto).
    assert (EU' : nth_error (cn_trs n) u = Some tru). { destruct (Nat.eq_dec u t) as [->|NE]; [|rewrite <- R4; auto]. destruct sk eqn:ES; [destruct (NT eq_refl); reflexivity|]. rewrite (R5 eq_refl) in EU. injection EU as <-. exact ET. }
    assert (ZI : forall v, sk = true -> moved n b (ct_in tru) p v = 0%N) by (intros v K; apply moved_none; apply (ONLY u tru EU'); auto).
    assert (ZO : forall v, sk = true -> moved n b (ct_out tru) p v = 0%N) by (intros v K; apply moved_none; apply (NOPRE K u tru EU')).
    exists (fun q v => (M q v - moved n b (ct_in tru) q v + moved n b (ct_out tru) q v)%N). split; [|split].
    + apply (@reach_step _ M u); [exact RM|]. split; [intros K; apply NI; apply R7; left; exact K|]. exists tru, b. split; [exact EU'|]. split; [|reflexivity].
      split; [apply binds_eq; exact B1|]. split; [rewrite R1, R2 in B2; exact B2|]. split.
      * intros q v. specialize (B3 q v). rewrite moved_eq in B3. destruct (Nat.eq_dec q p) as [->|NE]; [|rewrite <- A by exact NE; exact B3]. specialize (B v). destruct sk eqn:ES; [rewrite (ZI v eq_refl); lia|]. rewrite <- B. exact B3.
      * intros q w I. specialize (B4 q w (proj2 (R6 _) I)). rewrite (total_rel M M' q u w (rel0_rel M M' (conj A B)) I) in B4. exact B4.
    + intros q v NE. rewrite F, !moved_eq, A by exact NE. reflexivity.
    + intros v. specialize (B v). specialize (ZI v). specialize (ZO v). destruct sk eqn:ES; [rewrite ZI, ZO by reflexivity; lia|]. rewrite F, !moved_eq, B. reflexivity.
Qed.

Lemma rel_view : forall M M', rel M M' -> same_view used_t used_p r r' M M'.
Proof.
  intros M M' RL. pose proof RL as (D & D1 & D2 & D3). split.
  - intros q v U. destruct (Nat.eq_dec q p) as [->|NE]; [congruence|]. rewrite D3 by exact NE. destruct (outb q) eqn:E; [|lia]. apply outb_in in E. destruct (UO q E). congruence.
  - intros u U. assert (NE : u <> t) by (intros ->; congruence). split.
    + intros (M1 & S). destruct (other_fwd M M' u M1 NE RL S) as (M1' & S' & _). exists M1'. exact S'.
    + intros (M1' & NI & (tru & b & EU & (B1 & B2 & B3 & B4) & F)). rewrite R4 in EU by exact NE.
      exists (fun q v => (M q v - moved n b (ct_in tru) q v + moved n b (ct_out tru) q v)%N). split; [intros K; apply NI; apply R7; left; exact K|]. exists tru, b. split; [exact EU|]. split; [|reflexivity].
      split; [apply binds_eq; exact B1|]. split; [rewrite R1, R2 in B2; exact B2|]. split.
      * intros q v. specialize (B3 q v). rewrite moved_eq in B3. destruct (Nat.eq_dec q p) as [->|NQ]; [rewrite moved_none by (apply (ONLY u tru EU NE)); lia|]. rewrite D3 in B3 by exact NQ.
        destruct (outb q) eqn:E; [|lia]. apply outb_in in E. rewrite moved_none; [lia|]. intros K. destruct (UO q E) as [_ W]. specialize (W u tru EU K). congruence.
      * intros q w I. specialize (B4 q w (proj2 (R6 _) I)). rewrite (total_rel M M' q u w RL I) in B4. exact B4.
Qed.
Lemma move_same : same_answers used_t used_p r r'.
Proof.
  split; [intros M R; destruct (forward M R) as (M' & R' & RL); exists M'|intros M' R; destruct (backward M' R) as (M & R' & RL); exists M; apply rel0_rel in RL]; split; auto using rel_view.
Qed.
End Move.
