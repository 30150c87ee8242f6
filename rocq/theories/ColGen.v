(** The naive binding generator lists the bindings satisfying the guard, each once (C34). *)
From Verif Require Import Base BaseLemmas BuilderModel BuilderSpec ColSyntax ColSpec ColModel ColRadix ColEval.

(** First positions where a test holds. *)
Section Filter.
Variable ev : nat -> bool.
Variable p : nat.
Definition later (k : nat) : list nat := filter ev (seq (S k) (p - 1 - k)).

Lemma later_step : forall k, S k < p -> later k = if ev (S k) then S k :: later (S k) else later (S k).
Proof.
  intros k H. unfold later. replace (p - 1 - k) with (S (p - 1 - S k)) by lia. cbn [seq filter]. reflexivity.
Qed.
Lemma later_last : forall k, p <= S k -> later k = [].
Proof. intros. unfold later. replace (p - 1 - k) with 0 by lia. reflexivity. Qed.

Lemma later_cons : forall d k j l, d = p - k -> later k = j :: l -> k < j < p /\ ev j = true /\ l = later j.
Proof.
  induction d as [|d IH]; intros k j l D H.
  - rewrite later_last in H by lia. discriminate.
  - destruct (Nat.lt_ge_cases (S k) p) as [L|L].
    + rewrite later_step in H by auto. destruct (ev (S k)) eqn:E.
      * inversion H; subst. auto.
      * destruct (IH (S k) j l) as (A & B & C); [lia|auto|]. split; [lia|auto].
    + rewrite later_last in H by lia. discriminate.
Qed.

Lemma filter_all : forall k, k < p -> filter ev (seq k (p - k)) = if ev k then k :: later k else later k.
Proof. intros. unfold later. replace (p - k) with (S (p - 1 - k)) by lia. reflexivity. Qed.
End Filter.

Section Gen.
Variable n : cpn.
Notation tab := (cn_types n).
Notation vars := (cn_vars n).
Notation cmap := (cn_map n).
Variable g : option gexp.
Variable vs : list nat.
Definition vsizes : list nat := map (fun v => csize tab (nth v vars 0)) vs.
Definition bk (k : nat) : bmap := combine vs (digits vsizes k).
Hypothesis pos : Forall (fun s => 0 < s) vsizes.
Variable ev : nat -> bool.
Hypothesis evk : forall k, k < prod vsizes -> gen_eval tab cmap vars g (bk k) = Ok (ev k).
Notation p := (prod vsizes).

Lemma advance_bk : forall k, k < p -> advance tab vars (bk k) = bk (if Nat.eqb (S k) p then 0 else S k).
Proof.
  clear evk. unfold bk, vsizes in *. induction vs as [|v ws IH]; intros k H; [destruct (Nat.eqb (S k) _); reflexivity|].
  cbn [map] in *. inversion pos as [|? ? S0 F]; subst. cbn [digits combine advance prod] in *.
  set (s := csize tab (nth v vars 0)) in *. set (r := map (fun v => csize tab (nth v vars 0)) ws) in *.
  pose proof (Nat.div_mod k s ltac:(lia)) as DM. pose proof (Nat.mod_upper_bound k s ltac:(lia)) as MU.
  assert (Q : k / s < prod r) by (apply Nat.div_lt_upper_bound; lia).
  destruct (Nat.leb_spec (s - 1) (k mod s)) as [L|L].
  - rewrite Nat.eqb_refl. rewrite IH by auto.
    assert (E1 : S k = (k / s + 1) * s) by nia.
    destruct (Nat.eqb_spec (S (k / s)) (prod r)) as [E|E].
    + assert (E2 : S k = s * prod r) by (rewrite <- E; nia). apply Nat.eqb_eq in E2. rewrite E2.
      rewrite Nat.mod_small, Nat.div_small by lia. reflexivity.
    + assert (E2 : S k <> s * prod r) by nia. apply Nat.eqb_neq in E2. rewrite E2.
      rewrite E1, Nat.mod_mul, Nat.div_mul by lia. rewrite Nat.add_1_r. reflexivity.
  - assert (E0 : Nat.eqb (k mod s + 1) 0 = false) by (apply Nat.eqb_neq; lia). rewrite E0.
    assert (E2 : S k <> s * prod r) by nia. apply Nat.eqb_neq in E2. rewrite E2.
    assert (E1 : S k = (k mod s + 1) + (k / s) * s) by nia.
    rewrite E1, Nat.mod_add, Nat.div_add by lia. rewrite (Nat.mod_small (k mod s + 1)), (Nat.div_small (k mod s + 1)) by lia. reflexivity.
Qed.

Lemma initial_bk : forall k, k < p -> is_initial (bk k) = Nat.eqb k 0.
Proof.
  clear evk. unfold bk, vsizes in *. induction vs as [|v ws IH]; intros k H.
  - cbn in *. replace k with 0 by lia. reflexivity.
  - cbn [map] in *. inversion pos as [|? ? S0 F]; subst. cbn [digits combine prod is_initial forallb snd] in *.
    set (s := csize tab (nth v vars 0)) in *. set (r := map (fun v => csize tab (nth v vars 0)) ws) in *.
    assert (Q : k / s < prod r) by (apply Nat.div_lt_upper_bound; lia).
    change (forallb (fun x : nat * nat => Nat.eqb (snd x) 0) (combine ws (digits r (k / s)))) with (is_initial (combine ws (digits r (k / s)))).
    rewrite IH by auto. pose proof (Nat.div_mod k s ltac:(lia)) as DM.
    destruct (Nat.eqb_spec (k mod s) 0), (Nat.eqb_spec (k / s) 0), (Nat.eqb_spec k 0); cbn; auto; try nia.
Qed.

Lemma next_ok : forall f k, k < p -> p - k <= f ->
  next_binding tab cmap vars g f (bk k) = Ok (match later ev p k with [] => bk 0 | j :: _ => bk j end).
Proof.
  induction f as [|f IH]; intros k K F; [lia|]. cbn [next_binding]. rewrite advance_bk by auto.
  destruct (Nat.eqb_spec (S k) p) as [E|E].
  - rewrite initial_bk by lia. cbn. rewrite later_last by lia. reflexivity.
  - rewrite initial_bk by lia. replace (Nat.eqb (S k) 0) with false by (symmetry; apply Nat.eqb_neq; lia).
    rewrite evk by lia. cbn [bind]. rewrite later_step by lia.
    destruct (ev (S k)); [reflexivity|]. apply IH; lia.
Qed.

Lemma loop_ok : forall f k wrap, k < p -> p - k <= f -> p <= wrap ->
  gen_loop tab cmap vars g wrap f (bk k) = Ok (map bk (k :: later ev p k)).
Proof.
  induction f as [|f IH]; intros k wrap K F W; [lia|]. cbn [gen_loop]. rewrite next_ok by lia. cbn [bind].
  destruct (later ev p k) as [|j l] eqn:E.
  - rewrite initial_bk by lia. reflexivity.
  - destruct (later_cons ev p _ _ _ _ eq_refl E) as (J & _ & ->). rewrite initial_bk by lia.
    replace (Nat.eqb j 0) with false by (symmetry; apply Nat.eqb_neq; lia).
    rewrite IH by lia. reflexivity.
Qed.

Lemma naive_ok : naive_bindings tab cmap vars g vs = Ok (map bk (filter ev (seq 0 p))).
Proof.
  unfold naive_bindings. rewrite fold_mul, Nat.mul_1_l. fold vsizes. unfold naive_gen.
  assert (P0 : 0 < p) by (apply prod_pos; auto).
  assert (B0 : map (fun v => (v, 0)) vs = bk 0).
  { clear evk P0. unfold bk, vsizes in *. induction vs as [|v ws IH]; cbn in *; [reflexivity|]. inversion pos; subst.
    rewrite Nat.mod_small, Nat.div_small by auto. f_equal. auto. }
  rewrite B0, evk by auto. cbn [bind].
  pose proof (filter_all ev p 0 P0) as FA. rewrite Nat.sub_0_r in FA. rewrite FA.
  destruct (ev 0) eqn:E0.
  - cbn [bind]. rewrite evk, E0 by auto. cbn [bind negb]. apply loop_ok; lia.
  - rewrite next_ok by lia. cbn [bind]. destruct (later ev p 0) as [|j l] eqn:EL.
    + rewrite evk, E0 by auto. reflexivity.
    + destruct (later_cons ev p _ _ _ _ eq_refl EL) as (J & Ej & ->). rewrite evk, Ej by lia. cbn [bind negb].
      apply loop_ok; lia.
Qed.

End Gen.

Section Bindings.
Variable n : cpn.
Notation tab := (cn_types n).
Notation vars := (cn_vars n).
Notation cmap := (cn_map n).
Hypothesis T : tab_ok n.
Hypothesis TV : forall v ty, nth_error vars v = Some ty -> exists d, nth_error tab ty = Some d.

(** The assignment of a list of colour numbers. *)
Definition assign_of (vs : list nat) (b : bmap) : assignment := fun v =>
  match blook b v with Some i => val_of n (nth v vars 0) i | None => val_of n (nth v vars 0) 0 end.

Lemma blook_combine : forall vs l v, blook (combine vs l) v =
  match index_of v vs with Some k => nth_error l k | None => None end.
Proof.
  induction vs as [|u vs IH]; intros [|i l] v; cbn; auto.
  - destruct (Nat.eqb v u); auto. destruct (index_of v vs); auto.
  - rewrite (Nat.eqb_sym u v). destruct (Nat.eqb v u); auto. rewrite IH. destruct (index_of v vs); auto.
Qed.

Lemma index_of_in : forall v vs, In v vs -> exists k, index_of v vs = Some k /\ nth_error vs k = Some v.
Proof.
  induction vs as [|u vs IH]; intros H; [contradiction|]. cbn. destruct (Nat.eqb_spec v u).
  - subst. exists 0. auto.
  - destruct H as [->|H]; [congruence|]. destruct (IH H) as (k & -> & E). exists (S k). auto.
Qed.

Lemma Forall2_nth : forall {A B} (P : A -> B -> Prop) l m k x y, Forall2 P l m ->
  nth_error l k = Some x -> nth_error m k = Some y -> P x y.
Proof.
  intros A B P l m k x y H. revert k. induction H; intros [|k] E1 E2; cbn in *; try discriminate.
  - congruence.
  - eauto.
Qed.

Variable vs : list nat.
Hypothesis VB : forall v, In v vs -> v < length vars.

Lemma var_type : forall v, In v vs -> nth_error vars v = Some (nth v vars 0).
Proof. intros. apply nth_error_nth'. auto. Qed.

Lemma vsizes_pos : Forall (fun s => 0 < s) (vsizes n vs).
Proof.
  apply Forall_forall. intros s I. unfold vsizes in I. apply in_map_iff in I. destruct I as (v & <- & I).
  destruct (TV v _ (var_type v I)) as [d D]. eapply csize_pos; eauto.
Qed.

(** Every row of numbers is a binding. *)
Lemma bk_brel : forall k, brel n (bk n vs k) (assign_of vs (bk n vs k)) vs.
Proof.
  intros k v I. unfold assign_of. unfold bk. rewrite blook_combine.
  destruct (index_of_in _ _ I) as (j & -> & E).
  destruct (nth_error (digits (vsizes n vs) k) j) as [i|] eqn:D.
  - assert (L : i < csize tab (nth v vars 0)).
    { eapply (Forall2_nth (fun i s => i < s)); [apply digits_lt, vsizes_pos|exact D|]. unfold vsizes.
      rewrite nth_error_map, E. reflexivity. }
    split; [apply val_typed; auto|]. rewrite num_val; auto.
  - apply nth_error_None in D. rewrite digits_length in D. unfold vsizes in D. rewrite map_length in D.
    apply nth_error_lt in E. lia.
Qed.

Lemma assign_binds : forall k, binds n (assign_of vs (bk n vs k)).
Proof.
  intros k v ty E. pose proof (nth_error_nth vars v 0 E) as Ev.
  destruct (in_dec Nat.eq_dec v vs) as [I|I].
  - destruct (bk_brel k v I) as [H _]. rewrite Ev in H. auto.
  - unfold assign_of. unfold bk. rewrite blook_combine.
    assert (N : index_of v vs = None).
    { clear - I. induction vs; cbn; auto. destruct (Nat.eqb_spec v a); [subst; exfalso; apply I; cbn; auto|].
      rewrite IHl; auto. intros X. apply I. cbn. auto. }
    rewrite N, Ev. apply val_typed; auto. destruct (TV v _ E) as [d D]. eapply csize_pos; eauto.
Qed.

(** Every assignment is represented by a row. *)
Lemma bk_all : forall a, binds n a -> exists k, k < prod (vsizes n vs) /\ brel n (bk n vs k) a vs.
Proof.
  intros a B. set (l := map (fun v => vnum tab (nth v vars 0) (a v)) vs).
  assert (F : Forall2 (fun i s => i < s) l (vsizes n vs)).
  { unfold l, vsizes. clear l. assert (VB' := VB). clear VB.
    induction vs as [|v ws IH]; cbn; constructor.
    - apply vnum_lt; auto. apply B. apply nth_error_nth'. apply VB'. cbn. auto.
    - apply IH. intros. apply VB'. cbn. auto. }
  exists (tuple_num (vsizes n vs) l). split; [apply num_lt; auto|].
  intros v I. split; [apply B, var_type; auto|].
  unfold bk. rewrite digits_num by auto. rewrite blook_combine. destruct (index_of_in _ _ I) as (j & -> & E).
  unfold l. rewrite nth_error_map, E. reflexivity.
Qed.

(** The bindings found: sound and complete. *)
Lemma naive_bindings_ok : forall g, (forall e, g = Some e -> gtyped n e /\ incl (gvars e) vs) ->
  exists bs, naive_bindings tab cmap vars g vs = Ok bs /\
    (forall b, In b bs -> exists a, binds n a /\ brel n b a vs /\ forall e, g = Some e -> gval tab vars a e = true) /\
    (forall a, binds n a -> (forall e, g = Some e -> gval tab vars a e = true) ->
       exists b, In b bs /\ brel n b a vs).
Proof.
  intros g G.
  set (ev := fun k => match g with None => true | Some e => gval tab vars (assign_of vs (bk n vs k)) e end).
  assert (EV : forall k, k < prod (vsizes n vs) -> gen_eval tab cmap vars g (bk n vs k) = Ok (ev k)).
  { intros k _. unfold gen_eval, ev. destruct g as [e|]; auto. destruct (G e eq_refl) as [Ge I].
    apply geval_ok; auto. eapply brel_incl; [apply bk_brel|exact I]. }
  eexists. split; [apply naive_ok with (ev := ev); [apply vsizes_pos|exact EV]|]. split.
  - intros b I. apply in_map_iff in I. destruct I as (k & <- & I). apply filter_In in I. destruct I as [_ I].
    exists (assign_of vs (bk n vs k)). split; [apply assign_binds|]. split; [apply bk_brel|].
    intros e E. unfold ev in I. rewrite E in I. auto.
  - intros a B H. destruct (bk_all a B) as (k & K & R). exists (bk n vs k). split; [|exact R].
    apply in_map. apply filter_In. split; [apply in_seq; lia|]. unfold ev. destruct g as [e|] eqn:E; auto.
    destruct (G e eq_refl) as [Ge I].
    pose proof (geval_ok n T e _ _ Ge (brel_incl n _ _ _ _ (bk_brel k) I)) as E1.
    pose proof (geval_ok n T e _ _ Ge (brel_incl n _ _ _ _ R I)) as E2.
    rewrite E1 in E2. injection E2 as E3. rewrite E3. apply H. reflexivity.
Qed.

End Bindings.
