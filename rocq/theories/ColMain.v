(** The unfolded net behaves as the coloured net (C34). *)
From Verif Require Import Base BaseLemmas BuilderModel BuilderSpec BuilderMain ColSyntax ColSpec ColModel ColRadix ColEval ColGen ColCorr ColUnfold.
From Coq Require Import Permutation.

Section Main.
Variable n : cpn.
Notation tab := (cn_types n).
Notation vars := (cn_vars n).
Notation np := (length (cn_pls n)).
Hypothesis OK : cpn_ok n.
Variable enc : uname -> nat.
Variable enct : nat -> nat -> nat.
Hypothesis EI : forall u v, enc u = enc v -> u = v.
Hypothesis TI : forall t i t' i', enct t i = enct t' i' -> t = t' /\ i = i'.
Notation psize := (psize n).
Notation pval := (pval n).
Lemma Tk : tab_ok n.
Proof. exact (proj1 OK). Qed.

(** ** Sums over the registered names *)
Section Names.
Variable s : ust.
Hypothesis I : inv n enc enct s.

Definition kn (p c : nat) : bool := match klook (pnames s p) (N.of_nat c) with Some _ => true | None => false end.
Definition reg (p : nat) : bool := kn p (psize p).

Lemma kn_known : forall p c, c < psize p -> (kn p c = true <-> known s (UCol p c)).
Proof.
  intros p c C. unfold kn. split.
  - destruct (klook (pnames s p) (N.of_nat c)) as [u|] eqn:K; [|discriminate]. intros _. apply klook_some in K.
    destruct (i_names _ _ _ _ I _ _ _ K) as (_ & [(d & D1 & D2 & D3)|(D1 & D2 & D3)]).
    + apply Nnat.Nat2N.inj in D2. subst d u. exact K.
    + apply Nnat.Nat2N.inj in D1. lia.
  - intros H. cbn in H. rewrite (klook_in _ _ _ (i_nodup _ _ _ _ I p) H). auto.
Qed.
Lemma known_lt : forall p c, known s (UCol p c) -> p < np /\ c < psize p.
Proof.
  intros p c H. cbn in H. destruct (i_names _ _ _ _ I _ _ _ H) as (A & [(d & D1 & D2 & D3)|(D1 & D2 & D3)]).
  - apply Nnat.Nat2N.inj in D2. subst d. auto.
  - discriminate.
Qed.

Lemma key_sum : forall K (l : list (N * uname)) (f : uname -> N), NoDup (map fst l) ->
  (forall k u, In (k, u) l -> exists c, c < K /\ k = N.of_nat c) ->
  sumN (map (fun x => f (snd x)) l) =
  sumN (map (fun c => match klook l (N.of_nat c) with Some u => f u | None => 0%N end) (seq 0 K)).
Proof.
  intros K l f ND H.
  transitivity (sumN (map (fun x : N * uname => sumN (map (fun c => if N.eqb (fst x) (N.of_nat c) then f (snd x) else 0%N) (seq 0 K))) l)).
  { apply sum_ext. intros [k u] X. destruct (H k u X) as (c & C & ->). cbn [fst snd].
    rewrite <- (sum_one K c (f u) 0) at 1 by lia. apply sum_ext. intros d D.
    destruct (Nat.eqb_spec c d); destruct (N.eqb_spec (N.of_nat c) (N.of_nat d)); auto; try congruence. lia. }
  rewrite (sum_swap (fun (x : N * uname) c => if N.eqb (fst x) (N.of_nat c) then f (snd x) else 0%N)).
  apply sum_ext. intros c _. clear H. induction l as [|[k u] l IH]; cbn; auto. inversion ND; subst.
  destruct (N.eqb_spec k (N.of_nat c)).
  - rewrite sum_zero; [lia|]. intros [j v] X. cbn. destruct (N.eqb_spec j (N.of_nat c)); auto. exfalso. apply H1.
    apply in_map_iff. exists (j, v). split; auto. cbn. congruence.
  - rewrite IH; auto.
Qed.

Lemma names_sum : forall p (f : uname -> N),
  sumN (map (fun x => f (snd x)) (pnames s p)) =
  (sumN (map (fun c => if kn p c then f (UCol p c) else 0%N) (seq 0 (psize p))) + if reg p then f (USum p) else 0)%N.
Proof.
  intros p f. rewrite (key_sum (S (psize p))).
  - rewrite seq_S, map_app, sumN_app. f_equal.
    + apply sum_ext. intros c C. apply in_seq in C. destruct (kn p c) eqn:E.
      * apply kn_known in E; [|lia]. cbn in E. rewrite (klook_in _ _ _ (i_nodup _ _ _ _ I p) E). auto.
      * unfold kn in E. destruct (klook (pnames s p) (N.of_nat c)); [discriminate|auto].
    + cbn. unfold reg, kn. destruct (klook (pnames s p) (N.of_nat (psize p))) as [u|] eqn:K; [|lia].
      apply klook_some in K. destruct (i_names _ _ _ _ I _ _ _ K) as (_ & [(d & D1 & D2 & D3)|(D1 & D2 & D3)]).
      * apply Nnat.Nat2N.inj in D2. lia.
      * subst u. lia.
  - apply (i_nodup _ _ _ _ I).
  - intros k u H. destruct (i_names _ _ _ _ I _ _ _ H) as (_ & [(d & D1 & D2 & D3)|(D1 & D2 & D3)]); eauto.
Qed.

Definition used (p : nat) : N := sumN (map (fun x => init_of (u_calls s) (enc (snd x))) (pnames s p)).

Lemma total_seq : forall M p, p < np -> total n M p = sumN (map (fun c => M p (pval p c)) (seq 0 (psize p))).
Proof.
  intros M p P. unfold total. destruct (ptype_decl n OK p P) as [d D]. rewrite (values_seq n Tk _ _ D), map_map. reflexivity.
Qed.

Lemma total_small : forall p, p < np -> (total n (cinit n) p < 2147483648)%N.
Proof.
  intros p P. destruct (@nth_error_ex _ _ _ P) as [pl PL]. destruct (marking_ok n OK p pl PL) as (m & _ & R & S).
  rewrite (init_total n OK _ _ _ PL R). auto.
Qed.

Lemma used_eq : forall p,
  used p = (sumN (map (fun c => if kn p c then cinit n p (pval p c) else 0%N) (seq 0 (psize p))) +
            if reg p then total n (cinit n) p else 0)%N.
Proof.
  intros p. unfold used. rewrite (names_sum p (fun u => init_of (u_calls s) (enc u))). f_equal.
  - apply sum_ext. intros c C. apply in_seq in C. destruct (kn p c) eqn:E; auto.
    apply (i_icol _ _ _ _ I). apply kn_known in E; auto. lia.
  - destruct (reg p) eqn:E; auto. unfold reg, kn in E.
    destruct (klook (pnames s p) (N.of_nat (psize p))) as [u|] eqn:K; [|discriminate].
    apply klook_some in K. destruct (i_names _ _ _ _ I _ _ _ K) as (_ & [(d & D1 & D2 & D3)|(D1 & D2 & D3)]).
    + apply Nnat.Nat2N.inj in D2. lia.
    + apply (i_isum _ _ _ _ I). auto.
Qed.
Lemma used_small : forall p, p < np -> (used p < 4294967296)%N.
Proof.
  intros p P. rewrite used_eq. pose proof (total_small p P) as S.
  assert (sumN (map (fun c => if kn p c then cinit n p (pval p c) else 0%N) (seq 0 (psize p))) <= total n (cinit n) p)%N.
  { rewrite total_seq by auto. apply sum_le. intros c _. destruct (kn p c); lia. }
  destruct (reg p); lia.
Qed.

(** ** The orphan places *)
Definition orphans (p : nat) : bool :=
  match pnames s p with [] => true | _ => (used p <? total n (cinit n) p)%N end.

Record stage2 (k : nat) (s' : ust) : Prop := mkSt2 {
  o_len : length (u_pl s') = np;
  o_calls : exists dl, u_calls s' = u_calls s ++ dl /\ Forall (fun c => exists p kk, c = CPlace (enc (UOrph p)) kk) dl;
  o_later : forall p, k <= p -> pnames s' p = pnames s p;
  o_yes : forall p, p < k -> orphans p = true -> (exists kk, pnames s' p = pnames s p ++ [(kk, UOrph p)]) /\
      is_place (u_calls s') (enc (UOrph p)) /\ init_of (u_calls s') (enc (UOrph p)) = (total n (cinit n) p - used p)%N;
  o_no : forall p, p < k -> orphans p = false -> pnames s' p = pnames s p;
  o_only : forall p, is_place (u_calls s') (enc (UOrph p)) -> p < k /\ orphans p = true }.

Lemma init_orph : forall dl cs x, Forall (fun c => exists p kk, c = CPlace (enc (UOrph p)) kk) dl ->
  (forall p, x <> enc (UOrph p)) -> init_of (cs ++ dl) x = init_of cs x.
Proof.
  intros dl. induction dl as [|c dl IH] using rev_ind; intros cs x F H; [rewrite app_nil_r; auto|].
  apply Forall_app in F. destruct F as [F1 F2]. inversion F2; subst. destruct H2 as (p & kk & ->).
  rewrite app_assoc, init_of_snoc. destruct (Nat.eqb_spec (enc (UOrph p)) x) as [E|E]; [exfalso; eapply H; eauto|auto].
Qed.

Lemma stage2_init : forall k s' u, stage2 k s' -> (forall p, u <> UOrph p) -> init_of (u_calls s') (enc u) = init_of (u_calls s) (enc u).
Proof.
  intros k s' u [_ (dl & E & F) _ _ _ _] H. rewrite E. apply init_orph; auto. intros p Q. apply EI in Q. eapply H; eauto.
Qed.

Lemma used_fold : forall (f : uname -> N) l a, (a + sumN (map (fun x : N * uname => f (snd x)) l) < 4294967296)%N ->
  fold_left (fun a x => cw32 (a + f (snd x))) l a = (a + sumN (map (fun x : N * uname => f (snd x)) l))%N.
Proof.
  induction l as [|x l IH]; intros a H; cbn in *; [lia|]. unfold cw32 at 2. rewrite N.mod_small by lia.
  rewrite IH by lia. lia.
Qed.

Lemma orphan_step : forall k pl s', stage2 k s' -> nth_error (cn_pls n) k = Some pl ->
  exists s2, orphan_place n enc k pl s' = Ok s2 /\ stage2 (S k) s2.
Proof.
  intros k pl s' ST PL. pose proof ST as [L C LT Y NO ON].
  assert (K : k < np) by (apply nth_error_lt in PL; auto).
  destruct (marking_ok n OK k pl PL) as (m & Em & R & Sm). unfold orphan_place. rewrite Em. cbn [bind].
  pose proof (init_total n OK _ _ _ PL R) as TT.
  rewrite (LT k (le_n _)).
  assert (SH : forall x, In x (pnames s k) -> forall p, snd x <> UOrph p).
  { intros [j u] X p E. cbn in E. subst u. destruct (i_names _ _ _ _ I _ _ _ X) as (_ & [(d & D1 & D2 & D3)|(D1 & D2 & D3)]); discriminate. }
  assert (US : fold_left (fun a x => cw32 (a + init_of (u_calls s') (enc (snd x)))) (pnames s k) 0%N = used k).
  { rewrite (used_fold (fun u => init_of (u_calls s') (enc u))).
    - rewrite N.add_0_l. unfold used. apply sum_ext. intros x X. eapply stage2_init; eauto.
    - rewrite N.add_0_l. erewrite sum_ext; [apply used_small; exact K|]. intros x X. cbn. eapply stage2_init; eauto. }
  assert (ADD : forall kk w, orphans k = true -> w = (total n (cinit n) k - used k)%N ->
    stage2 (S k) (register (emit_call s' (CPlace (enc (UOrph k)) (cw32 w))) k kk (UOrph k))).
  { intros kk w O ->.
    set (s2 := register _ _ _ _).
    assert (CS : u_calls s2 = u_calls s' ++ [CPlace (enc (UOrph k)) (cw32 (total n (cinit n) k - used k))]) by reflexivity.
    assert (PN : forall q, pnames s2 q = if Nat.eqb q k then pnames s' k ++ [(kk, UOrph k)] else pnames s' q).
    { intros q. unfold s2. rewrite register_pnames; [reflexivity|]. cbn. rewrite L. auto. }
    constructor.
    - unfold s2. cbn. rewrite upd_length. auto.
    - destruct C as (dl & C & F). exists (dl ++ [CPlace (enc (UOrph k)) (cw32 (total n (cinit n) k - used k))]).
      rewrite CS, C, app_assoc. split; auto. apply Forall_app. split; auto. constructor; eauto.
    - intros p P. rewrite PN. destruct (Nat.eqb_spec p k); [lia|]. apply LT. lia.
    - intros p P Op. rewrite PN, CS. destruct (Nat.eqb_spec p k).
      + subst p. rewrite (LT k (le_n _)). split; [eauto|]. split.
        * apply is_place_snoc. right. reflexivity.
        * rewrite init_of_snoc, Nat.eqb_refl. unfold cw32. apply N.mod_small. pose proof (total_small k K). lia.
      + destruct (Y p) as (Y1 & Y2 & Y3); [lia|auto|]. split; [exact Y1|]. split.
        * apply is_place_snoc. auto.
        * rewrite init_of_snoc. destruct (Nat.eqb_spec (enc (UOrph k)) (enc (UOrph p))) as [E|E]; auto.
          apply EI in E. inversion E; subst; contradiction.
    - intros p P Op. rewrite PN. destruct (Nat.eqb_spec p k); [subst; congruence|]. apply NO; auto. lia.
    - intros p H. rewrite CS, is_place_snoc in H. destruct H as [H|H].
      + destruct (ON p H). split; auto. 
      + cbn in H. apply EI in H. inversion H; subst. auto. }
  assert (KEEP : orphans k = false -> stage2 (S k) s').
  { intros O. constructor; auto.
    - intros p P. apply LT. lia.
    - intros p P Op. apply Y; auto. destruct (Nat.eq_dec p k); [subst; congruence|lia].
    - intros p P Op. destruct (Nat.eq_dec p k); [subst; apply LT; auto|]. apply NO; auto. lia.
    - intros p H. destruct (ON p H). auto. }
  destruct (pnames s k) as [|x l] eqn:PNk.
  - assert (O : orphans k = true) by (unfold orphans; rewrite PNk; auto).
    assert (U0 : used k = 0%N) by (unfold used; rewrite PNk; auto).
    rewrite <- TT. destruct (0 <? total n (cinit n) k)%N; eexists; (split; [reflexivity|]); apply ADD; auto; lia.
  - rewrite US, <- TT.
    assert (O : orphans k = (used k <? total n (cinit n) k)%N) by (unfold orphans; rewrite PNk; auto).
    destruct (used k <? total n (cinit n) k)%N eqn:LTk.
    + eexists. split; [reflexivity|]. apply ADD; auto.
    + eexists. split; [reflexivity|]. auto.
Qed.

Lemma orphan_steps : forall l k s', stage2 k s' -> (forall i pl, nth_error l i = Some pl -> nth_error (cn_pls n) (k + i) = Some pl) ->
  exists s2, orphan_places n enc k l s' = Ok s2 /\ stage2 (k + length l) s2.
Proof.
  induction l as [|pl l IH]; intros k s' ST H; cbn [orphan_places length].
  - exists s'. rewrite Nat.add_0_r. auto.
  - destruct (orphan_step k pl s' ST) as (s2 & E & ST2). { rewrite <- (Nat.add_0_r k). apply H. auto. }
    rewrite E. cbn [bind]. destruct (IH (S k) s2 ST2) as (s3 & E3 & ST3).
    { intros i pl' Hi. replace (S k + i) with (k + S i) by lia. apply H. auto. }
    exists s3. split; auto. replace (k + S (length l)) with (S k + length l) by lia. auto.
Qed.

Lemma stage2_start : stage2 0 s.
Proof.
  constructor; auto; try lia.
  - apply (i_len _ _ _ _ I).
  - exists []. rewrite app_nil_r. auto.
  - intros p H. apply (i_place _ _ _ _ I) in H. destruct H as (u & E & K). apply EI in E. subst u.
    destruct K as (kk & K). destruct (i_names _ _ _ _ I _ _ _ K) as (_ & [(d & D1 & D2 & D3)|(D1 & D2 & D3)]); discriminate.
Qed.

Lemma orphans_ok : exists s2, orphan_places n enc 0 (cn_pls n) s = Ok s2 /\ stage2 np s2.
Proof. apply (orphan_steps (cn_pls n) 0 s stage2_start). auto. Qed.

End Names.

Lemma in_place : forall cs x t, (0 < in_of cs x t)%N -> is_place cs x.
Proof.
  induction cs as [|c cs IH]; intros x t H; [unfold in_of in H; cbn in H; lia|].
  unfold in_of in H. cbn in H. unfold is_place. destruct c as [q k|q k|q u b w|u q w].
  - right. apply (IH x t). unfold in_of. lia.
  - right. apply (IH x t). unfold in_of. lia.
  - destruct b; [right; apply (IH x t); unfold in_of; lia|].
    destruct (Nat.eqb_spec q x); [left; subst; reflexivity|]. right. apply (IH x t). unfold in_of. cbn in H. lia.
  - right. apply (IH x t). unfold in_of. lia.
Qed.
Lemma out_place : forall cs x t, (0 < out_of cs t x)%N -> is_place cs x.
Proof.
  induction cs as [|c cs IH]; intros x t H; [unfold out_of in H; cbn in H; lia|].
  unfold out_of in H. cbn in H. unfold is_place. destruct c as [q k|q k|q u b w|u q w].
  - right. apply (IH x t). unfold out_of. lia.
  - right. apply (IH x t). unfold out_of. lia.
  - right. apply (IH x t). unfold out_of. lia.
  - destruct (Nat.eqb_spec q x); [left; subst; reflexivity|]. right. apply (IH x t). unfold out_of. cbn in H. lia.
Qed.

Definition atypes (a : assignment) (vs : list nat) : Prop := forall v, In v vs -> vtyped tab (nth v vars 0) (a v).

Lemma mval_typed : forall e ty a v, atyped n e ty -> atypes a (avars e) -> (0 < mval tab vars a e v)%N -> vtyped tab ty v.
Proof.
  induction e as [es k|es IHs|l r IHl IHr|e k IHe] using aexp_ind'; intros ty a v TY AT H; cbn in *.
  - destruct TY as [_ TY]. induction es as [|e es IH]; cbn in H; [lia|]. inversion TY; subst.
    destruct (value_eqb (cval tab vars a e) v) eqn:E.
    + apply value_eqb_eq in E. subst v. apply cval_typed; auto. { apply Tk. }
      intros x X. apply AT. cbn. apply in_app_iff. auto.
    + apply IH; auto; try lia. intros x X. apply AT. cbn. apply in_app_iff. auto.
  - destruct TY as [_ TY]. induction es as [|e es IH]; cbn in H; [lia|]. inversion IHs as [|? ? Q1 Q2]; subst. destruct TY as [T1 T2].
    destruct (N.eq_dec (mval tab vars a e v) 0) as [Z|Z].
    + apply IH; auto; try lia. intros x X. apply AT. cbn. apply in_app_iff. auto.
    + apply (Q1 ty a v); auto; [|lia]. intros x X. apply AT. cbn. apply in_app_iff. auto.
  - destruct TY. apply (IHl ty a v); auto; [|lia]. intros x X. apply AT. apply in_app_iff. auto.
  - apply (IHe ty a v); auto. lia.
Qed.

Lemma moved_typed : forall arcs a p v, Forall (arc_ok n) arcs -> atypes a (flat_map (fun x => avars (snd x)) arcs) ->
  (0 < moved n a arcs p v)%N -> p < np /\ vtyped tab (ptype n p) v.
Proof.
  induction arcs as [|[q e] arcs IH]; intros a p v F AT H; cbn in H; [unfold moved in H; cbn in H; lia|].
  inversion F as [|? ? F1 F2]; subst. unfold moved in H. cbn in H.
  assert (AT2 : atypes a (flat_map (fun x => avars (snd x)) arcs)) by (intros x X; apply AT; cbn; apply in_app_iff; auto).
  destruct (Nat.eqb_spec q p).
  - subst q. destruct (N.eq_dec (mval tab vars a e v) 0) as [Z|Z].
    + apply (IH a p v); auto. unfold moved. lia.
    + destruct F1 as (pl & PL & TY & _). cbn [fst snd] in *. split; [apply nth_error_lt in PL; auto|].
      rewrite (ptype_ok _ _ _ PL). apply (mval_typed e _ a v); auto; [|lia]. intros x X. apply AT. cbn. apply in_app_iff. auto.
  - apply (IH a p v); auto. 
Qed.

Lemma fw_col : forall a arcs q c, fw n a arcs (UCol q c) = if c <? psize q then moved n a arcs q (pval q c) else 0%N.
Proof.
  intros. unfold fw, moved. destruct (Nat.ltb_spec c (psize q)).
  - apply sum_ext. intros x _. cbn [cw]. destruct (Nat.eqb (fst x) q); auto. cbn [andb].
    destruct (Nat.ltb_spec c (psize q)); auto. lia.
  - apply sum_zero. intros x _. cbn [cw]. destruct (Nat.ltb_spec c (psize q)); [lia|]. destruct (Nat.eqb (fst x) q); auto.
Qed.
Lemma fw_sum : forall a arcs q, fw n a arcs (USum q) = if inhibiting n q then total n (moved n a arcs) q else 0%N.
Proof.
  intros. unfold fw, total, moved. destruct (inhibiting n q) eqn:E.
  - rewrite <- (sum_swap (fun x v => if Nat.eqb (fst x) q then mval tab vars a (snd x) v else 0%N)).
    apply sum_ext. intros x _. cbn [cw]. rewrite E, andb_true_r. destruct (Nat.eqb (fst x) q); auto. symmetry. apply sum_zero. auto.
  - apply sum_zero. intros x _. cbn [cw]. rewrite E, andb_false_r. auto.
Qed.

(** ** The correspondence *)
Variable gens : list (list bmap).
Hypothesis GS : gens_sound n gens.
Hypothesis GC : gens_complete n gens.

Section Corr.
Variables s s2 : ust.
Hypothesis I : inv n enc enct s.
Hypothesis CP : forall t tr i b, nth_error (cn_trs n) t = Some tr -> nth_error (nth t gens []) i = Some b ->
  copy_ok n enc enct (u_calls s) t tr i b.
Hypothesis TS : forall x, is_trans (u_calls s) x <->
  exists t j, t < length (cn_trs n) /\ j < length (nth t gens []) /\ x = enct t j.
Hypothesis S2 : stage2 s np s2.
Notation cs := (u_calls s2).

Lemma final_in : forall x t, in_of cs x t = in_of (u_calls s) x t.
Proof.
  destruct (o_calls _ _ _ S2) as (dl & E & F). intros x t. rewrite E. unfold in_of. rewrite map_app, sumN_app.
  rewrite (sum_zero _ dl); [lia|]. intros c C. rewrite Forall_forall in F. destruct (F c C) as (p & k & ->). auto.
Qed.
Lemma final_out : forall x t, out_of cs t x = out_of (u_calls s) t x.
Proof.
  destruct (o_calls _ _ _ S2) as (dl & E & F). intros x t. rewrite E. unfold out_of. rewrite map_app, sumN_app.
  rewrite (sum_zero _ dl); [lia|]. intros c C. rewrite Forall_forall in F. destruct (F c C) as (p & k & ->). auto.
Qed.
Lemma final_trans : forall x, is_trans cs x <-> is_trans (u_calls s) x.
Proof.
  destruct (o_calls _ _ _ S2) as (dl & E & F). intros x. rewrite E. unfold is_trans. rewrite Exists_app. split; auto.
  intros [H|H]; auto. apply Exists_exists in H. destruct H as (c & C & D). rewrite Forall_forall in F.
  destruct (F c C) as (p & k & ->). contradiction.
Qed.
Lemma final_cin : forall x t i w, In (CIn x t i w) cs <-> In (CIn x t i w) (u_calls s).
Proof.
  destruct (o_calls _ _ _ S2) as (dl & E & F). intros x t i w. rewrite E, in_app_iff. split; auto.
  intros [H|H]; auto. rewrite Forall_forall in F. destruct (F _ H) as (p & k & Q). discriminate.
Qed.
Lemma final_place : forall u, (forall p, u <> UOrph p) -> (is_place cs (enc u) <-> known s u).
Proof.
  intros u H. destruct (o_calls _ _ _ S2) as (dl & E & F). rewrite E. unfold is_place. rewrite Exists_app. split.
  - intros [Q|Q].
    + apply (i_place _ _ _ _ I) in Q. destruct Q as (u' & Eq & K). apply EI in Eq. subst; auto.
    + apply Exists_exists in Q. destruct Q as (c & C & D). rewrite Forall_forall in F. destruct (F c C) as (p & k & ->).
      cbn in D. apply EI in D. exfalso. eapply H; eauto.
  - intros K. left. apply (i_place _ _ _ _ I). eauto.
Qed.
Lemma final_place_any : forall x, is_place cs x -> exists u, x = enc u.
Proof.
  destruct (o_calls _ _ _ S2) as (dl & E & F). intros x H. rewrite E in H. unfold is_place in H. rewrite Exists_app in H.
  destruct H as [Q|Q].
  - apply (i_place _ _ _ _ I) in Q. destruct Q as (u' & Eq & K). eauto.
  - apply Exists_exists in Q. destruct Q as (c & C & D). rewrite Forall_forall in F. destruct (F c C) as (p & k & ->).
    cbn in D. eauto.
Qed.
Lemma final_wpos : weights_pos cs.
Proof.
  destruct (o_calls _ _ _ S2) as (dl & E & F). rewrite E. apply Forall_app. split; [apply (i_wpos _ _ _ _ I)|].
  eapply Forall_impl; [|exact F]. intros c (p & k & ->). exact Logic.I.
Qed.
Lemma final_ok : sep n -> calls_ok cs.
Proof.
  intros S. destruct (o_calls _ _ _ S2) as (dl & E & F). rewrite E. pose proof (i_ok _ _ _ _ I S) as H. clear E.
  induction dl as [|c dl IH] using rev_ind; [rewrite app_nil_r; auto|].
  apply Forall_app in F. destruct F as [F1 F2]. inversion F2 as [|? ? Q _]; subst. destruct Q as (p & k & ->).
  rewrite app_assoc. apply calls_ok_snoc. split; auto. exact Logic.I.
Qed.

Definition rel (M : cmark) (U : nat -> N) : Prop :=
  (forall p c, known s (UCol p c) -> U (enc (UCol p c)) = M p (pval p c)) /\
  (forall p v, (p < np -> vtyped tab (ptype n p) v -> ~ known s (UCol p (vnum tab (ptype n p) v))) -> M p v = cinit n p v) /\
  (forall p, known s (USum p) -> U (enc (USum p)) = total n M p) /\
  (forall p, is_place cs (enc (UOrph p)) -> U (enc (UOrph p)) = init_of cs (enc (UOrph p))).

Lemma not_orph_col : forall p c q, UCol p c <> UOrph q.
Proof. discriminate. Qed.
Lemma not_orph_sum : forall p q, USum p <> UOrph q.
Proof. discriminate. Qed.

Lemma rel_init : rel (cinit n) (init_of cs).
Proof.
  split; [|split; [|split]]; auto.
  - intros p c K. rewrite (stage2_init _ _ _ _ S2) by (apply not_orph_col). apply (i_icol _ _ _ _ I). auto.
  - intros p K. rewrite (stage2_init _ _ _ _ S2) by (apply not_orph_sum). apply (i_isum _ _ _ _ I). auto.
Qed.

(** A copy of a transition and the assignment it stands for. *)
Section Copy.
Variables (t i : nat) (tr : ctrans) (b : bmap) (a : assignment).
Hypothesis TR : nth_error (cn_trs n) t = Some tr.
Hypothesis NB : nth_error (nth t gens []) i = Some b.
Hypothesis BR : brel n b a (tvars tr).

Lemma copy_in : forall u, in_of cs (enc u) (enct t i) = fw n a (ct_in tr) u.
Proof. intros u. rewrite final_in. destruct (CP _ _ _ _ TR NB) as (_ & H & _). apply (H a BR). Qed.
Lemma copy_out : forall u, out_of cs (enct t i) (enc u) = fw n a (ct_out tr) u.
Proof. intros u. rewrite final_out. destruct (CP _ _ _ _ TR NB) as (_ & H & _). apply (H a BR). Qed.
Lemma copy_inh : forall x w, In (CIn x (enct t i) true w) cs <-> exists p, x = enc (USum p) /\ In (p, t, w) (cn_inh n).
Proof.
  intros x w. rewrite final_cin. split.
  - intros H. destruct (i_inh _ _ _ _ I _ _ _ H) as (t' & i' & p & E1 & E2 & E3). apply TI in E1. destruct E1; subst. eauto.
  - intros (p & -> & H). destruct (CP _ _ _ _ TR NB) as (_ & _ & Q). auto.
Qed.

Lemma at_in : atypes a (flat_map (fun x => avars (snd x)) (ct_in tr)).
Proof. intros v V. apply (BR v). unfold tvars. rewrite !in_app_iff. auto. Qed.
Lemma at_out : atypes a (flat_map (fun x => avars (snd x)) (ct_out tr)).
Proof. intros v V. apply (BR v). unfold tvars. rewrite !in_app_iff. auto. Qed.

Lemma arcs_fine : Forall (arc_ok n) (ct_in tr) /\ Forall (arc_ok n) (ct_out tr).
Proof. pose proof OK as (_ & _ & _ & Q & _). destruct (Q _ _ TR) as (_ & F1 & F2). auto. Qed.

Lemma col_known : forall p v, (0 < moved n a (ct_in tr) p v \/ 0 < moved n a (ct_out tr) p v)%N ->
  p < np /\ vtyped tab (ptype n p) v /\ known s (UCol p (vnum tab (ptype n p) v)).
Proof.
  intros p v H. destruct arcs_fine as [F1 F2].
  assert (TY : p < np /\ vtyped tab (ptype n p) v).
  { destruct H as [H|H]; (eapply moved_typed; [| |exact H]); auto using at_in, at_out. }
  destruct TY as [P V]. split; auto. split; auto.
  apply final_place; [apply not_orph_col|].
  assert (L : vnum tab (ptype n p) v <? psize p = true) by (apply Nat.ltb_lt; apply vnum_lt; auto using Tk).
  assert (PV : pval p (vnum tab (ptype n p) v) = v) by (apply val_num; auto).
  destruct H as [H|H].
  - apply in_place with (t := enct t i). rewrite copy_in, fw_col, L, PV. auto.
  - apply out_place with (t := enct t i). rewrite copy_out, fw_col, L, PV. auto.
Qed.

Lemma sum_known : forall p, (0 < fw n a (ct_in tr) (USum p) \/ 0 < fw n a (ct_out tr) (USum p))%N -> known s (USum p).
Proof.
  intros p H. apply final_place; [apply not_orph_sum|]. destruct H as [H|H].
  - apply in_place with (t := enct t i). rewrite copy_in. auto.
  - apply out_place with (t := enct t i). rewrite copy_out. auto.
Qed.

Lemma enabled_iff : forall M U, rel M U ->
  (decl_enabled cs (enct t i) U <->
   (forall p v, (moved n a (ct_in tr) p v <= M p v)%N) /\
   (forall p w, In (p, t, w) (cn_inh n) -> (total n M p < w)%N)).
Proof.
  intros M U (R1 & R2 & R3 & R4).
  assert (KS : forall p w, In (p, t, w) (cn_inh n) -> known s (USum p)).
  { intros p w H. apply final_place; [apply not_orph_sum|]. apply Exists_exists. exists (CIn (enc (USum p)) (enct t i) true w).
    split; [|reflexivity]. apply copy_inh. eauto. }
  split.
  - intros E. split.
    + intros p v. destruct (N.eq_dec (moved n a (ct_in tr) p v) 0) as [Z|Z]; [lia|].
      destruct (col_known p v) as (P & V & K); [left; lia|].
      assert (L : vnum tab (ptype n p) v <? psize p = true) by (apply Nat.ltb_lt; apply vnum_lt; auto using Tk).
      assert (PV : pval p (vnum tab (ptype n p) v) = v) by (apply val_num; auto).
      destruct (E (enc (UCol p (vnum tab (ptype n p) v)))) as [E1 _]. rewrite copy_in, fw_col, L, PV, (R1 _ _ K), PV in E1. auto.
    + intros p w H. destruct (E (enc (USum p))) as [_ E2]. rewrite <- R3 by eauto. apply E2. apply copy_inh. eauto.
  - intros [E1 E2] x. split.
    + destruct (N.eq_dec (in_of cs x (enct t i)) 0) as [Z|Z]; [lia|].
      assert (PX : is_place cs x) by (apply in_place with (t := enct t i); lia).
      destruct (final_place_any x PX) as [u ->]. rewrite copy_in in *. destruct u as [q c|q|q].
      * rewrite fw_col in *. apply final_place in PX; [|apply not_orph_col]. rewrite (R1 _ _ PX).
        destruct (c <? psize q); [apply E1|lia].
      * rewrite fw_sum in *. apply final_place in PX; [|apply not_orph_sum]. rewrite (R3 _ PX).
        destruct (inhibiting n q); [|lia]. unfold total. apply sum_le. auto.
      * exfalso. apply Z. unfold fw. apply sum_zero. auto.
    + intros w H. apply copy_inh in H. destruct H as (p & -> & H). rewrite R3 by eauto. apply E2. auto.
Qed.

Lemma fires_rel : forall M U M' U', rel M U -> decl_fires cs (enct t i) U U' ->
  (forall p v, M' p v = (M p v - moved n a (ct_in tr) p v + moved n a (ct_out tr) p v)%N) -> rel M' U'.
Proof.
  intros M U M' U' R [E F] EQ. pose proof R as (R1 & R2 & R3 & R4).
  apply (enabled_iff M U R) in E. destruct E as [E1 E2].
  split; [|split; [|split]].
  - intros p c K. rewrite F by (apply final_place; [apply not_orph_col|auto]). rewrite copy_in, copy_out, !fw_col.
    destruct (known_lt s I _ _ K) as [_ L]. apply Nat.ltb_lt in L. rewrite L, (R1 _ _ K), EQ. auto.
  - intros p v H. rewrite EQ.
    assert (Z : moved n a (ct_in tr) p v = 0%N /\ moved n a (ct_out tr) p v = 0%N).
    { split.
      - destruct (N.eq_dec (moved n a (ct_in tr) p v) 0) as [Z|Z]; auto. exfalso.
        destruct (col_known p v) as (P & V & K); [left; lia|]. exact (H P V K).
      - destruct (N.eq_dec (moved n a (ct_out tr) p v) 0) as [Z|Z]; auto. exfalso.
        destruct (col_known p v) as (P & V & K); [right; lia|]. exact (H P V K). }
    destruct Z as [-> ->]. rewrite (R2 p v H). lia.
  - intros p K. rewrite F by (apply final_place; [apply not_orph_sum|auto]). rewrite copy_in, copy_out, !fw_sum.
    destruct (i_isum _ _ _ _ I p K) as (_ & -> & P). rewrite (R3 _ K). unfold total.
    assert (Q : (sumN (map (M' p) (values tab (ptype n p))) + sumN (map (moved n a (ct_in tr) p) (values tab (ptype n p))) =
                 sumN (map (M p) (values tab (ptype n p))) + sumN (map (moved n a (ct_out tr) p) (values tab (ptype n p))))%N).
    { rewrite <- !sum_add. apply sum_ext. intros v _. rewrite EQ. specialize (E1 p v). lia. }
    assert (sumN (map (moved n a (ct_in tr) p) (values tab (ptype n p))) <= sumN (map (M p) (values tab (ptype n p))))%N.
    { apply sum_le. auto. }
    lia.
  - intros p H. rewrite F by auto. rewrite copy_in, copy_out.
    assert (Z : forall l, fw n a l (UOrph p) = 0%N) by (intros; unfold fw; apply sum_zero; auto). rewrite !Z, (R4 p H). lia.
Qed.
End Copy.

Definition copies (t : nat) : list nat := if t <? length (cn_trs n) then tnames enct gens t else [].

Lemma copies_in : forall t x, In x (copies t) <-> t < length (cn_trs n) /\ exists j, j < length (nth t gens []) /\ x = enct t j.
Proof.
  intros t x. unfold copies. destruct (Nat.ltb_spec t (length (cn_trs n))) as [L|L].
  - unfold tnames. rewrite in_map_iff. setoid_rewrite in_seq. split.
    + intros (j & E & H). split; auto. exists j. split; [lia|auto].
    + intros (_ & j & H & E). exists j. split; [auto|lia].
  - cbn. split; [intros []|]. intros [H _]. lia.
Qed.

Lemma bisim : bisimulation n cs copies rel.
Proof.
  split; [exact rel_init|]. split; [|split; [|split]].
  - intros M U t M' R (tr & a & TR & (B & G & E1 & E2) & EQ).
    destruct (GC t tr a TR B G) as (b & IB & BR). apply In_nth_error in IB. destruct IB as [i NB].
    set (U' := fun x => (U x - in_of cs x (enct t i) + out_of cs (enct t i) x)%N).
    assert (F : decl_fires cs (enct t i) U U').
    { split; [|reflexivity]. eapply enabled_iff; eauto. }
    exists (enct t i), U'. split; [|split; auto].
    + apply copies_in. split; [apply nth_error_lt in TR; auto|]. exists i. split; [|auto].
      apply nth_error_lt in NB. auto.
    + eapply fires_rel; eauto.
  - intros M U x U' R IT F. apply final_trans in IT. apply TS in IT. destruct IT as (t & j & Lt & Lj & ->).
    destruct (@nth_error_ex _ _ _ Lt) as [tr TR]. destruct (@nth_error_ex _ _ _ Lj) as [b NB].
    destruct (GS t tr b TR) as (a & B & BR & G); [eapply nth_error_In; eauto|].
    exists t, (fun p v => (M p v - moved n a (ct_in tr) p v + moved n a (ct_out tr) p v)%N).
    split; [apply copies_in; eauto|]. split.
    + exists tr, a. split; auto. split; [|reflexivity]. destruct F as [E _].
      apply (enabled_iff t j tr b a TR NB BR M U R) in E. destruct E. split; auto.
    + eapply fires_rel; eauto.
  - intros t x H. apply copies_in in H. destruct H as (L & j & Lj & E). apply final_trans, TS. eauto.
  - intros t t' x H H'. apply copies_in in H. apply copies_in in H'. destruct H as (L & j & Lj & E), H' as (L' & j' & Lj' & E').
    subst x. apply TI in E'. tauto.
Qed.

Lemma known_dec : forall u, known s u \/ ~ known s u.
Proof.
  intros [p c|p|p].
  - cbn [known]. destruct (klook (pnames s p) (N.of_nat c)) as [u|] eqn:E.
    + destruct (uname_dec u (UCol p c)).
      * subst. left. apply klook_some. auto.
      * right. intros H. rewrite (klook_in _ _ _ (i_nodup _ _ _ _ I p) H) in E. congruence.
    + right. intros H. rewrite (klook_in _ _ _ (i_nodup _ _ _ _ I p) H) in E. congruence.
  - cbn. destruct (nth p (u_sum s) false); auto.
  - right. intros (kk & K). destruct (i_names _ _ _ _ I _ _ _ K) as (_ & [(d & D1 & D2 & D3)|(D1 & D2 & D3)]); discriminate.
Qed.

Lemma rel_shows : forall M U, rel M U -> shows n enc cs M U.
Proof.
  intros M U (R1 & R2 & R3 & R4) p v P V x. split.
  - intros H. apply final_place in H; [|apply not_orph_col]. unfold x. rewrite (R1 _ _ H). f_equal. apply val_num. auto.
  - intros H. apply R2. intros _ _ K. apply H. apply final_place; [apply not_orph_col|auto].
Qed.

(** ** Counting the tokens of a place *)
Definition counted (U : nat -> N) (us : list uname) : N := sumN (map (fun u => U (enc u)) us).

Lemma counted_perm : forall U us us', Permutation us us' -> counted U us = counted U us'.
Proof. intros U us us' P. unfold counted. induction P; cbn; try lia. Qed.

Lemma names_count : forall M U p, rel M U -> p < np -> reg s p = false ->
  counted U (map snd (pnames s2 p)) = total n M p.
Proof.
  intros M U p (R1 & R2 & R3 & R4) P RG.
  assert (NS : sumN (map (fun x : N * uname => U (enc (snd x))) (pnames s p)) =
               sumN (map (fun c => if kn s p c then M p (pval p c) else 0%N) (seq 0 (psize p)))).
  { rewrite (names_sum s I p (fun u => U (enc u))), RG, N.add_0_r. apply sum_ext. intros c C. apply in_seq in C.
    destruct (kn s p c) eqn:E; auto. apply R1. apply kn_known; auto. lia. }
  assert (US : used s p = sumN (map (fun c => if kn s p c then cinit n p (pval p c) else 0%N) (seq 0 (psize p)))).
  { rewrite used_eq by auto. rewrite RG. lia. }
  assert (TI0 : total n (cinit n) p = (used s p + sumN (map (fun c => if kn s p c then 0 else cinit n p (pval p c))%N (seq 0 (psize p))))%N).
  { rewrite total_seq by auto. rewrite US, <- sum_add. apply sum_ext. intros c _. destruct (kn s p c); lia. }
  assert (TM : total n M p = (sumN (map (fun c => if kn s p c then M p (pval p c) else 0%N) (seq 0 (psize p))) +
                              sumN (map (fun c => if kn s p c then 0 else cinit n p (pval p c))%N (seq 0 (psize p))))%N).
  { rewrite total_seq by auto. rewrite <- sum_add. apply sum_ext. intros c C. apply in_seq in C. destruct (kn s p c) eqn:E; [lia|].
    rewrite R2; [lia|]. intros _ _ K. unfold ColUnfold.pval in K. rewrite num_val in K by (first [apply Tk|unfold ColUnfold.psize in *; lia]).
    apply kn_known in K; auto; [congruence|]. lia. }
  unfold counted. rewrite map_map. destruct (orphans s p) eqn:O.
  - destruct (o_yes _ _ _ S2 p P O) as ((kk & ->) & PO & IO). rewrite map_app, sumN_app. cbn.
    rewrite (R4 p PO), IO, NS, TM. lia.
  - rewrite (o_no _ _ _ S2 p P O), NS, TM. unfold orphans in O. destruct (pnames s p); [discriminate|].
    apply N.ltb_ge in O. lia.
Qed.

Lemma names_nonempty : forall p, p < np -> pnames s2 p <> [].
Proof.
  intros p P. destruct (orphans s p) eqn:O.
  - destruct (o_yes _ _ _ S2 p P O) as ((kk & ->) & _). destruct (pnames s p); discriminate.
  - rewrite (o_no _ _ _ S2 p P O). unfold orphans in O. destruct (pnames s p); discriminate.
Qed.

Lemma reg_inh : forall p, reg s p = true -> known s (USum p) /\ In (N.of_nat (psize p), USum p) (pnames s p).
Proof.
  intros p H. unfold reg, kn in H. destruct (klook (pnames s p) (N.of_nat (psize p))) as [u|] eqn:K; [|discriminate].
  apply klook_some in K. destruct (i_names _ _ _ _ I _ _ _ K) as (_ & [(d & D1 & D2 & D3)|(D1 & D2 & D3)]).
  - apply Nnat.Nat2N.inj in D2. lia.
  - subst u. auto.
Qed.

Lemma no_sum_names : forall p u, p < np -> reg s p = false -> In u (map snd (pnames s2 p)) -> is_sum_name u = false.
Proof.
  intros p u P RG H.
  assert (IN : In u (map snd (pnames s p)) -> is_sum_name u = false).
  { intros Q. apply in_map_iff in Q. destruct Q as ((k & u') & E & Q). cbn in E. subst u'.
    destruct (i_names _ _ _ _ I _ _ _ Q) as (_ & [(d & D1 & D2 & D3)|(D1 & D2 & D3)]); [subst; auto|].
    subst. unfold reg, kn in RG. rewrite (klook_in _ _ _ (i_nodup _ _ _ _ I p) Q) in RG. discriminate. }
  destruct (orphans s p) eqn:O.
  - destruct (o_yes _ _ _ S2 p P O) as ((kk & E) & _). rewrite E, map_app, in_app_iff in H. destruct H as [H|[<-|[]]]; auto.
  - rewrite (o_no _ _ _ S2 p P O) in H. auto.
Qed.

Lemma last_in : forall (l : list uname) d, l <> [] -> In (last l d) l.
Proof. induction l as [|x [|y l] IH]; intros d H; [congruence|left; auto|]. right. apply IH. discriminate. Qed.

Lemma place_query_ok : forall M U p names, rel M U -> p < np -> Permutation names (map snd (pnames s2 p)) ->
  (inhibiting n p = false \/ untouched n p) ->
  exists us, place_query names = Ok us /\ counted U us = total n M p /\
             counted U (bounds_query names) = total n M p.
Proof.
  intros M U p names R P PM C.
  assert (NE : names <> []).
  { intros ->. apply Permutation_nil in PM. apply map_eq_nil in PM. eapply names_nonempty; eauto. }
  destruct (reg s p) eqn:RG.
  - destruct (reg_inh p RG) as [K IN]. destruct C as [C|C].
    + destruct (i_isum _ _ _ _ I p K) as (_ & Q & _). congruence.
    + assert (ALL : forall x, In x (pnames s p) -> x = (N.of_nat (psize p), USum p)).
      { intros [k u] X. destruct (i_names _ _ _ _ I _ _ _ X) as (_ & [(d & D1 & D2 & D3)|(D1 & D2 & D3)]); [|subst; auto].
        exfalso. subst k u. destruct (i_touch _ _ _ _ I p d X) as (t & tr & e & TR & Q). destruct (C t tr e TR).
        apply in_app_iff in Q. destruct Q; contradiction. }
      assert (ONE : pnames s p = [(N.of_nat (psize p), USum p)]).
      { pose proof (i_nodup _ _ _ _ I p) as ND. destruct (pnames s p) as [|x l]; [contradiction|].
        rewrite (ALL x (or_introl eq_refl)) in *. destruct l as [|y l]; auto. exfalso.
        rewrite (ALL y (or_intror (or_introl eq_refl))) in ND. cbn in ND. inversion ND; subst. apply H1. left. auto. }
      assert (O : orphans s p = false).
      { unfold orphans. rewrite ONE. apply N.ltb_ge. rewrite used_eq by auto. rewrite RG. lia. }
      rewrite (o_no _ _ _ S2 p P O), ONE in PM. cbn in PM. apply Permutation_sym, Permutation_length_1_inv in PM. subst names.
      exists [USum p]. split; auto. unfold bounds_query, counted. cbn. destruct R as (_ & _ & R3 & _). rewrite (R3 p K). split; lia.
  - assert (E : place_query names = Ok names).
    { unfold place_query. destruct names as [|x [|y l]]; [congruence|auto|].
      rewrite (no_sum_names p); auto. eapply Permutation_in; [exact PM|]. apply last_in. discriminate. }
    exists names. split; auto. unfold bounds_query. rewrite (counted_perm U _ _ PM). pose proof (names_count M U p R P RG). auto.
Qed.

End Corr.
End Main.
