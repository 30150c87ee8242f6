(** The calls made by the unfolder: which places and arcs they declare (C34). *)
From Verif Require Import Base BaseLemmas BuilderModel BuilderSpec BuilderMain ColSyntax ColSpec ColModel ColRadix ColEval.

(** ** Sums *)
Lemma sum_add : forall {A} (f g : A -> N) l,
  sumN (map (fun x => f x + g x)%N l) = (sumN (map f l) + sumN (map g l))%N.
Proof. induction l as [|x l IH]; cbn; [reflexivity|]. unfold sumN in *. cbn. fold sumN in *. rewrite IH. lia. Qed.
Lemma sum_ext : forall {A} (f g : A -> N) l, (forall x, In x l -> f x = g x) -> sumN (map f l) = sumN (map g l).
Proof. intros A f g l H. f_equal. apply map_ext_in. auto. Qed.
Lemma sum_zero : forall {A} (f : A -> N) l, (forall x, In x l -> f x = 0%N) -> sumN (map f l) = 0%N.
Proof. induction l as [|x l IH]; intros H; cbn; auto. rewrite H by (left; auto). rewrite IH; auto. intros; apply H; right; auto. Qed.
Lemma sum_le : forall {A} (f g : A -> N) l, (forall x, In x l -> (f x <= g x)%N) -> (sumN (map f l) <= sumN (map g l))%N.
Proof.
  induction l as [|x l IH]; intros H; cbn; [lia|].
  assert (f x <= g x)%N by (apply H; left; auto).
  assert (sumN (map f l) <= sumN (map g l))%N by (apply IH; intros; apply H; right; auto). lia.
Qed.
Lemma sum_in : forall {A} (f : A -> N) l x, In x l -> (f x <= sumN (map f l))%N.
Proof. induction l as [|y l IH]; intros x []; cbn; [subst; lia|]. specialize (IH _ H). lia. Qed.
Lemma sum_swap : forall {A B} (f : A -> B -> N) l m,
  sumN (map (fun x => sumN (map (f x) m)) l) = sumN (map (fun y => sumN (map (fun x => f x y) l)) m).
Proof.
  induction l as [|x l IH]; intros m.
  - cbn. symmetry. apply sum_zero. auto.
  - cbn. rewrite IH. rewrite <- sum_add. apply sum_ext. auto.
Qed.
Lemma sum_one : forall K j k a, a <= j < a + K ->
  sumN (map (fun i => if Nat.eqb j i then k else 0%N) (seq a K)) = k.
Proof.
  induction K as [|K IH]; intros j k a H; [lia|]. cbn. destruct (Nat.eqb_spec j a).
  - subst. rewrite sum_zero; [lia|]. intros x I. apply in_seq in I. destruct (Nat.eqb_spec a x); auto; lia.
  - rewrite IH by lia. lia.
Qed.

Lemma mlook_sum : forall l i, NoDup (map fst l) ->
  sumN (map (fun x : nat * N => if Nat.eqb (fst x) i then snd x else 0%N) l) = mlook l i.
Proof.
  induction l as [|[j k] l IH]; intros i H; cbn; auto. inversion H; subst.
  destruct (Nat.eqb_spec j i).
  - subst. rewrite IH by auto. rewrite mlook_in by auto. lia.
  - rewrite IH by auto. lia.
Qed.
Lemma mlook_total : forall K l, NoDup (map fst l) -> Forall (fun i => i < K) (map fst l) ->
  sumN (map (mlook l) (seq 0 K)) = sumN (map snd l).
Proof.
  intros K l ND F.
  rewrite (sum_ext (mlook l) (fun i => sumN (map (fun x : nat * N => if Nat.eqb (fst x) i then snd x else 0%N) l))).
  2: { intros. symmetry. apply mlook_sum; auto. }
  rewrite (sum_swap (fun i (x : nat * N) => if Nat.eqb (fst x) i then snd x else 0%N)).
  apply sum_ext. intros x I. rewrite sum_one; auto. rewrite Forall_forall in F.
  assert (fst x < K) by (apply F; apply in_map; auto). lia.
Qed.

Lemma ground_cvars : forall e, cground e -> cvars e = [].
Proof.
  induction e as [|v|uty ui|e IHe|e IHe|es IHs] using cexp_ind'; intros H; cbn in *; auto; try contradiction.
  induction es as [|e es IH]; auto. inversion IHs as [|? ? Q1 Q2]; subst. destruct H as [H1 H2]. cbn. rewrite (Q1 H1). cbn. apply IH; auto.
Qed.
Lemma ground_avars : forall a, aground a -> avars a = [].
Proof.
  induction a as [es k|es IHs|l r IHl IHr|a k IHa] using aexp_ind'; intros H; cbn in *; auto.
  - induction es as [|e es IH]; auto. inversion H; subst. cbn. rewrite ground_cvars by auto. apply IH; auto.
  - induction es as [|e es IH]; auto. inversion IHs as [|? ? Q1 Q2]; subst. destruct H as [H1 H2]. cbn. rewrite (Q1 H1). apply IH; auto.
  - destruct H. rewrite IHl, IHr; auto.
Qed.

Section Un.
Variable n : cpn.
Notation tab := (cn_types n).
Notation vars := (cn_vars n).
Notation np := (length (cn_pls n)).
Hypothesis OK : cpn_ok n.
Variable enc : uname -> nat.
Variable enct : nat -> nat -> nat.
Hypothesis EI : forall u v, enc u = enc v -> u = v.
Hypothesis TI : forall t i t' i', enct t i = enct t' i' -> t = t' /\ i = i'.

Lemma T : tab_ok n.
Proof. exact (proj1 OK). Qed.

Definition psize (p : nat) : nat := csize tab (ptype n p).
Definition pval (p c : nat) : value := val_of n (ptype n p) c.

Lemma ptype_ok : forall p pl, nth_error (cn_pls n) p = Some pl -> ptype n p = cp_type pl.
Proof. intros. unfold ptype. rewrite H. auto. Qed.
Lemma ptype_decl : forall p, p < np -> exists d, nth_error tab (ptype n p) = Some d.
Proof.
  intros p H. apply nth_error_ex in H. destruct H as [pl H]. rewrite (ptype_ok _ _ H).
  pose proof OK as OK'; destruct OK' as (_ & _ & P & _). destruct (P _ _ H) as [D _]. exact D.
Qed.

Lemma mrep_total : forall ty d m f, nth_error tab ty = Some d -> mrep n ty m f -> sumN (map f (values tab ty)) = msize m.
Proof.
  intros ty d m f D [_ ND I V]. rewrite (values_seq n T _ _ D), map_map.
  rewrite (sum_ext _ (mlook (snd m))). { unfold msize. apply mlook_total; auto. }
  intros i L. apply in_seq in L. rewrite <- V by (apply val_typed; [exact T|lia]). rewrite num_val; [reflexivity|exact T|lia].
Qed.

Lemma marking_ok : forall p pl, nth_error (cn_pls n) p = Some pl ->
  exists m, marking n pl = Ok m /\ mrep n (ptype n p) m (cinit n p) /\ (msize m < 2147483648)%N.
Proof.
  intros p pl H. pose proof OK as OK'; destruct OK' as (_ & _ & P & _). destruct (P _ _ H) as [D A]. rewrite (ptype_ok _ _ H).
  unfold marking, cinit. rewrite H. destruct (cp_init pl) as [a|].
  - destruct (A a eq_refl) as (A1 & A2 & A3).
    destruct (evaluate_ok n T a (cp_type pl) [] (fun _ => VE 0)) as (m & E & R & L); auto; try lia.
    { rewrite ground_avars by auto. intros v []. }
    exists m. split; [exact E|]. split; [exact R|]. lia.
  - exists mempty. split; auto. split; [apply mrep_empty|]. cbn. lia.
Qed.

Lemma init_total : forall p pl m, nth_error (cn_pls n) p = Some pl -> mrep n (ptype n p) m (cinit n p) ->
  total n (cinit n) p = msize m.
Proof.
  intros p pl m H R. unfold total. destruct (ptype_decl p) as [d D]; [apply nth_error_lt in H; auto|].
  eapply mrep_total; eauto.
Qed.

(** ** What is known to the unfolder *)
Definition known (s : ust) (u : uname) : Prop :=
  match u with
  | UCol p c => In (N.of_nat c, UCol p c) (pnames s p)
  | USum p => nth p (u_sum s) false = true
  | UOrph p => exists k, In (k, UOrph p) (pnames s p)
  end.

(** No transition has an input arc and an inhibitor arc from one place. *)
Definition sep : Prop := forall p t w tr e,
  In (p, t, w) (cn_inh n) -> nth_error (cn_trs n) t = Some tr -> ~ In (p, e) (ct_in tr).

(** Some arc is connected to [p]. *)
Definition touched (p : nat) : Prop := exists t tr e, nth_error (cn_trs n) t = Some tr /\ In (p, e) (ct_in tr ++ ct_out tr).

Record inv (s : ust) : Prop := mkInv {
  i_len : length (u_pl s) = np;
  i_lens : length (u_sum s) = np;
  i_names : forall p k u, In (k, u) (pnames s p) -> p < np /\
    ((exists c, c < psize p /\ k = N.of_nat c /\ u = UCol p c) \/
     (k = N.of_nat (psize p) /\ u = USum p /\ known s (USum p)));
  i_nodup : forall p, NoDup (map fst (pnames s p));
  i_place : forall x, is_place (u_calls s) x <-> exists u, x = enc u /\ known s u;
  i_icol : forall p c, known s (UCol p c) -> init_of (u_calls s) (enc (UCol p c)) = cinit n p (pval p c);
  i_isum : forall p, known s (USum p) ->
    init_of (u_calls s) (enc (USum p)) = total n (cinit n) p /\ inhibiting n p = true /\ p < np;
  i_wpos : weights_pos (u_calls s);
  i_cin : forall x tn w, In (CIn x tn false w) (u_calls s) -> exists t tr i p e,
    tn = enct t i /\ nth_error (cn_trs n) t = Some tr /\ In (p, e) (ct_in tr) /\
    (x = enc (USum p) \/ exists c, x = enc (UCol p c));
  i_inh : forall x tn w, In (CIn x tn true w) (u_calls s) -> exists t i p,
    tn = enct t i /\ x = enc (USum p) /\ In (p, t, w) (cn_inh n);
  i_ok : sep -> calls_ok (u_calls s);
  i_touch : forall p c, known s (UCol p c) -> touched p }.

(** The difference between two states while the calls for [tn] are made. *)
Record adds (tn : nat) (s s' : ust) (fi fo : uname -> N) : Prop := mkAdds {
  a_in : forall u t, in_of (u_calls s') (enc u) t = (in_of (u_calls s) (enc u) t + if Nat.eqb t tn then fi u else 0)%N;
  a_out : forall u t, out_of (u_calls s') t (enc u) = (out_of (u_calls s) t (enc u) + if Nat.eqb t tn then fo u else 0)%N;
  a_known : forall u, known s u -> known s' u;
  a_mono : forall c, In c (u_calls s) -> In c (u_calls s');
  a_trans : forall x, is_trans (u_calls s') x <-> is_trans (u_calls s) x }.

Lemma adds_refl : forall tn s, adds tn s s (fun _ => 0%N) (fun _ => 0%N).
Proof. intros. constructor; auto; intros; try tauto; destruct (Nat.eqb t tn); lia. Qed.
Lemma adds_trans : forall tn s1 s2 s3 fi fo gi go, adds tn s1 s2 fi fo -> adds tn s2 s3 gi go ->
  adds tn s1 s3 (fun u => fi u + gi u)%N (fun u => fo u + go u)%N.
Proof.
  intros tn s1 s2 s3 fi fo gi go [A1 A2 A3 A4 A5] [B1 B2 B3 B4 B5]. constructor; auto; intros.
  - rewrite B1, A1. destruct (Nat.eqb t tn); lia.
  - rewrite B2, A2. destruct (Nat.eqb t tn); lia.
  - rewrite B5. auto.
Qed.
Lemma adds_ext : forall tn s s' fi fo gi go, adds tn s s' fi fo -> (forall u, fi u = gi u) -> (forall u, fo u = go u) ->
  adds tn s s' gi go.
Proof.
  intros tn s s' fi fo gi go [A1 A2 A3 A4 A5] E1 E2. constructor; auto; intros.
  - rewrite A1. rewrite E1. auto.
  - rewrite A2. rewrite E2. auto.
Qed.

Definition uname_dec : forall u v : uname, {u = v} + {u <> v}.
Proof. decide equality; apply Nat.eq_dec. Defined.

Lemma enc_eqb : forall u v, Nat.eqb (enc u) (enc v) = if uname_dec u v then true else false.
Proof.
  intros. destruct (uname_dec u v) as [E|E].
  - subst. apply Nat.eqb_refl.
  - apply Nat.eqb_neq. intros H. apply E. apply EI. auto.
Qed.

Lemma emit_known : forall s c u, known (emit_call s c) u <-> known s u.
Proof. intros s c [p k|p|p]; cbn; tauto. Qed.
Lemma emit_pnames : forall s c p, pnames (emit_call s c) p = pnames s p.
Proof. reflexivity. Qed.
Lemma register_pnames : forall s p k u q, p < length (u_pl s) ->
  pnames (register s p k u) q = if Nat.eqb q p then pnames s p ++ [(k, u)] else pnames s q.
Proof.
  intros. unfold pnames, register. cbn [u_pl]. destruct (Nat.eqb_spec q p).
  - subst. rewrite nth_upd_eq; auto.
  - rewrite nth_upd_neq; auto.
Qed.
Lemma set_sum_nth : forall s p q, p < length (u_sum s) ->
  nth q (u_sum (set_sum s p)) false = if Nat.eqb q p then true else nth q (u_sum s) false.
Proof.
  intros. unfold set_sum. cbn [u_sum]. destruct (Nat.eqb_spec q p).
  - subst. rewrite nth_upd_eq; auto.
  - rewrite nth_upd_neq; auto.
Qed.

Lemma klook_some : forall l k u, klook l k = Some u -> In (k, u) l.
Proof.
  induction l as [|[j v] l IH]; intros k u H; cbn in *; [discriminate|].
  destruct (N.eqb_spec j k); [inversion H; subst; auto|auto].
Qed.
Lemma klook_none : forall l k, klook l k = None <-> ~ In k (map fst l).
Proof.
  induction l as [|[j v] l IH]; intros k; cbn; [tauto|].
  destruct (N.eqb_spec j k).
  - subst. split; [discriminate|]. intros H. exfalso. auto.
  - rewrite IH. split; intros H; auto. intros [E|E]; auto.
Qed.
Lemma klook_in : forall l k u, NoDup (map fst l) -> In (k, u) l -> klook l k = Some u.
Proof.
  induction l as [|[j v] l IH]; intros k u ND H; cbn in *; [contradiction|]. inversion ND; subst.
  destruct H as [H|H].
  - inversion H; subst. rewrite N.eqb_refl. auto.
  - destruct (N.eqb_spec j k); auto. subst. exfalso. apply H2. apply in_map_iff. exists (k, u). auto.
Qed.

Lemma wpos_snoc : forall cs c, weights_pos (cs ++ [c]) <-> weights_pos cs /\ weights_pos [c].
Proof. intros. unfold weights_pos. apply Forall_app. Qed.
Lemma nodup_snoc : forall {A} (l : list A) x, NoDup l -> ~ In x l -> NoDup (l ++ [x]).
Proof.
  intros A l x H1 H2. rewrite <- (rev_involutive (l ++ [x])), rev_app_distr. apply NoDup_rev. cbn. constructor.
  - rewrite <- in_rev. auto.
  - apply NoDup_rev. auto.
Qed.

Lemma is_place_cplace : forall cs u k x, is_place (cs ++ [CPlace (enc u) k]) x <-> is_place cs x \/ x = enc u.
Proof. intros. rewrite is_place_snoc. cbn. split; intros [H|H]; auto. Qed.

(** A new place for a colour. *)
Lemma inv_col : forall s p c k, inv s -> touched p -> p < np -> c < psize p -> klook (pnames s p) (N.of_nat c) = None ->
  k = cinit n p (pval p c) ->
  let s' := register (emit_call s (CPlace (enc (UCol p c)) k)) p (N.of_nat c) (UCol p c) in
  inv s' /\ known s' (UCol p c) /\ forall tn, adds tn s s' (fun _ => 0%N) (fun _ => 0%N).
Proof.
  intros s p c k I TP P C K Ek s'. destruct I as [L1 L2 NM ND PL IC IS WP CI IH CO TO].
  assert (PN : forall q, pnames s' q = if Nat.eqb q p then pnames s p ++ [(N.of_nat c, UCol p c)] else pnames s q).
  { intros q. unfold s'. rewrite register_pnames; [reflexivity|]. cbn. rewrite L1. auto. }
  assert (KN : forall u, known s' u <-> known s u \/ u = UCol p c).
  { intros [q d|q|q]; cbn [known].
    - rewrite PN. destruct (Nat.eqb_spec q p).
      + subst q. rewrite in_app_iff. split; intros [H|H]; auto.
        * destruct H as [H|[]]. inversion H as [[E1 E2]]. auto.
        * inversion H; subst. right. left. auto.
      + split; auto. intros [H|H]; auto. inversion H; subst; contradiction.
    - cbn. split; auto. intros [H|H]; auto. discriminate.
    - rewrite PN. destruct (Nat.eqb_spec q p).
      + subst q. setoid_rewrite in_app_iff. split.
        * intros (j & [H|[H|[]]]); eauto. discriminate.
        * intros [(j & H)|H]; [eauto|discriminate].
      + split; auto. intros [H|H]; auto. discriminate. }
  assert (NK : ~ known s (UCol p c)).
  { intros H. cbn in H. rewrite (klook_in _ _ _ (ND p) H) in K. discriminate. }
  assert (CS : u_calls s' = u_calls s ++ [CPlace (enc (UCol p c)) k]) by reflexivity.
  split; [constructor|split].
  - unfold s'. cbn. rewrite upd_length. auto.
  - auto.
  - intros q j u H. rewrite PN in H. destruct (Nat.eqb_spec q p).
    + subst q. apply in_app_iff in H. destruct H as [H|[H|[]]].
      * destruct (NM _ _ _ H) as (A & [B|(B1 & B2 & B3)]); split; auto.
      * inversion H; subst. split; auto. left. exists c. auto.
    + destruct (NM _ _ _ H) as (A & [B|(B1 & B2 & B3)]); split; auto.
  - intros q. rewrite PN. destruct (Nat.eqb_spec q p); auto. subst q. rewrite map_app. apply nodup_snoc; auto.
    apply klook_none. auto.
  - intros x. rewrite CS, is_place_cplace, PL. setoid_rewrite KN. split.
    + intros [(u & E & H)|H]; eauto.
    + intros (u & E & [H|H]); [eauto|subst; auto].
  - intros q d H. rewrite CS, init_of_snoc, enc_eqb. destruct (uname_dec (UCol p c) (UCol q d)) as [E|E].
    + inversion E; subst. auto.
    + apply IC. apply KN in H. destruct H; auto. congruence.
  - intros q H. rewrite CS, init_of_snoc, enc_eqb. destruct (uname_dec (UCol p c) (USum q)) as [E|E]; [discriminate|].
    apply KN in H. destruct H; [auto|discriminate].
  - rewrite CS. apply wpos_snoc. split; auto. repeat constructor.
  - intros x tn w H. rewrite CS in H. apply in_app_iff in H. destruct H as [H|[H|[]]]; [eauto|discriminate].
  - intros x tn w H. rewrite CS in H. apply in_app_iff in H. destruct H as [H|[H|[]]]; [eauto|discriminate].
  - intros S. rewrite CS. apply calls_ok_snoc. cbn. auto.
  - intros q d H. apply KN in H. destruct H as [H|H]; [eauto|]. inversion H; subst; auto.
  - apply KN. auto.
  - intros tn. constructor.
    + intros. rewrite CS, in_of_snoc. destruct (Nat.eqb t tn); lia.
    + intros. rewrite CS, out_of_snoc. destruct (Nat.eqb t tn); lia.
    + intros. apply KN. auto.
    + intros. rewrite CS. apply in_app_iff. auto.
    + intros. rewrite CS, is_trans_snoc. cbn. tauto.
Qed.

(** A new sum place; it is registered or not. *)
Lemma inv_sum : forall s p k (reg : bool), inv s -> p < np -> nth p (u_sum s) false = false ->
  inhibiting n p = true -> k = total n (cinit n) p -> (reg = true -> pnames s p = []) ->
  let s0 := emit_call s (CPlace (enc (USum p)) k) in
  let s' := set_sum (if reg then register s0 p (N.of_nat (psize p)) (USum p) else s0) p in
  inv s' /\ known s' (USum p) /\ forall tn, adds tn s s' (fun _ => 0%N) (fun _ => 0%N).
Proof.
  intros s p k reg I P K INH Ek RG s0 s'. destruct I as [L1 L2 NM ND PL IC IS WP CI IH CO TO].
  assert (PN : forall q, pnames s' q = if reg && Nat.eqb q p then [(N.of_nat (psize p), USum p)] else pnames s q).
  { intros q. unfold s', set_sum, pnames. cbn [u_pl]. destruct reg; cbn [andb].
    - change (nth q (u_pl (register s0 p (N.of_nat (psize p)) (USum p))) []) with
        (pnames (register s0 p (N.of_nat (psize p)) (USum p)) q).
      rewrite register_pnames; [|cbn; rewrite L1; auto]. unfold s0. rewrite !emit_pnames, RG by auto. reflexivity.
    - reflexivity. }
  assert (SM : forall q, nth q (u_sum s') false = if Nat.eqb q p then true else nth q (u_sum s) false).
  { intros q. unfold s'. rewrite set_sum_nth; [destruct reg; reflexivity|destruct reg; cbn; rewrite L2; auto]. }
  assert (KN : forall u, known s' u <-> known s u \/ u = USum p).
  { intros [q d|q|q]; cbn [known].
    - rewrite PN. destruct reg; cbn [andb]; [destruct (Nat.eqb_spec q p)|].
      + subst q. rewrite RG by auto. cbn. split; [intros [H|[]]; discriminate|intros [[]|H]; discriminate].
      + split; auto. intros [H|H]; auto. discriminate.
      + split; auto. intros [H|H]; auto. discriminate.
    - rewrite SM. destruct (Nat.eqb_spec q p); [subst; split; auto|].
      split; auto. intros [H|H]; auto. inversion H; subst; contradiction.
    - rewrite PN. destruct reg; cbn [andb]; [destruct (Nat.eqb_spec q p)|].
      + subst q. rewrite RG by auto. cbn. split; [intros (j & [H|[]]); discriminate|intros [(j & [])|H]; discriminate].
      + split; auto. intros [H|H]; auto. discriminate.
      + split; auto. intros [H|H]; auto. discriminate. }
  assert (NK : ~ known s (USum p)) by (cbn; rewrite K; discriminate).
  assert (CS : u_calls s' = u_calls s ++ [CPlace (enc (USum p)) k]) by (unfold s'; destruct reg; reflexivity).
  split; [constructor|split].
  - unfold s'. destruct reg; cbn; rewrite ?upd_length; auto.
  - unfold s'. destruct reg; cbn; rewrite upd_length; auto.
  - intros q j u H. rewrite PN in H. destruct reg; cbn [andb] in H; [destruct (Nat.eqb_spec q p)|].
    + subst q. destruct H as [H|[]]. inversion H; subst. split; auto. right. repeat split; auto. apply KN. auto.
    + destruct (NM _ _ _ H) as (A & [B|(B1 & B2 & B3)]); split; auto. right. repeat split; auto. apply KN; auto.
    + destruct (NM _ _ _ H) as (A & [B|(B1 & B2 & B3)]); split; auto. right. repeat split; auto. apply KN; auto.
  - intros q. rewrite PN. destruct (reg && Nat.eqb q p); auto. cbn. constructor; auto. constructor.
  - intros x. rewrite CS, is_place_cplace, PL. setoid_rewrite KN. split.
    + intros [(u & E & H)|H]; eauto.
    + intros (u & E & [H|H]); [eauto|subst; auto].
  - intros q d H. rewrite CS, init_of_snoc, enc_eqb. destruct (uname_dec (USum p) (UCol q d)) as [E|E]; [discriminate|].
    apply KN in H. destruct H; [auto|discriminate].
  - intros q H. rewrite CS, init_of_snoc, enc_eqb. destruct (uname_dec (USum p) (USum q)) as [E|E].
    + inversion E; subst. auto.
    + apply IS. apply KN in H. destruct H; auto. congruence.
  - rewrite CS. apply wpos_snoc. split; auto. repeat constructor.
  - intros x tn w H. rewrite CS in H. apply in_app_iff in H. destruct H as [H|[H|[]]]; [eauto|discriminate].
  - intros x tn w H. rewrite CS in H. apply in_app_iff in H. destruct H as [H|[H|[]]]; [eauto|discriminate].
  - intros S. rewrite CS. apply calls_ok_snoc. cbn. auto.
  - intros q d H. apply KN in H. destruct H as [H|H]; [eauto|]. inversion H; subst; auto.
  - apply KN. auto.
  - intros tn. constructor.
    + intros. rewrite CS, in_of_snoc. destruct (Nat.eqb t tn); lia.
    + intros. rewrite CS, out_of_snoc. destruct (Nat.eqb t tn); lia.
    + intros. apply KN. auto.
    + intros. rewrite CS. apply in_app_iff. auto.
    + intros. rewrite CS, is_trans_snoc. cbn. tauto.
Qed.

(** Emission of an arc on a known place. *)
Definition arc_call (input : bool) (u : uname) (tn : nat) (w : N) : call :=
  if input then CIn (enc u) tn false w else COut tn (enc u) w.

Definition only (v : uname) (w : N) : uname -> N := fun u => if uname_dec v u then w else 0%N.

Lemma inv_arc : forall s input u t i tr p e w, inv s -> known s u -> (0 < w)%N ->
  nth_error (cn_trs n) t = Some tr -> is_trans (u_calls s) (enct t i) ->
  (input = true -> In (p, e) (ct_in tr)) -> (u = USum p \/ exists c, u = UCol p c) ->
  let s' := emit_call s (arc_call input u (enct t i) w) in
  inv s' /\ adds (enct t i) s s' (if input then only u w else fun _ => 0%N) (if input then fun _ => 0%N else only u w).
Proof.
  intros s input u t i tr p e w I KU W TR IT IN SH s'. destruct I as [L1 L2 NM ND PL IC IS WP CI IH CO TO].
  assert (CS : u_calls s' = u_calls s ++ [arc_call input u (enct t i) w]) by reflexivity.
  split; [constructor|].
  - auto.
  - auto.
  - intros q k v H. destruct (NM q k v H) as (A & [B|(B1 & B2 & B3)]); split; auto.
  - exact ND.
  - intros x. rewrite CS, is_place_snoc, PL. unfold s'. setoid_rewrite emit_known. split; auto.
    intros [H|H]; auto. exists u. split; auto. destruct input; cbn in H; auto.
  - intros q d H. apply emit_known in H. rewrite CS, init_of_snoc. unfold arc_call. destruct input; auto.
  - intros q H. apply emit_known in H. rewrite CS, init_of_snoc. unfold arc_call. destruct input; auto.
  - rewrite CS. apply wpos_snoc. split; auto. constructor; [|constructor]. destruct input; cbn; auto.
  - intros x tn' w' H. rewrite CS in H. apply in_app_iff in H. destruct H as [H|[H|[]]]; [eauto|].
    destruct input; cbn in H; [|discriminate]. inversion H; subst. exists t, tr, i, p, e. repeat split; auto.
    destruct SH as [->|(c & ->)]; eauto.
  - intros x tn' w' H. rewrite CS in H. apply in_app_iff in H. destruct H as [H|[H|[]]]; [eauto|].
    destruct input; cbn in H; discriminate.
  - intros S. rewrite CS. apply calls_ok_snoc. split; auto. destruct input; cbn; auto. split; auto.
    intros w' H. destruct (IH _ _ _ H) as (t' & i' & p' & E1 & E2 & E3). apply TI in E1. destruct E1; subst t' i'.
    apply EI in E2. subst u. destruct SH as [E|(c & E)]; [|discriminate]. inversion E; subst p'.
    eapply S; [exact E3|exact TR|]. apply IN; auto.
  - intros q d H. apply emit_known in H. eauto.
  - constructor.
    + intros v t'. rewrite CS, in_of_snoc. unfold arc_call. destruct input; [|destruct (Nat.eqb t' (enct t i)); lia].
      rewrite enc_eqb. unfold only. rewrite (Nat.eqb_sym t' (enct t i)).
      destruct (uname_dec u v), (Nat.eqb (enct t i) t'); cbn; lia.
    + intros v t'. rewrite CS, out_of_snoc. unfold arc_call. destruct input; [destruct (Nat.eqb t' (enct t i)); lia|].
      rewrite enc_eqb. unfold only. rewrite (Nat.eqb_sym t' (enct t i)).
      destruct (uname_dec u v), (Nat.eqb (enct t i) t'); cbn; lia.
    + intros v. unfold s'. rewrite emit_known. auto.
    + intros c H. rewrite CS. apply in_app_iff. auto.
    + intros x. rewrite CS, is_trans_snoc. unfold arc_call. destruct input; cbn; tauto.
Qed.

Lemma inv_inhib : forall s t i p w, inv s -> known s (USum p) ->
  is_trans (u_calls s) (enct t i) -> In (p, t, w) (cn_inh n) ->
  let s' := emit_call s (CIn (enc (USum p)) (enct t i) true w) in
  inv s' /\ adds (enct t i) s s' (fun _ => 0%N) (fun _ => 0%N) /\ In (CIn (enc (USum p)) (enct t i) true w) (u_calls s').
Proof.
  intros s t i p w I KU IT IN s'. destruct I as [L1 L2 NM ND PL IC IS WP CI IH CO TO].
  assert (CS : u_calls s' = u_calls s ++ [CIn (enc (USum p)) (enct t i) true w]) by reflexivity.
  split; [constructor|split].
  - auto.
  - auto.
  - intros q k v H. destruct (NM q k v H) as (A & [B|(B1 & B2 & B3)]); split; auto.
  - exact ND.
  - intros x. rewrite CS, is_place_snoc, PL. unfold s'. setoid_rewrite emit_known. split; auto.
    intros [H|H]; auto. exists (USum p). split; auto.
  - intros q d H. apply emit_known in H. rewrite CS, init_of_snoc. auto.
  - intros q H. apply emit_known in H. rewrite CS, init_of_snoc. auto.
  - rewrite CS. apply wpos_snoc. split; auto. constructor; [|constructor]. auto.
  - intros x tn' w' H. rewrite CS in H. apply in_app_iff in H. destruct H as [H|[H|[]]]; [eauto|discriminate].
  - intros x tn' w' H. rewrite CS in H. apply in_app_iff in H. destruct H as [H|[H|[]]]; [eauto|].
    inversion H; subst. eauto 6.
  - intros S. rewrite CS. apply calls_ok_snoc. split; auto. cbn. split; auto.
    intros w' H. destruct (CI _ _ _ H) as (t' & tr & i' & p' & e & E1 & E2 & E3 & E4). apply TI in E1. destruct E1; subst t' i'.
    destruct E4 as [E4|(c & E4)]; apply EI in E4; [|discriminate]. inversion E4; subst p'.
    eapply S; eauto.
  - intros q d H. apply emit_known in H. eauto.
  - constructor.
    + intros v t'. rewrite CS, in_of_snoc. destruct (Nat.eqb t' (enct t i)); lia.
    + intros v t'. rewrite CS, out_of_snoc. destruct (Nat.eqb t' (enct t i)); lia.
    + intros v. unfold s'. rewrite emit_known. auto.
    + intros c H. rewrite CS. apply in_app_iff. auto.
    + intros x. rewrite CS, is_trans_snoc. cbn. tauto.
  - rewrite CS. apply in_app_iff. right. left. auto.
Qed.

Lemma inv_trans : forall s tn pl, inv s -> let s' := emit_call s (CTrans tn pl) in
  inv s' /\ (forall u t, in_of (u_calls s') (enc u) t = in_of (u_calls s) (enc u) t) /\
  (forall u t, out_of (u_calls s') t (enc u) = out_of (u_calls s) t (enc u)) /\
  (forall u, known s u -> known s' u) /\ (forall c, In c (u_calls s) -> In c (u_calls s')) /\
  (forall x, is_trans (u_calls s') x <-> is_trans (u_calls s) x \/ x = tn).
Proof.
  intros s tn pl I s'. destruct I as [L1 L2 NM ND PL IC IS WP CI IH CO TO].
  assert (CS : u_calls s' = u_calls s ++ [CTrans tn pl]) by reflexivity.
  split; [constructor|].
  - auto.
  - auto.
  - intros q k v H. destruct (NM q k v H) as (A & [B|(B1 & B2 & B3)]); split; auto.
  - exact ND.
  - intros x. rewrite CS, is_place_snoc, PL. unfold s'. setoid_rewrite emit_known. cbn. tauto.
  - intros q d H. apply emit_known in H. rewrite CS, init_of_snoc. auto.
  - intros q H. apply emit_known in H. rewrite CS, init_of_snoc. auto.
  - rewrite CS. apply wpos_snoc. split; auto. constructor; [|constructor]. auto.
  - intros x tn' w' H. rewrite CS in H. apply in_app_iff in H. destruct H as [H|[H|[]]]; [eauto|discriminate].
  - intros x tn' w' H. rewrite CS in H. apply in_app_iff in H. destruct H as [H|[H|[]]]; [eauto|discriminate].
  - intros S. rewrite CS. apply calls_ok_snoc. split; auto. cbn. auto.
  - intros q d H. apply emit_known in H. eauto.
  - split; [|split; [|split; [|split]]].
    + intros. rewrite CS, in_of_snoc. lia.
    + intros. rewrite CS, out_of_snoc. lia.
    + intros u. unfold s'. rewrite emit_known. auto.
    + intros c H. rewrite CS. apply in_app_iff. auto.
    + intros x. rewrite CS, is_trans_snoc. cbn. intuition.
Qed.

(** ** One arc *)

(** The weight an arc of place [p] with multiset entries [l] gives to [u]. *)
Definition lw (p : nat) (l : list (nat * N)) (u : uname) : N :=
  match u with
  | UCol q c => if Nat.eqb p q then sumN (map (fun x => if Nat.eqb (fst x) c then snd x else 0%N) l) else 0%N
  | _ => 0%N
  end.

Definition zero : uname -> N := fun _ => 0%N.
Definition io_in (input : bool) (f : uname -> N) : uname -> N := if input then f else zero.
Definition io_out (input : bool) (f : uname -> N) : uname -> N := if input then zero else f.

Lemma io_ext : forall (input : bool) f g, (forall u, f u = g u) ->
  (forall u, io_in input f u = io_in input g u) /\ (forall u, io_out input f u = io_out input g u).
Proof. intros [|] f g H; split; intros; unfold io_in, io_out, zero; auto. Qed.
Lemma io_add : forall (input : bool) f g u, (io_in input f u + io_in input g u = io_in input (fun x => f x + g x)%N u)%N /\
  (io_out input f u + io_out input g u = io_out input (fun x => f x + g x)%N u)%N.
Proof. intros [|] f g u; split; unfold io_in, io_out, zero; lia. Qed.
Lemma adds_io : forall tn s1 s2 s3 input f g h, adds tn s1 s2 (io_in input f) (io_out input f) ->
  adds tn s2 s3 (io_in input g) (io_out input g) -> (forall u, (f u + g u)%N = h u) ->
  adds tn s1 s3 (io_in input h) (io_out input h).
Proof.
  intros tn s1 s2 s3 input f g h A B E. eapply adds_ext; [eapply adds_trans; eauto| |];
    intros u; cbn; destruct (io_add input f g u) as [E1 E2]; [rewrite E1|rewrite E2]; apply io_ext; auto.
Qed.
Lemma adds_zero : forall tn s s' input, adds tn s s' zero zero -> adds tn s s' (io_in input zero) (io_out input zero).
Proof. intros tn s s' [|] H; exact H. Qed.

Lemma arc_loop_ok : forall t i tr p pl e (input : bool), nth_error (cn_pls n) p = Some pl -> nth_error (cn_trs n) t = Some tr ->
  In (p, e) (if input then ct_in tr else ct_out tr) ->
  forall l s ty sh, inv s -> is_trans (u_calls s) (enct t i) ->
  (l = [] \/ ty = Some (ptype n p)) -> Forall (fun c => c < psize p) (map fst l) ->
  (sh + sumN (map snd l) < 2147483648)%N ->
  exists s', arc_loop n enc s p pl input (enct t i) ty l sh = Ok (s', (sh + sumN (map snd l))%N) /\ inv s' /\
    adds (enct t i) s s' (io_in input (lw p l)) (io_out input (lw p l)).
Proof.
  intros t i tr p pl e input PL TR IN. induction l as [|[c k] l IH]; intros s ty sh I IT TY F S.
  - exists s. cbn. split; [f_equal; f_equal; lia|]. split; auto. eapply adds_ext; [apply adds_refl| |];
      intros [q d|q|q]; destruct input; cbn; try reflexivity; destruct (Nat.eqb p q); reflexivity.
  - cbn in F, S. inversion F as [|? ? F1 F2]; subst. destruct TY as [TY|TY]; [discriminate|]. subst ty.
    cbn [arc_loop]. destruct (N.eqb_spec k 0).
    + subst k. destruct (IH s (Some (ptype n p)) sh I IT) as (s' & E & I' & A); auto; try lia.
      exists s'. split; [rewrite E; cbn; do 2 f_equal; lia|]. split; auto. eapply adds_ext; [exact A| |]; apply io_ext;
        intros [q d|q|q]; cbn; auto; destruct (Nat.eqb p q); auto; destruct (Nat.eqb c d); auto.
    + unfold mcolor. rewrite color_at_ok by exact F1. cbn [bind snd].
      assert (P : p < np) by (apply nth_error_lt in PL; auto).
      assert (H : exists s1, match klook (pnames s p) (N.of_nat c) with
                             | Some _ => Ok s
                             | None => unfold_place n enc s p pl (ptype n p, c) (N.of_nat c)
                             end = Ok s1 /\ inv s1 /\ known s1 (UCol p c) /\ adds (enct t i) s s1 zero zero).
      { destruct (klook (pnames s p) (N.of_nat c)) as [u|] eqn:K.
        - exists s. split; auto. split; auto. split; [|apply adds_refl].
          apply klook_some in K. destruct (i_names s I _ _ _ K) as (_ & [(d & D1 & D2 & D3)|(D1 & D2 & D3)]).
          + apply Nnat.Nat2N.inj in D2. subst d u. exact K.
          + apply Nnat.Nat2N.inj in D1. unfold psize in *. lia.
        - destruct (marking_ok p pl PL) as (m & Em & R & Sm). unfold unfold_place. rewrite Em. cbn [snd].
          eexists. split; [reflexivity|].
          assert (Ek : cw32 (mget m (ptype n p, c)) = cinit n p (pval p c)).
          { erewrite mget_mlook by (exact R). cbn [snd].
            unfold pval. rewrite <- (mr_val _ _ _ _ R (val_of n (ptype n p) c)) by (apply val_typed; [exact T|exact F1]).
            rewrite num_val by (first [exact T|exact F1]). unfold cw32. rewrite N.mod_small; auto.
            pose proof (mlook_le_sum (snd m) c). unfold msize in Sm. lia. }
          destruct (inv_col s p c (cw32 (mget m (ptype n p, c)))) as (I1 & K1 & A1); auto.
          exists t, tr, e. split; auto. apply in_app_iff. destruct input; auto. }
      destruct H as (s1 & E1 & I1 & K1 & A1). rewrite E1. cbn [bind].
      assert (E2 : klook (pnames s1 p) (N.of_nat c) = Some (UCol p c)).
      { apply klook_in; [apply (i_nodup s1 I1)|exact K1]. }
      rewrite E2.
      destruct (inv_arc s1 input (UCol p c) t i tr p e k I1 K1) as (I2 & A2); auto; try lia; eauto.
      { apply (a_trans _ _ _ _ _ A1). auto. }
      { intros ->. exact IN. }
      unfold arc_call in *.
      assert (Ew : cw32 (sh + k) = (sh + k)%N) by (unfold cw32; rewrite N.mod_small; lia).
      rewrite Ew.
      edestruct (IH (emit_call s1 (if input then CIn (enc (UCol p c)) (enct t i) false k else COut (enct t i) (enc (UCol p c)) k))
                  (Some (ptype n p)) (sh + k)%N I2) as (s' & E & I' & A); auto; try lia.
      { apply (a_trans _ _ _ _ _ A2). apply (a_trans _ _ _ _ _ A1). auto. }
      exists s'. split; [rewrite E; do 2 f_equal; cbn; lia|]. split; auto.
      eapply adds_io with (f := zero); [apply adds_zero; exact A1| |].
      * eapply adds_io with (f := only (UCol p c) k); [|exact A|].
        { eapply adds_ext; [exact A2| |]; destruct input; reflexivity. }
        intros u; reflexivity.
      * intros u. unfold zero. destruct u as [q d|q|q]; unfold only; cbn [lw].
        -- cbn [map fst snd]. destruct (uname_dec (UCol p c) (UCol q d)) as [E3|E3].
           ++ inversion E3; subst. rewrite !Nat.eqb_refl. cbn. lia.
           ++ destruct (Nat.eqb_spec p q); [|lia]. subst. destruct (Nat.eqb_spec c d); [subst; congruence|]. cbn. lia.
        -- destruct (uname_dec (UCol p c) (USum q)); [discriminate|]. lia.
        -- destruct (uname_dec (UCol p c) (UOrph q)); [discriminate|]. lia.
Qed.

(** The weight an arc gives to the unfolded place [u] for the assignment [a]. *)
Definition cw (a : assignment) (x : nat * aexp) (u : uname) : N :=
  match u with
  | UCol q c => if Nat.eqb (fst x) q && (c <? psize q) then mval tab vars a (snd x) (pval q c) else 0%N
  | USum q => if Nat.eqb (fst x) q && inhibiting n q then sumN (map (mval tab vars a (snd x)) (values tab (ptype n q))) else 0%N
  | UOrph _ => 0%N
  end.

Lemma sum_place_ok : forall s p pl, inv s -> nth_error (cn_pls n) p = Some pl -> inhibiting n p = true ->
  exists s', sum_place n enc s p pl = Ok s' /\ inv s' /\ known s' (USum p) /\ forall tn, adds tn s s' zero zero.
Proof.
  intros s p pl I PL INH. unfold sum_place. destruct (nth p (u_sum s) false) eqn:K.
  - exists s. split; auto. split; auto. split; auto. intros. apply adds_refl.
  - destruct (marking_ok p pl PL) as (m & Em & R & Sm). rewrite Em. cbn [bind]. eexists. split; [reflexivity|].
    destruct (inv_sum s p (cw32 (msize m)) false) as (I' & K' & A'); auto.
    + apply nth_error_lt in PL. auto.
    + rewrite (init_total _ _ _ PL R). unfold cw32. apply N.mod_small. lia.
    + discriminate.
Qed.

Lemma unfold_arc_ok : forall t i tr b a x (input : bool) s, nth_error (cn_trs n) t = Some tr -> inv s ->
  is_trans (u_calls s) (enct t i) -> arc_ok n x -> brel n b a (avars (snd x)) -> In x (if input then ct_in tr else ct_out tr) ->
  exists s', unfold_arc n enc b (enct t i) input s x = Ok s' /\ inv s' /\
    adds (enct t i) s s' (io_in input (cw a x)) (io_out input (cw a x)).
Proof.
  intros t i tr b a [p e] input s TR I IT (pl & PL & TY & W) B IN. cbn [fst snd] in *.
  unfold unfold_arc. cbn [fst snd]. rewrite (@rd_some _ _ _ _ PL). cbn [bind].
  destruct (evaluate_ok n T e (cp_type pl) b a TY B W) as (ms & E & R & S). rewrite E. cbn [bind].
  rewrite <- (ptype_ok _ _ PL) in R.
  assert (P : p < np) by (apply nth_error_lt in PL; auto).
  destruct (ptype_decl p P) as [d D].
  destruct (arc_loop_ok t i tr p pl e input PL TR IN (snd ms) s (fst ms) 0%N I IT) as (s1 & E1 & I1 & A1).
  { destruct (mr_type _ _ _ _ R) as [H|[_ H]]; auto. }
  { exact (mr_ids _ _ _ _ R). }
  { unfold msize in S. lia. }
  rewrite E1. cbn [bind]. rewrite N.add_0_l in *.
  assert (LW : forall q c, lw p (snd ms) (UCol q c) = cw a (p, e) (UCol q c)).
  { intros q c. cbn [lw cw fst snd]. destruct (Nat.eqb_spec p q); [|reflexivity]. subst q. cbn [andb].
    rewrite mlook_sum by exact (mr_nodup _ _ _ _ R). destruct (Nat.ltb_spec c (psize p)) as [L|L].
    - rewrite <- (mr_val _ _ _ _ R) by (apply val_typed; [exact T|exact L]). unfold pval.
      rewrite num_val; [reflexivity|exact T|exact L].
    - apply mlook_in. intros H. pose proof (mr_ids _ _ _ _ R) as F. rewrite Forall_forall in F. apply F in H.
      unfold psize in L. lia. }
  assert (MT : msize ms = sumN (map (mval tab vars a e) (values tab (ptype n p)))).
  { symmetry. eapply mrep_total; eauto. }
  fold (msize ms). destruct (inhibiting n p) eqn:INH.
  - destruct (sum_place_ok s1 p pl I1 PL INH) as (s2 & E2 & I2 & K2 & A2). rewrite E2. cbn [bind].
    destruct (N.ltb_spec 0 (msize ms)) as [Z|Z]; cbn [andb].
    + destruct (N.ltb_spec (msize ms) 2147483648) as [Z'|Z']; [|lia].
      destruct (inv_arc s2 input (USum p) t i tr p e (msize ms) I2 K2) as (I3 & A3); auto; try (intros ->; exact IN).
      { apply (a_trans _ _ _ _ _ (A2 0)). apply (a_trans _ _ _ _ _ A1). auto. }
      eexists. split; [reflexivity|]. split; [exact I3|].
      eapply adds_io with (f := lw p (snd ms)) (g := only (USum p) (msize ms)); [exact A1| |].
      * eapply adds_io with (f := zero) (g := only (USum p) (msize ms)); [apply adds_zero; apply A2| |].
        -- eapply adds_ext with (fi := (if input then only (USum p) (msize ms) else zero))
                               (fo := (if input then zero else only (USum p) (msize ms))); [exact A3| |]; destruct input; reflexivity.
        -- intros; reflexivity.
      * intros [q c|q|q].
        -- rewrite LW. unfold only. destruct (uname_dec (USum p) (UCol q c)); [discriminate|]. lia.
        -- cbn [lw cw fst snd]. unfold zero, only. destruct (uname_dec (USum p) (USum q)) as [E3|E3].
           ++ inversion E3; subst q. rewrite Nat.eqb_refl, INH. cbn [andb]. rewrite MT. lia.
           ++ destruct (Nat.eqb_spec p q); [subst; congruence|]. cbn [andb]. lia.
        -- cbn [lw cw]. unfold zero, only. destruct (uname_dec (USum p) (UOrph q)); [discriminate|]. lia.
    + exists s2. split; auto. split; auto. eapply adds_io with (f := lw p (snd ms)); [exact A1|apply adds_zero; apply A2|].
      intros [q c|q|q].
      * rewrite LW. unfold zero. lia.
      * cbn [lw cw fst snd]. unfold zero. destruct (Nat.eqb_spec p q); cbn [andb]; [|lia]. subst q. rewrite INH. rewrite <- MT. lia.
      * reflexivity.
  - exists s1. split; auto. split; auto. eapply adds_ext; [exact A1| |]; apply io_ext; intros [q c|q|q]; auto;
      cbn [lw cw fst snd]; destruct (Nat.eqb_spec p q); auto; subst; rewrite INH; auto.
Qed.

Definition fw (a : assignment) (arcs : list (nat * aexp)) (u : uname) : N := sumN (map (fun x => cw a x u) arcs).

Lemma unfold_arcs_ok : forall t i tr b a (input : bool), nth_error (cn_trs n) t = Some tr -> forall l s, inv s ->
  is_trans (u_calls s) (enct t i) -> Forall (arc_ok n) l -> brel n b a (flat_map (fun x => avars (snd x)) l) ->
  incl l (if input then ct_in tr else ct_out tr) ->
  exists s', unfold_arcs n enc b (enct t i) input s l = Ok s' /\ inv s' /\
    adds (enct t i) s s' (io_in input (fw a l)) (io_out input (fw a l)).
Proof.
  intros t i tr b a input TR. induction l as [|x l IH]; intros s I IT F B IN; cbn [unfold_arcs].
  - exists s. split; auto. split; auto. eapply adds_ext; [apply adds_refl| |]; destruct input; reflexivity.
  - inversion F; subst. cbn [flat_map] in B.
    destruct (unfold_arc_ok t i tr b a x input s) as (s1 & E1 & I1 & A1); auto.
    { eapply brel_incl; [exact B|]. apply incl_appl. apply incl_refl. }
    { apply IN. left; auto. }
    rewrite E1. cbn [bind].
    destruct (IH s1) as (s2 & E2 & I2 & A2); auto.
    { apply (a_trans _ _ _ _ _ A1). auto. }
    { eapply brel_incl; [exact B|]. apply incl_appr. apply incl_refl. }
    { intros y Y. apply IN. right; auto. }
    exists s2. split; auto. split; auto. eapply adds_io; [exact A1|exact A2|]. intros u. reflexivity.
Qed.

Lemma unfold_inhib_ok : forall t i l s, inv s -> is_trans (u_calls s) (enct t i) -> incl l (cn_inh n) ->
  exists s', unfold_inhib n enc t (enct t i) s l = Ok s' /\ inv s' /\ adds (enct t i) s s' zero zero /\
    forall p w, In (p, t, w) l -> In (CIn (enc (USum p)) (enct t i) true w) (u_calls s').
Proof.
  intros t i. induction l as [|[[p t'] w] l IH]; intros s I IT IN; cbn [unfold_inhib].
  - exists s. split; auto. split; auto. split; [apply adds_refl|]. intros p w [].
  - destruct (Nat.eqb_spec t' t).
    + subst t'. assert (H : In (p, t, w) (cn_inh n)) by (apply IN; left; auto).
      assert (P : p < np) by (pose proof OK as (_ & _ & _ & _ & Q); destruct (Q _ _ _ H); auto).
      destruct (@nth_error_ex _ _ _ P) as [pl PL]. rewrite (@rd_some _ _ _ _ PL). cbn [bind].
      assert (INH : inhibiting n p = true).
      { unfold inhibiting. apply existsb_exists. exists (p, t, w). split; auto. cbn. apply Nat.eqb_refl. }
      match goal with |- exists s', bind ?X _ = _ /\ _ => assert (Q : exists s1, X = Ok s1 /\ inv s1 /\ known s1 (USum p) /\ forall tn, adds tn s s1 zero zero) end.
      { destruct (nth p (u_sum s) false) eqn:K.
        - exists s. split; auto. split; auto. split; auto. intros. apply adds_refl.
        - destruct (marking_ok p pl PL) as (m & Em & R & Sm). rewrite Em. cbn [bind].
          rewrite emit_pnames. rewrite <- (ptype_ok _ _ PL).
          assert (Ek : cw32 (msize m) = total n (cinit n) p).
          { rewrite (init_total _ _ _ PL R). unfold cw32. apply N.mod_small. lia. }
          destruct (pnames s p) as [|z zs] eqn:PN.
          + eexists. split; [reflexivity|]. destruct (inv_sum s p (cw32 (msize m)) true) as (I' & K' & A'); auto.
          + eexists. split; [reflexivity|]. destruct (inv_sum s p (cw32 (msize m)) false) as (I' & K' & A'); auto.
            discriminate. }
      destruct Q as (s1 & E1 & I1 & K1 & A1). rewrite E1. cbn [bind].
      destruct (inv_inhib s1 t i p w I1 K1) as (I2 & A2 & C2); auto.
      { apply (a_trans _ _ _ _ _ (A1 0)). auto. }
      destruct (IH (emit_call s1 (CIn (enc (USum p)) (enct t i) true w)) I2) as (s3 & E3 & I3 & A3 & C3).
      { apply (a_trans _ _ _ _ _ A2). apply (a_trans _ _ _ _ _ (A1 0)). auto. }
      { intros y Y. apply IN. right; auto. }
      exists s3. split; auto. split; auto. split.
      * eapply adds_ext; [eapply adds_trans; [apply A1|eapply adds_trans; [exact A2|exact A3]]| |]; reflexivity.
      * intros q v [Y|Y]; [|auto]. inversion Y; subst. apply (a_mono _ _ _ _ _ A3). exact C2.
    + destruct (IH s I IT) as (s3 & E3 & I3 & A3 & C3).
      { intros y Y. apply IN. right; auto. }
      exists s3. split; auto. split; auto. split; auto.
      intros q v [Y|Y]; [|auto]. inversion Y; subst. contradiction.
Qed.

Definition mono (s s' : ust) : Prop :=
  (forall u, known s u -> known s' u) /\ (forall c, In c (u_calls s) -> In c (u_calls s')).

Lemma unfold_binding_ok : forall t tr i b a s, nth_error (cn_trs n) t = Some tr -> inv s -> brel n b a (tvars tr) ->
  exists s', unfold_binding n enc enct t tr i b s = Ok s' /\ inv s' /\ mono s s' /\
    (forall u t', in_of (u_calls s') (enc u) t' = (in_of (u_calls s) (enc u) t' + if Nat.eqb t' (enct t i) then fw a (ct_in tr) u else 0)%N) /\
    (forall u t', out_of (u_calls s') t' (enc u) = (out_of (u_calls s) t' (enc u) + if Nat.eqb t' (enct t i) then fw a (ct_out tr) u else 0)%N) /\
    (forall x, is_trans (u_calls s') x <-> is_trans (u_calls s) x \/ x = enct t i) /\
    (forall p w, In (p, t, w) (cn_inh n) -> In (CIn (enc (USum p)) (enct t i) true w) (u_calls s')).
Proof.
  intros t tr i b a s TR I B. unfold unfold_binding.
  pose proof OK as (_ & _ & _ & Q & _). destruct (Q _ _ TR) as (_ & F1 & F2).
  destruct (inv_trans s (enct t i) (ct_player tr) I) as (I0 & N1 & N2 & N3 & N4 & N5).
  set (s0 := emit_call s (CTrans (enct t i) (ct_player tr))) in *.
  assert (IT : is_trans (u_calls s0) (enct t i)) by (apply N5; auto).
  destruct (unfold_arcs_ok t i tr b a true TR (ct_in tr) s0 I0 IT F1) as (s1 & E1 & I1 & A1).
  { eapply brel_incl; [exact B|]. unfold tvars. intros v V. rewrite !in_app_iff. auto. }
  { apply incl_refl. }
  rewrite E1. cbn [bind].
  destruct (unfold_arcs_ok t i tr b a false TR (ct_out tr) s1 I1) as (s2 & E2 & I2 & A2); auto.
  { apply (a_trans _ _ _ _ _ A1). auto. }
  { eapply brel_incl; [exact B|]. unfold tvars. intros v V. rewrite !in_app_iff. auto. }
  { apply incl_refl. }
  rewrite E2. cbn [bind].
  destruct (unfold_inhib_ok t i (cn_inh n) s2 I2) as (s3 & E3 & I3 & A3 & C3).
  { apply (a_trans _ _ _ _ _ A2). apply (a_trans _ _ _ _ _ A1). auto. }
  { apply incl_refl. }
  exists s3. split; auto. split; auto.
  pose proof (adds_trans _ _ _ _ _ _ _ _ A1 (adds_trans _ _ _ _ _ _ _ _ A2 A3)) as [B1 B2 B3 B4 B5].
  split; [split; auto|]. split; [|split; [|split; auto]].
  - intros. rewrite B1, N1. cbn. unfold zero. destruct (Nat.eqb t' (enct t i)); lia.
  - intros. rewrite B2, N2. cbn. unfold zero. destruct (Nat.eqb t' (enct t i)); lia.
  - intros. rewrite B5. auto.
Qed.

(** ** All transitions *)
Variable gens : list (list bmap).
Definition gens_sound : Prop := forall t tr b, nth_error (cn_trs n) t = Some tr -> In b (nth t gens []) ->
  exists a, binds n a /\ brel n b a (tvars tr) /\ forall g, ct_guard tr = Some g -> gval tab vars a g = true.
Definition gens_complete : Prop := forall t tr a, nth_error (cn_trs n) t = Some tr -> binds n a ->
  (forall g, ct_guard tr = Some g -> gval tab vars a g = true) ->
  exists b, In b (nth t gens []) /\ brel n b a (tvars tr).
Hypothesis GS : gens_sound.

(** What the calls say about the i-th unfolded copy of [t]. *)
Definition copy_ok (cs : list call) (t : nat) (tr : ctrans) (i : nat) (b : bmap) : Prop :=
  is_trans cs (enct t i) /\
  (forall a, brel n b a (tvars tr) -> forall u, in_of cs (enc u) (enct t i) = fw a (ct_in tr) u /\
                                                out_of cs (enct t i) (enc u) = fw a (ct_out tr) u) /\
  (forall p w, In (p, t, w) (cn_inh n) -> In (CIn (enc (USum p)) (enct t i) true w) cs).

Lemma cval_ext : forall e a a', (forall v, In v (cvars e) -> a v = a' v) -> cval tab vars a e = cval tab vars a' e.
Proof.
  induction e as [|v|uty ui|e IHe|e IHe|es IHs] using cexp_ind'; intros a a' H; cbn in *; auto.
  - rewrite (IHe a a'); auto.
  - rewrite (IHe a a'); auto.
  - f_equal. induction es as [|e es IH]; auto. inversion IHs as [|? ? Q1 Q2]; subst. cbn. f_equal.
    + rewrite (Q1 a a'); auto. intros v V. apply H. cbn. apply in_app_iff; auto.
    + apply IH; auto. intros v V. apply H. cbn. apply in_app_iff; auto.
Qed.
Lemma mval_ext : forall e a a' v, (forall x, In x (avars e) -> a x = a' x) -> mval tab vars a e v = mval tab vars a' e v.
Proof.
  induction e as [es k|es IHs|l r IHl IHr|e k IHe] using aexp_ind'; intros a a' v H; cbn in *.
  - apply sum_ext. intros e E. rewrite (cval_ext e a a'); auto. intros x X. apply H. apply in_flat_map. eauto.
  - apply sum_ext. intros e E. rewrite Forall_forall in IHs. apply IHs; auto. intros x X. apply H. apply in_flat_map. eauto.
  - rewrite (IHl a a'), (IHr a a'); auto; intros; apply H; apply in_app_iff; auto.
  - rewrite (IHe a a'); auto.
Qed.
Lemma brel_fun : forall b a a' vs v, brel n b a vs -> brel n b a' vs -> In v vs -> a v = a' v.
Proof.
  intros b a a' vs v B B' V. destruct (B v V) as [H1 H2]. destruct (B' v V) as [H3 H4].
  rewrite H2 in H4. injection H4 as H4. eapply vnum_inj; [exact H1|exact H3|exact H4].
Qed.
Lemma cw_ext : forall a a' x u, (forall v, In v (avars (snd x)) -> a v = a' v) -> cw a x u = cw a' x u.
Proof.
  intros a a' x [q c|q|q] H; cbn [cw]; auto.
  - destruct (Nat.eqb (fst x) q && (c <? psize q)); auto. apply mval_ext; auto.
  - destruct (Nat.eqb (fst x) q && inhibiting n q); auto. apply sum_ext. intros. apply mval_ext; auto.
Qed.
Lemma fw_ext : forall a a' l u, (forall v, In v (flat_map (fun x : nat * aexp => avars (snd x)) l) -> a v = a' v) -> fw a l u = fw a' l u.
Proof. intros a a' l u H. apply sum_ext. intros x X. apply cw_ext. intros v V. apply H. apply in_flat_map. eauto. Qed.

Lemma unfold_bindings_ok : forall t tr, nth_error (cn_trs n) t = Some tr -> forall bs i s, inv s ->
  (forall b, In b bs -> exists a, brel n b a (tvars tr)) ->
  (forall u j, i <= j -> in_of (u_calls s) (enc u) (enct t j) = 0%N /\ out_of (u_calls s) (enct t j) (enc u) = 0%N) ->
  exists s', unfold_bindings n enc enct t tr i bs s = Ok s' /\ inv s' /\ mono s s' /\
    (forall j b, nth_error bs j = Some b -> copy_ok (u_calls s') t tr (i + j) b) /\
    (forall u x, (forall j, j < length bs -> x <> enct t (i + j)) ->
        in_of (u_calls s') (enc u) x = in_of (u_calls s) (enc u) x /\ out_of (u_calls s') x (enc u) = out_of (u_calls s) x (enc u)) /\
    (forall x, is_trans (u_calls s') x <-> is_trans (u_calls s) x \/ exists j, j < length bs /\ x = enct t (i + j)).
Proof.
  intros t tr TR. induction bs as [|b bs IH]; intros i s I SD FR; cbn [unfold_bindings].
  - exists s. split; auto. split; auto. split; [split; auto|]. split; [intros [|j] b H; discriminate|].
    split; [auto|]. intros x. split; auto. intros [H|(j & H & _)]; auto. cbn in H. lia.
  - destruct (SD b (or_introl eq_refl)) as [a B].
    destruct (unfold_binding_ok t tr i b a s TR I B) as (s1 & E1 & I1 & M1 & N1 & N2 & N3 & N4). rewrite E1. cbn [bind].
    assert (NE : forall j j', j <> j' -> Nat.eqb (enct t j) (enct t j') = false).
    { intros j j' H. apply Nat.eqb_neq. intros E. apply TI in E. destruct E. auto. }
    destruct (IH (S i) s1 I1) as (s2 & E2 & I2 & M2 & P1 & P2 & P3).
    { intros b' B'. apply SD. right; auto. }
    { intros u j L. rewrite N1, N2, NE by lia. destruct (FR u j ltac:(lia)) as [F1 F2]. rewrite F1, F2. split; lia. }
    exists s2. split; auto. split; auto. split; [destruct M1, M2; split; auto|].
    split; [|split].
    + intros [|j] b' H.
      * cbn in H. inversion H; subst b'. rewrite Nat.add_0_r. split; [|split].
        -- apply P3. left. apply N3. auto.
        -- intros a' B' u. destruct (P2 u (enct t i)) as [F1 F2].
           { intros j _ E. apply TI in E. lia. }
           rewrite F1, F2, N1, N2, Nat.eqb_refl. destruct (FR u i (le_n _)) as [F3 F4]. rewrite F3, F4.
           assert (AE : forall v, In v (tvars tr) -> a v = a' v) by (intros v V; eapply brel_fun; eauto).
           rewrite (fw_ext a a' (ct_in tr)), (fw_ext a a' (ct_out tr)); [split; lia| |];
             intros v V; apply AE; unfold tvars; rewrite !in_app_iff; auto.
        -- intros p w H'. destruct M2 as [_ M2]. auto.
      * cbn in H. specialize (P1 _ _ H). replace (i + S j) with (S i + j) by lia. exact P1.
    + intros u x H. destruct (P2 u x) as [F1 F2].
      { intros j L. replace (S i + j) with (i + S j) by lia. apply H. cbn. lia. }
      rewrite F1, F2, N1, N2. destruct (Nat.eqb_spec x (enct t i)).
      * exfalso. apply (H 0); [cbn; lia|]. rewrite Nat.add_0_r. auto.
      * split; lia.
    + intros x. rewrite P3, N3. split.
      * intros [[H|H]|(j & L & H)]; auto.
        -- right. exists 0. rewrite Nat.add_0_r. cbn. split; [lia|auto].
        -- right. exists (S j). cbn. split; [lia|]. replace (i + S j) with (S (i + j)) by lia. auto.
      * intros [H|([|j] & L & H)]; auto.
        -- rewrite Nat.add_0_r in H. auto.
        -- right. exists j. cbn in L. split; [lia|]. replace (S i + j) with (i + S j) by lia. auto.
Qed.

Lemma unfold_transitions_ok : forall l t s, inv s ->
  (forall k tr, nth_error l k = Some tr -> nth_error (cn_trs n) (t + k) = Some tr) ->
  (forall u t' j, t <= t' -> in_of (u_calls s) (enc u) (enct t' j) = 0%N /\ out_of (u_calls s) (enct t' j) (enc u) = 0%N) ->
  exists s', unfold_transitions n enc enct gens t l s = Ok s' /\ inv s' /\ mono s s' /\
    (forall k tr i b, nth_error l k = Some tr -> nth_error (nth (t + k) gens []) i = Some b ->
       copy_ok (u_calls s') (t + k) tr i b) /\
    (forall u x, (forall t' j, t <= t' -> x <> enct t' j) ->
        in_of (u_calls s') (enc u) x = in_of (u_calls s) (enc u) x /\ out_of (u_calls s') x (enc u) = out_of (u_calls s) x (enc u)) /\
    (forall x, is_trans (u_calls s') x <-> is_trans (u_calls s) x \/
       exists k j, k < length l /\ j < length (nth (t + k) gens []) /\ x = enct (t + k) j).
Proof.
  induction l as [|tr l IH]; intros t s I NT FR; cbn [unfold_transitions].
  - exists s. split; auto. split; auto. split; [split; auto|]. split; [intros [|k] tr i b H; discriminate|].
    split; [auto|]. intros x. split; auto. intros [H|(k & j & H & _)]; auto. cbn in H. lia.
  - assert (TR : nth_error (cn_trs n) t = Some tr) by (rewrite <- (Nat.add_0_r t); apply NT; auto).
    destruct (unfold_bindings_ok t tr TR (nth t gens []) 0 s I) as (s1 & E1 & I1 & M1 & C1 & N1 & N2).
    { intros b B. destruct (GS t tr b TR B) as (a & _ & H & _). eauto. }
    { intros. apply FR. lia. }
    rewrite E1. cbn [bind].
    destruct (IH (S t) s1 I1) as (s2 & E2 & I2 & M2 & C2 & P1 & P2).
    { intros k tr' H. replace (S t + k) with (t + S k) by lia. apply NT. auto. }
    { intros u t' j L. destruct (N1 u (enct t' j)) as [F1 F2].
      - intros j' _ E. apply TI in E. lia.
      - rewrite F1, F2. apply FR. lia. }
    exists s2. split; auto. split; auto. split; [destruct M1, M2; split; auto|]. split; [|split].
    + intros [|k] tr' i b H B.
      * cbn in H. inversion H; subst tr'. rewrite Nat.add_0_r in *. destruct (C1 _ _ B) as (Q1 & Q2 & Q3). cbn [Nat.add] in *.
        split; [|split].
        -- apply P2. auto.
        -- intros a BR u. destruct (P1 u (enct t i)) as [F1 F2].
           { intros t' j L E. apply TI in E. lia. }
           rewrite F1, F2. apply Q2. auto.
        -- intros p w H'. destruct M2 as [_ M2]. auto.
      * cbn in H. replace (t + S k) with (S t + k) in * by lia. apply C2; auto.
    + intros u x H. destruct (P1 u x) as [F1 F2].
      { intros t' j L. apply H. lia. }
      rewrite F1, F2. apply N1. intros j _. apply H. lia.
    + intros x. rewrite P2, N2. split.
      * intros [[H|(j & L & H)]|(k & j & L & L' & H)]; auto.
        -- right. exists 0, j. rewrite Nat.add_0_r. cbn. split; [lia|auto].
        -- right. exists (S k), j. replace (t + S k) with (S t + k) by lia. cbn. split; [lia|auto].
      * intros [H|([|k] & j & L & L' & H)]; auto.
        -- rewrite Nat.add_0_r in *. left. right. exists j. auto.
        -- right. exists k, j. replace (t + S k) with (S t + k) in * by lia. cbn in L. split; [lia|auto].
Qed.

Definition start : ust := mkU [] (repeat [] np) (repeat false np).

Lemma nth_repeat_any : forall {A} (x : A) m k, nth k (repeat x m) x = x.
Proof. induction m as [|m IH]; intros [|k]; cbn; auto. Qed.

Lemma inv_start : inv start.
Proof.
  assert (PN : forall p, pnames start p = []) by (intros; unfold pnames; cbn; apply nth_repeat_any).
  assert (KN : forall u, ~ known start u).
  { intros [p c|p|p]; cbn [known]; rewrite ?PN; auto.
    - cbn. rewrite nth_repeat_any. discriminate.
    - intros (k & []). }
  constructor.
  - cbn. apply repeat_length.
  - cbn. apply repeat_length.
  - intros p k u H. rewrite PN in H. contradiction.
  - intros. rewrite PN. constructor.
  - intros x. split.
    + intros H. inversion H.
    + intros (u & _ & H). exfalso. eapply KN; eauto.
  - intros p c H. exfalso. eapply KN; eauto.
  - intros p H. exfalso. eapply KN; eauto.
  - constructor.
  - intros x tn w [].
  - intros x tn w [].
  - intros _ l1 c l2 H. destruct l1; discriminate.
  - intros p c H. exfalso. eapply KN; eauto.
Qed.

Lemma first_stage : exists s, unfold_transitions n enc enct gens 0 (cn_trs n) start = Ok s /\ inv s /\
  (forall t tr i b, nth_error (cn_trs n) t = Some tr -> nth_error (nth t gens []) i = Some b -> copy_ok (u_calls s) t tr i b) /\
  (forall x, is_trans (u_calls s) x <-> exists t j, t < length (cn_trs n) /\ j < length (nth t gens []) /\ x = enct t j).
Proof.
  destruct (unfold_transitions_ok (cn_trs n) 0 start inv_start) as (s & E & I & _ & C & _ & TRS); auto.
  exists s. split; auto. split; auto. split; auto. intros x. rewrite TRS. cbn. split; auto.
  intros [H|H]; auto. inversion H.
Qed.
End Un.
