(** The successor generator enumerates exactly the enabled bindings (C37). *)
From Verif Require Import Base BaseLemmas ColSyntax ColSpec ColModel ColRadix ExpSyntax ExpModel ExpSet ExpCodec ExpArc.

(** ** Ordered sets of variables and colours *)

Fixpoint incr (lo : nat) (l : list nat) : Prop :=
  match l with [] => True | x :: l' => lo <= x /\ incr (S x) l' end.

Lemma incr_weak : forall l lo lo', incr lo l -> lo' <= lo -> incr lo' l.
Proof. destruct l; cbn; intros; auto. split; [lia|tauto]. Qed.
Lemma set_ins_in : forall l v x, In x (set_ins v l) <-> x = v \/ In x l.
Proof.
  induction l as [|u l IH]; intros v x; cbn [set_ins]; [cbn; intuition congruence|].
  destruct (v <? u); [cbn; intuition congruence|]. destruct (Nat.eqb_spec v u) as [->|]; cbn; [intuition congruence|].
  rewrite IH. intuition congruence.
Qed.
Lemma set_ins_incr : forall l lo v, incr lo l -> lo <= v -> incr lo (set_ins v l).
Proof.
  induction l as [|u l IH]; intros lo v H L; cbn [set_ins]; [cbn; auto|]. destruct H as [H1 H2].
  destruct (Nat.ltb_spec v u); [cbn [incr]; repeat split; auto; lia|].
  destruct (Nat.eqb_spec v u); cbn [incr]; split; auto. apply IH; auto. lia.
Qed.
Lemma fold_ins_in : forall l s x, In x (fold_left (fun s v => set_ins v s) l s) <-> In x s \/ In x l.
Proof.
  induction l as [|v l IH]; intros s x; cbn; [tauto|]. rewrite IH, set_ins_in. intuition congruence.
Qed.
Lemma fold_ins_incr : forall l s, incr 0 s -> incr 0 (fold_left (fun s v => set_ins v s) l s).
Proof. induction l; intros s H; cbn; auto. apply IHl. apply set_ins_incr; auto. lia. Qed.
Lemma set_of_in : forall l x, In x (set_of l) <-> In x l.
Proof. intros. unfold set_of. rewrite fold_ins_in. cbn. tauto. Qed.
Lemma set_of_incr : forall l, incr 0 (set_of l).
Proof. intros. unfold set_of. apply fold_ins_incr. cbn. auto. Qed.
Lemma incr_ge : forall l lo x, incr lo l -> In x l -> lo <= x.
Proof.
  induction l as [|u l IH]; intros lo x H I; [contradiction|]. destruct H as [H1 H2]. destruct I as [->|I]; auto.
  specialize (IH _ _ H2 I). lia.
Qed.
Lemma incr_nodup : forall l lo, incr lo l -> NoDup l.
Proof.
  induction l as [|u l IH]; intros lo H; constructor; destruct H as [H1 H2]; [|eauto].
  intros I. pose proof (incr_ge _ _ _ H2 I). lia.
Qed.

(** ** Bindings and expressions *)

Definition same_on (vs : list nat) (b b' : binding) : Prop := forall v, In v vs -> bget b v = bget b' v.

Lemma same_incl : forall vs ws b b', same_on vs b b' -> incl ws vs -> same_on ws b b'.
Proof. intros vs ws b b' H I v V. apply H. auto. Qed.

Lemma pseq_ext : forall sz s b b', same_on (flat_map (fun x => match x with PV v _ => [v] | PC _ _ => [] end) s) b b' ->
  pseq_num b sz s = pseq_num b' sz s.
Proof.
  intros sz s b b' H. unfold pseq_num. f_equal. revert sz. induction s as [|x s IH]; intros [|z sz]; cbn [combine map]; auto.
  cbn [flat_map] in H. f_equal.
  - cbn [fst snd]. destruct x as [v o|c o]; auto. cbn. rewrite (H v) by (cbn; auto). reflexivity.
  - apply IH. eapply same_incl; [exact H|]. apply incl_appr, incl_refl.
Qed.
Lemma den_ext : forall e b b' c, same_on (arc_vars e) b b' -> den b e c = den b' e c.
Proof.
  induction e as [l IHl r IHr|l IHl r IHr|m|sz s k]; intros b b' c H; cbn [den arc_vars] in *; auto.
  - rewrite (IHl b b'), (IHr b b'); auto; (eapply same_incl; [exact H|]; auto using incl_appl, incl_appr, incl_refl).
  - rewrite (IHl b b'), (IHr b b'); auto; (eapply same_incl; [exact H|]; auto using incl_appl, incl_appr, incl_refl).
  - rewrite (pseq_ext sz s b b') by auto. reflexivity.
Qed.

Lemma gval_ext : forall x b b', same_on (gval_vars x) b b' -> gval_of b x = gval_of b' x.
Proof. intros [v o m|c] b b' H; cbn; auto. rewrite (H v) by (cbn; auto). reflexivity. Qed.
Lemma pairs_ext : forall l r b b', same_on (flat_map gval_vars l ++ flat_map gval_vars r) b b' -> pairs_eq b l r = pairs_eq b' l r.
Proof.
  induction l as [|x l IH]; intros [|y r] b b' H; cbn [pairs_eq]; auto. cbn [flat_map] in H.
  rewrite (gval_ext x b b'), (gval_ext y b b'), (IH r b b'); auto;
    (eapply same_incl; [exact H|]; intros v I; rewrite ?in_app_iff in *; tauto).
Qed.
Lemma guard_ext : forall g b b', same_on (kguard_vars g) b b' -> guard_eval b g = guard_eval b' g.
Proof.
  induction g as [l r|l r|l r|l r|l IHl r IHr|l IHl r IHr]; intros b b' H; cbn [guard_eval kguard_vars] in *.
  1,2: rewrite (gval_ext l b b'), (gval_ext r b b'); auto;
    (eapply same_incl; [exact H|]; auto using incl_appl, incl_appr, incl_refl).
  1,2: rewrite (pairs_ext l r b b'); auto.
  1,2: rewrite (IHl b b'), (IHr b b'); auto;
    (eapply same_incl; [exact H|]; auto using incl_appl, incl_appr, incl_refl).
Qed.

Section Gen.
Variable net : knet.

(** ** Well-formed nets and markings *)

Definition mgood (M : kmark) : Prop :=
  length M = length (kn_places net) /\
  forall p m sizes, nth_error M p = Some m -> nth_error (kn_places net) p = Some sizes -> wf (prod sizes) m /\ small m.

(** The sizes that belong to the components agree with the sizes of the variables. *)
Fixpoint ksz (e : carc) : Prop :=
  match e with
  | KAdd l r | KSub l r => ksz l /\ ksz r
  | KConst _ => True
  | KColl sz s _ => forall i v off, nth_error s i = Some (PV v off) ->
      exists z, nth_error sz i = Some z /\ nth_error (kn_vars net) v = Some z
  end.

Definition arc_good (a : karc) : Prop :=
  exists sizes, nth_error (kn_places net) (ka_place a) = Some sizes /\ kok sizes (ka_expr a).

Record tgood (t : ktrans) : Prop := mkTG {
  tg_in : Forall arc_good (kt_in t);
  tg_out : Forall arc_good (kt_out t);
  tg_min : Forall (fun a => subok (ka_expr a) /\ kpos (ka_expr a) /\ ksz (ka_expr a) /\
                            exists vc, min_marking (ka_expr a) = Ok (ka_min a, vc)) (kt_in t);
  tg_nodup : NoDup (map ka_place (kt_in t));
  tg_vars : incr 0 (kt_vars t);
  tg_sizes : Forall (fun v => exists z, nth_error (kn_vars net) v = Some z) (kt_vars t);
  tg_invars : forall a, In a (kt_in t) -> incl (arc_vars (ka_expr a)) (kt_vars t);
  tg_outvars : forall a, In a (kt_out t) -> incl (arc_vars (ka_expr a)) (kt_vars t);
  tg_gvars : forall g, kt_guard t = Some g -> incl (kguard_vars g) (kt_vars t);
  tg_total : kt_total t = match kt_vars t with [] => 0 | _ => prod (map (fun v => nth v (kn_vars net) 0) (kt_vars t)) end;
  tg_cons : forall v l x, find_cons (kt_cons t) v = Some l -> In (Some x) l ->
              exists a, In a (kt_in t) /\ In (Some x) (var_cons (ka_expr a) v (ka_place a)) }.

Hypothesis PP : Forall (Forall (fun s => 0 < s)) (kn_places net).
Hypothesis VP : Forall (fun s => 0 < s) (kn_vars net).

Lemma place_pos : forall p sizes, nth_error (kn_places net) p = Some sizes -> Forall (fun s => 0 < s) sizes.
Proof. intros p sizes E. rewrite Forall_forall in PP. apply PP. eapply nth_error_In; eauto. Qed.
Lemma var_pos : forall v z, nth_error (kn_vars net) v = Some z -> 0 < z.
Proof. intros v z E. rewrite Forall_forall in VP. apply VP. eapply nth_error_In; eauto. Qed.

(** A binding gives every variable of the transition a colour of its type. *)
Definition bgood (t : ktrans) (b : binding) : Prop :=
  forall v z, In v (kt_vars t) -> nth_error (kn_vars net) v = Some z -> bget b v < z.

Definition inhib_ok (M : kmark) (t : ktrans) : Prop :=
  forall p w m, In (p, w) (kt_inh t) -> nth_error M p = Some m -> (ms_card m < Z.of_N w)%Z.
Definition guard_ok (t : ktrans) (b : binding) : Prop := forall g, kt_guard t = Some g -> guard_eval b g = true.
Definition covers (M : kmark) (b : binding) (l : list karc) : Prop :=
  forall a m, In a l -> nth_error M (ka_place a) = Some m -> forall c, (den b (ka_expr a) c <= ms_get m c)%Z.

Definition kenabled (M : kmark) (t : ktrans) (b : binding) : Prop :=
  inhib_ok M t /\ guard_ok t b /\ covers M b (kt_in t).

Lemma kenabled_same : forall M t b b', tgood t -> same_on (kt_vars t) b b' -> kenabled M t b -> kenabled M t b'.
Proof.
  intros M t b b' G S (A & B & C). split; [exact A|]. split.
  - intros g E. rewrite <- (guard_ext g b b'); [auto|]. eapply same_incl; [exact S|]. eapply tg_gvars; eauto.
  - intros a m I E c. rewrite <- (den_ext (ka_expr a) b b'); [apply (C a m I E)|]. eapply same_incl; [exact S|]. eapply tg_invars; eauto.
Qed.

(** ** The tests *)

Lemma check_inhibitor_ok : forall M l r, check_inhibitor M l = Ok r ->
  (r = true <-> forall p w m, In (p, w) l -> nth_error M p = Some m -> (ms_card m < Z.of_N w)%Z).
Proof.
  induction l as [|[p w] l IH]; intros r H; cbn [check_inhibitor] in H.
  - inversion H. split; auto. intros _ q v m [].
  - binv H m E. apply rd_ok_inv in E. destruct (Z.leb_spec (Z.of_N w) (ms_card m)).
    + inversion H; subst. split; [discriminate|]. intros Q. specialize (Q p w m (or_introl eq_refl) E). lia.
    + rewrite (IH _ H). split; intros Q q v x I X.
      * destruct I as [I|I]; [|eauto]. inversion I; subst. congruence.
      * apply (Q q v x); auto. right. auto.
Qed.

Lemma check_preset_ok : forall M b l r, mgood M -> Forall arc_good l -> check_preset M b l = Ok r -> (r = true <-> covers M b l).
Proof.
  intros M b l r MG. revert r. induction l as [|a l IH]; intros r F H; cbn [check_preset] in H.
  - inversion H. split; auto. intros _ a m [].
  - inversion F as [|? ? F1 F2]; subst. binv H m E. apply rd_ok_inv in E. binv H ok E1.
    destruct F1 as (sizes & PS & K). destruct MG as [_ MG]. destruct (MG _ _ _ E PS) as [W _].
    pose proof (is_subset_ok sizes (place_pos _ _ PS) b _ _ _ K W E1) as S. destruct ok.
    + rewrite (IH _ F2 H). split.
      * intros C a' m' [<-|I] E'; [|apply (C a' m'); auto]. replace m' with m by congruence. apply S. auto.
      * intros C a' m' I E'. apply (C a' m'); auto. right. auto.
    + inversion H; subst. split; [discriminate|]. intros C. apply S. apply (C a m); auto. left. auto.
Qed.

Lemma check_ok : forall M t b r, mgood M -> tgood t -> check_preset_guard M t b = Ok r ->
  (r = true <-> guard_ok t b /\ covers M b (kt_in t)).
Proof.
  intros M t b r MG TG H. unfold check_preset_guard in H. unfold guard_ok. destruct (kt_guard t) as [g|] eqn:EG.
  - destruct (guard_eval b g) eqn:GE.
    + rewrite (check_preset_ok M b _ r MG (tg_in _ TG) H). split; [|tauto]. intros C. split; auto. intros g' Q. congruence.
    + inversion H; subst. split; [discriminate|]. intros [Q _]. rewrite (Q g eq_refl) in GE. discriminate.
  - rewrite (check_preset_ok M b _ r MG (tg_in _ TG) H). split; [|tauto]. intros C. split; auto. intros g' Q. discriminate.
Qed.

Lemma has_minimal_ok : forall M b l r, mgood M -> Forall arc_good l ->
  Forall (fun a => subok (ka_expr a) /\ kpos (ka_expr a) /\ ksz (ka_expr a) /\
                            exists vc, min_marking (ka_expr a) = Ok (ka_min a, vc)) l ->
  covers M b l -> has_minimal M l = Ok r -> r = true.
Proof.
  intros M b l r MG. revert r. induction l as [|a l IH]; intros r F G C H; cbn [has_minimal] in H.
  - inversion H. auto.
  - inversion F as [|? ? F1 F2]; subst. inversion G as [|? ? G1 G2]; subst. binv H m E. apply rd_ok_inv in E.
    destruct F1 as (sizes & PS & K). destruct MG as [L MG]. destruct (MG _ _ _ E PS) as [W _].
    destruct G1 as (SO & _ & _ & vc & MM). pose proof (place_pos _ _ PS) as SP.
    destruct (min_ok sizes SP _ _ K SO MM) as (WM & LE & _). cbn [fst] in *.
    assert (CA : forall c, (den b (ka_expr a) c <= ms_get m c)%Z) by (apply (C a m); auto; left; auto).
    pose proof (min_count_ok sizes SP b _ K) as MC. pose proof (sum_to_le (prod sizes) _ _ (fun c _ => CA c)) as SL.
    rewrite <- (pre_card _ _ (proj1 W)) in SL.
    destruct (Z.ltb_spec (ms_card m) (Z.of_N (min_count (ka_expr a)))); [lia|].
    assert (LB : ms_leb (ka_min a) m = true).
    { apply (ms_leb_ok (prod sizes)); auto. intros c. specialize (LE b c). specialize (CA c). lia. }
    rewrite LB in H. cbn [negb] in H. apply IH; auto. intros a' m' I E'. apply (C a' m'); auto. right. auto.
Qed.

(** ** Numbers of bindings *)

Lemma bget_combine : forall vs ds i v d, NoDup vs -> nth_error vs i = Some v -> nth_error ds i = Some d -> bget (combine vs ds) v = d.
Proof.
  induction vs as [|u vs IH]; intros [|e ds] i v d ND E1 E2; destruct i; cbn in *; try discriminate.
  - inversion E1; inversion E2; subst. rewrite Nat.eqb_refl. auto.
  - inversion ND; subst. destruct (Nat.eqb_spec u v) as [->|].
    + exfalso. apply H1. eapply nth_error_In; eauto.
    + eapply IH; eauto.
Qed.

Lemma binding_loop_ok : forall vs bid, Forall (fun v => exists z, nth_error (kn_vars net) v = Some z) vs ->
  binding_loop net vs bid (prod (map (fun v => nth v (kn_vars net) 0) vs)) =
  Ok (combine vs (bdigits (map (fun v => nth v (kn_vars net) 0) vs) bid)).
Proof.
  induction vs as [|v vs IH]; intros bid F; [reflexivity|]. inversion F as [|? ? [z Z] F2]; subst.
  cbn [binding_loop map prod bdigits combine]. rewrite (rd_some _ _ Z). cbn [bind]. rewrite (nth_error_nth _ _ 0 Z).
  rewrite mul_div by (eapply var_pos; eauto). rewrite (IH bid F2). reflexivity.
Qed.

(** The numbering of the bindings that findNextValidBinding uses: their number and the
    binding with a given number. *)
Definition enum (M : kmark) (t : ktrans) : res (nat * (nat -> res binding)) :=
  if Nat.eqb (kt_total t) 0 then Ok (1, fun _ => Ok [])
  else if 30 <? kt_total t then
    d <- constraint_data net M t (kt_vars t) ;;
    Ok (match d with
        | None => (0, fun _ => UB)
        | Some d => (total_size (map (fun x => snd (fst x)) d), fun i => data_binding (map (fun x => snd (fst x)) d) d i 0)
        end)
  else Ok (kt_total t, get_binding net t).

Definition early_exit (M : kmark) (t : ktrans) (bid : nat) : res bool :=
  if Nat.eqb bid 0
  then i <- check_inhibitor M (kt_inh t) ;;
       if i then h <- has_minimal M (kt_in t) ;; Ok (negb h) else Ok true
  else Ok false.

Lemma find_next_enum : forall M t bid, find_next net M t bid =
  (e <- early_exit M t bid ;;
   if e then Ok None else x <- enum M t ;; scan M t (snd x) (fst x - bid) bid).
Proof.
  intros M t bid. unfold find_next. fold (early_exit M t bid).
  destruct (early_exit M t bid) as [[]| | |]; cbn [bind]; auto. unfold enum.
  destruct (Nat.eqb_spec (kt_total t) 0).
  - cbn [bind fst snd]. destruct (Nat.eqb_spec bid 0) as [->|NZ].
    + cbn. destruct (check_preset_guard M t []) as [[]| | |]; reflexivity.
    + replace (1 - bid) with 0 by lia. reflexivity.
  - destruct (30 <? kt_total t); [|reflexivity].
    destruct (constraint_data net M t (kt_vars t)) as [[d|]| | |]; reflexivity.
Qed.

(** ** The values left by the constraints *)

Lemma possible_in : forall sizes m index off size x, In x (possible_colors sizes m index off size) <->
  exists c k, In (c, k) (ms_counts m) /\ x = color_offset (decode sizes c index) (- off) size.
Proof.
  intros. unfold possible_colors. rewrite set_of_in, in_map_iff. split.
  - intros ([c k] & <- & I). exists c, k. auto.
  - intros (c & k & I & ->). exists (c, k). auto.
Qed.

(** The constraint allows the colour [x]. *)
Definition allows (M : kmark) (size : nat) (x : nat) (con : vcon) : Prop :=
  match con with
  | None => True
  | Some (index, off, p) => forall m sizes, nth_error M p = Some m -> nth_error (kn_places net) p = Some sizes ->
      In x (possible_colors sizes m index off size)
  end.

Lemma restrict_ok : forall M size l values r, 0 < size ->
  restrict net M size l values = Ok r -> (match values with None => True | Some vs => forall x, In x vs -> x < size end) ->
  match r with
  | None => forall x, x < size -> (match values with None => True | Some vs => In x vs end) -> ~ Forall (allows M size x) l
  | Some None => values = None
  | Some (Some vs') => (forall x, In x vs' -> x < size) /\
      forall x, x < size -> (match values with None => True | Some vs => In x vs end) -> Forall (allows M size x) l -> In x vs'
  end.
Proof.
  intros M size l. induction l as [|con l IH]; intros values r P H B; cbn [restrict] in H.
  - inversion H; subst. destruct values; [|auto]. split; auto.
  - destruct con as [[[index off] p]|].
    + binv H m E. apply rd_ok_inv in E. binv H sizes ES. apply rd_ok_inv in ES.
      set (colors := possible_colors sizes m index off size) in *.
      set (values' := match values with
                   | None => if Nat.eqb (length colors) size then None else Some colors
                   | Some vs => Some (filter (fun v => existsb (Nat.eqb v) colors) vs)
                   end) in *.
      assert (CB : forall x, In x colors -> x < size).
      { intros x I. apply possible_in in I. destruct I as (c & k & _ & ->). apply color_offset_lt. auto. }
      assert (B' : match values' with None => True | Some vs => forall x, In x vs -> x < size end).
      { unfold values'. destruct values as [vs|].
        - intros x I. apply filter_In in I. apply B. tauto.
        - destruct (length colors =? size); auto. }
      assert (KEEP : forall x, x < size -> (match values with None => True | Some vs => In x vs end) -> Forall (allows M size x) (Some (index, off, p) :: l) ->
                (match values' with None => True | Some vs => In x vs end) /\ Forall (allows M size x) l).
      { intros x X V F. inversion F as [|? ? F1 F2]; subst. split; auto. specialize (F1 m sizes E ES). fold colors in F1.
        unfold values'. destruct values as [vs|].
        - apply filter_In. split; auto. apply existsb_exists. exists x. split; auto. apply Nat.eqb_refl.
        - destruct (length colors =? size); auto. }
      assert (NONE : values' = None -> values = None) by (unfold values'; destruct values; [discriminate|auto]).
      assert (H' : (values' = Some [] /\ r = None) \/ restrict net M size l values' = Ok r).
      { destruct values' as [[|]|]; auto. inversion H; auto. }
      destruct H' as [[E1 ->]|H'].
      * intros x X V F. destruct (KEEP x X V F) as [K _]. rewrite E1 in K. contradiction.
      * pose proof (IH _ _ P H' B') as Q. destruct r as [[vs'|]|].
        -- destruct Q as [Q1 Q2]. split; auto. intros x X V F. destruct (KEEP x X V F). auto.
        -- auto.
        -- intros x X V F. destruct (KEEP x X V F) as [K1 K2]. apply (Q x X K1 K2).
    + pose proof (IH _ _ P H B) as Q. destruct r as [[vs'|]|].
      * destruct Q as [Q1 Q2]. split; auto. intros x X V F. inversion F. auto.
      * auto.
      * intros x X V F. inversion F; subst. apply (Q x X V). auto.
Qed.

(** An enabled binding satisfies the constraints. *)
Lemma enabled_allows : forall M t b v z l, mgood M -> tgood t -> kenabled M t b -> bgood t b -> In v (kt_vars t) ->
  nth_error (kn_vars net) v = Some z -> find_cons (kt_cons t) v = Some l -> Forall (allows M z (bget b v)) l.
Proof.
  intros M t b v z l [_ MG] TG (_ & _ & C) BG I Z FC. apply Forall_forall. intros [[[index off] p]|] IC; [|exact Logic.I].
  cbn. intros m sizes E ES. destruct (tg_cons _ TG _ _ _ FC IC) as (a & IA & IV).
  pose proof (tg_in _ TG) as F. rewrite Forall_forall in F. destruct (F a IA) as (sz & PS & K).
  pose proof (tg_min _ TG) as F'. rewrite Forall_forall in F'. destruct (F' a IA) as (_ & KP & KZ & _).
  pose proof (place_pos _ _ PS) as SP.
  assert (X : p = ka_place a /\ exists s c, nth_error s index = Some (PV v off) /\ length s = length sz /\
              c = pseq_num b sz s /\ (0 < den b (ka_expr a) c)%Z /\ nth_error sz index = Some z).
  { clear - K KP KZ IV Z SP. revert K KP KZ IV. generalize (ka_expr a). intros e.
    induction e as [l IHl r IHr|l IHl r IHr|k|s0 s k]; intros K KP KZ IV; cbn [kok kpos ksz var_cons] in *.
    - destruct K as [K1 K2], KP as [P1 P2], KZ as [Z1 Z2]. apply in_app_iff in IV. destruct IV as [IV|IV].
      + destruct (IHr K2 P2 Z2 IV) as (E & s & c & E1 & E2 & E3 & D & E4). split; auto. exists s, c. repeat split; auto.
        cbn. pose proof (den_nonneg b sz l c K1). lia.
      + destruct (IHl K1 P1 Z1 IV) as (E & s & c & E1 & E2 & E3 & D & E4). split; auto. exists s, c. repeat split; auto.
        cbn. pose proof (den_nonneg b sz r c K2). lia.
    - destruct (existsb _ _); cbn in IV; [|contradiction]. destruct IV as [I|[]]. discriminate.
    - contradiction.
    - destruct K as [-> L]. destruct (seq_cons_in _ _ _ _ _ _ _ IV) as (E & j & E1 & E2). cbn in E1. subst j. split; auto.
      exists s, (pseq_num b sz s). repeat split; auto; [cbn; rewrite Nat.eqb_refl; lia|].
      destruct (KZ _ _ _ E2) as (z' & Z1 & Z2). congruence. }
  destruct X as (-> & s & c & E1 & E2 & -> & D & E4).
  assert (sizes = sz) by congruence. subst sz.
  pose proof (C a m IA E (pseq_num b sizes s)) as CC.
  assert (NZ : ms_get m (pseq_num b sizes s) <> 0%Z) by lia.
  apply possible_in. exists (pseq_num b sizes s), (ms_get m (pseq_num b sizes s)). split; [apply get_in_list; exact NZ|].
  rewrite (pseq_decode sizes SP b s index v off z E2 E1 E4). symmetry. apply offset_inv; [eapply var_pos; eauto|]. eapply BG; eauto.
Qed.

(** What [constraint_data] computed for a variable. *)
Definition entry_ok (x : nat * nat * option (list nat)) : Prop :=
  exists z, nth_error (kn_vars net) (fst (fst x)) = Some z /\
  match snd x with
  | None => snd (fst x) = z
  | Some l => snd (fst x) = length l /\ forall y, In y l -> y < z
  end.
Definition entry_has (b : binding) (x : nat * nat * option (list nat)) : Prop :=
  match snd x with None => True | Some l => In (bget b (fst (fst x))) l end.

Lemma constraint_data_ok : forall M t vs d, mgood M -> tgood t -> incl vs (kt_vars t) ->
  constraint_data net M t vs = Ok d ->
  match d with
  | None => forall b, bgood t b -> ~ kenabled M t b
  | Some d => map (fun x => fst (fst x)) d = vs /\ Forall entry_ok d /\
              forall b, bgood t b -> kenabled M t b -> Forall (entry_has b) d
  end.
Proof.
  intros M t vs. induction vs as [|v vs IH]; intros d MG TG I H; cbn [constraint_data] in H.
  - inversion H; subst. split; [reflexivity|]. split; constructor.
  - binv H z EZ. apply rd_ok_inv in EZ. pose proof (var_pos _ _ EZ) as ZP. binv H r ER.
    assert (IV : In v (kt_vars t)) by (apply I; left; auto).
    assert (I' : incl vs (kt_vars t)) by (intros x X; apply I; right; auto).
    assert (RR : match r with
      | None => forall b, bgood t b -> ~ kenabled M t b
      | Some values => entry_ok (v, match values with None => z | Some l => length l end, values) /\
         forall b, bgood t b -> kenabled M t b -> entry_has b (v, match values with None => z | Some l => length l end, values) end).
    { destruct (find_cons (kt_cons t) v) as [l|] eqn:FC.
      - pose proof (restrict_ok M z l None r ZP ER Logic.I) as Q. destruct r as [[vs'|]|].
        + destruct Q as [Q1 Q2]. split; [exists z; cbn; auto|]. intros b BG KE. unfold entry_has. cbn [fst snd]. apply Q2; [eapply BG; eauto|exact Logic.I|eapply enabled_allows; eauto].
        + split; [exists z; cbn; auto|]. intros. exact Logic.I.
        + intros b BG KE. apply (Q (bget b v)); [eapply BG; eauto|exact Logic.I|eapply enabled_allows; eauto].
      - inversion ER; subst. split; [exists z; cbn; auto|]. intros. exact Logic.I. }
    destruct r as [values|]; [|inversion H; subst; exact RR]. binv H rest E2. inversion H; subst. clear H.
    pose proof (IH _ MG TG I' E2) as Q. destruct rest as [d|]; [|exact Q]. destruct Q as (Q1 & Q2 & Q3). destruct RR as [R1 R2].
    split; [cbn; congruence|]. split; [constructor; auto|]. intros b BG KE. constructor; auto.
Qed.

(** The binding for given digits. *)
Fixpoint pickv (d : list (nat * nat * option (list nat))) (ds : list nat) : binding :=
  match d, ds with
  | (v, _, values) :: d', k :: ds' => (v, match values with None => k | Some l => nth k l 0 end) :: pickv d' ds'
  | _, _ => []
  end.

Lemma data_binding_ok : forall sizes d bid index ds,
  length ds = length d -> (forall j x, nth_error ds j = Some x -> x = decode sizes bid (index + j)) ->
  Forall2 (fun x (e : nat * nat * option (list nat)) => x < snd (fst e)) ds d -> Forall entry_ok d ->
  data_binding sizes d bid index = Ok (pickv d ds).
Proof.
  intros sizes d bid. induction d as [|[[v k] values] d IH]; intros index ds L D F EO; destruct ds as [|x ds]; try discriminate; [reflexivity|].
  inversion F as [|? ? ? ? F1 F2]; subst. inversion EO as [|? ? (z & EZ & E1) EO2]; subst. cbn [fst snd] in *.
  cbn [data_binding pickv].
  pose proof (D 0 x eq_refl) as D0. rewrite Nat.add_0_r in D0. rewrite <- D0.
  assert (C : match values with None => Ok x | Some l => rd l x end = Ok (match values with None => x | Some l => nth x l 0 end)).
  { destruct values as [l|]; auto. apply rd_nth. lia. }
  rewrite C. cbn [bind]. rewrite (IH (S index) ds); auto.
  intros j y E. specialize (D (S j) y E). rewrite D. f_equal. lia.
Qed.

Lemma prod_pos_inv : forall ss, 0 < prod ss -> Forall (fun s => 0 < s) ss.
Proof. induction ss; cbn; intros; constructor; [nia|apply IHss; nia]. Qed.

Lemma pickv_get : forall d ds i v k values x, NoDup (map (fun x => fst (fst x)) d) -> nth_error d i = Some (v, k, values) ->
  nth_error ds i = Some x -> bget (pickv d ds) v = match values with None => x | Some l => nth x l 0 end.
Proof.
  induction d as [|[[u k0] vals0] d IH]; intros ds i v k values x ND E1 E2; destruct i; cbn in E1; try discriminate;
    destruct ds as [|y ds]; cbn in E2; try discriminate.
  - inversion E1; inversion E2; subst. cbn. rewrite Nat.eqb_refl. reflexivity.
  - cbn in ND. inversion ND; subst. cbn [pickv bget]. destruct (Nat.eqb_spec u v) as [->|].
    + exfalso. apply H1. apply (in_map (fun x => fst (fst x))) with (x := (v, k, values)). eapply nth_error_In; eauto.
    + eapply IH; eauto.
Qed.

Lemma decode_digits : forall ss k j x, Forall (fun s => 0 < s) ss -> nth_error (bdigits ss k) j = Some x -> x = decode ss k j.
Proof.
  intros ss k j x F E. assert (L : j < length ss).
  { apply nth_error_lt in E. rewrite (fits_length _ _ (bdigits_fits ss k F)) in E. auto. }
  destruct (bdigits_nth ss k j L) as [Q|Q]; [congruence|contradiction].
Qed.

Lemma Forall2_nth : forall {A B} (P : A -> B -> Prop) l m, Forall2 P l m -> forall i x y, nth_error l i = Some x -> nth_error m i = Some y -> P x y.
Proof. induction 1; intros i a b E1 E2; destruct i; cbn in *; try discriminate; [congruence|eauto]. Qed.

Lemma fits_map : forall (d : list (nat * nat * option (list nat))) ds, fits ds (map (fun x => snd (fst x)) d) ->
  Forall2 (fun x (e : nat * nat * option (list nat)) => x < snd (fst e)) ds d.
Proof.
  induction d as [|e d IH]; intros ds F; inversion F; subst; constructor; auto.
Qed.

(** Every number below the limit is the number of a binding. *)
Lemma enum_sound : forall M t lim get k, mgood M -> tgood t -> enum M t = Ok (lim, get) -> k < lim ->
  exists b, get k = Ok b /\ bgood t b.
Proof.
  intros M t lim get k MG TG H L. unfold enum in H. pose proof (tg_total _ TG) as TT. pose proof (tg_sizes _ TG) as TS.
  pose proof (incr_nodup _ _ (tg_vars _ TG)) as ND.
  destruct (Nat.eqb_spec (kt_total t) 0) as [Z0|NZ].
  - inversion H; subst. exists []. split; auto. intros v z I E.
    assert (EV : kt_vars t = []).
    { destruct (kt_vars t) as [|u vs] eqn:EV; auto. exfalso. rewrite Z0 in TT.
      assert (P : 0 < prod (map (fun v => nth v (kn_vars net) 0) (u :: vs))).
      { apply prod_pos. apply Forall_forall. intros s IS. apply in_map_iff in IS. destruct IS as (w & <- & IW).
        rewrite Forall_forall in TS. destruct (TS w IW) as [z' Z']. rewrite (nth_error_nth _ _ 0 Z'). eapply var_pos; eauto. }
      lia. }
    rewrite EV in I. contradiction.
  - destruct (30 <? kt_total t).
    + binv H d E. pose proof (constraint_data_ok M t _ d MG TG (incl_refl _) E) as Q. destruct d as [d|]; inversion H; subst; [|lia].
      destruct Q as (Q1 & Q2 & _). set (sizes := map (fun x => snd (fst x)) d) in *.
      rewrite total_prod in L. assert (SP : Forall (fun s => 0 < s) sizes) by (apply prod_pos_inv; lia).
      pose proof (bdigits_fits sizes k SP) as FI. exists (pickv d (bdigits sizes k)). split.
      * apply data_binding_ok; auto.
        -- rewrite (fits_length _ _ FI). unfold sizes. apply map_length.
        -- intros j x EJ. cbn [plus]. apply decode_digits; auto.
        -- apply fits_map. auto.
      * intros v z IV EZ. apply In_nth_error in IV. destruct IV as [i EI].
        rewrite <- Q1 in EI. rewrite nth_error_map in EI. destruct (nth_error d i) as [[[u k0] values]|] eqn:ED; [|discriminate].
        cbn in EI. inversion EI; subst u.
        assert (LD : i < length (bdigits sizes k)).
        { rewrite (fits_length _ _ FI). unfold sizes. rewrite map_length. eapply nth_error_lt; eauto. }
        destruct (@nth_error_ex _ _ _ LD) as [x EX].
        rewrite (pickv_get d _ i v k0 values x); auto; [|rewrite Q1; auto].
        pose proof (Forall2_nth _ _ _ (fits_map d _ FI) i _ _ EX ED) as LT. cbn [fst snd] in LT.
        rewrite Forall_forall in Q2. destruct (Q2 _ (nth_error_In _ _ ED)) as (z' & EZ' & RR). cbn [fst snd] in *.
        assert (z' = z) by congruence. subst z'. destruct values as [l|]; [|lia]. destruct RR as [R1 R2]. apply R2. apply nth_In. lia.
    + inversion H; subst. unfold get_binding. destruct (Nat.eqb_spec (kt_total t) 0); [lia|].
      assert (TT' : kt_total t = prod (map (fun v => nth v (kn_vars net) 0) (kt_vars t))) by (destruct (kt_vars t); [lia|auto]).
      rewrite TT', (binding_loop_ok _ k TS). eexists. split; [reflexivity|].
      intros v z IV EZ. apply In_nth_error in IV. destruct IV as [i EI].
      set (ss := map (fun v => nth v (kn_vars net) 0) (kt_vars t)) in *.
      assert (SP : Forall (fun s => 0 < s) ss) by (apply prod_pos_inv; lia).
      pose proof (bdigits_fits ss k SP) as FI.
      assert (ES : nth_error ss i = Some z).
      { unfold ss. rewrite nth_error_map, EI. cbn. f_equal. apply nth_error_nth. auto. }
      assert (LD : i < length (bdigits ss k)) by (rewrite (fits_length _ _ FI); eapply nth_error_lt; eauto).
      destruct (@nth_error_ex _ _ _ LD) as [x EX]. rewrite (bget_combine _ _ i v x ND EI EX).
      apply (Forall2_nth _ _ _ FI i _ _ EX ES).
Qed.

Lemma index_of : forall (l : list nat) x, In x l -> exists i, i < length l /\ nth i l 0 = x.
Proof.
  intros l x I. apply In_nth_error in I. destruct I as [i E]. exists i. split; [eapply nth_error_lt; eauto|]. apply nth_error_nth. auto.
Qed.

(** Every enabled binding has a number. *)
Lemma enum_complete : forall M t lim get b, mgood M -> tgood t -> enum M t = Ok (lim, get) -> bgood t b -> kenabled M t b ->
  exists k b', k < lim /\ get k = Ok b' /\ same_on (kt_vars t) b b'.
Proof.
  intros M t lim get b MG TG H BG KE. unfold enum in H. pose proof (tg_total _ TG) as TT. pose proof (tg_sizes _ TG) as TS.
  pose proof (incr_nodup _ _ (tg_vars _ TG)) as ND.
  assert (PV : forall v, In v (kt_vars t) -> exists z, nth_error (kn_vars net) v = Some z /\ bget b v < z).
  { intros v I. rewrite Forall_forall in TS. destruct (TS v I) as [z Z]. exists z. split; [exact Z|]. eapply BG; eauto. }
  assert (PZ : Forall (fun s => 0 < s) (map (fun v => nth v (kn_vars net) 0) (kt_vars t))).
  { apply Forall_forall. intros s IS. apply in_map_iff in IS. destruct IS as (w & <- & IW). destruct (PV w IW) as (z & Z & LZ).
    rewrite (nth_error_nth _ _ 0 Z). lia. }
  destruct (Nat.eqb_spec (kt_total t) 0) as [Z0|NZ].
  - inversion H; subst. exists 0, []. split; [lia|]. split; auto.
    assert (EV : kt_vars t = []).
    { destruct (kt_vars t) as [|u vs] eqn:EV; auto. exfalso. rewrite Z0 in TT. pose proof (prod_pos _ PZ). lia. }
    rewrite EV. intros v [].
  - destruct (30 <? kt_total t).
    + binv H d E. pose proof (constraint_data_ok M t _ d MG TG (incl_refl _) E) as Q. destruct d as [d|]; [|exfalso; eapply Q; eauto].
      inversion H; subst. destruct Q as (Q1 & Q2 & Q3). specialize (Q3 b BG KE). set (sizes := map (fun x => snd (fst x)) d) in *.
      assert (DS : exists ds, fits ds sizes /\ forall i v k0 values x, nth_error d i = Some (v, k0, values) -> nth_error ds i = Some x ->
                  match values with None => x | Some l => nth x l 0 end = bget b v).
      { unfold sizes. assert (PV' : forall x, In x d -> exists z, nth_error (kn_vars net) (fst (fst x)) = Some z /\ bget b (fst (fst x)) < z).
        { intros x I. apply PV. rewrite <- Q1. apply (in_map (fun x => fst (fst x))). auto. }
        clear - Q2 Q3 PV'. induction d as [|[[v k] values] d IH].
        - exists []. split; [constructor|]. intros [|] ? ? ? ? E; discriminate.
        - inversion Q2 as [|? ? (z & EZ & RR) Q2']; subst. inversion Q3 as [|? ? R3 Q3']; subst.
          destruct (IH Q2' Q3' (fun x I => PV' x (or_intror I))) as (ds & F & D).
          destruct (PV' _ (or_introl eq_refl)) as (z' & Z' & LZ). cbn [fst snd] in *. assert (z' = z) by congruence. subst z'.
          assert (X : exists x, x < k /\ match values with None => x | Some l => nth x l 0 end = bget b v).
          { destruct values as [l|].
            - destruct RR as [R1 R2]. destruct (index_of l _ R3) as (i & L & E). exists i. split; [lia|auto].
            - exists (bget b v). split; [lia|auto]. }
          destruct X as (x & LX & EX). exists (x :: ds). split; [constructor; auto|].
          intros [|i] w k0 vals y E1 E2; cbn in E1, E2; [|eauto]. inversion E1; inversion E2; subst. auto. }
      destruct DS as (ds & F & D). exists (seq_num sizes ds), (pickv d ds). split; [rewrite total_prod; apply seq_lt; auto|].
      assert (FL : length ds = length d) by (rewrite (fits_length _ _ F); unfold sizes; apply map_length). split.
      * apply data_binding_ok; auto.
        -- intros j x EJ. cbn [plus]. symmetry. apply decode_seq; auto.
        -- apply fits_map. auto.
      * intros v IV. apply In_nth_error in IV. destruct IV as [i EI]. rewrite <- Q1 in EI. rewrite nth_error_map in EI.
        destruct (nth_error d i) as [[[u k0] values]|] eqn:ED; [|discriminate]. cbn in EI. inversion EI; subst u.
        assert (LD : i < length ds) by (rewrite FL; eapply nth_error_lt; eauto).
        destruct (@nth_error_ex _ _ _ LD) as [x EX].
        rewrite (pickv_get d ds i v k0 values x); auto; [|rewrite Q1; auto]. symmetry. eapply D; eauto.
    + inversion H; subst. set (ss := map (fun v => nth v (kn_vars net) 0) (kt_vars t)) in *.
      set (ds := map (bget b) (kt_vars t)).
      assert (F : fits ds ss).
      { unfold ds, ss. clear - PV. induction (kt_vars t) as [|v vs IH]; cbn; constructor.
        - destruct (PV v (or_introl eq_refl)) as (z & Z & L). rewrite (nth_error_nth _ _ 0 Z). auto.
        - apply IH. intros u I. apply PV. right. auto. }
      assert (TT' : kt_total t = prod ss).
      { destruct (kt_vars t) as [|u vs]; [lia|]. auto. }
      exists (seq_num ss ds), (combine (kt_vars t) ds). split; [rewrite TT'; apply seq_lt; auto|]. split.
      * unfold get_binding. destruct (Nat.eqb_spec (kt_total t) 0); [lia|]. rewrite TT'. unfold ss.
        rewrite (binding_loop_ok _ _ TS). fold ss. rewrite bdigits_seq by auto. reflexivity.
      * intros v IV. apply In_nth_error in IV. destruct IV as [i EI]. symmetry. apply (bget_combine _ _ i v _ ND EI).
        unfold ds. rewrite nth_error_map, EI. reflexivity.
Qed.

(** ** findNextValidBinding *)

(** Number [k] is the number of the enabled binding [b]. *)
Definition valid (M : kmark) (t : ktrans) (k : nat) (b : binding) : Prop :=
  bgood t b /\ kenabled M t b /\ exists lim get, enum M t = Ok (lim, get) /\ k < lim /\ get k = Ok b.

Lemma scan_ok : forall M t get fuel bid r, scan M t get fuel bid = Ok r ->
  match r with
  | Some (k, b) => bid <= k < bid + fuel /\ get k = Ok b /\ check_preset_guard M t b = Ok true /\
      forall j b', bid <= j < k -> get j = Ok b' -> check_preset_guard M t b' = Ok false
  | None => forall j b', bid <= j < bid + fuel -> get j = Ok b' -> check_preset_guard M t b' = Ok false
  end.
Proof.
  intros M t get. induction fuel as [|f IH]; intros bid r H; cbn [scan] in H.
  - inversion H; subst. intros; lia.
  - binv H b EB. binv H ok EC. destruct ok.
    + inversion H; subst. split; [lia|]. split; auto. split; auto. intros; lia.
    + pose proof (IH _ _ H) as Q. destruct r as [[k b0]|].
      * destruct Q as (Q1 & Q2 & Q3 & Q4). split; [lia|]. split; auto. split; auto. intros j b' J E.
        destruct (Nat.eq_dec j bid); [subst; congruence|]. apply (Q4 j); auto. lia.
      * intros j b' J E. destruct (Nat.eq_dec j bid); [subst; congruence|]. apply (Q j); auto. lia.
Qed.

Lemma find_next_ok : forall M t bid r, mgood M -> tgood t -> (bid = 0 \/ inhib_ok M t) -> find_next net M t bid = Ok r ->
  match r with
  | Some (k, b) => bid <= k /\ valid M t k b /\ forall j b', bid <= j < k -> ~ valid M t j b'
  | None => (forall j b', bid <= j -> ~ valid M t j b') /\ (bid = 0 -> forall b, bgood t b -> ~ kenabled M t b)
  end.
Proof.
  intros M t bid r MG TG I H. rewrite find_next_enum in H. binv H e EE.
  assert (X : if e then r = None /\ forall b, ~ kenabled M t b
              else inhib_ok M t /\ exists x, enum M t = Ok x /\ scan M t (snd x) (fst x - bid) bid = Ok r).
  { unfold early_exit in EE. destruct (Nat.eqb_spec bid 0) as [->|NZ].
    - binv EE i EI. pose proof (check_inhibitor_ok _ _ _ EI) as QI. destruct i.
      + binv EE h EH. inversion EE; subst. destruct h; cbn [negb] in *.
        * split; [exact (proj1 QI eq_refl)|]. binv H x EX. eauto.
        * inversion H; subst. split; auto. intros b (_ & _ & C).
          pose proof (has_minimal_ok M b _ _ MG (tg_in _ TG) (tg_min _ TG) C EH). discriminate.
      + inversion EE; subst. inversion H; subst. split; auto. intros b (A & _ & _). apply QI in A. discriminate.
    - inversion EE; subst. destruct I as [I|I]; [lia|]. split; auto. binv H x EX. eauto. }
  destruct e.
  - destruct X as [-> X]. split; [|intros _ b _; apply X]. intros j b' _ (_ & K & _). eapply X; eauto.
  - destruct X as (IO & [lim get] & EN & SC). cbn [fst snd] in SC. pose proof (scan_ok _ _ _ _ _ _ SC) as Q.
    assert (NV : forall j b', get j = Ok b' -> check_preset_guard M t b' = Ok false -> ~ kenabled M t b').
    { intros j b' _ CF (_ & A & B). pose proof (check_ok _ _ _ _ MG TG CF) as C. destruct C as [_ C]. discriminate C. auto. }
    destruct r as [[k b]|].
    + destruct Q as (Q1 & Q2 & Q3 & Q4). split; [lia|]. split.
      * destruct (enum_sound M t lim get k MG TG EN ltac:(lia)) as (b0 & E0 & G0). assert (b0 = b) by congruence. subst b0.
        split; auto. split.
        -- split; auto. apply (check_ok _ _ _ _ MG TG Q3). auto.
        -- exists lim, get. split; auto. split; [lia|auto].
      * intros j b' J (_ & KE & lim' & get' & E' & L' & G'). assert (get' = get) by congruence. subst get'.
        eapply NV; eauto.
    + assert (NO : forall j b', bid <= j -> ~ valid M t j b').
      { intros j b' J (_ & KE & lim' & get' & E' & L' & G'). assert (get' = get /\ lim' = lim) as [-> ->] by (split; congruence).
        eapply NV; eauto. apply (Q j); auto. lia. }
      split; auto. intros -> b BG KE. destruct (enum_complete M t lim get b MG TG EN BG KE) as (k & b' & L & G & S).
      apply (NO k b'); [lia|].
      destruct (enum_sound M t lim get k MG TG EN L) as (b0 & E0 & G0). assert (b0 = b') by congruence. subst b0.
      split; auto. split; [eapply kenabled_same; eauto|]. exists lim, get. auto.
Qed.

(** If there is a valid binding, every enabled binding has a number. *)
Lemma valid_complete : forall M t k b b1, mgood M -> tgood t -> valid M t k b -> bgood t b1 -> kenabled M t b1 ->
  exists k1 b', valid M t k1 b' /\ same_on (kt_vars t) b1 b'.
Proof.
  intros M t k b b1 MG TG (_ & _ & lim & get & EN & _) BG KE.
  destruct (enum_complete M t lim get b1 MG TG EN BG KE) as (k1 & b' & L & G & S).
  destruct (enum_sound M t lim get k1 MG TG EN L) as (b0 & E0 & G0). assert (b0 = b') by congruence. subst b0.
  exists k1, b'. split; auto. split; auto. split; [eapply kenabled_same; eauto|]. exists lim, get. auto.
Qed.

Lemma valid_fun : forall M t k b b', valid M t k b -> valid M t k b' -> b = b'.
Proof.
  intros M t k b b' (_ & _ & l & g & E & _ & G) (_ & _ & l' & g' & E' & _ & G'). assert (g = g') by congruence. subst. congruence.
Qed.

(** Looking for a binding from the number of a valid one returns it. *)
Lemma find_next_valid : forall M t k b r, mgood M -> tgood t -> valid M t k b -> find_next net M t k = Ok r -> r = Some (k, b).
Proof.
  intros M t k b r MG TG V H. pose proof V as (BG & KE & _).
  pose proof (find_next_ok M t k r MG TG (or_intror (proj1 KE)) H) as Q. destruct r as [[k' b']|].
  - destruct Q as (Q1 & Q2 & Q3). destruct (Nat.eq_dec k' k) as [->|NE].
    + rewrite (valid_fun _ _ _ _ _ V Q2). reflexivity.
    + exfalso. apply (Q3 k b); auto. lia.
  - exfalso. destruct Q as [Q _]. eapply Q; eauto.
Qed.

(** A result of the search for a binding is found again from its own number. *)
Lemma find_next_again : forall M t bid k b, find_next net M t bid = Ok (Some (k, b)) -> find_next net M t k = Ok (Some (k, b)).
Proof.
  intros M t bid k b H. rewrite find_next_enum in H. binv H e EE. destruct e; [discriminate|]. binv H x EN. destruct x as [lim get]. cbn [fst snd] in H.
  destruct (scan_ok _ _ _ _ _ _ H) as (Q1 & Q2 & Q3 & _). rewrite find_next_enum.
  assert (E2 : early_exit M t k = Ok false).
  { destruct (Nat.eq_dec k 0) as [->|NZ]; [assert (bid = 0) by lia; subst; auto|]. unfold early_exit. destruct (Nat.eqb_spec k 0); [lia|auto]. }
  rewrite E2. cbn [bind]. rewrite EN. cbn [bind fst snd]. destruct (lim - k) as [|f] eqn:EL; [lia|]. cbn [scan]. rewrite Q2. cbn [bind]. rewrite Q3. reflexivity.
Qed.

(** ** The generators *)

Hypothesis TGS : forall i t, nth_error (kn_trans net) i = Some t -> tgood t.

(** What a generator is asked for.  [inv] is an invariant of its positions, [todo c t b]
    says that the enabled binding [b] of [t] has not been delivered. *)
Definition gen_ok (C : Type) (gen : kmark -> C -> res (gout C)) (start : C) : Prop :=
  exists (inv : kmark -> C -> Prop) (todo : kmark -> C -> nat -> binding -> Prop),
  (forall M, mgood M -> inv M start /\ forall t b, t < length (kn_trans net) -> todo M start t b) /\
  (forall M c r, mgood M -> inv M c -> gen M c = Ok r ->
    match r with
    | GDone _ => forall t tr b, nth_error (kn_trans net) t = Some tr -> bgood tr b -> kenabled M tr b -> ~ todo M c t b
    | GSkip c' => inv M c' /\
        forall t tr b, nth_error (kn_trans net) t = Some tr -> bgood tr b -> kenabled M tr b -> todo M c t b -> todo M c' t b
    | GSucc c' M' t k => inv M c' /\ exists tr b, nth_error (kn_trans net) t = Some tr /\ valid M tr k b /\ find_next net M tr k = Ok (Some (k, b)) /\ kfire M tr b = Ok M' /\
        forall t1 tr1 b1, nth_error (kn_trans net) t1 = Some tr1 -> bgood tr1 b1 -> kenabled M tr1 b1 -> todo M c t1 b1 ->
          todo M c' t1 b1 \/ (t1 = t /\ same_on (kt_vars tr) b1 b)
    end).

(** The bindings of [tr] from number [bid] on. *)
Definition later (M : kmark) (tr : ktrans) (bid : nat) (b : binding) : Prop :=
  bid = 0 \/ exists k b', bid <= k /\ valid M tr k b' /\ same_on (kt_vars tr) b b'.

Lemma later_some : forall M tr bid k b b1, mgood M -> tgood tr -> (bid = 0 \/ inhib_ok M tr) ->
  find_next net M tr bid = Ok (Some (k, b)) -> bgood tr b1 -> kenabled M tr b1 -> later M tr bid b1 ->
  later M tr (S k) b1 \/ same_on (kt_vars tr) b1 b.
Proof.
  intros M tr bid k b b1 MG TG IO F BG KE L. pose proof (find_next_ok M tr bid _ MG TG IO F) as (Q1 & Q2 & Q3).
  assert (X : exists k1 b', bid <= k1 /\ valid M tr k1 b' /\ same_on (kt_vars tr) b1 b').
  { destruct L as [->|L]; auto. destruct (valid_complete M tr k b b1 MG TG Q2 BG KE) as (k1 & b' & V & S). exists k1, b'. split; [lia|auto]. }
  destruct X as (k1 & b' & K & V & S). destruct (lt_eq_lt_dec k1 k) as [[LT|EQ]|GT].
  - exfalso. eapply Q3; eauto.
  - subst k1. rewrite (valid_fun _ _ _ _ _ Q2 V). auto.
  - left. right. exists k1, b'. split; [lia|auto].
Qed.
Lemma later_none : forall M tr bid b1, mgood M -> tgood tr -> (bid = 0 \/ inhib_ok M tr) ->
  find_next net M tr bid = Ok None -> bgood tr b1 -> kenabled M tr b1 -> ~ later M tr bid b1.
Proof.
  intros M tr bid b1 MG TG IO F BG KE L. pose proof (find_next_ok M tr bid _ MG TG IO F) as [Q1 Q2]. destruct L as [E|(k & b' & K & V & _)].
  - apply (Q2 E b1 BG KE).
  - apply (Q1 k b' K V).
Qed.

Lemma fixed_gen_ok : gen_ok (nat * nat) (fixed_gen net) (0, 0).
Proof.
  exists (fun M c => forall tr, nth_error (kn_trans net) (fst c) = Some tr -> snd c = 0 \/ inhib_ok M tr).
  exists (fun M c t b => fst c < t \/ (fst c = t /\ forall tr, nth_error (kn_trans net) t = Some tr -> later M tr (snd c) b)).
  split.
  - intros M _. split; [cbn; auto|]. intros t b _. cbn [fst snd]. destruct t; [right|left; lia]. split; auto. intros tr _. left. auto.
  - intros M [tid bid] r MG IN H. unfold fixed_gen in H. cbn [fst snd] in *. revert IN H.
    generalize (S (length (kn_trans net))) as fuel. intros fuel. revert tid bid.
    induction fuel as [|f IH]; intros tid bid IN H; cbn [next_fixed] in H; [discriminate|].
    destruct (nth_error (kn_trans net) tid) as [tr|] eqn:ET.
    + specialize (IN tr eq_refl). pose proof (TGS _ _ ET) as TG. binv H x EX. destruct x as [[k b]|].
      * pose proof (find_next_ok M tr bid _ MG TG IN EX) as (Q1 & Q2 & Q3). binv H M' EM. inversion H; subst.
        split; [cbn [fst snd]; intros tr' E'; right; assert (tr' = tr) by congruence; subst; apply Q2|].
        exists tr, b. split; auto. split; auto. split; [eapply find_next_again; eauto|]. split; auto. intros t1 tr1 b1 E1 BG KE [L|[<- L]]; [left; left; auto|].
        assert (tr1 = tr) by congruence. subst tr1. specialize (L _ ET). cbn [fst snd].
        destruct (later_some M tr bid k b b1 MG TG IN EX BG KE L) as [L'|S]; [left; right; split; auto; intros tr' E'; congruence|auto].
      * assert (W : forall t1 tr1 b1, nth_error (kn_trans net) t1 = Some tr1 -> bgood tr1 b1 -> kenabled M tr1 b1 ->
           (tid < t1 \/ tid = t1 /\ (forall tr, nth_error (kn_trans net) t1 = Some tr -> later M tr bid b1)) ->
           (S tid < t1 \/ S tid = t1 /\ (forall tr, nth_error (kn_trans net) t1 = Some tr -> later M tr 0 b1))).
        { intros t1 tr1 b1 E1 BG KE [L|[<- L]].
          - destruct (Nat.eq_dec t1 (S tid)); [right; split; auto; intros; left; auto|left; lia].
          - exfalso. assert (tr1 = tr) by congruence. subst tr1. eapply (later_none M tr bid b1 MG TG IN EX BG KE); eauto. }
        pose proof (IH (S tid) 0 (fun _ _ => or_introl eq_refl) H) as Q. destruct r as [|c'|c' M' t k].
        -- intros t tr1 b E BG KE D. eapply Q; eauto.
        -- destruct Q as [Q1 Q2]. split; auto. intros t tr1 b E BG KE D. eapply Q2; eauto.
        -- destruct Q as (Q1 & tr0 & b & E0 & V & FN & FI & Q2). split; auto. exists tr0, b. split; auto. split; auto. split; auto. split; auto.
           intros t1 tr1 b1 E1 BG KE D. eapply Q2; eauto.
    + inversion H; subst. intros t tr b E BG KE [L|[<- L]]; [|congruence].
      apply nth_error_None in ET. apply nth_error_lt in E. lia.
Qed.

Fixpoint nones (l : list (option nat)) : nat :=
  match l with [] => 0 | None :: l' => S (nones l') | Some _ :: l' => nones l' end.
Lemma nones_le : forall l, nones l <= length l.
Proof. induction l as [|[]]; cbn; lia. Qed.
Lemma nones_full : forall l i k, nones l = length l -> nth_error l i = Some (Some k) -> False.
Proof.
  induction l as [|x l IH]; intros i k E H; destruct i; cbn in H; try discriminate.
  - inversion H; subst. cbn in E. pose proof (nones_le l). lia.
  - pose proof (nones_le l). destruct x; cbn in E; [lia|]. eapply IH; eauto; lia.
Qed.
Lemma nones_upd_some : forall l i k j, nth_error l i = Some (Some k) -> nones (upd l i (Some j)) = nones l.
Proof. induction l as [|x l IH]; intros [|i] k j H; cbn in *; try discriminate; [inversion H; auto|]. destruct x; rewrite (IH _ _ _ H); auto. Qed.
Lemma nones_upd_none : forall l i k, nth_error l i = Some (Some k) -> nones (upd l i None) = S (nones l).
Proof. induction l as [|x l IH]; intros [|i] k H; cbn in *; try discriminate; [inversion H; auto|]. destruct x; rewrite (IH _ _ H); auto. Qed.

Definition einv (M : kmark) (s : even) : Prop :=
  length (e_map s) = length (kn_trans net) /\ e_completed s = nones (e_map s) /\
  (e_done s = true -> nones (e_map s) = length (e_map s)) /\ (e_done s = false -> e_shuffle s = false) /\
  forall t tr k, nth_error (e_map s) t = Some (Some k) -> nth_error (kn_trans net) t = Some tr -> k = 0 \/ inhib_ok M tr.
Definition etodo (M : kmark) (s : even) (t : nat) (b : binding) : Prop :=
  exists k, nth_error (e_map s) t = Some (Some k) /\ forall tr, nth_error (kn_trans net) t = Some tr -> later M tr k b.

Lemma even_gen_ok : forall strict, gen_ok even (even_gen net strict) (even0 net).
Proof.
  intros strict. exists einv, etodo. split.
  - intros M _. split.
    + unfold einv, even0. cbn [e_map e_completed e_done e_shuffle]. rewrite repeat_length. split; auto. split; [|split; [discriminate|split; auto]].
      * induction (length (kn_trans net)); auto.
      * intros t tr k E _. left. apply nth_error_In in E. apply repeat_spec in E. congruence.
    + intros t b L. exists 0. split; [|intros tr _; left; auto]. cbn [even0 e_map].
      clear - L. revert t L. induction (length (kn_trans net)); intros t L; [lia|]. destruct t; cbn; auto. apply IHn. lia.
  - intros M s r MG. unfold even_gen. generalize (S (S (length (kn_trans net)))) as fuel. intros fuel. revert s.
    induction fuel as [|f IH]; intros s IN H; cbn [next_even] in H; [discriminate|].
    destruct IN as (I1 & I2 & I3 & I4 & I5). unfold get_next_pair in H. destruct (e_done s) eqn:ED.
    + destruct (strict && _); [discriminate|]. rewrite ED in H. inversion H; subst.
      intros t tr b E BG KE (k & EK & _). eapply nones_full; eauto.
    + set (i := e_index s + skip_max (skipn (e_index s) (e_map s))) in *.
      destruct (nth_error (e_map s) i) as [[bid|]|] eqn:EI.
      * binv H tr ET. apply rd_ok_inv in ET. pose proof (TGS _ _ ET) as TG. binv H x EX.
        pose proof (I5 i tr bid EI ET) as IO.
        assert (LI : i < length (e_map s)) by (eapply nth_error_lt; eauto).
        destruct x as [[k b]|].
        -- pose proof (find_next_ok M tr bid _ MG TG IO EX) as (Q1 & Q2 & Q3). binv H M' EM. inversion H; subst. clear H IH.
           unfold update_pair. cbn [e_map]. rewrite EI. split.
           ++ unfold einv. cbn [e_map e_completed e_done e_shuffle]. rewrite upd_length, (nones_upd_some _ _ _ _ EI).
              split; auto. split; auto. split; [rewrite ?ED; discriminate|]. split; auto.
              intros t tr' k' E E'. destruct (Nat.eq_dec t i) as [->|NE].
              ** right. assert (tr' = tr) by congruence. subst. apply Q2.
              ** rewrite nth_error_upd_neq in E by auto. eauto.
           ++ exists tr, b. split; auto. split; auto. split; [eapply find_next_again; eauto|]. split; auto. intros t1 tr1 b1 E1 BG KE (k1 & EK & L).
              destruct (Nat.eq_dec t1 i) as [->|NE].
              ** assert (tr1 = tr) by congruence. subst tr1. assert (k1 = bid) by congruence. subst k1.
                 destruct (later_some M tr bid k b b1 MG TG IO EX BG KE (L _ ET)) as [L'|S]; auto. left. exists (S k). cbn [e_map].
                 rewrite nth_error_upd_eq by auto. split; auto. intros tr' E'. congruence.
              ** left. exists k1. cbn [e_map]. rewrite nth_error_upd_neq by auto. auto.
        -- match type of H with next_even _ _ _ _ ?s' = _ => set (s2 := s') in * end.
           assert (IN2 : einv M s2).
           { unfold s2, update_pair, einv. cbn [e_map]. rewrite EI. cbn [e_map e_completed e_done e_shuffle].
             rewrite upd_length, (nones_upd_none _ _ _ EI), I2. split; auto. split; auto. split; [|split].
             - destruct (Nat.eqb_spec (S (nones (e_map s))) (length (e_map s))); [auto|rewrite ?ED; discriminate].
             - auto.
             - intros t tr' k' E E'. destruct (Nat.eq_dec t i) as [->|NE]; [rewrite nth_error_upd_eq in E by auto; discriminate|].
               rewrite nth_error_upd_neq in E by auto. eauto. }
           assert (W : forall t1 tr1 b1, nth_error (kn_trans net) t1 = Some tr1 -> bgood tr1 b1 -> kenabled M tr1 b1 -> etodo M s t1 b1 -> etodo M s2 t1 b1).
           { intros t1 tr1 b1 E1 BG KE (k1 & EK & L). destruct (Nat.eq_dec t1 i) as [->|NE].
             - exfalso. assert (tr1 = tr) by congruence. subst tr1. assert (k1 = bid) by congruence. subst k1.
               eapply (later_none M tr bid b1 MG TG IO EX BG KE); eauto.
             - exists k1. split; auto. unfold s2, update_pair. cbn [e_map]. rewrite EI. cbn [e_map]. rewrite nth_error_upd_neq by auto. auto. }
           pose proof (IH s2 IN2 H) as Q. destruct r as [|c'|c' M' t k].
           ++ intros t tr1 b E BG KE D. eapply Q; eauto.
           ++ destruct Q as [Q1 Q2]. split; auto. intros t tr1 b E BG KE D. eapply Q2; eauto.
           ++ destruct Q as (Q1 & tr0 & b & E0 & V & FN & FI & Q2). split; auto. exists tr0, b. split; auto. split; auto. split; auto. split; auto.
              intros t1 tr1 b1 E1 BG KE D. eapply Q2; eauto.
      * destruct (strict && _); [discriminate|]. cbn [e_done e_shuffle e_map e_index e_completed] in H. rewrite ?ED in H. inversion H; subst.
        split; [|intros t tr b E BG KE D; exact D]. unfold einv. cbn. rewrite ?ED in *. repeat split; auto; try discriminate.
      * destruct (strict && _); [discriminate|]. cbn [e_done e_shuffle e_map e_index e_completed] in H. rewrite ?ED in H. inversion H; subst.
        split; [|intros t tr b E BG KE D; exact D]. unfold einv. cbn. rewrite ?ED in *. repeat split; auto; try discriminate.
Qed.
End Gen.
