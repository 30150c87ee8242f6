(** The encoding of markings can be decoded again (C37). *)
From Verif Require Import Base BaseLemmas ColSyntax ColSpec ColModel ColRadix ExpSyntax ExpModel ExpSet ExpCodec ExpArc ExpGen.

Lemma read_le : forall w k rest, (k < 256 ^ N.of_nat w)%N -> read_bytes w (le_bytes w k ++ rest) = Ok (k, rest).
Proof.
  induction w as [|w IH]; intros k rest L.
  - cbn. cbn in L. f_equal. f_equal. lia.
  - cbn [le_bytes app read_bytes]. rewrite IH.
    + cbn [bind fst snd]. f_equal. f_equal. pose proof (N.div_mod k 256 ltac:(lia)). lia.
    + apply N.div_lt_upper_bound; [lia|]. rewrite Nat2N.inj_succ, N.pow_succ_r' in L. lia.
Qed.

Lemma type_size_ok : forall k, (k < 4294967296)%N -> (k < 256 ^ N.of_nat (type_size k))%N.
Proof.
  intros k L. unfold type_size. destruct (N.ltb_spec k 256); [exact H|]. destruct (N.ltb_spec k 65536); [exact H0|exact L].
Qed.
Lemma type_size_mono : forall k h, (k <= h)%N -> (h < 4294967296)%N -> (k < 256 ^ N.of_nat (type_size h))%N.
Proof. intros k h L H. pose proof (type_size_ok h H). lia. Qed.
Lemma read_size_ok : forall h rest, read_size (N.of_nat (type_size h) :: rest) = Ok (type_size h, rest).
Proof. intros h rest. unfold type_size. destruct (h <? 256)%N; [|destruct (h <? 65536)%N]; reflexivity. Qed.

Lemma highest_acc : forall l acc, (acc <= fold_left (fun x (y : nat * Z) => Z.max x (snd y)) l acc)%Z.
Proof. induction l as [|x l IH]; intros acc; cbn [fold_left]; [lia|]. specialize (IH (Z.max acc (snd x))). lia. Qed.
Lemma highest_in : forall l acc c k, In (c, k) l -> (k <= fold_left (fun x (y : nat * Z) => Z.max x (snd y)) l acc)%Z.
Proof.
  induction l as [|x l IH]; intros acc c k I; [contradiction|]. cbn [fold_left]. destruct I as [->|I]; [|eauto].
  pose proof (highest_acc l (Z.max acc (snd (c, k)))). cbn [snd] in *. lia.
Qed.
Lemma highest_le : forall l acc B, (acc <= B)%Z -> (forall c k, In (c, k) l -> (k <= B)%Z) -> (fold_left (fun x (y : nat * Z) => Z.max x (snd y)) l acc <= B)%Z.
Proof.
  induction l as [|[c k] l IH]; intros acc B A H; cbn [fold_left]; auto. apply IH; [|intros; eapply H; right; eauto].
  specialize (H c k (or_introl eq_refl)). cbn [snd]. lia.
Qed.

Lemma sumC_cons : forall c k l, sumC ((c, k) :: l) = (k + sumC l)%Z.
Proof. reflexivity. Qed.
Lemma sumC_nonneg : forall l, nonneg l -> (0 <= sumC l)%Z.
Proof. induction l as [|[c k] l IH]; intros N; [cbn; lia|]. inversion N; subst. rewrite sumC_cons. cbn [snd] in *. specialize (IH H2). lia. Qed.
Lemma sumC_in : forall l c k, nonneg l -> In (c, k) l -> (k <= sumC l)%Z.
Proof.
  induction l as [|[d x] l IH]; intros c k N I; [contradiction|]. inversion N; subst. rewrite sumC_cons. cbn [snd] in *.
  pose proof (sumC_nonneg _ H2). destruct I as [E|I]; [inversion E; subst; lia|]. specialize (IH _ _ H2 I). lia.
Qed.

Lemma set_fresh : forall size m c k, wf size m -> c < size -> (0 <= k)%Z -> ms_get m c = 0%Z -> (ms_card m + k <= i32max)%Z ->
  exists m', set_count m c k = Ok m' /\ wf size m' /\ ms_card m' = (ms_card m + k)%Z /\
    forall d, ms_get m' d = if Nat.eqb c d then k else ms_get m d.
Proof.
  intros size m c k W L K G S.
  assert (C0 : (0 <= ms_card m)%Z).
  { destruct W as [(_ & _ & ->) N]. apply sumC_nonneg. auto. }
  assert (E : set_count m c k = Ok (mkMs (put_in (ms_counts m) c (fun _ => k)) (ms_card m + k - ms_get m c))).
  { unfold set_count. destruct (Z.ltb_spec i32max k); [lia|]. unfold i32.
    destruct (Z.leb_spec (-2147483648) (ms_card m + k)); [|lia]. destruct (Z.leb_spec (ms_card m + k) i32max); [|lia]. reflexivity. }
  exists (mkMs (put_in (ms_counts m) c (fun _ => k)) (ms_card m + k - ms_get m c)). split; [exact E|].
  destruct (set_count_ok _ _ _ _ _ (proj1 W) L E) as (P & G' & N & _). split; [split; [exact P|apply N; [apply W|exact K]]|].
  split; [cbn [ms_card]; lia|exact G'].
Qed.

Lemma read_counts_ok : forall w size rest f c l m, f + c = size -> asc c l -> below size l -> nonneg l ->
  (forall d k, In (d, k) l -> (Z.to_N k < 256 ^ N.of_nat w)%N) ->
  wf size m -> (forall d, c <= d -> ms_get m d = 0%Z) -> (ms_card m + sumC l <= i32max)%Z ->
  exists m', read_counts w f c (write_counts w f c l ++ rest) m = Ok (m', rest) /\ wf size m' /\
    forall d, ms_get m' d = if c <=? d then get_in l d else ms_get m d.
Proof.
  intros w size rest. induction f as [|f IH]; intros c l m E A B NN F W ZE SM.
  - cbn in E. subst c. exists m. split; [reflexivity|]. split; auto. intros d. destruct (Nat.leb_spec size d); auto.
    rewrite ZE by auto. symmetry. eapply get_high; eauto.
  - assert (P0 : (0 < 256 ^ N.of_nat w)%N) by (assert (256 ^ N.of_nat w <> 0)%N by (apply N.pow_nonzero; lia); lia).
    assert (SKIP : asc (S c) l -> exists m', read_counts w (S f) c ((le_bytes w 0 ++ write_counts w f (S c) l) ++ rest) m = Ok (m', rest) /\ wf size m' /\
       forall d, ms_get m' d = if c <=? d then get_in l d else ms_get m d).
    { intros A'. cbn [read_counts]. rewrite <- app_assoc, read_le by auto. cbn [bind fst snd N.ltb N.compare].
      destruct (IH (S c) l m) as (m' & R & W' & G'); auto; [lia|intros d L; apply ZE; lia|]. exists m'. split; [exact R|]. split; auto.
      intros d. rewrite G'. destruct (Nat.leb_spec (S c) d); destruct (Nat.leb_spec c d); auto; [lia|].
      assert (d = c) by lia. subst d. rewrite ZE by lia. symmetry. eapply get_low; eauto. }
    cbn [write_counts]. destruct l as [|[d k] l]; [apply SKIP; exact Logic.I|]. cbn [asc] in A. destruct A as [A1 A2].
    destruct (Nat.eqb_spec d c) as [->|NE]; [|apply SKIP; cbn [asc]; split; [lia|auto]]. clear SKIP.
    inversion B as [|? ? B1 B2]; subst. inversion NN as [|? ? N1 N2]; subst. cbn [fst snd] in *. rewrite sumC_cons in SM. pose proof (sumC_nonneg _ N2) as SN.
    cbn [read_counts]. rewrite <- app_assoc, read_le by (eapply F; left; eauto). cbn [bind fst snd].
    destruct (N.ltb_spec 0 (Z.to_N k)) as [L0|L0].
    + destruct (set_fresh (S f + c) m c k W ltac:(lia) N1 (ZE c ltac:(lia)) ltac:(lia)) as (m1 & E1 & W1 & C1 & G1).
      rewrite Z2N.id by auto. rewrite E1. cbn [bind].
      destruct (IH (S c) l m1) as (m' & R & W' & G'); auto; [lia|intros; eapply F; right; eauto| |lia|].
      { intros d L. rewrite G1. destruct (Nat.eqb_spec c d); [lia|]. apply ZE. lia. }
      exists m'. split; [exact R|]. split; auto. intros d. rewrite G', G1. cbn [get_in].
      destruct (Nat.leb_spec (S c) d); destruct (Nat.leb_spec c d); try lia; destruct (Nat.eqb_spec c d); auto; lia.
    + assert (k = 0%Z) by lia. subst k. cbn [bind].
      destruct (IH (S c) l m) as (m' & R & W' & G'); auto; [lia|intros; eapply F; right; eauto|intros d L; apply ZE; lia|].
      exists m'. split; [exact R|]. split; auto. intros d. rewrite G'. cbn [get_in].
      destruct (Nat.leb_spec (S c) d); destruct (Nat.leb_spec c d); try lia; destruct (Nat.eqb_spec c d); auto; try lia;
        subst d; apply ZE; lia.
Qed.

Lemma read_pairs_ok : forall cw w size rest l lo m, asc lo l -> below size l -> nonneg l ->
  (forall d k, In (d, k) l -> k <> 0%Z /\ (N.of_nat d < 256 ^ N.of_nat cw)%N /\ (Z.to_N k < 256 ^ N.of_nat w)%N) ->
  wf size m -> (forall d, lo <= d -> ms_get m d = 0%Z) -> (ms_card m + sumC l <= i32max)%Z ->
  exists m', read_pairs cw w (length l) (write_pairs cw w l ++ rest) m = Ok (m', rest) /\ wf size m' /\
    forall d, ms_get m' d = if lo <=? d then get_in l d else ms_get m d.
Proof.
  intros cw w size rest. induction l as [|[c k] l IH]; intros lo m A B NN F W ZE SM.
  - exists m. split; [reflexivity|]. split; auto. intros d. destruct (Nat.leb_spec lo d); auto.
  - cbn [asc] in A. destruct A as [A1 A2]. inversion B as [|? ? B1 B2]; subst. inversion NN as [|? ? N1 N2]; subst. cbn [fst snd] in *.
    rewrite sumC_cons in SM. pose proof (sumC_nonneg _ N2) as SN. destruct (F c k (or_introl eq_refl)) as (F1 & F2 & F3).
    unfold write_pairs. cbn [length flat_map read_pairs fst snd]. rewrite <- !app_assoc. rewrite read_le by auto. cbn [bind fst snd].
    rewrite read_le by auto. cbn [bind fst snd]. destruct (N.eqb_spec (Z.to_N k) 0); [lia|].
    destruct (set_fresh size m c k W B1 N1 (ZE c A1) ltac:(lia)) as (m1 & E1 & W1 & C1 & G1).
    rewrite Nat2N.id, Z2N.id by auto. rewrite E1. cbn [bind].
    destruct (IH (S c) m1) as (m' & R & W' & G'); auto; [intros; eapply F; right; eauto| |lia|].
    { intros d L. rewrite G1. destruct (Nat.eqb_spec c d); [lia|]. apply ZE. lia. }
    exists m'. split; [exact R|]. split; auto. intros d. rewrite G', G1. cbn [get_in].
    destruct (Nat.leb_spec (S c) d); destruct (Nat.leb_spec lo d); try lia; destruct (Nat.eqb_spec c d); auto; try lia.
    rewrite ZE by lia. symmetry. eapply get_low; eauto.
Qed.

Lemma nonzero_get : forall l lo c, asc lo l -> get_in (nonzero l) c = get_in l c.
Proof.
  unfold nonzero. induction l as [|[d k] l IH]; intros lo c A; [reflexivity|]. cbn [asc] in A. destruct A as [A1 A2]. cbn [filter snd].
  destruct (Z.eqb_spec k 0); cbn [negb get_in].
  - rewrite (IH _ c A2). destruct (Nat.eqb_spec d c); auto. subst. eapply get_low; eauto.
  - rewrite (IH _ c A2). reflexivity.
Qed.
Lemma nonzero_sum : forall l, sumC (nonzero l) = sumC l.
Proof.
  unfold nonzero. induction l as [|[d k] l IH]; [reflexivity|]. cbn [filter snd]. rewrite sumC_cons. destruct (Z.eqb_spec k 0); cbn [negb].
  - rewrite IH. lia.
  - rewrite sumC_cons, IH. reflexivity.
Qed.
Lemma asc_len : forall l lo size, asc lo l -> below size l -> lo <= size -> length l <= size - lo.
Proof.
  induction l as [|[d k] l IH]; intros lo size A B L; cbn [length]; [lia|]. cbn [asc] in A. destruct A as [A1 A2]. inversion B; subst. cbn [fst] in *.
  specialize (IH (S d) size A2 H2). lia.
Qed.

Lemma filter_length_le' : forall {A} (f : A -> bool) l, length (filter f l) <= length l.
Proof. induction l; cbn; auto. destruct (f a); cbn; lia. Qed.

Lemma decode_place_ok : forall size m rest, wf size m -> small m -> (N.of_nat size < 4294967296)%N ->
  exists m', decode_place size (encode_place size m ++ rest) = Ok (m', rest) /\ wf size m' /\ forall c, ms_get m' c = ms_get m c.
Proof.
  intros size m rest [(A & B & C) N] S SZ. unfold encode_place. unfold small in S. rewrite C in S. unfold i32max in S.
  set (w := type_size (highest m)). set (cw := type_size (N.of_nat size)).
  assert (HB : (highest m < 4294967296)%N).
  { unfold highest. pose proof (highest_le (ms_counts m) 0 2147483647 ltac:(lia)) as H.
    assert (Q : forall c k, In (c, k) (ms_counts m) -> (k <= 2147483647)%Z) by (intros c k I; pose proof (sumC_in _ _ _ N I); lia).
    specialize (H Q). lia. }
  assert (FW : forall d k, In (d, k) (ms_counts m) -> (Z.to_N k < 256 ^ N.of_nat w)%N).
  { intros d k I. apply type_size_mono; auto. unfold highest. pose proof (highest_in (ms_counts m) 0 d k I). lia. }
  destruct (Nat.eqb_spec (length (ms_counts m)) 0) as [E0|NZ].
  - exists ms0. split; [reflexivity|]. split; [apply wf0|]. intros c. unfold ms_get. destruct (ms_counts m); [reflexivity|discriminate].
  - destruct (Nat.leb_spec (length (ms_counts m) * 2) size) as [L|L].
    + unfold decode_place. rewrite <- app_comm_cons, <- app_assoc.
      match goal with |- context [read_bytes 1 (1%N :: ?x)] => change (read_bytes 1 (1%N :: x)) with (Ok ((1 + 256 * 0)%N, x)) end.
      cbn [bind fst snd N.eqb N.add N.mul Pos.eqb].
      pose proof (filter_length_le' (fun x : nat * Z => negb (Z.eqb (snd x) 0)) (ms_counts m)) as FL. fold (nonzero (ms_counts m)) in FL.
      fold cw. rewrite read_le by (apply type_size_mono; [lia|auto]). cbn [bind fst snd]. unfold w at 1. rewrite <- app_comm_cons, read_size_ok.
      cbn [bind fst snd]. fold w. rewrite Nat2N.id.
      destruct (read_pairs_ok cw w size rest (nonzero (ms_counts m)) 0 ms0) as (m' & R & W' & G').
      * apply filter_asc. auto.
      * unfold below, nonzero in *. rewrite Forall_forall in *. intros x I. apply filter_In in I. apply B. tauto.
      * unfold nonneg, nonzero in *. rewrite Forall_forall in *. intros x I. apply filter_In in I. apply N. tauto.
      * intros d k I. unfold nonzero in I. apply filter_In in I. destruct I as [I NK]. cbn [snd] in NK. destruct (Z.eqb_spec k 0); [discriminate|].
        split; auto. split; [|eauto]. unfold below in B. rewrite Forall_forall in B. specialize (B _ I). cbn in B. apply type_size_mono; [lia|auto].
      * apply wf0.
      * intros; reflexivity.
      * rewrite nonzero_sum. cbn. unfold i32max. lia.
      * exists m'. split; [exact R|]. split; auto. intros c. rewrite G'. cbn [Nat.leb]. apply (nonzero_get _ 0 c A).
    + unfold decode_place. cbn [app].
      match goal with |- context [read_bytes 1 (0%N :: ?x)] => change (read_bytes 1 (0%N :: x)) with (Ok ((0 + 256 * 0)%N, x)) end.
      cbn [bind fst snd N.eqb N.add N.mul]. unfold w at 1. rewrite read_size_ok. cbn [bind fst snd]. fold w.
      destruct (read_counts_ok w size rest size 0 (ms_counts m) ms0) as (m' & R & W' & G'); auto.
      * apply wf0.
      * exists m'. split; [exact R|]. split; [exact W'|exact G'].
Qed.

Section Places.
Variable net : knet.
Hypothesis SZ : Forall (fun sizes => (N.of_nat (total_size sizes) < 4294967296)%N) (kn_places net).

Lemma decode_places_ok : forall ps M, length M = length ps -> Forall (fun sizes => (N.of_nat (total_size sizes) < 4294967296)%N) ps ->
  (forall p m sizes, nth_error M p = Some m -> nth_error ps p = Some sizes -> wf (prod sizes) m /\ small m) ->
  exists M', decode_places ps (encode_places ps M) = Ok M' /\ length M' = length M /\
    (forall p m' sizes, nth_error M' p = Some m' -> nth_error ps p = Some sizes -> wf (prod sizes) m') /\
    forall p m m', nth_error M p = Some m -> nth_error M' p = Some m' -> forall c, ms_get m' c = ms_get m c.
Proof.
  induction ps as [|sizes ps IH]; intros M L F G; destruct M as [|m M]; try discriminate.
  - exists []. split; [reflexivity|]. split; auto. split; [intros [|]; discriminate|]. intros [|]; discriminate.
  - inversion F as [|? ? F1 F2]; subst. destruct (G 0 m sizes eq_refl eq_refl) as [W SM].
    rewrite <- total_prod in W. destruct (decode_place_ok _ _ (encode_places ps M) W SM F1) as (m' & R & W' & E).
    destruct (IH M ltac:(cbn in L; lia) F2 (fun p => G (S p))) as (M' & R' & L' & WW & E').
    exists (m' :: M'). cbn [decode_places encode_places]. rewrite R. cbn [bind fst snd]. rewrite R'. cbn [bind]. split; auto. split; [cbn; auto|]. split.
    + intros [|p] x sz E1 E2; cbn in *; [|eauto]. inversion E1; inversion E2; subst. rewrite <- total_prod. auto.
    + intros [|p] x x' E1 E2 c; cbn in *; [|eauto]. inversion E1; inversion E2; subst. auto.
Qed.

Lemma nth_error_len : forall {A B} (l : list A) (m : list B) i x, length l = length m -> nth_error l i = Some x -> exists y, nth_error m i = Some y.
Proof. intros A B l m i x L E. apply nth_error_ex. rewrite <- L. eapply nth_error_lt; eauto. Qed.

(** Two markings with the same encoding have the same tokens. *)
Lemma encode_inj : forall M M1 e ok, mgood net M -> mgood net M1 -> encode net M = (e, true) -> encode net M1 = (e, ok) -> ok = true ->
  forall p m m1, nth_error M p = Some m -> nth_error M1 p = Some m1 -> forall c, ms_get m1 c = ms_get m c.
Proof.
  intros M M1 e ok [L G] [L1 G1] E E1 O p m m1 EM EM1 c. subst ok. unfold encode in E, E1.
  destruct (65535 <? N.of_nat (length (encode_places (kn_places net) M)))%N; [discriminate|].
  destruct (65535 <? N.of_nat (length (encode_places (kn_places net) M1)))%N; [discriminate|].
  inversion E. inversion E1. subst e.
  destruct (decode_places_ok _ _ L SZ G) as (D & R & LD & _ & Q). destruct (decode_places_ok _ _ L1 SZ G1) as (D1 & R1 & LD1 & _ & Q1).
  rewrite H1 in R1. assert (D1 = D) by congruence. subst D1.
  destruct (@nth_error_len _ _ M D p m (eq_sym LD) EM) as [d ED]. rewrite <- (Q p m d EM ED), <- (Q1 p m1 d EM1 ED). reflexivity.
Qed.

Lemma kdecode_ok : forall M e, mgood net M -> encode net M = (e, true) -> exists M', kdecode net e = Ok M' /\ length M' = length M /\
  forall p m m', nth_error M p = Some m -> nth_error M' p = Some m' -> forall c, ms_get m' c = ms_get m c.
Proof.
  intros M e [L G] E. unfold encode in E. destruct (65535 <? N.of_nat (length (encode_places (kn_places net) M)))%N; [discriminate|].
  inversion E; subst. destruct (decode_places_ok _ _ L SZ G) as (D & R & LD & _ & Q). exists D. auto.
Qed.
End Places.
