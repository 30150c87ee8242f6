(** Lemmas about the ordered multisets of the explicit coloured engine (C37). *)
From Verif Require Import Base BaseLemmas ColSyntax ColModel ExpModel.

(** Colours in increasing order, none below [lo]. *)
Fixpoint asc (lo : nat) (l : list (nat * Z)) : Prop :=
  match l with
  | [] => True
  | (c, _) :: l' => lo <= c /\ asc (S c) l'
  end.
Definition below (size : nat) (l : list (nat * Z)) : Prop := Forall (fun x => fst x < size) l.
Definition nonneg (l : list (nat * Z)) : Prop := Forall (fun x => (0 <= snd x)%Z) l.
Definition sumC (l : list (nat * Z)) : Z := sumZ (map snd l).

Lemma asc_weak : forall l lo lo', asc lo l -> lo' <= lo -> asc lo' l.
Proof. destruct l as [|[c k] l]; cbn; intros; auto. split; [lia|tauto]. Qed.

Lemma get_low : forall l lo c, asc lo l -> c < lo -> get_in l c = 0%Z.
Proof.
  induction l as [|[d k] l IH]; intros lo c A L; cbn in *; auto. destruct A as [A1 A2].
  destruct (Nat.eqb_spec d c); [lia|]. eapply IH; eauto. lia.
Qed.

Lemma get_high : forall l size c, below size l -> size <= c -> get_in l c = 0%Z.
Proof.
  induction l as [|[d k] l IH]; intros size c B L; cbn in *; auto. inversion B as [|? ? B1 B2]; subst. cbn in B1.
  destruct (Nat.eqb_spec d c); [lia|]. eapply IH; eauto.
Qed.

Lemma get_nonneg : forall l c, nonneg l -> (0 <= get_in l c)%Z.
Proof.
  induction l as [|[d k] l IH]; intros c B; cbn; [lia|]. inversion B; subst. cbn in *. destruct (Nat.eqb d c); auto.
Qed.

Lemma get_in_list : forall l c, get_in l c <> 0%Z -> In (c, get_in l c) l.
Proof.
  induction l as [|[d k] l IH]; intros c H; cbn in *; [congruence|]. destruct (Nat.eqb_spec d c); subst; auto.
Qed.

Lemma in_get : forall l lo c k, asc lo l -> In (c, k) l -> get_in l c = k.
Proof.
  induction l as [|[d x] l IH]; intros lo c k A I; cbn in *; [contradiction|]. destruct A as [A1 A2].
  destruct I as [E|I].
  - inversion E; subst. rewrite Nat.eqb_refl. auto.
  - destruct (Nat.eqb_spec d c) as [->|N]; [|eauto]. exfalso.
    clear - A2 I. assert (G : forall l lo, asc lo l -> In (c, k) l -> lo <= c).
    { clear. induction l as [|[d x] l IH]; intros lo A I; cbn in *; [contradiction|]. destruct A as [A1 A2].
      destruct I as [E|I]; [inversion E; lia|]. specialize (IH _ A2 I). lia. }
    specialize (G _ _ A2 I). lia.
Qed.

Lemma asc_ge : forall l lo c k, asc lo l -> In (c, k) l -> lo <= c.
Proof.
  induction l as [|[d x] l IH]; intros lo c k A I; cbn in *; [contradiction|]. destruct A as [A1 A2].
  destruct I as [E|I]; [inversion E; lia|]. specialize (IH _ _ _ A2 I). lia.
Qed.

(** ** Sums over the colours *)

Definition sum_to (size : nat) (f : nat -> Z) : Z := sumZ (map f (seq 0 size)).

Lemma sumZ_app : forall a b, sumZ (a ++ b) = (sumZ a + sumZ b)%Z.
Proof. induction a; intros; cbn; auto. unfold sumZ in *. cbn. rewrite IHa. lia. Qed.

Lemma sum_to_S : forall size f, sum_to (S size) f = (sum_to size f + f size)%Z.
Proof. intros. unfold sum_to. rewrite seq_S, map_app, sumZ_app. cbn. lia. Qed.

Lemma sum_to_ext : forall size f g, (forall c, c < size -> f c = g c) -> sum_to size f = sum_to size g.
Proof.
  induction size; intros f g H; [reflexivity|]. rewrite !sum_to_S. rewrite (IHsize f g) by (intros; apply H; lia).
  rewrite H by lia. lia.
Qed.
Lemma sum_to_le : forall size f g, (forall c, c < size -> (f c <= g c)%Z) -> (sum_to size f <= sum_to size g)%Z.
Proof.
  induction size; intros f g H; [cbn; unfold sum_to; cbn; lia|]. rewrite !sum_to_S.
  pose proof (IHsize f g ltac:(intros; apply H; lia)). pose proof (H size ltac:(lia)). lia.
Qed.
Lemma sum_to_plus : forall size f g, sum_to size (fun c => (f c + g c)%Z) = (sum_to size f + sum_to size g)%Z.
Proof. induction size; intros f g; [reflexivity|]. rewrite !sum_to_S, IHsize. lia. Qed.
Lemma sum_to_opp : forall size f, sum_to size (fun c => (- f c)%Z) = (- sum_to size f)%Z.
Proof. induction size; intros f; [reflexivity|]. rewrite !sum_to_S, IHsize. lia. Qed.
Lemma sum_to_single : forall size c k, c < size -> sum_to size (fun d => if Nat.eqb c d then k else 0%Z) = k.
Proof.
  induction size; intros c k H; [lia|]. rewrite sum_to_S. destruct (Nat.eqb_spec c size) as [->|N].
  - rewrite (sum_to_ext size _ (fun _ => 0%Z)).
    + assert (Z0 : forall s, sum_to s (fun _ => 0%Z) = 0%Z) by (induction s; [reflexivity|rewrite sum_to_S, IHs; lia]). rewrite Z0. lia.
    + intros d D. destruct (Nat.eqb_spec size d); [lia|auto].
  - rewrite IHsize by lia. lia.
Qed.
Lemma sum_to_zero : forall s, sum_to s (fun _ => 0%Z) = 0%Z.
Proof. induction s; [reflexivity|]. rewrite sum_to_S, IHs. lia. Qed.
Lemma sum_to_term : forall size f c, c < size -> (forall d, d < size -> (0 <= f d)%Z) -> (f c <= sum_to size f)%Z.
Proof.
  intros size f c H P. rewrite <- (sum_to_single size c (f c)) by auto. apply sum_to_le.
  intros d D. destruct (Nat.eqb_spec c d); subst; [lia|auto].
Qed.

Lemma sum_get : forall l lo size, asc lo l -> below size l -> sumC l = sum_to size (get_in l).
Proof.
  induction l as [|[c k] l IH]; intros lo size A B.
  - cbn. symmetry. apply sum_to_zero.
  - destruct A as [A1 A2]. inversion B as [|? ? B1 B2]; subst. cbn [fst] in B1. unfold sumC in *. cbn [map snd].
    change (sumZ (k :: map snd l)) with (k + sumZ (map snd l))%Z.
    rewrite (IH (S c) size) by auto. rewrite <- (sum_to_single size c k) at 1 by auto.
    rewrite <- sum_to_plus. apply sum_to_ext. intros d D. cbn [get_in].
    destruct (Nat.eqb_spec c d); [subst|lia]. rewrite (get_low _ _ d A2) by lia. lia.
Qed.

(** ** Well-formed multisets *)

(** [pre]: before negative counts are removed. *)
Definition pre (size : nat) (m : ms) : Prop :=
  asc 0 (ms_counts m) /\ below size (ms_counts m) /\ ms_card m = sumC (ms_counts m).
Definition wf (size : nat) (m : ms) : Prop := pre size m /\ nonneg (ms_counts m).

Lemma pre_card : forall size m, pre size m -> ms_card m = sum_to size (ms_get m).
Proof. intros size m (A & B & C). rewrite C. eapply sum_get; eauto. Qed.

Lemma wf_get : forall size m c, wf size m -> (0 <= ms_get m c)%Z.
Proof. intros size m c [_ N]. apply get_nonneg. auto. Qed.

Lemma wf0 : forall size, wf size ms0.
Proof. intros. repeat split; cbn; constructor. Qed.

(** ** Updates *)

Lemma put_asc : forall l lo c f, asc lo l -> lo <= c -> asc lo (put_in l c f).
Proof.
  induction l as [|[d k] l IH]; intros lo c f A L; cbn [asc put_in] in *; [auto|]. destruct A as [A1 A2].
  destruct (Nat.ltb_spec d c); cbn [asc]; [split; auto|]. destruct (Nat.eqb_spec d c); cbn [asc]; [split; auto|].
  split; [lia|]. split; [lia|auto].
Qed.
Lemma put_below : forall l size c f, below size l -> c < size -> below size (put_in l c f).
Proof.
  induction l as [|[d k] l IH]; intros size c f B L; cbn [put_in]; [constructor; auto; constructor|]. inversion B; subst.
  destruct (d <? c); [constructor; auto; apply IH; auto|]. destruct (d =? c); constructor; auto.
Qed.
Lemma get_put : forall l lo c f d, asc lo l -> get_in (put_in l c f) d = if Nat.eqb c d then f (get_in l c) else get_in l d.
Proof.
  induction l as [|[e k] l IH]; intros lo c f d A; cbn [asc put_in get_in] in *; [destruct (c =? d); auto|]. destruct A as [A1 A2].
  destruct (Nat.ltb_spec e c); cbn [get_in].
  - rewrite (IH _ c f d A2). destruct (Nat.eqb_spec e d), (Nat.eqb_spec c d); subst; try lia; auto.
    destruct (Nat.eqb_spec e d); [lia|auto].
  - destruct (Nat.eqb_spec e c); cbn [get_in].
    + subst. destruct (Nat.eqb_spec c d); auto.
    + rewrite (get_low l (S e) c) by (auto; lia). destruct (Nat.eqb_spec c d); auto.
Qed.

Lemma put_pre : forall size m c f k, pre size m -> c < size -> k = (ms_card m + (f (ms_get m c) - ms_get m c))%Z ->
  pre size (mkMs (put_in (ms_counts m) c f) k) /\
  forall d, ms_get (mkMs (put_in (ms_counts m) c f) k) d = if Nat.eqb c d then f (ms_get m c) else ms_get m d.
Proof.
  intros size m c f k P L E. pose proof (pre_card _ _ P) as S. destruct P as (A & B & C).
  assert (G : forall d, get_in (put_in (ms_counts m) c f) d = if Nat.eqb c d then f (ms_get m c) else ms_get m d)
    by (intros; eapply get_put; eauto).
  split; [|exact G]. repeat split; cbn [ms_counts ms_card].
  - apply put_asc; auto. lia.
  - apply put_below; auto.
  - rewrite (sum_get _ 0 size) by (try apply put_asc; try apply put_below; auto; lia).
    rewrite (sum_to_ext size _ (fun d => (ms_get m d + (if Nat.eqb c d then f (ms_get m c) - ms_get m c else 0))%Z)).
    + rewrite sum_to_plus, sum_to_single by auto. rewrite <- S. lia.
    + intros d D. rewrite G. destruct (Nat.eqb_spec c d); [subst|]; lia.
Qed.

Lemma put_nonneg : forall l c f, nonneg l -> (forall x, (0 <= x)%Z -> (0 <= f x)%Z) -> nonneg (put_in l c f).
Proof.
  induction l as [|[d k] l IH]; intros c f B P; cbn [put_in].
  - constructor; [cbn; apply P; lia|constructor].
  - inversion B; subst. destruct (d <? c); [constructor; auto; apply IH; auto|].
    destruct (d =? c); constructor; auto; cbn in *; apply P; auto; lia.
Qed.

Definition small (m : ms) : Prop := (ms_card m <= i32max)%Z.

Lemma bind_inv : forall {A B} (x : res A) (f : A -> res B) y, bind x f = Ok y -> exists a, x = Ok a /\ f a = Ok y.
Proof. intros A B [a| | |] f y H; cbn in H; try discriminate. eauto. Qed.

Ltac binv H x E := apply bind_inv in H; destruct H as (x & E & H).

Lemma i32_ok : forall z y, i32 z = Ok y -> y = z /\ (z <= i32max)%Z.
Proof.
  intros z y. unfold i32. destruct (Z.leb_spec (-2147483648) z); destruct (Z.leb_spec z i32max); cbn [andb]; intros E; inversion E; subst; split; auto.
Qed.

Lemma add_count_ok : forall size m c k m', pre size m -> c < size -> add_count m c k = Ok m' ->
  pre size m' /\ (forall d, ms_get m' d = (ms_get m d + (if Nat.eqb c d then k else 0))%Z) /\
  (nonneg (ms_counts m) -> (0 <= k)%Z -> nonneg (ms_counts m')) /\ (small m -> small m').
Proof.
  intros size m c k m' P L H. unfold add_count in H.
  destruct (Z.ltb_spec 0 k), (Z.ltb_spec (i32max - k) (ms_card m)); cbn in H; inversion H; subst; clear H;
    (destruct (put_pre size m c (fun x => (x + k)%Z) (ms_card m + k)%Z P L ltac:(cbv beta; lia)) as [P' G];
     split; [exact P'|]; split; [intros d; rewrite G; destruct (Nat.eqb_spec c d); subst; lia|]; split;
     [intros; apply put_nonneg; auto; intros; lia|unfold small; cbn; lia]).
Qed.

Lemma set_count_ok : forall size m c k m', pre size m -> c < size -> set_count m c k = Ok m' ->
  pre size m' /\ (forall d, ms_get m' d = if Nat.eqb c d then k else ms_get m d) /\
  (nonneg (ms_counts m) -> (0 <= k)%Z -> nonneg (ms_counts m')) /\ (wf size m -> small m').
Proof.
  intros size m c k m' P L H. unfold set_count in H. destruct (Z.ltb_spec i32max k); [discriminate|].
  binv H card E. apply i32_ok in E. destruct E as [-> E]. inversion H; subst; clear H.
  destruct (put_pre size m c (fun _ => k) (ms_card m + k - ms_get m c)%Z P L ltac:(cbv beta; lia)) as [P' G].
  split; [exact P'|]. split; [exact G|]. split; [intros; apply put_nonneg; auto; intros; lia|].
  intros W. pose proof (wf_get _ _ c W). unfold small. cbn. lia.
Qed.

(** ** Sums and differences *)

Lemma push_all_ok : forall b card r, push_all b card = Ok r -> r = (card + sumC b)%Z /\ ((card <= i32max)%Z -> (r <= i32max)%Z).
Proof.
  induction b as [|[d y] b IH]; intros card r H; cbn in H.
  - inversion H. unfold sumC. cbn. split; lia.
  - binv H x E. apply i32_ok in E. destruct E as [-> E]. apply IH in H. destruct H as [-> H].
    unfold sumC in *. cbn [map snd]. change (sumZ (y :: map snd b)) with (y + sumZ (map snd b))%Z. split; [lia|intros; auto].
Qed.

Lemma plus_loop_ok : forall a lo b card r, asc lo a -> asc lo b -> plus_loop a b card = Ok r ->
  asc lo (fst r) /\ (forall c, get_in (fst r) c = (get_in a c + get_in b c)%Z) /\
  snd r = (card + sumC b)%Z /\ ((card <= i32max)%Z -> (snd r <= i32max)%Z) /\
  (forall size, below size a -> below size b -> below size (fst r)) /\
  (nonneg a -> nonneg b -> nonneg (fst r)).
Proof.
  induction a as [|[c x] a IHa]; intros lo b.
  - intros card r A B H. cbn in H. binv H card' E. inversion H; subst. apply push_all_ok in E. destruct E as [-> E].
    cbn. repeat split; auto.
  - revert lo. induction b as [|[d y] b IHb]; intros lo card r A B H.
    + cbn in H. inversion H; subst. cbn [fst snd]. repeat split; try (unfold sumC; cbn; lia); auto; intros; try (cbn; lia).
      * cbn in A. tauto.
      * cbn in A. tauto.
    + destruct A as [A1 A2]. destruct B as [B1 B2]. cbn [plus_loop] in H.
      assert (SC : sumC ((d, y) :: b) = (y + sumC b)%Z) by reflexivity. rewrite SC.
      destruct (Nat.eqb_spec c d) as [->|N].
      * destruct ((0 <? y)%Z && (i32max - y <? card)%Z) eqn:OV; [discriminate|].
        binv H q E. inversion H; subst; clear H. destruct (IHa (S d) b _ _ A2 B2 E) as (R1 & R2 & R3 & R4 & R5 & R6).
        cbn [fst snd]. split; [cbn; auto|]. split; [|split; [lia|split; [|split]]].
        -- intros e. cbn. rewrite R2. destruct (d =? e); auto.
        -- intros Q. apply R4. destruct (Z.ltb_spec 0 y), (Z.ltb_spec (i32max - y) card); cbn in OV; try discriminate; lia.
        -- intros size F1 F2. inversion F1; inversion F2; subst. constructor; auto. apply R5; auto.
        -- intros F1 F2. inversion F1; inversion F2; subst. constructor; [cbn [snd] in *; lia|apply R6; auto].
      * destruct (Nat.ltb_spec c d).
        -- binv H q E. inversion H; subst; clear H.
           destruct (IHa (S c) ((d, y) :: b) _ _ A2 ltac:(cbn; split; [lia|auto]) E) as (R1 & R2 & R3 & R4 & R5 & R6).
           cbn [fst snd]. split; [cbn; auto|]. split; [|split; [rewrite R3, SC; lia|split; [auto|split]]].
           ++ intros e. cbn [get_in]. rewrite R2. cbn [get_in]. destruct (Nat.eqb_spec c e); [subst|auto].
              destruct (Nat.eqb_spec d e); [lia|]. rewrite (get_low b (S d)) by (auto; lia). lia.
           ++ intros size F1 F2. inversion F1; subst. constructor; auto. apply R5; auto.
           ++ intros F1 F2. inversion F1; subst. constructor; [auto|apply R6; auto].
        -- change (bind (i32 (card + y)) (fun card' => bind (plus_loop ((c, x) :: a) b card') (fun r0 => Ok ((d, y) :: fst r0, snd r0))) = Ok r) in H.
           binv H card' E1. apply i32_ok in E1. destruct E1 as [-> E1]. binv H q E. inversion H; subst; clear H.
           destruct (IHb (S d) _ _ ltac:(cbn; split; [lia|auto]) B2 E) as (R1 & R2 & R3 & R4 & R5 & R6).
           cbn [fst snd]. split; [cbn; auto|]. split; [|split; [lia|split; [auto|split]]].
           ++ intros e. cbn [get_in]. rewrite R2. cbn [get_in]. destruct (Nat.eqb_spec d e); [subst|auto].
              destruct (Nat.eqb_spec c e); [lia|]. rewrite (get_low a (S c)) by (auto; lia). lia.
           ++ intros size F1 F2. inversion F2; subst. constructor; auto. apply R5; auto.
           ++ intros F1 F2. inversion F2; subst. constructor; [auto|apply R6; auto].
Qed.

Lemma ms_plus_ok : forall size a b m, pre size a -> pre size b -> ms_plus a b = Ok m ->
  pre size m /\ (forall c, ms_get m c = (ms_get a c + ms_get b c)%Z) /\
  (nonneg (ms_counts a) -> nonneg (ms_counts b) -> nonneg (ms_counts m)) /\ (small a -> small m).
Proof.
  intros size a b m PA PB H. unfold ms_plus in H. binv H r E. inversion H; subst; clear H.
  pose proof (pre_card _ _ PA) as SA. pose proof (pre_card _ _ PB) as SB.
  destruct PA as (A1 & A2 & A3), PB as (B1 & B2 & B3).
  destruct (plus_loop_ok _ _ _ _ _ A1 B1 E) as (R1 & R2 & R3 & R4 & R5 & R6).
  split; [|split; [exact R2|split; [exact R6|exact R4]]]. split; [exact R1|]. split; [apply R5; auto|].
  cbn [ms_counts ms_card]. rewrite R3, <- B3. rewrite (sum_get (fst r) 0 size) by auto.
  rewrite (sum_to_ext size _ (fun c => (ms_get a c + ms_get b c)%Z)) by (intros; apply R2).
  rewrite sum_to_plus, <- SA, <- SB. lia.
Qed.

Lemma minus_loop_ok : forall a lo b, asc lo a -> asc lo b ->
  asc lo (minus_loop a b) /\ (forall c, get_in (minus_loop a b) c = (get_in a c - get_in b c)%Z) /\
  (forall size, below size a -> below size b -> below size (minus_loop a b)).
Proof.
  induction a as [|[c x] a IHa]; intros lo b.
  - intros A B. clear A. cbn [minus_loop]. split; [|split].
    + revert lo B. induction b as [|[d y] b IH]; intros lo B; cbn in *; auto. destruct B. auto.
    + clear. intros c. induction b as [|[d y] b IH]; cbn; auto. destruct (d =? c); auto.
    + clear. intros size _ B. induction B; cbn; constructor; auto.
  - revert lo. induction b as [|[d y] b IHb]; intros lo A B.
    + cbn [minus_loop]. split; [auto|]. split; [intros; cbn; lia|auto].
    + destruct A as [A1 A2]. destruct B as [B1 B2]. cbn [minus_loop]. destruct (Nat.eqb_spec c d) as [->|N].
      * destruct (IHa (S d) b A2 B2) as (R1 & R2 & R3). split; [cbn; auto|]. split.
        -- intros e. cbn. rewrite R2. destruct (d =? e); auto.
        -- intros size F1 F2. inversion F1; inversion F2; subst. constructor; auto. apply R3; auto.
      * destruct (Nat.ltb_spec c d).
        -- destruct (IHa (S c) ((d, y) :: b) A2 ltac:(cbn; split; [lia|auto])) as (R1 & R2 & R3).
           split; [cbn [asc]; auto|]. split.
           ++ intros e. cbn [get_in]. rewrite R2. cbn [get_in]. destruct (Nat.eqb_spec c e); [subst|auto].
              destruct (Nat.eqb_spec d e); [lia|]. rewrite (get_low b (S d)) by (auto; lia). lia.
           ++ intros size F1 F2. inversion F1; subst. constructor; auto. apply R3; auto.
        -- change ((fix inner (b : list (nat * Z)) : list (nat * Z) :=
              match b with
              | [] => (c, x) :: a
              | (d, y) :: b' =>
                if Nat.eqb c d then (c, (x - y)%Z) :: minus_loop a b'
                else if c <? d then (c, x) :: minus_loop a ((d, y) :: b')
                else (d, (- y)%Z) :: inner b'
              end) b) with (minus_loop ((c, x) :: a) b).
           destruct (IHb (S d) ltac:(cbn; split; [lia|auto]) B2) as (R1 & R2 & R3).
           split; [cbn [asc]; auto|]. split.
           ++ intros e. cbn [get_in]. rewrite R2. cbn [get_in]. destruct (Nat.eqb_spec d e); [subst|auto].
              destruct (Nat.eqb_spec c e); [lia|]. rewrite (get_low a (S c)) by (auto; lia). lia.
           ++ intros size F1 F2. inversion F2; subst. constructor; auto. apply R3; auto.
Qed.

Lemma ms_minus_ok : forall size a b, pre size a -> pre size b ->
  pre size (ms_minus a b) /\
  ((ms_counts a = [] /\ ms_minus a b = a) \/ forall c, ms_get (ms_minus a b) c = (ms_get a c - ms_get b c)%Z).
Proof.
  intros size a b PA PB. unfold ms_minus. destruct (ms_counts a) as [|x0 l0] eqn:EA; [auto|]. rewrite <- EA. clear x0 l0 EA.
  pose proof (pre_card _ _ PA) as SA. pose proof (pre_card _ _ PB) as SB.
  destruct PA as (A1 & A2 & A3), PB as (B1 & B2 & B3).
  destruct (minus_loop_ok _ _ _ A1 B1) as (R1 & R2 & R3). split; [|right; exact R2].
  split; [exact R1|]. split; [apply R3; auto|]. cbn [ms_counts ms_card].
  rewrite (sum_get (minus_loop _ _) 0 size) by auto.
  rewrite (sum_to_ext size _ (fun c => (ms_get a c + - ms_get b c)%Z)) by (intros; rewrite R2; unfold ms_get; lia).
  rewrite sum_to_plus, sum_to_opp, <- SA, <- SB, B3. unfold sumC. lia.
Qed.

Lemma fix_neg_ok : forall size m, pre size m ->
  wf size (fix_neg m) /\ (forall c, ms_get (fix_neg m) c = Z.max 0 (ms_get m c)).
Proof.
  intros size m (A & B & C).
  assert (G : forall c, ms_get (fix_neg m) c = Z.max 0 (ms_get m c)).
  { intros c. unfold ms_get, fix_neg. cbn [ms_counts]. clear. induction (ms_counts m) as [|[d k] l IH]; cbn; auto.
    destruct (d =? c); auto. }
  split; [|exact G]. split; [|].
  - split; [|split].
    + unfold fix_neg. cbn [ms_counts]. clear - A. revert A. generalize 0. induction (ms_counts m) as [|[d k] l IH]; intros lo A; cbn in *; auto.
      destruct A. auto.
    + unfold fix_neg. cbn [ms_counts]. clear - B. induction B; cbn; constructor; auto.
    + unfold fix_neg. cbn [ms_counts ms_card]. rewrite C. unfold sumC. clear.
      induction (ms_counts m) as [|[d k] l IH]; cbn; auto. unfold sumZ in *. cbn in IH. lia.
  - unfold fix_neg. cbn [ms_counts]. clear. induction (ms_counts m); constructor; auto; cbn; lia.
Qed.

(** ** Inclusion *)

Lemma le_loop_ok : forall a lo b, asc lo a -> asc lo b -> nonneg a -> nonneg b ->
  (le_loop a b = true <-> forall c, (get_in a c <= get_in b c)%Z).
Proof.
  induction a as [|[c x] a IHa]; intros lo b.
  - intros A B NA NB. cbn. split; auto. intros _ c. apply get_nonneg. auto.
  - revert lo. induction b as [|[d y] b IHb]; intros lo A B NA NB.
    + change (le_loop ((c, x) :: a) []) with (forallb (fun y => Z.eqb (snd y) 0) ((c, x) :: a)).
      rewrite forallb_forall. cbn [get_in]. split.
      * intros H e. destruct (Z.eq_dec (get_in ((c, x) :: a) e) 0) as [Z0|Z0].
        -- cbn [get_in] in Z0. rewrite Z0. lia.
        -- pose proof (get_in_list _ _ Z0) as I. apply H in I. cbn [snd] in I. apply Z.eqb_eq in I. congruence.
      * intros H [e k] I. cbn [snd]. apply Z.eqb_eq. pose proof (in_get _ _ _ _ A I) as G.
        specialize (H e). pose proof (get_nonneg ((c, x) :: a) e NA). cbn [get_in] in *. lia.
    + destruct A as [A1 A2], B as [B1 B2]. inversion NA as [|? ? NA1 NA2]; inversion NB as [|? ? NB1 NB2]; subst. cbn [snd] in *.
      cbn [le_loop].
      change ((fix inner (b : list (nat * Z)) : bool :=
          match b with
          | [] => forallb (fun y => Z.eqb (snd y) 0) ((c, x) :: a)
          | (d1, y1) :: b' =>
            if (x <=? 0)%Z then le_loop a ((d1, y1) :: b')
            else if (y1 <=? 0)%Z then inner b'
            else if Nat.eqb c d1 then (if (y1 <? x)%Z then false else le_loop a b')
            else if c <? d1 then false
            else inner b'
          end) b) with (le_loop ((c, x) :: a) b).
      destruct (Z.leb_spec x 0).
      { rewrite (IHa lo ((d, y) :: b)); [|eapply asc_weak; [exact A2|lia]|cbn; auto|auto|auto]. cbn [get_in].
        split; intros H1 e; specialize (H1 e).
        - destruct (Nat.eqb_spec c e); auto. subst. pose proof (get_nonneg b e NB2). destruct (d =? e); lia.
        - destruct (Nat.eqb_spec c e); auto. subst. rewrite (get_low a (S e)) by (auto; lia).
          pose proof (get_nonneg b e NB2). destruct (d =? e); lia. }
      destruct (Z.leb_spec y 0).
      { rewrite (IHb lo); [|cbn; auto|eapply asc_weak; [exact B2|lia]|auto|auto]. cbn [get_in].
        split; intros H1 e; specialize (H1 e).
        - destruct (Nat.eqb_spec d e) as [->|]; auto. rewrite (get_low b (S e)) in H1 by (auto; lia). lia.
        - destruct (Nat.eqb_spec d e) as [->|]; auto. rewrite (get_low b (S e)) by (auto; lia). lia. }
      destruct (Nat.eqb_spec c d) as [->|N].
      { destruct (Z.ltb_spec y x).
        - split; [discriminate|]. intros HH. specialize (HH d). cbn in HH. rewrite Nat.eqb_refl in HH. lia.
        - rewrite (IHa (S d) b) by auto. cbn [get_in]. split; intros HH e; specialize (HH e).
          + destruct (d =? e); auto.
          + destruct (Nat.eqb_spec d e) as [->|]; auto. rewrite (get_low a (S e)), (get_low b (S e)) by (auto; lia). lia. }
      destruct (Nat.ltb_spec c d).
      { split; [discriminate|]. intros HH. specialize (HH c). cbn in HH. rewrite Nat.eqb_refl in HH.
        destruct (Nat.eqb_spec d c); [lia|]. rewrite (get_low b (S d)) in HH by (auto; lia). lia. }
      rewrite (IHb (S d)); [|cbn; split; [lia|auto]|auto|auto|auto]. cbn [get_in].
      split; intros HH e; specialize (HH e).
      * destruct (Nat.eqb_spec d e) as [->|]; auto. destruct (Nat.eqb_spec c e); [lia|].
        rewrite (get_low a (S c)) by (auto; lia). lia.
      * destruct (Nat.eqb_spec d e) as [->|]; auto. destruct (Nat.eqb_spec c e); [lia|].
        rewrite (get_low a (S c)), (get_low b (S e)) by (auto; lia). lia.
Qed.

Lemma ms_leb_ok : forall size a b, wf size a -> wf size b ->
  (ms_leb a b = true <-> forall c, (ms_get a c <= ms_get b c)%Z).
Proof.
  intros size a b [PA NA] [PB NB]. unfold ms_leb.
  pose proof (pre_card _ _ PA) as SA. pose proof (pre_card _ _ PB) as SB.
  destruct PA as (A1 & A2 & A3), PB as (B1 & B2 & B3).
  destruct (Z.ltb_spec (ms_card b) (ms_card a)).
  - split; [discriminate|]. intros H1. pose proof (sum_to_le size _ _ (fun c _ => H1 c)). lia.
  - apply (le_loop_ok _ 0); auto.
Qed.

(** ** Removing zero counts *)

Lemma filter_asc : forall l lo f, asc lo l -> asc lo (filter f l).
Proof.
  induction l as [|[c k] l IH]; intros lo f A; cbn [asc filter] in *; auto. destruct A as [A1 A2].
  destruct (f (c, k)); [cbn [asc]; split; auto|]. eapply asc_weak; [apply IH; exact A2|lia].
Qed.
Lemma shrink_ok : forall size m, wf size m ->
  wf size (ms_shrink m) /\ (forall c, ms_get (ms_shrink m) c = ms_get m c) /\ (small m -> small (ms_shrink m)).
Proof.
  intros size m [(A & B & C) N].
  assert (G : forall c, ms_get (ms_shrink m) c = ms_get m c).
  { intros c. unfold ms_get, ms_shrink. cbn [ms_counts]. clear - A N. revert A N. generalize 0.
    induction (ms_counts m) as [|[d k] l IH]; intros lo A N; cbn; auto. destruct A as [A1 A2]. inversion N; subst. cbn [snd] in *.
    destruct (Z.ltb_spec 0 k); cbn.
    - destruct (d =? c); auto. eapply IH; eauto.
    - rewrite (IH (S d)) by auto. destruct (Nat.eqb_spec d c) as [->|]; auto. rewrite (get_low l (S c)) by (auto; lia). lia. }
  split; [|split; [exact G|auto]]. unfold ms_shrink. split; [split; [|split]|]; cbn [ms_counts ms_card].
  - apply filter_asc. auto.
  - apply Forall_forall. intros x I. apply filter_In in I. unfold below in B. rewrite Forall_forall in B. apply B. tauto.
  - rewrite C. unfold sumC. clear - N. induction N as [|[d k] l N1 N2 IH]; cbn; auto. cbn in N1. destruct (Z.ltb_spec 0 k); cbn.
    + unfold sumZ in *. cbn. lia.
    + unfold sumZ in *. lia.
  - apply Forall_forall. intros x I. apply filter_In in I. destruct I as [_ I]. apply Z.ltb_lt in I. lia.
Qed.
