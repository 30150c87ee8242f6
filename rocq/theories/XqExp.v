(** Reading of numbers, names and expressions (C38). *)
From Verif Require Import Base PqlSyntax XqSyntax XqSpec XqModel.
Local Open Scope string_scope.

(** ** Text *)
Lemma is_space_eq : forall a, is_space a = isspace a.
Proof. intros [[] [] [] [] [] [] [] []]; reflexivity. Qed.
Lemma strip_eq : forall s, strip s = nospace s.
Proof. induction s as [|a s IH]; cbn [strip nospace]; auto. rewrite is_space_eq, IH. auto. Qed.
Lemma digit_no_space : forall a d, digit_val a = Some d -> is_space a = false /\ Ascii.eqb a "-" = false /\ Ascii.eqb a "+" = false.
Proof. intros [[] [] [] [] [] [] [] []] d H; try (vm_compute in H; discriminate H); auto. Qed.
Lemma digits_scan : forall s acc z, digits_val acc s = Some z -> scan_digits (Some acc) s = Some z.
Proof.
  induction s as [|a s IH]; cbn [digits_val scan_digits]; intros acc z H; auto.
  unfold digit_val in H. destruct ((48 <=? nat_of_ascii a) && (nat_of_ascii a <=? 57))%nat; try discriminate H.
  apply IH, H.
Qed.
Lemma natural_scan : forall s z, natural s = Some z -> scan_digits None s = Some z.
Proof.
  intros [|a s] z H; [discriminate H|]. unfold natural in H. cbn [digits_val] in H. cbn [scan_digits].
  unfold digit_val in H. destruct ((48 <=? nat_of_ascii a) && (nat_of_ascii a <=? 57))%nat; try discriminate H.
  apply digits_scan. rewrite <- H. f_equal.
Qed.
Lemma natural_head : forall a s z, natural (String a s) = Some z -> is_space a = false /\ Ascii.eqb a "-" = false /\ Ascii.eqb a "+" = false.
Proof.
  intros a s z H. unfold natural in H. cbn [digits_val] in H.
  destruct (digit_val a) as [d|] eqn:D; [|discriminate H]. eapply digit_no_space; eauto.
Qed.
Lemma number_scan : forall s z, number s = Some z -> sscanf_d s = SNum z.
Proof.
  intros [|a s] z H; [discriminate H|]. unfold number in H. unfold sscanf_d. cbn [skip_space].
  destruct (Ascii.eqb a "-") eqn:M.
  - apply Ascii.eqb_eq in M. subst a. change (is_space "-") with false. cbv iota beta.
    change (Ascii.eqb "-" "-") with true. cbn [orb].
    destruct (natural s) as [v|] eqn:E; [|discriminate H]. rewrite (natural_scan _ _ E).
    cbn in H. congruence.
  - destruct (Ascii.eqb a "+") eqn:Q.
    + apply Ascii.eqb_eq in Q. subst a. change (is_space "+") with false. cbv iota beta.
      change (Ascii.eqb "+" "-") with false. change (Ascii.eqb "+" "+") with true. cbn [orb].
      rewrite (natural_scan _ _ H). reflexivity.
    + destruct (natural_head _ _ _ H) as (A & _ & _). rewrite A. rewrite M, Q. cbn [orb].
      rewrite (natural_scan _ _ H). reflexivity.
Qed.
Lemma fits_eq : forall z, fits_int z = i32 z.
Proof.
  intros z. unfold fits_int, i32. change (- 2 ^ 31)%Z with (-2147483648)%Z. change (2 ^ 31)%Z with 2147483648%Z.
  f_equal. destruct (z <=? 2147483647)%Z eqn:A, (z <? 2147483648)%Z eqn:B; auto; lia.
Qed.

(** ** Values *)
Section Values.
Variable F : frame.
Variable en : env F.
Variable r : run F.
Lemma vsum_app : forall l l' : list (val F), vsum (l ++ l') en r = (vsum l en r + vsum l' en r)%Z.
Proof. induction l as [|v l IH]; intros l'; [reflexivity|]. unfold vsum in *. cbn [app fold_right]. rewrite IH. lia. Qed.
Lemma vprod_app : forall l l' : list (val F), vprod (l ++ l') en r = (vprod l en r * vprod l' en r)%Z.
Proof.
  induction l as [|v l IH]; intros l'.
  - unfold vprod at 2. cbn [fold_right app]. lia.
  - unfold vprod in *. cbn [app fold_right]. rewrite IH. lia.
Qed.
Lemma vsum_cons : forall v (l : list (val F)), vsum (v :: l) en r = (v en r + vsum l en r)%Z.
Proof. reflexivity. Qed.
Lemma vprod_cons : forall v (l : list (val F)), vprod (v :: l) en r = (v en r * vprod l en r)%Z.
Proof. reflexivity. Qed.
Lemma vsum_nil : vsum (@nil (val F)) en r = 0%Z. Proof. reflexivity. Qed.
Lemma vprod_nil : vprod (@nil (val F)) en r = 1%Z. Proof. reflexivity. Qed.
End Values.

Definition vmean (e : nexpr) (x : xml) : Prop := forall F (en : env F) r, nval e en r = xval x en r.
(** what the reader keeps true of its expressions *)
Definition inv (e : nexpr) (m : N) : Prop :=
  (place_free e = true -> exists v, eval0 e = Ok v /\ (absN v <= m)%N /\ forall F (en : env F) r, nval e en r = v) /\
  match e with
  | NPlus c ids es | NMul c ids es => ids = [] /\ (absN c <= m)%N /\ Forall (fun x => place_free x = false) es
  | _ => True
  end.

Lemma i64_ok : forall z, (absN z < 2 ^ 63)%N -> i64 z = Ok z.
Proof.
  intros z H. unfold i64, absN in *. destruct ((- 2 ^ 63 <=? z) && (z <? 2 ^ 63))%Z eqn:E; auto.
  exfalso. change (2 ^ 63)%N with (Z.to_N (2 ^ 63)) in H. apply andb_false_iff in E. lia.
Qed.
Lemma absN_add : forall a b, (absN (a + b) <= absN a + absN b)%N.
Proof. intros. unfold absN. lia. Qed.
Lemma absN_mul : forall a b, absN (a * b) = (absN a * absN b)%N.
Proof. intros. unfold absN. rewrite Z.abs_mul, Z2N.inj_mul; auto using Z.abs_nonneg. Qed.
Lemma absN_opp : forall a, absN (- a) = absN a.
Proof. intros. unfold absN. rewrite Z.abs_opp. reflexivity. Qed.

Lemma free_none : forall es, Forall (fun x => place_free x = false) es -> forallb place_free es = true -> es = [].
Proof. intros [|e es] H A; auto. inversion_clear H. cbn [forallb] in A. rewrite H0 in A. discriminate A. Qed.

Lemma inv_plus : forall c es m, (absN c <= m)%N -> Forall (fun x => place_free x = false) es -> inv (NPlus c [] es) m.
Proof.
  intros c es m C A. split; [|auto]. cbn [place_free]. intros P. rewrite (free_none _ A P). exists c.
  split; [reflexivity|]. split; [exact C|]. intros F en r. cbn [nval map]. rewrite !vsum_nil. lia.
Qed.
Lemma inv_mul : forall c es m, (absN c <= m)%N -> Forall (fun x => place_free x = false) es -> inv (NMul c [] es) m.
Proof.
  intros c es m C A. split; [|auto]. cbn [place_free]. intros P. rewrite (free_none _ A P). exists c.
  split; [reflexivity|]. split; [exact C|]. intros F en r. cbn [nval map]. rewrite !vprod_nil. lia.
Qed.

(** one operand of a sum *)
Lemma handle_plus : forall e m c es, inv e m -> (absN c + m < 2 ^ 63)%N -> Forall (fun x => place_free x = false) es ->
  exists c' es', handle false (c, [], es) e = Ok (c', [], es') /\ (absN c' <= absN c + m)%N /\
    Forall (fun x => place_free x = false) es' /\
    forall F (en : env F) r, (c' + vsum (map (nval (F:=F)) es') en r = c + vsum (map (nval (F:=F)) es) en r + nval e en r)%Z.
Proof.
  intros e m c es (I1 & I2) B A. unfold handle. destruct (place_free e) eqn:P.
  - destruct (I1 eq_refl) as (v & E & V & M). rewrite E. cbn [bind]. unfold app_op.
    pose proof (absN_add c v). rewrite i64_ok by lia. cbn [bind]. exists (c + v)%Z, es. split; [reflexivity|].
    split; [lia|]. split; [exact A|]. intros F en r. rewrite M. lia.
  - assert (K : exists c' es', Ok (c, [], es ++ [e])%list = Ok (c', @nil string, es') /\ (absN c' <= absN c + m)%N /\
      Forall (fun x => place_free x = false) es' /\
      forall F (en : env F) r, (c' + vsum (map (nval (F:=F)) es') en r = c + vsum (map (nval (F:=F)) es) en r + nval e en r)%Z).
    { exists c, (es ++ [e])%list. split; [reflexivity|]. split; [lia|]. split; [apply Forall_app; auto|].
      intros F en r. rewrite map_app, vsum_app. cbn [map]. rewrite vsum_cons, vsum_nil. lia. }
    destruct e as [z|p|e|l|c2 ids2 es2|c2 ids2 es2|n e]; try exact K.
    + destruct I2 as (-> & C2 & A2). destruct es2 as [|x es2]; [discriminate P|].
      unfold app_op. pose proof (absN_add c c2). rewrite i64_ok by lia. cbn [bind]. exists (c + c2)%Z, (es ++ x :: es2)%list.
      split; [reflexivity|]. split; [lia|]. split; [apply Forall_app; auto|].
      intros F en r. rewrite map_app, vsum_app. cbn [nval]. rewrite (vsum_nil F en r : vsum (map (tokens_of (F:=F)) []) en r = 0%Z). lia.
    + destruct I2 as (-> & C2 & A2). destruct es2 as [|x es2]; [discriminate P|]. exact K.
Qed.
Lemma handle_mul : forall e m c es, inv e m -> (N.max 1 m * absN c < 2 ^ 63)%N -> Forall (fun x => place_free x = false) es ->
  exists c' es', handle true (c, [], es) e = Ok (c', [], es') /\ (absN c' <= N.max 1 m * absN c)%N /\
    Forall (fun x => place_free x = false) es' /\
    forall F (en : env F) r, (c' * vprod (map (nval (F:=F)) es') en r = c * vprod (map (nval (F:=F)) es) en r * nval e en r)%Z.
Proof.
  intros e m c es (I1 & I2) B A. unfold handle. destruct (place_free e) eqn:P.
  - destruct (I1 eq_refl) as (v & E & V & M). rewrite E. cbn [bind]. unfold app_op.
    pose proof (absN_mul c v). assert (absN c * absN v <= N.max 1 m * absN c)%N by nia.
    rewrite i64_ok by lia. cbn [bind]. exists (c * v)%Z, es. split; [reflexivity|].
    split; [lia|]. split; [exact A|]. intros F en r. rewrite M. ring.
  - assert (K : exists c' es', Ok (c, [], es ++ [e])%list = Ok (c', @nil string, es') /\ (absN c' <= N.max 1 m * absN c)%N /\
      Forall (fun x => place_free x = false) es' /\
      forall F (en : env F) r, (c' * vprod (map (nval (F:=F)) es') en r = c * vprod (map (nval (F:=F)) es) en r * nval e en r)%Z).
    { exists c, (es ++ [e])%list. split; [reflexivity|]. split; [nia|]. split; [apply Forall_app; auto|].
      intros F en r. rewrite map_app, vprod_app. cbn [map]. rewrite vprod_cons, vprod_nil. ring. }
    destruct e as [z|p|e|l|c2 ids2 es2|c2 ids2 es2|n e]; try exact K.
    + destruct I2 as (-> & C2 & A2). destruct es2 as [|x es2]; [discriminate P|]. exact K.
    + destruct I2 as (-> & C2 & A2). destruct es2 as [|x es2]; [discriminate P|].
      unfold app_op. pose proof (absN_mul c c2). assert (absN c * absN c2 <= N.max 1 m * absN c)%N by nia.
      rewrite i64_ok by lia. cbn [bind]. exists (c * c2)%Z, (es ++ x :: es2)%list.
      split; [reflexivity|]. split; [lia|]. split; [apply Forall_app; auto|].
      intros F en r. rewrite map_app, vprod_app. cbn [nval]. rewrite (vprod_nil F en r : vprod (map (tokens_of (F:=F)) []) en r = 1%Z). ring.
Qed.

Lemma handle_all_plus : forall l ms c es, Forall2 inv l ms -> (absN c + sumN ms < 2 ^ 63)%N -> Forall (fun x => place_free x = false) es ->
  exists c' es', handle_all false (c, [], es) l = Ok (c', [], es') /\ (absN c' <= absN c + sumN ms)%N /\
    Forall (fun x => place_free x = false) es' /\
    forall F (en : env F) r, (c' + vsum (map (nval (F:=F)) es') en r = c + vsum (map (nval (F:=F)) es) en r + vsum (map (nval (F:=F)) l) en r)%Z.
Proof.
  induction l as [|e l IH]; intros ms c es I B A; inversion I as [|? m ? ms' I1 I2]; subst; clear I; cbn [handle_all].
  - exists c, es. split; [reflexivity|]. split; [lia|]. split; [exact A|]. intros. cbn [map]. rewrite vsum_nil. lia.
  - cbn [sumN] in B. destruct (handle_plus e m c es I1 ltac:(lia) A) as (c1 & es1 & E & C & A1 & M). rewrite E. cbn [bind].
    destruct (IH ms' c1 es1 I2 ltac:(lia) A1) as (c2 & es2 & E2 & C2 & A2 & M2). rewrite E2. exists c2, es2.
    split; [reflexivity|]. split; [cbn [sumN]; lia|]. split; [exact A2|]. intros F en r. rewrite M2, M. cbn [map].
    rewrite vsum_cons. lia.
Qed.
Lemma handle_all_mul : forall l ms c es, Forall2 inv l ms -> (absN c * prodN ms < 2 ^ 63)%N -> Forall (fun x => place_free x = false) es ->
  exists c' es', handle_all true (c, [], es) l = Ok (c', [], es') /\ (absN c' <= absN c * prodN ms)%N /\
    Forall (fun x => place_free x = false) es' /\
    forall F (en : env F) r, (c' * vprod (map (nval (F:=F)) es') en r = c * vprod (map (nval (F:=F)) es) en r * vprod (map (nval (F:=F)) l) en r)%Z.
Proof.
  induction l as [|e l IH]; intros ms c es I B A; inversion I as [|? m ? ms' I1 I2]; subst; clear I; cbn [handle_all].
  - exists c, es. unfold prodN. cbn [fold_right]. split; [reflexivity|]. split; [lia|]. split; [exact A|]. intros. cbn [map]. rewrite vprod_nil. lia.
  - unfold prodN in B. cbn [fold_right] in B. fold (prodN ms') in B.
    assert (PP : (1 <= prodN ms')%N).
    { clear. induction ms' as [|a l IH]; unfold prodN in *; cbn [fold_right]; [lia|nia]. }
    destruct (handle_mul e m c es I1 ltac:(nia) A) as (c1 & es1 & E & C & A1 & M). rewrite E. cbn [bind].
    destruct (IH ms' c1 es1 I2 ltac:(nia) A1) as (c2 & es2 & E2 & C2 & A2 & M2). rewrite E2. exists c2, es2.
    split; [reflexivity|]. split; [unfold prodN; cbn [fold_right]; fold (prodN ms'); nia|]. split; [exact A2|]. intros F en r. rewrite M2, M. cbn [map].
    rewrite vprod_cons. ring.
Qed.
Lemma mk_plus_ok : forall l ms, Forall2 inv l ms -> (sumN ms < 2 ^ 63)%N ->
  exists e, mk_plus l = Ok e /\ inv e (sumN ms) /\ forall F (en : env F) r, nval e en r = vsum (map (nval (F:=F)) l) en r.
Proof.
  intros l ms I B. destruct (handle_all_plus l ms 0 [] I ltac:(cbn [absN Z.abs Z.to_N]; lia) (Forall_nil _)) as (c & es & E & C & A & M).
  unfold mk_plus. rewrite E. cbn [bind]. exists (NPlus c [] es). split; [reflexivity|]. split; [apply inv_plus; auto|].
  intros F en r. cbn [nval map]. specialize (M F en r). cbn [map] in M. rewrite vsum_nil in *. lia.
Qed.
Lemma mk_mul_ok : forall l ms, Forall2 inv l ms -> (prodN ms < 2 ^ 63)%N ->
  exists e, mk_mul l = Ok e /\ inv e (prodN ms) /\ forall F (en : env F) r, nval e en r = vprod (map (nval (F:=F)) l) en r.
Proof.
  intros l ms I B. assert (absN 1 = 1%N) as O by reflexivity.
  destruct (handle_all_mul l ms 1 [] I ltac:(rewrite O; lia) (Forall_nil _)) as (c & es & E & C & A & M).
  unfold mk_mul. rewrite E. cbn [bind]. exists (NMul c [] es). split; [reflexivity|]. split; [apply inv_mul; auto; lia|].
  intros F en r. cbn [nval map]. specialize (M F en r). cbn [map] in M. rewrite !vprod_nil in *. rewrite Z.mul_1_r. rewrite M. ring.
Qed.

(** ** Loops *)
Lemma mapO_ok : forall A B (f : A -> res (option B)) (Q : A -> B -> Prop) l,
  Forall (fun a => exists b, f a = Ok (Some b) /\ Q a b) l -> exists bs, mapO f l = Ok (Some bs) /\ Forall2 Q l bs.
Proof.
  intros A B f Q l H. induction H as [|a l (b & E & K) H (bs & E2 & K2)]; cbn [mapO].
  - exists []. auto.
  - rewrite E. cbn [bind]. rewrite E2. cbn [bind option_map]. exists (b :: bs). auto.
Qed.
Lemma read_places : forall ks, forallb place_ok ks = true ->
  mapO read_place ks = Ok (Some (map (fun k => nospace (text_of k)) ks)).
Proof.
  induction ks as [|k ks IH]; cbn [forallb mapO map]; auto. intros H. apply andb_true_iff in H as (A & B).
  unfold place_ok in A. apply andb_true_iff in A as (A1 & A2). unfold read_place at 1.
  destruct k as [[] a s l]; try discriminate A1. cbn [is_place tag_of text_of] in *. rewrite strip_eq.
  destruct (String.eqb (nospace s) ""); try discriminate A2. cbn [bind]. rewrite (IH B). reflexivity.
Qed.
Lemma inv_ids : forall ps, Forall2 inv (map NId ps) (map (fun _ => 0%N) ps).
Proof. induction ps as [|p ps IH]; cbn [map]; constructor; auto. split; [intros P; discriminate P|exact I]. Qed.
Lemma sum_zero : forall A (l : list A), sumN (map (fun _ => 0%N) l) = 0%N.
Proof. induction l as [|a l IH]; cbn [map sumN]; auto. Qed.

Lemma sum_le : forall A (f : A -> N) l a, In a l -> (f a <= sumN (map f l))%N.
Proof. induction l as [|b l IH]; intros a []; cbn [map sumN]. { subst. lia. } specialize (IH _ H). lia. Qed.
Lemma prod_pos : forall l, (1 <= prodN l)%N.
Proof. induction l as [|a l IH]; unfold prodN in *; cbn [fold_right]; [lia|nia]. Qed.
Lemma prod_le : forall A (f : A -> N) l a, In a l -> (f a <= prodN (map f l))%N.
Proof.
  induction l as [|b l IH]; intros a H; [destruct H|]. cbn [map]. unfold prodN. cbn [fold_right]. fold (prodN (map f l)).
  pose proof (prod_pos (map f l)). destruct H as [->|H]; [nia|]. specialize (IH _ H). nia.
Qed.

(** differences *)
Lemma sub_fold : forall es ms acc b, Forall2 inv es ms -> forallb place_free es = true -> (absN acc <= b)%N -> (b + sumN ms < 2 ^ 63)%N ->
  exists v, foldE eval0 Z.sub es acc = Ok v /\ (absN v <= b + sumN ms)%N /\
    forall F (en : env F) r, v = (acc - vsum (map (nval (F:=F)) es) en r)%Z.
Proof.
  induction es as [|e es IH]; intros ms acc b I P A B; inversion I as [|? m ? ms' I1 I2]; subst; clear I; cbn [foldE].
  - exists acc. split; [reflexivity|]. split; [cbn [sumN]; lia|]. intros. cbn [map]. rewrite vsum_nil. lia.
  - cbn [forallb] in P. apply andb_true_iff in P as (P1 & P2). destruct (proj1 I1 P1) as (v & E & V & M).
    rewrite E. cbn [bind]. cbn [sumN] in B.
    assert (absN (acc - v) <= b + m)%N as AB. { pose proof (absN_add acc (- v)). rewrite absN_opp in H. unfold Z.sub. lia. }
    rewrite i64_ok by lia. cbn [bind]. destruct (IH ms' _ _ I2 P2 AB ltac:(lia)) as (w & E2 & W & M2).
    exists w. split; [exact E2|]. split; [cbn [sumN]; lia|]. intros F en r. rewrite (M2 F en r). cbn [map].
    rewrite vsum_cons, M. lia.
Qed.
Lemma inv_sub : forall es ms, Forall2 inv es ms -> es <> [] -> (sumN ms < 2 ^ 63)%N -> inv (NSub es) (sumN ms).
Proof.
  intros es ms I N0 B. split; [|exact Logic.I]. intros P. cbn [place_free] in P. destruct es as [|e es]; [congruence|].
  inversion I as [|? m ? ms' I1 I2]; subst; clear I. cbn [forallb] in P. apply andb_true_iff in P as (P1 & P2). cbn [sumN] in *.
  destruct (proj1 I1 P1) as (v & E & V & M). cbn [eval0]. rewrite E. cbn [bind].
  destruct (sub_fold es ms' v m I2 P2 V B) as (w & E2 & W & M2). exists w. split; [exact E2|]. split; [exact W|].
  intros F en r. cbn [nval]. rewrite (M2 F en r), M. reflexivity.
Qed.

Lemma Forall2_map_l : forall A B C (R : C -> B -> Prop) (f : A -> C) l l', Forall2 (fun a b => R (f a) b) l l' -> Forall2 R (map f l) l'.
Proof. induction 1; cbn [map]; constructor; auto. Qed.
Lemma Forall2_swap : forall A B (R : A -> B -> Prop) l l', Forall2 R l l' -> Forall2 (fun b a => R a b) l' l.
Proof. induction 1; constructor; auto. Qed.

(** ** Expressions *)
Definition read_ok (x : xml) (e : nexpr) : Prop := vmean e x /\ inv e (size x).
Lemma kids_sum : forall ks es F (en : env F) r, Forall2 read_ok ks es -> vsum (map (nval (F:=F)) es) en r = vsum (map (xval (F:=F)) ks) en r.
Proof. intros ks es F en r H. induction H as [|k e ks es (M & _) H IH]; cbn [map]; auto. rewrite !vsum_cons, IH, (M F en r). reflexivity. Qed.
Lemma kids_prod : forall ks es F (en : env F) r, Forall2 read_ok ks es -> vprod (map (nval (F:=F)) es) en r = vprod (map (xval (F:=F)) ks) en r.
Proof. intros ks es F en r H. induction H as [|k e ks es (M & _) H IH]; cbn [map]; auto. rewrite !vprod_cons, IH, (M F en r). reflexivity. Qed.
Lemma kids_inv : forall ks es, Forall2 read_ok ks es -> Forall2 inv es (map size ks).
Proof. intros ks es H. induction H as [|k e ks es (_ & I) H IH]; cbn [map]; constructor; auto. Qed.

Lemma parse_exp_ok : forall x, wf_exp x = true -> (size x < 2 ^ 63)%N -> exists e, parse_exp x = Ok (Some e) /\ read_ok x e.
Proof.
  induction x as [t a s ks IH] using xml_ind'. intros W B.
  assert (KS : forall (HS : forall k, In k ks -> (size k < 2 ^ 63)%N), forallb wf_exp ks = true ->
    exists es, mapO parse_exp ks = Ok (Some es) /\ Forall2 read_ok ks es).
  { intros HS A. apply mapO_ok. rewrite Forall_forall in IH |- *. intros k K. rewrite forallb_forall in A. exact (IH k K (A k K) (HS k K)). }
  destruct t; try discriminate W; cbn [parse_exp wf_exp] in *.
  - (* path-scope *)
    destruct a as [n|]; [|discriminate W]. destruct ks as [|k [|]]; try discriminate W. cbn [single forallb andb] in W.
    rewrite andb_true_r in W. inversion_clear IH as [|? ? H _]. cbn [size map sumN] in B.
    destruct (H W ltac:(lia)) as (e & E & M & (I1 & _)). rewrite E. cbn [bind option_map]. exists (NPath n e). split; [reflexivity|]. split.
    + intros F en r. cbn [nval xval]. unfold scope_val. destruct (en n); apply M.
    + split; [|exact I]. cbn [place_free eval0]. intros P. destruct (I1 P) as (v & EV & V & MV). exists v. split; [exact EV|].
      split; [cbn [size map sumN]; lia|]. intros F en r. cbn [nval]. unfold scope_val. destruct (en n); apply MV.
  - (* constant *)
    destruct (number s) as [z|] eqn:EN; [|discriminate W]. rewrite (number_scan _ _ EN), fits_eq, W. exists (NLit z).
    split; [reflexivity|]. split.
    + intros F en r. cbn [nval xval]. rewrite EN. reflexivity.
    + split; [|exact I]. intros _. exists z. split; [reflexivity|]. split; [cbn [size]; rewrite EN; lia|]. reflexivity.
  - (* tokens-count *)
    apply andb_true_iff in W as (W1 & W2). rewrite (read_places _ W2). cbn [bind].
    set (ps := map (fun k => nospace (text_of k)) ks).
    assert (SUM : forall F (en : env F) r, vsum (map (nval (F:=F)) (map NId ps)) en r = vsum (map (xplace (F:=F)) ks) en r).
    { intros F en r. unfold ps. rewrite !map_map. reflexivity. }
    assert (PS : ps <> []). { unfold ps. destruct ks; [discriminate W1|]. discriminate. }
    destruct ps as [|p [|q l]] eqn:EP; [congruence| |].
    + exists (NId p). split; [reflexivity|]. split.
      * intros F en r. cbn [xval]. rewrite <- SUM. cbn [map]. rewrite vsum_cons, vsum_nil. lia.
      * split; [intros P; discriminate P|exact I].
    + rewrite <- EP in *. destruct (mk_plus_ok _ _ (inv_ids ps)) as (e & E & IE & M).
      { rewrite sum_zero. lia. }
      rewrite E. cbn [bind]. exists e. split; [reflexivity|]. split.
      * intros F en r. rewrite M, SUM. reflexivity.
      * rewrite sum_zero in IE. exact IE.
  - (* sum *)
    apply andb_true_iff in W as (W1 & W2). cbn [size] in B.
    destruct KS as (es & E & K); auto. { intros k K. pose proof (sum_le _ size ks k K). lia. }
    rewrite E. cbn [bind]. destruct es as [|e1 [|e2 es]].
    + inversion K; subst. discriminate W1.
    + exists e1. inversion K as [|k ? ks' ? (M & I1) K2]; subst. inversion K2; subst. split; [reflexivity|]. split.
      * intros F en r. cbn [xval map]. rewrite vsum_cons, vsum_nil, (M F en r). lia.
      * cbn [size map sumN]. rewrite N.add_0_r. exact I1.
    + destruct (mk_plus_ok _ _ (kids_inv _ _ K) B) as (e & E2 & IE & M). rewrite E2. cbn [bind]. exists e. split; [reflexivity|]. split.
      * intros F en r. rewrite M. cbn [xval]. apply kids_sum; auto.
      * exact IE.
  - (* product *)
    apply andb_true_iff in W as (W1 & W2). cbn [size] in B.
    destruct KS as (es & E & K); auto. { intros k K. pose proof (prod_le _ size ks k K). lia. }
    rewrite E. cbn [bind]. destruct es as [|e1 [|e2 es]].
    + inversion K; subst. discriminate W1.
    + exists e1. inversion K as [|k ? ks' ? (M & I1) K2]; subst. inversion K2; subst. split; [reflexivity|]. split.
      * intros F en r. cbn [xval map]. rewrite vprod_cons, vprod_nil, (M F en r). lia.
      * cbn [size map]. unfold prodN. cbn [fold_right]. rewrite N.mul_1_r. destruct I1 as (I1 & I2). split.
        -- intros P. destruct (I1 P) as (v & EV & V & MV). exists v. repeat split; auto. lia.
        -- destruct e1; auto; destruct I2 as (? & ? & ?); repeat split; auto; lia.
    + destruct (mk_mul_ok _ _ (kids_inv _ _ K) B) as (e & E2 & IE & M). rewrite E2. cbn [bind]. exists e. split; [reflexivity|]. split.
      * intros F en r. rewrite M. cbn [xval]. apply kids_prod; auto.
      * exact IE.
  - (* difference *)
    apply andb_true_iff in W as (W1 & W2). cbn [size] in B.
    destruct KS as (es & E & K); auto. { intros k K. pose proof (sum_le _ size ks k K). lia. }
    rewrite E. cbn [bind]. destruct es as [|e1 [|e2 es]].
    + inversion K; subst. discriminate W1.
    + exists (NSub [NLit 0; e1]). inversion K as [|k ? ks' ? (M & I1) K2]; subst. inversion K2; subst. split; [reflexivity|]. split.
      * intros F en r. cbn [nval xval map vdiff]. rewrite vsum_cons, vsum_nil, (M F en r). unfold const. lia.
      * cbn [size map sumN] in *. replace (size k + 0)%N with (sumN [0%N; size k]) by (cbn [sumN]; lia). apply inv_sub; [|discriminate|cbn [sumN]; lia].
        constructor; [|constructor; auto]. split; [|exact I]. intros _. exists 0%Z. repeat split; auto. cbn. lia.
    + exists (NSub (e1 :: e2 :: es)). split; [reflexivity|]. split.
      * intros F en r. pose proof (kids_sum _ _ F en r K) as KSM. destruct ks as [|k1 [|k2 ks]]; [inversion K|inversion K as [|? ? ? ? ? K2]; inversion K2|].
        inversion K as [|? ? ? ? (M1 & _) K2]; subst. cbn [nval xval]. change (map (xval (F:=F)) (k1 :: k2 :: ks)) with (xval k1 :: xval k2 :: map (xval (F:=F)) ks) in *.
        change (map (nval (F:=F)) (e1 :: e2 :: es)) with (nval e1 :: map (nval (F:=F)) (e2 :: es)) in KSM.
        rewrite !vsum_cons in KSM. unfold vdiff. rewrite !vsum_cons. specialize (M1 F en r). lia.
      * apply inv_sub; [apply kids_inv; auto|discriminate|exact B].
Qed.
