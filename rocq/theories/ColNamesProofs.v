(** The names of unfolded places and transitions are distinct (C34). *)
From Verif Require Import Base ColSyntax ColModel ColNames.
From Coq Require Import String Ascii Decimal DecimalString DecimalNat.

Notation las := list_ascii_of_string.

Lemma las_app : forall s t, las (s ++ t) = (las s ++ las t)%list.
Proof. induction s as [|c s IH]; intros t; cbn; [reflexivity|]. rewrite IH. reflexivity. Qed.
Lemma las_inj : forall s t, las s = las t -> s = t.
Proof. intros s t H. rewrite <- (string_of_list_ascii_of_string s), <- (string_of_list_ascii_of_string t), H. reflexivity. Qed.

Definition und : ascii := "_"%char.
Definition is_dig (c : ascii) : Prop :=
  In c ["0"; "1"; "2"; "3"; "4"; "5"; "6"; "7"; "8"; "9"]%char.

Lemma digs_e : forall d, Forall is_dig (las (NilEmpty.string_of_uint d)).
Proof. unfold is_dig. induction d; cbn; constructor; auto; cbn; tauto. Qed.
Lemma dec_digs : forall k, Forall is_dig (las (dec k)) /\ las (dec k) <> [].
Proof.
  intros k. unfold dec, NilZero.string_of_uint. destruct (Nat.to_uint k) eqn:E; split; try discriminate;
    try (rewrite <- E; apply digs_e); try (cbn; constructor; [cbn; unfold is_dig; cbn; tauto|apply digs_e]).
  constructor; [unfold is_dig; cbn; tauto|constructor].
Qed.
Lemma dec_inj : forall i j, dec i = dec j -> i = j.
Proof.
  intros i j H. unfold dec in H.
  assert (N : forall k, Nat.to_uint k <> Nil) by (intros k E; pose proof (Unsigned.of_to k) as Q; rewrite E in Q; cbn in Q; subst k; discriminate).
  pose proof (NilZero.usu (Nat.to_uint i) (N i)) as E1. pose proof (NilZero.usu (Nat.to_uint j) (N j)) as E2.
  rewrite H, E2 in E1. injection E1 as E1. rewrite <- (Unsigned.of_to i), <- (Unsigned.of_to j). congruence.
Qed.
Lemma dig_und : ~ is_dig und.
Proof. unfold is_dig, und. cbn. intuition discriminate. Qed.

Lemma split_und : forall a b d e, Forall is_dig d -> Forall is_dig e ->
  (a ++ und :: d = b ++ und :: e)%list -> a = b /\ d = e.
Proof.
  induction a as [|x a IH]; intros b d e D E H.
  - destruct b as [|y b]; cbn in H.
    + inversion H; auto.
    + inversion H; subst. exfalso. apply dig_und. rewrite Forall_forall in D. apply D. apply in_app_iff. right. left. auto.
  - destruct b as [|y b]; cbn in H.
    + inversion H; subst. exfalso. apply dig_und. rewrite Forall_forall in E. apply E. apply in_app_iff. right. left. auto.
    + inversion H; subst. destruct (IH b d e D E H2) as [-> ->]. auto.
Qed.

Lemma col_split : forall s s' i j, (s ++ "_" ++ dec i)%string = (s' ++ "_" ++ dec j)%string -> s = s' /\ i = j.
Proof.
  intros s s' i j H. assert (E : las (s ++ "_" ++ dec i) = las (s' ++ "_" ++ dec j)) by (rewrite H; auto).
  rewrite !las_app in E. cbn in E. destruct (dec_digs i) as [D _], (dec_digs j) as [D' _].
  change "_"%char with und in E. apply split_und in E; auto. destruct E as [E1 E2]. split; [apply las_inj; auto|].
  apply dec_inj. apply las_inj. auto.
Qed.
Lemma suffix_cut : forall s s' w, (s ++ w)%string = (s' ++ w)%string -> s = s'.
Proof.
  intros s s' w H. apply las_inj. assert (E : las (s ++ w) = las (s' ++ w)) by (rewrite H; auto).
  rewrite !las_app in E. apply app_inv_tail in E. auto.
Qed.
Lemma last_app_ne : forall {A} (l m : list A) d, m <> [] -> last (l ++ m) d = last m d.
Proof.
  induction l as [|x l IH]; intros m d H; auto. cbn [app]. rewrite <- (IH m d H). destruct l as [|y l]; cbn.
  - destruct m; [congruence|auto].
  - reflexivity.
Qed.
Lemma last_dig : forall l, Forall is_dig l -> l <> [] -> is_dig (last l und).
Proof.
  induction l as [|x [|y l] IH]; intros F H; [congruence|inversion F; auto|]. inversion F; subst. apply IH; auto. discriminate.
Qed.

Lemma lasts : forall pname u, 
  match u with
  | UCol _ _ => is_dig (last (las (uname_string pname u)) und)
  | USum _ => last (las (uname_string pname u)) und = "m"%char
  | UOrph _ => last (las (uname_string pname u)) und = "n"%char
  end.
Proof.
  intros pname [p c|p|p]; cbn [uname_string]; rewrite !las_app.
  - rewrite app_assoc. destruct (dec_digs c) as [D N]. rewrite last_app_ne by auto. apply last_dig; auto.
  - rewrite last_app_ne by discriminate. reflexivity.
  - rewrite last_app_ne by discriminate. reflexivity.
Qed.
Lemma dig_mn : ~ is_dig "m"%char /\ ~ is_dig "n"%char.
Proof. unfold is_dig. cbn. split; intuition discriminate. Qed.

Lemma uname_string_inj : forall pname, (forall p q, pname p = pname q -> p = q) ->
  forall u v, uname_string pname u = uname_string pname v -> u = v.
Proof.
  intros pname PI u v H. pose proof (lasts pname u) as L1. pose proof (lasts pname v) as L2. rewrite <- H in L2.
  destruct dig_mn as [M N].
  destruct u as [p c|p|p], v as [q d|q|q]; cbv beta iota in L1, L2;
    try (rewrite L1 in L2; try discriminate; contradiction);
    try (rewrite L2 in L1; try discriminate; contradiction).
  - cbn [uname_string] in H. apply col_split in H. destruct H as [H1 H2]. apply PI in H1. congruence.
  - cbn [uname_string] in H. apply suffix_cut, PI in H. congruence.
  - cbn [uname_string] in H. apply suffix_cut, PI in H. congruence.
Qed.
Lemma copy_string_inj : forall tname, (forall t t', tname t = tname t' -> t = t') ->
  forall t i t' i', copy_string tname t i = copy_string tname t' i' -> t = t' /\ i = i'.
Proof. intros tname TI t i t' i' H. apply col_split in H. destruct H; auto. Qed.
