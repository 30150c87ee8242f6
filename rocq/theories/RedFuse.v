(** Fusing a producer of a place with each of its consumers, on abstract nets. *)
From Verif Require Import Base RedTheory.
Set Implicit Arguments.

(** firing [u] and then [c], which takes [w] tokens from [p0] only *)
Definition fused (p0 : nat) (w : N) (u c : atr) : atr :=
  mkAtr (a_in u) (fun q => if Nat.eqb q p0 then (a_out u p0 - w)%N else (a_out u q + a_out c q)%N) (a_inh u).

(** runs with a bound on their length *)
Inductive arunn (T : nat -> option atr) : nat -> mk -> mk -> Prop :=
| an_nil : forall n m m', ext m m' -> arunn T n m m'
| an_cons : forall n m i t m1 m2, T i = Some t -> aen t m -> ext m1 (afire t m) -> arunn T n m1 m2 -> arunn T (S n) m m2.
Lemma arunn_more : forall T n m m', arunn T n m m' -> forall k, n <= k -> arunn T k m m'.
Proof.
  intros T n m m' H. induction H as [n m m' E|n m i t m1 m2 Ht En X H IH]; intros k Hk; [apply an_nil; exact E|].
  destruct k as [|k]; [lia|]. eapply an_cons; eauto. apply IH. lia.
Qed.
Lemma arun_arunn : forall T m m', arun T m m' -> exists n, arunn T n m m'.
Proof. intros T m m' H. induction H as [m m' E|m i t m1 m2 Ht En X H (n & IH)]; [exists 0; apply an_nil; exact E|exists (S n); eapply an_cons; eauto]. Qed.
Lemma arunn_ext_l : forall T n m m', arunn T n m m' -> forall m0, ext m0 m -> arunn T n m0 m'.
Proof.
  intros T n m m' H. destruct H as [n m m' E|n m i t m1 m2 Ht En X H]; intros m0 E0; [apply an_nil; eapply ext_trans; eauto|].
  eapply an_cons; [exact Ht|eapply aen_ext; [apply ext_sym; exact E0|exact En]| |exact H]. eapply ext_trans; [exact X|]. apply afire_ext. apply ext_sym. exact E0.
Qed.

Section Fuse.
Variable Q : nat -> bool.
Variables NA NB : anet.
Variable p0 : nat.
Variable iu : nat.
Variable tu : atr.
(** the consumers *)
Variable C : list nat.
Variable w : nat -> N.
Hypothesis Hinit : ext (an_init NA) (an_init NB).
Hypothesis HQ : Q p0 = false.
Hypothesis Hinh : forall i t, an_tr NA i = Some t -> a_inh t p0 = None.
Hypothesis HC : C <> [].
Hypothesis Hcons : forall i, In i C -> exists c, an_tr NA i = Some c /\ (0 < w i)%N /\ (forall q, a_in c q = if Nat.eqb q p0 then w i else 0%N) /\
  (forall q, a_inh c q = None) /\ a_out c p0 = 0%N /\
  (forall q, a_out c q <> 0%N -> Q q = false /\ forall j t, an_tr NA j = Some t -> a_inh t q = None).
Hypothesis Hothers : forall i t, an_tr NA i = Some t -> ~ In i C -> a_in t p0 = 0%N.
Hypothesis Hu : an_tr NA iu = Some tu.
Hypothesis Hui : ~ In iu C.
Hypothesis Huw : forall i, In i C -> (w i <= a_out tu p0)%N.
Hypothesis Hkeep : forall i t, i <> iu -> an_tr NA i = Some t -> exists t', an_tr NB i = Some t' /\ aeq t t'.
Hypothesis Hnew : forall i c, In i C -> an_tr NA i = Some c -> exists j x, an_tr NB j = Some x /\ aeq (fused p0 (w i) tu c) x.
Hypothesis Hback : forall j x, an_tr NB j = Some x -> (exists t, j <> iu /\ an_tr NA j = Some t /\ aeq t x) \/ (exists i c, In i C /\ an_tr NA i = Some c /\ aeq (fused p0 (w i) tu c) x).

Lemma fused_fire : forall i c m, In i C -> an_tr NA i = Some c -> ext (afire c (afire tu m)) (afire (fused p0 (w i) tu c) m).
Proof.
  intros i c m Hi Hc q. destruct (Hcons i Hi) as (c' & Hc' & W & A & _ & O & _). assert (c' = c) by congruence. subst c'.
  unfold afire, fused. cbn [a_in a_out]. rewrite A. destruct (Nat.eqb_spec q p0) as [->|Hq].
  - rewrite O, (Hothers iu Hu Hui). specialize (Huw i Hi). lia.
  - lia.
Qed.
(** some consumer can be fired first *)
Lemma first_consumer : forall n m mf, arunn (an_tr NA) n m mf -> (forall i, In i C -> (w i <= m p0)%N) ->
  exists i c mf', In i C /\ an_tr NA i = Some c /\ aen c m /\ arunn (an_tr NA) n (afire c m) mf' /\ forall p, Q p = true -> mf p = mf' p.
Proof.
  intros n m mf H. induction H as [n m m' E|n m j t m1 m2 Ht En X H IH]; intros Hw.
  - destruct C as [|i C'] eqn:EC; [contradiction|]. destruct (Hcons i (or_introl eq_refl)) as (c & Hc & W & A & B & O & D).
    exists i, c, (afire c m). split; [left; reflexivity|]. split; [exact Hc|]. split; [|split; [apply an_nil, ext_refl|]].
    + intros q. split; [|intros v Hv; rewrite B in Hv; discriminate]. rewrite A. destruct (Nat.eqb_spec q p0) as [->|_]; [apply Hw; left; reflexivity|lia].
    + intros q Hq. rewrite <- E. unfold afire. rewrite A. destruct (Nat.eqb_spec q p0) as [->|_]; [congruence|].
      destruct (N.eq_dec (a_out c q) 0) as [Z|Z]; [lia|]. destruct (D q Z). congruence.
  - destruct (in_dec Nat.eq_dec j C) as [Hj|Hj].
    + exists j, t, m2. split; [exact Hj|]. split; [exact Ht|]. split; [exact En|]. split; [|reflexivity]. apply arunn_more with (n := n); [|lia]. eapply arunn_ext_l; [exact H|]. apply ext_sym. exact X.
    + assert (Z : a_in t p0 = 0%N) by (apply (Hothers j Ht Hj)).
      destruct IH as (i & c & mf' & Hi & Hc & Ec & R & V).
      { intros i Hi. rewrite X. unfold afire. rewrite Z. specialize (Hw i Hi). lia. }
      destruct (Hcons i Hi) as (c' & Hc' & W & A & B & O & D). assert (c' = c) by congruence. subst c'.
      assert (Em : aen c m).
      { intros q. split; [|intros v Hv; rewrite B in Hv; discriminate]. rewrite A. destruct (Nat.eqb_spec q p0) as [->|_]; [apply Hw; exact Hi|lia]. }
      exists i, c, mf'. split; [exact Hi|]. split; [exact Hc|]. split; [exact Em|]. split; [|exact V].
      eapply an_cons with (i := j) (t := t) (m1 := afire c m1); [exact Ht| | |exact R].
      * intros q. destruct (En q) as (E1 & E2). unfold afire. rewrite A. destruct (Nat.eqb_spec q p0) as [->|Hq].
        { rewrite Z. split; [lia|]. intros v Hv. rewrite (Hinh j Ht) in Hv. discriminate. }
        split; [lia|]. intros v Hv. destruct (N.eq_dec (a_out c q) 0) as [Z'|Z']; [rewrite Z'; specialize (E2 v Hv); lia|]. destruct (D q Z') as (_ & D2). rewrite (D2 j t Ht) in Hv. discriminate.
      * intros q. pose proof (proj1 (En q)) as E1. unfold afire. rewrite X. unfold afire. rewrite A. destruct (Nat.eqb_spec q p0) as [->|Hq]; [rewrite Z; specialize (Hw i Hi); lia|lia].
Qed.
Lemma fuse_forth : forall n m mf, arunn (an_tr NA) n m mf -> exists mf', arun (an_tr NB) m mf' /\ forall p, Q p = true -> mf p = mf' p.
Proof.
  induction n as [|n IH]; intros m mf H.
  - inversion H as [n' m' m'' E|]; subst. exists m. split; [apply ar_nil, ext_refl|]. intros p _. symmetry. apply E.
  - inversion H as [n' m' m'' E|n' m' i t m1 m2 Ht En X H1]; subst.
    + exists m. split; [apply ar_nil, ext_refl|]. intros p _. symmetry. apply E.
    + destruct (Nat.eq_dec i iu) as [->|Hi].
      * assert (t = tu) by congruence. subst t.
        destruct (first_consumer H1) as (j & c & mf1 & Hj & Hc & Ec & R & V).
        { intros j Hj. rewrite X. unfold afire. rewrite (Hothers iu Hu Hui). specialize (Huw j Hj). lia. }
        destruct (IH _ _ R) as (mf' & R' & V'). destruct (Hnew j Hj Hc) as (k & x & Hk & Ax).
        exists mf'. split; [|intros p Hp; rewrite (V p Hp); apply V'; exact Hp].
        eapply ar_cons with (i := k) (t := x) (m1 := afire c m1); [exact Hk| | |exact R'].
        -- eapply aeq_en; [exact Ax|]. exact En.
        -- eapply ext_trans; [|apply aeq_fire; exact Ax]. eapply ext_trans; [apply afire_ext; exact X|]. apply (@fused_fire j c m Hj Hc).
      * destruct (IH _ _ H1) as (mf' & R' & V'). destruct (Hkeep Hi Ht) as (t' & Ht' & A). exists mf'. split; [|exact V'].
        eapply ar_cons; [exact Ht'|eapply aeq_en; eauto| |exact R']. eapply ext_trans; [exact X|]. apply aeq_fire. exact A.
Qed.
Theorem fuse_same : same Q NA NB.
Proof.
  split.
  - intros m R. destruct (arun_arunn R) as (n & Rn). destruct (fuse_forth Rn) as (m' & R' & V). exists m'. split; [|exact V].
    eapply arun_ext_l; [exact R'|]. apply ext_sym. exact Hinit.
  - apply sim_rel with (R := ext).
    + intros m E. exists (an_init NA). split; [apply areach_init|]. eapply ext_trans; [exact E|apply ext_sym; exact Hinit].
    + intros m m' j x m1 _ _ E Hx En X. exists m1. split; [|apply ext_refl]. apply arun_ext_l with (m := m); [|apply ext_sym; exact E].
      destruct (Hback _ Hx) as [(t & _ & Ht & A)|(i & c & Hi & Hc & A)].
      * assert (A' : aeq x t) by (destruct A as (A1 & A2 & A3); repeat split; congruence).
        eapply arun_one; [exact Ht|eapply aeq_en; eauto|]. eapply ext_trans; [exact X|apply aeq_fire; exact A'].
      * assert (A' : aeq x (fused p0 (w i) tu c)) by (destruct A as (A1 & A2 & A3); repeat split; congruence).
        pose proof (aeq_en A' En) as En'.
        eapply ar_cons with (i := iu) (t := tu) (m1 := afire tu m); [exact Hu|exact En'|apply ext_refl|].
        destruct (Hcons i Hi) as (c' & Hc' & W & Ain & B & O & D). assert (c' = c) by congruence. subst c'.
        eapply arun_one; [exact Hc| |].
        -- intros q. split; [|intros v Hv; rewrite B in Hv; discriminate]. rewrite Ain. destruct (Nat.eqb_spec q p0) as [->|_]; [|lia]. unfold afire. specialize (Huw i Hi). lia.
        -- eapply ext_trans; [exact X|]. eapply ext_trans; [apply aeq_fire; exact A'|]. apply ext_sym. apply (@fused_fire i c m Hi Hc).
    + intros m m' E p _. apply E.
Qed.
End Fuse.
