(** Sequences with rules R, S and T. *)
From Verif Require Import Base NetSpec NetModel BuilderModel RedModel RedModelR RedModelS RedSpec RedSpecS RedTheory RedProofs RedCand RedMain RedRuleR RedRuleS RedCandN.

Lemma r_loop_mono p mx : forall fuel b sk todo all r, r_loop fuel p mx b sk todo all = Ok r -> forall fuel', fuel <= fuel' -> r_loop fuel' p mx b sk todo all = Ok r.
Proof.
  induction fuel as [|fuel IH]; intros b sk todo all r Hr fuel' Hle; [discriminate|]. destruct fuel' as [|fuel']; [lia|]. cbn [r_loop] in *.
  destruct todo as [|u todo']; [exact Hr|].
  destruct (some (get_arc (bt_post (tr_of b u)) p)) as [a| | |]; cbn [bind] in *; try discriminate.
  destruct (arc_weight a <? mx)%N; [apply IH; [exact Hr|lia]|].
  destruct (fold_res (r_fuse p (tr_of b u)) (bp_cons (pl_of b p)) (b, sk, todo')) as [[[b1 sk1] todo1]| | |]; cbn [bind] in *; try discriminate.
  destruct (skip_push (b1, sk1) u) as [[b2 sk2]| | |]; cbn [bind] in *; try discriminate. apply IH; [exact Hr|lia].
Qed.
Lemma rule_r_mono inq fuel limit b sk p r : rule_r inq fuel limit b sk p = Ok r -> forall fuel', fuel <= fuel' -> rule_r inq fuel' limit b sk p = Ok r.
Proof.
  intros Hr fuel' Hle. unfold rule_r in *. destruct (bp_skip (pl_of b p) || bp_inhib (pl_of b p) || inq p); [exact Hr|].
  destruct (bp_prod (pl_of b p)) as [|u us]; [exact Hr|]. destruct (bp_cons (pl_of b p)) as [|c cs]; [exact Hr|].
  destruct (Nat.max limit (length sk) <? length (u :: us) * length (c :: cs)); [exact Hr|].
  destruct (negb (disjoint (u :: us) (c :: cs))); [exact Hr|]. destruct (r_consumers inq b (c :: cs) 0) as [mx|]; [|exact Hr].
  destruct (r_loop fuel p mx b sk (rev (u :: us)) true) as [x| | |] eqn:E; cbn [bind] in Hr; try discriminate.
  rewrite (r_loop_mono p mx fuel b sk _ true x E fuel' Hle). exact Hr.
Qed.
Lemma views_refl inq b : same_views inq b b. Proof. intros f _. reflexivity. Qed.
Lemma views_trans inq b1 b2 b3 : same_views inq b1 b2 -> same_views inq b2 b3 -> same_views inq b1 b3.
Proof. intros H1 H2 f Hf. rewrite (H1 f Hf). apply H2, Hf. Qed.

Lemma reduced_all_ok inq s s' : good (fst s) -> free (fst s) (snd s) -> reduced_all inq s s' -> good (fst s') /\ free (fst s') (snd s') /\ same_views inq (fst s) (fst s').
Proof.
  intros Hg Hf Hr. revert Hg Hf. induction Hr as [s|b sk c b1 sk1 s Hfair Ht Hfree Hr IH|b sk fuel limit p [b1 sk1] s Hi Ht Hr IH|b sk rl ar mv p [b1 sk1] s Hfair Ht Hr IH]; intros Hg Hf; cbn [fst snd] in *.
  - split; [exact Hg|]. split; [exact Hf|]. apply views_refl.
  - destruct (reduced_ok inq b b1 Hg (@rd_cons inq b c b1 b1 Hfair Ht (rd_nil inq b1))) as [Hg1 Hv1]. destruct (IH Hg1 Hfree) as (Hg2 & Hf2 & Hv2).
    split; [exact Hg2|]. split; [exact Hf2|]. exact (views_trans _ _ _ _ Hv1 Hv2).
  - destruct (@rule_r_ok inq limit b sk p Hg Hf Hi) as [n Hn]. specialize (Hn (Nat.max n fuel) (Nat.le_max_l _ _)).
    rewrite (rule_r_mono _ _ _ _ _ _ _ Ht (Nat.max n fuel) (Nat.le_max_r _ _)) in Hn. destruct Hn as (Hg1 & Hf1 & Hv1).
    destruct (IH Hg1 Hf1) as (Hg2 & Hf2 & Hv2). split; [exact Hg2|]. split; [exact Hf2|]. exact (views_trans _ _ _ _ Hv1 Hv2).
  - assert (Hs := @rule_s_ok inq rl ar mv p b sk Hg Hf Hfair). rewrite Ht in Hs. destruct Hs as (Hg1 & Hf1 & Hv1).
    destruct (IH Hg1 Hf1) as (Hg2 & Hf2 & Hv2). split; [exact Hg2|]. split; [exact Hf2|]. exact (views_trans _ _ _ _ Hv1 Hv2).
Qed.
