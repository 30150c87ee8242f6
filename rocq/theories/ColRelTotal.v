(** The removal of what is irrelevant from coloured nets ends (C49). *)
From Verif Require Import Base BaseLemmas BuilderModel BuilderSpec CtlFrag ColSyntax ColSpec ColModel ColRadix ColEval ColGen ColUnfold ColMain ColRedModel ColRedSpec ColRedProofs ColRedMain ColRedTotal ColRdpModel ColRdpSpec ColRdpProofs ColRdpMain ColRelModel ColRelSpec ColRelMain.

Section Net.
Variable used_t used_p : nat -> bool.
Variable n : cpn.
Hypothesis OK : cpn_ok n.
Hypothesis PV : plain_vars n.
Notation len := (length (cn_trs n)).

Lemma neutral_total : forall u q, u < len -> exists b, neutral n u q = Ok b.
Proof.
  intros u q L. unfold neutral. pose proof (tr_of_in n u L) as E. destruct (find_arc q (ct_in (tr_of n u))) as [i|] eqn:FI; [|eauto]. destruct (find_arc q (ct_out (tr_of n u))) as [o|] eqn:FO; [|eauto].
  pose proof OK as (T & _ & _ & TR & _). destruct (TR _ _ E) as (_ & A & B). rewrite Forall_forall in A, B. destruct (A _ (find_arc_in _ _ _ FI)) as (pl & A1 & A2 & _). destruct (B _ (find_arc_in _ _ _ FO)) as (pl' & B1 & B2 & _). cbn [fst snd] in *. rewrite A1 in B1. injection B1 as <-.
  destruct (extract_total n (cp_type pl) i T PV A2) as (x & EX & X). rewrite EX. cbn [bind]. destruct x as [x|]; [|eauto]. destruct (extract_total n (cp_type pl) o T PV B2) as (y & EY & Y). rewrite EY. cbn [bind]. destruct y as [y|]; [|eauto].
  destruct (X x eq_refl) as [X1 _]. destruct (Y y eq_refl) as [Y1 _]. destruct (vminus_total n _ x y X1 Y1) as (a & ->). destruct (vminus_total n _ y x Y1 X1) as (b & ->). cbn [bind]. eauto.
Qed.

(** [k] transitions have been looked at, each once. *)
Definition counted (k : nat) (s : rst) : Prop := NoDup (rs_t s) /\ (forall t, In t (rs_t s) -> t < len) /\ length (rs_t s) = length (rs_w s) + k.
Lemma mark_counted : forall k s t, t < len -> counted k s -> counted k (mark s t).
Proof.
  intros k s t L (A & B & C). unfold mark. destruct (memb t (rs_t s)) eqn:E; [split; auto|]. split; [constructor; [intros K; apply memb_in in K; congruence|exact A]|]. split; [intros u [<-|I]; auto|]. cbn [rs_t rs_w length]. lia.
Qed.
Lemma flag_counted : forall k s p, counted k s -> counted k (flag_place s p).
Proof. intros k s p (A & B & C). split; auto. Qed.
Lemma fold_counted : forall (A : Type) (f : rst -> A -> rst) k l s, (forall s x, In x l -> counted k s -> counted k (f s x)) -> counted k s -> counted k (fold_left f l s).
Proof. intros A f k. induction l as [|x l IH]; intros s H C; [exact C|]. cbn [fold_left]. apply IH; [intros; apply H; auto; right; auto|]. apply H; [left; reflexivity|exact C]. Qed.
Lemma con_lt : forall p u, In u (consumers n p) -> u < len.
Proof. intros p u I. unfold consumers in I. apply filter_In in I. destruct I as [I _]. apply in_seq in I. lia. Qed.
Lemma pro_lt : forall p u, In u (producers n p) -> u < len.
Proof. intros p u I. unfold producers in I. apply filter_In in I. destruct I as [I _]. apply in_seq in I. lia. Qed.
Lemma place_counted : forall k s p, counted k s -> counted k (mark_place n s p).
Proof.
  intros k s p C. unfold mark_place. apply fold_counted; [intros s1 u I; apply mark_counted; exact (pro_lt p u I)|]. apply fold_counted; [intros s1 u I; apply mark_counted; exact (con_lt p u I)|]. apply flag_counted. exact C.
Qed.
Lemma start_counted : counted 0 (mark_transitions used_t n (mark_places used_p n (mkRS [] [] []))).
Proof.
  apply fold_counted.
  - intros s t I C. apply in_seq in I. destruct (negb _ && used_t t); [|exact C]. apply fold_counted; [intros; apply place_counted; auto|]. apply mark_counted; [lia|exact C].
  - apply fold_counted; [intros s p _ C; destruct (used_p p); [apply place_counted; exact C|exact C]|]. split; [constructor|]. split; [intros t []|reflexivity].
Qed.
Lemma pre_total : forall k q us s, (forall u, In u us -> u < len) -> counted k s -> exists s', mark_pre n q s us = Ok s' /\ counted k s'.
Proof.
  intros k q. induction us as [|u us IH]; intros s L C; cbn [mark_pre]; [eauto|]. assert (LU : u < len) by (apply L; left; reflexivity). assert (L' : forall x, In x us -> x < len) by (intros; apply L; right; auto).
  destruct (memb u (rs_t s)); [apply IH; auto|]. destruct (neutral_total u q LU) as (b & ->). cbn [bind]. apply IH; auto. destruct b; [exact C|apply mark_counted; auto].
Qed.
Lemma inputs_total : forall k arcs s, counted k s -> exists s', mark_inputs n s arcs = Ok s' /\ counted k s'.
Proof.
  intros k. induction arcs as [|x arcs IH]; intros s C; cbn [mark_inputs]; [eauto|]. destruct (pre_total k (fst x) (producers n (fst x)) (flag_place s (fst x))) as (s1 & -> & C1); [apply pro_lt|apply flag_counted; exact C|]. cbn [bind]. apply IH. exact C1.
Qed.
Lemma inhibitors_counted : forall k t s, counted k s -> counted k (mark_inhibitors n t s).
Proof.
  intros k t s C. apply fold_counted; [|exact C]. intros s1 x _ C1. destruct (Nat.eqb _ t); [|exact C1]. unfold mark_post. apply fold_counted; [|apply flag_counted; exact C1]. intros s2 u I C2. destruct (harmless _ _ _ u); [exact C2|]. apply mark_counted; [exact (con_lt _ u I)|exact C2].
Qed.
Lemma counted_le : forall k s, counted k s -> length (rs_w s) + k <= len.
Proof.
  intros k s (A & B & C). rewrite <- C. rewrite <- (seq_length len 0). apply NoDup_incl_length; [exact A|]. intros t I. apply in_seq. specialize (B t I). lia.
Qed.
Lemma loop_total : forall f k s, counted k s -> len < f + k -> exists s', rel_loop f n s = Ok s'.
Proof.
  induction f as [|f IH]; intros k s C L; cbn [rel_loop]; destruct (rs_w s) as [|t w] eqn:EW; try (eexists; reflexivity).
  - pose proof (counted_le k s C) as Z. lia.
  - assert (C1 : counted (S k) (mkRS (rs_t s) w (rs_p s))) by (destruct C as (A & B & D); split; [exact A|]; split; [exact B|]; cbn [rs_t rs_w]; rewrite EW in D; cbn [length] in D; lia).
    destruct (inputs_total (S k) (ct_in (tr_of n t)) _ C1) as (s1 & -> & C2). cbn [bind]. apply (IH (S k)); [apply inhibitors_counted; exact C2|lia].
Qed.
End Net.
Theorem relevance_total : forall used_t used_p n, cpn_ok n -> plain_vars n -> exists r', relevance used_t used_p (mkR n [] []) = Ok r'.
Proof.
  intros ut up n OK PV. unfold relevance. cbn [r_net]. destruct (loop_total n OK PV (S (length (cn_trs n))) 0 _ (start_counted ut up n) ltac:(lia)) as (s & ->). cbn [bind]. eauto.
Qed.
