(** The main loop. *)
From Verif Require Import Base BaseLemmas DgSpec DgModel DgInv DgOps DgSteps DgAssign DgExplore DgFresh DgNew DgRun.
Set Implicit Arguments.

Lemma skipn_nth : forall (l : list nat) n, n < length l -> skipn n l = nth n l 0 :: skipn (S n) l.
Proof.
  induction l as [|a l IH]; intros n Hn; [cbn in Hn; lia|]. destruct n; [reflexivity|].
  change (skipn n l = nth n l 0 :: skipn (S n) l). apply IH. cbn in Hn. lia.
Qed.

Section Search.
  Variable conf : Type.
  Variable ceq : forall a b : conf, {a = b} + {a <> b}.
  Variable g : graph conf.
  Variable val : conf -> Prop.
  Variable depth : conf -> nat.
  Variable addr : nat -> nat.
  Variable init : conf.
  Hypothesis Hsol : solution g val.
  Hypothesis Hlev : leveled g init depth.
  Notation st := (st conf).
  Notation edge := (edge conf).
  Notation Sem := (Sem g val depth).
  Notation Inv := (Inv g val depth).
  Notation okW := (okW val).

  (** * Taking an edge from a list *)
  Definition taken (s : st) (i : nat) (e : edge) (W D : list nat) : st :=
    set_lists (set_edge s i (mkEdge (e_src e) (e_tgts e) (e_neg e) 0 (e_processed e) (e_handled e) (e_ref e))) W (s_N s) D.
  Lemma taken_ok : forall own s i e W D, Inv own [] [] s -> mem [] s i -> ed s i = Some e ->
    (forall j, occ W j + occ D j + occ [i] j = occ (s_W s) j + occ (s_D s) j) -> (forall j, occ W j <= occ (s_W s) j /\ occ D j <= occ (s_D s) j) ->
    Inv own [i] [i] (taken s i e W D).
  Proof.
    intros own s i e W D I M E Ho Hle. set (e1 := mkEdge (e_src e) (e_tgts e) (e_neg e) 0 (e_processed e) (e_handled e) (e_ref e)). set (s1 := taken s i e W D).
    assert (E1 : ed s1 i = Some e1) by (exact (@ed_set conf s i e e1 E)).
    assert (En : forall j, j <> i -> ed s1 j = ed s j) by (intros j Hj; exact (@ed_set_ne conf s i j e1 Hj)).
    destruct I as ((L & R) & B).
    assert (Tot : forall j, tot L [i] s1 j = tot L [] s j).
    { intros j. unfold tot. change (depsum L s1 j) with (depsum L s j). cbn [s1 taken set_lists set_edge s_W s_N s_D]. change (occ [] j) with 0. specialize (Ho j). lia. }
    assert (HW : forall j, In j W -> In j (s_W s)) by (intros j Hj; apply occ_in in Hj; apply occ_in; specialize (Hle j); lia).
    assert (HD : forall j, In j D -> In j (s_D s)) by (intros j Hj; apply occ_in in Hj; apply occ_in; specialize (Hle j); lia).
    assert (Hns : forall j, j <> i -> (In j (s_W s) -> In j W) /\ (In j (s_D s) -> In j D)).
    { intros j Hj. specialize (Ho j). specialize (Hle j). rewrite occ_one in Ho. destruct (Nat.eq_dec i j); [congruence|]. split; intros K; apply occ_in in K; apply occ_in; lia. }
    assert (Rs : Refs L [i] s1).
    { destruct (mem_ref ceq R M) as (e2 & E2 & E3 & E4). rewrite E in E2. injection E2 as <-.
      eapply (@Refs_step conf L [] s L [i] s1 i e1 R (r_L R) (r_Ld R)); auto.
      - eapply (mem_rec ceq); eauto.
      - cbn [e1 e_ref]. rewrite Tot. exact E3.
      - cbn. lia.
      - intros j Hj Kj. destruct (Hns j Hj) as (N1 & N2). destruct Kj as [Kj|[Kj|Kj]]; [left; exact (N1 Kj)|right; left; exact Kj|right; right; exact (N2 Kj)]. }
    split; [exists L; exact Rs|].
    apply (@Sem_frame conf g val depth own [] [] s [i] [i] s1 B); auto.
    - intros j Hj. apply (mem_tot ceq j Rs) in Hj. rewrite Tot in Hj. apply (mem_tot ceq j R). exact Hj.
    - intros j ej Mj Ej. destruct (Nat.eq_dec j i) as [->|Hj].
      + rewrite E in Ej. injection Ej as <-. exists e1. split; [exact E1|]. split; [reflexivity|]. destruct (mem_ref ceq R M) as (e2 & E2 & E3 & E4). rewrite E in E2. injection E2 as <-. cbn. lia.
      + exists ej. rewrite (En j Hj). split; [exact Ej|]. split; [reflexivity|]. assert (M0 : mem [] s j) by (apply (mem_tot ceq j R); rewrite <- Tot; apply (mem_tot ceq j Rs); exact Mj).
        destruct (mem_ref ceq R M0) as (e2 & E2 & E3 & E4). rewrite Ej in E2. injection E2 as <-. lia.
    - intros j ej c [].
    - intros j Hj. destruct (Nat.eq_dec j i) as [->|Hn]; [left; left; reflexivity|right; left; apply Hns; auto].
    - intros j Hj. destruct (Nat.eq_dec j i) as [->|Hn]; [left; left; reflexivity|right; right; apply Hns; auto].
    - apply incl_refl.
    - intros j ej Ej Hr Hp Hj. assert (Hn : j <> i) by (intros ->; apply Hj; left; reflexivity). rewrite (En j Hn) in Ej.
      destruct (b_un B j Ej Hr Hp (fun f => f)) as (U1 & U2 & U3 & U4). split; [exact U1|]. split; [intros K; apply U2, HD; exact K|]. split; [exact U3|]. destruct (Hle j). cbn [s1 taken set_lists s_W]. lia.
  Qed.

  Lemma process_taken : forall own s i e W D, Inv own [] [] s -> ed s i = Some e -> In i (s_W s) \/ In i (s_D s) ->
    (forall j, occ W j + occ D j + occ [i] j = occ (s_W s) j + occ (s_D s) j) -> (forall j, occ W j <= occ (s_W s) j /\ occ D j <= occ (s_D s) j) ->
    exists own' s', process ceq g addr (set_lists (set_edge s i (mkEdge (e_src e) (e_tgts e) (e_neg e) 0 (e_processed e) (e_handled e) (e_ref e - 1))) W (s_N s) D) i = Ok s' /\
      Inv own' [] [] s' /\ known s s'.
  Proof.
    intros own s i e W D I E Hi Ho Hle. assert (M : mem [] s i) by (destruct Hi as [K|K]; [left; exact K|right; right; left; exact K]).
    destruct (get_ok ceq I M) as (e0 & c & G & E0 & Es & Hr & Hu & Hown). rewrite E in E0. injection E0 as <-.
    assert (I1 := @taken_ok own s i e W D I M E Ho Hle).
    assert (Est : forall e0 e1, set_edge (set_lists (set_edge s i e0) W (s_N s) D) i e1 = set_lists (set_edge s i e1) W (s_N s) D)
      by (intros a b; unfold set_edge, set_lists; cbn; rewrite upd_upd; reflexivity).
    set (e0 := mkEdge (e_src e) (e_tgts e) (e_neg e) 0 (e_processed e) (e_handled e) (e_ref e - 1)). set (s0 := set_lists (set_edge s i e0) W (s_N s) D).
    assert (E0 : ed s0 i = Some e0) by (exact (@ed_set conf s i e e0 E)).
    unfold process, get. rewrite (rd_ok _ _ E0). cbn [bind]. change (e_src e0) with (e_src e). rewrite Es. change (e_ref e0) with (e_ref e - 1)%Z. destruct (Z.ltb_spec (e_ref e - 1) 0); [lia|]. cbn [bind fst]. unfold s0. rewrite Est. unfold set_ref, e0. cbn [e_src e_tgts e_neg e_status e_processed e_handled e_ref].
    replace (e_ref e - 1 + 1)%Z with (e_ref e) by lia. fold (taken s i e W D). set (s1 := taken s i e W D) in *.
    set (e1 := mkEdge (e_src e) (e_tgts e) (e_neg e) 0 (e_processed e) (e_handled e) (e_ref e)).
    assert (E1 : ed s1 i = Some e1) by (exact (@ed_set conf s i e e1 E)).
    destruct (@check_full_ok conf ceq g val depth addr init Hsol Hlev own s1 i e1 I1 E1) as (own2 & s2 & F1 & F2 & F3).
    { intros x K1 K2 K3 K4 K5. cbn [e1 e_tgts] in *. change (asg_of s x = Zero) in K5. destruct Hi as [Hi|Hi].
      - right. intros t Ht. apply (b_W (proj2 I) i Hi E K2 K1 K3 K4 K5 t Ht).
      - left. rewrite <- (b_D (proj2 I) i Hi E K2 K3 K4 K5). apply decided_same. reflexivity. }
    { cbn [e1 e_processed e_ref]. intros Hp. assert (Hr0 : (0 <= e_ref e)%Z) by lia. destruct (b_un (proj2 I) i E Hr0 Hp (fun f => f)) as (U1 & U2 & U3 & U4).
      destruct Hi as [Hi|Hi]; [|contradiction]. destruct I as ((L & R) & B). destruct (mem_ref ceq R M) as (e2 & E2 & E3 & E4). rewrite E in E2. injection E2 as <-. rewrite E3.
      unfold tot. apply occ_in in Hi. rewrite (proj1 (occ_nin _ _) U1), (proj1 (occ_nin _ _) U2), depsum_0 by (intros x _; apply U3). cbn. lia. }
    rewrite F1. cbn [bind]. assert (M2 : mem [i] s2 i) by (right; right; right; left; left; reflexivity).
    destruct (get_ok ceq F2 M2) as (e2 & c2 & G2 & E2 & Es2 & Hr2 & _). rewrite (rd_ok _ _ E2). cbn [bind]. destruct (Z.ltb_spec 0 (e_ref e2)); [|lia].
    assert (I3 := @unref_ok conf ceq g val depth own2 [i] [] [] s2 i e2 F2 (fun j => eq_refl) (incl_refl _) E2). unfold unref in I3.
    assert (E3 := @ed_set conf s2 i e2 (set_ref e2 (e_ref e2 - 1)) E2).
    change (mkEdge (e_src e2) (e_tgts e2) (e_neg e2) (e_status e2) (e_processed e2) (e_handled e2) (e_ref e2 - 1)) with (set_ref e2 (e_ref e2 - 1)). rewrite (rd_ok _ _ E3). cbn [bind]. cbn [set_ref e_ref] in *.
    destruct (Z.eqb_spec (e_ref e2 - 1) 0) as [Hz|Hz].
    - destruct (@release_ok conf ceq g val depth own2 [] [] _ i _ I3 E3 Hz) as (s3 & D1 & D2 & D3 & _). exists own2, s3. split; [exact D1|]. split; [exact D2|].
      eapply known_trans; [exact F3|]. apply known_same. intros x. unfold asg_of. rewrite D3. reflexivity.
    - exists own2. eexists. split; [reflexivity|]. split; [exact I3|]. eapply known_trans; [exact F3|]. apply known_same. reflexivity.
  Qed.

  Lemma pop_ok : forall own s k, Inv own [] [] s ->
    (pop s k = Ok None /\ s_W s = [] /\ s_D s = []) \/
    exists i s1 own' s', pop s k = Ok (Some (i, s1)) /\ process ceq g addr s1 i = Ok s' /\ Inv own' [] [] s' /\ known s s'.
  Proof.
    intros own s k I. unfold pop. destruct (rev (s_D s)) as [|i d] eqn:Er.
    - assert (HD : s_D s = []) by (rewrite <- (rev_involutive (s_D s)), Er; reflexivity). destruct (s_W s) as [|w ws] eqn:EW; [left; auto|]. right.
      set (l := w :: ws) in *. set (n := k mod length l). set (i := nth n l 0). assert (Hn : n < length l) by (apply Nat.mod_upper_bound; discriminate).
      assert (Hsp : l = firstn n l ++ i :: skipn (S n) l).
      { rewrite <- (firstn_skipn n l) at 1. f_equal. apply skipn_nth. exact Hn. }
      assert (Hi : In i (s_W s)) by (rewrite EW, Hsp; apply in_elt). assert (M : mem [] s i) by (left; exact Hi).
      destruct (get_ok ceq I M) as (e & c & G & E & _). fold l. fold n. fold i. rewrite G. cbn [bind fst].
      assert (Oc : forall j, occ l j = occ (firstn n l) j + occ [i] j + occ (skipn (S n) l) j).
      { intros j. rewrite Hsp at 1. rewrite occ_app, occ_cons, occ_one. destruct (Nat.eq_dec i j); lia. }
      destruct (@process_taken own s i e (firstn n l ++ skipn (S n) l) (s_D s) I E (or_introl Hi)) as (own2 & s2 & F1 & F2 & F3).
      { intros j. rewrite EW, occ_app, (Oc j). lia. } { intros j. rewrite EW, occ_app, (Oc j). lia. }
      exists i. eexists. exists own2, s2. split; [reflexivity|]. split; [exact F1|]. auto.
    - right. assert (HD : s_D s = rev d ++ [i]) by (rewrite <- (rev_involutive (s_D s)), Er; reflexivity). assert (Hi : In i (s_D s)) by (rewrite HD; apply in_elt).
      assert (M : mem [] s i) by (right; right; left; exact Hi). destruct (get_ok ceq I M) as (e & c & G & E & _). rewrite G. cbn [bind fst].
      destruct (@process_taken own s i e (s_W s) (rev d) I E (or_intror Hi)) as (own2 & s2 & F1 & F2 & F3).
      { intros j. rewrite HD, occ_app. lia. } { intros j. rewrite HD, occ_app. lia. }
      exists i. eexists. exists own2, s2. split; [reflexivity|]. split; [exact F1|]. auto.
  Qed.

  (** * Moving edges out of N *)
  Lemma move_ok : forall own s N A B, Inv own [] [] s -> (forall j, occ (s_N s) j = occ N j + occ A j + occ B j) ->
    (forall j e, In j A -> ed s j = Some e -> okW s e) -> (forall j e, In j B -> ed s j = Some e -> okD s e) ->
    Inv own [] [] (set_lists s (s_W s ++ A) N (s_D s ++ B)).
  Proof.
    intros own s N A B ((L & R) & Bs) Ho HA HB. set (s1 := set_lists s (s_W s ++ A) N (s_D s ++ B)).
    assert (Tot : forall j, tot L [] s1 j = tot L [] s j).
    { intros j. unfold tot. change (depsum L s1 j) with (depsum L s j). cbn [s1 set_lists s_W s_N s_D]. rewrite !occ_app. specialize (Ho j). lia. }
    assert (HN : forall j, In j (s_N s) -> In j N \/ In j A \/ In j B).
    { intros j Hj. apply occ_in in Hj. rewrite Ho in Hj. rewrite !occ_in. lia. }
    assert (HN' : forall j, In j N \/ In j A \/ In j B -> In j (s_N s)).
    { intros j Hj. apply occ_in. rewrite Ho. rewrite !occ_in in Hj. lia. }
    assert (Rs : Refs L [] s1).
    { apply (@Refs_same conf L [] s L [] s1 R (r_L R) (r_Ld R)); auto. intros j [K|[K|K]]; unfold lists; cbn [s1 set_lists s_W s_N s_D]; rewrite !in_app_iff; [auto| |auto]. destruct (HN j K) as [K'|[K'|K']]; auto. }
    split; [exists L; exact Rs|]. apply (@Sem_frame conf g val depth own [] [] s [] [] s1 Bs); cbn [s1 set_lists s_W s_N s_D].
    - reflexivity.
    - intros j Hj. apply (mem_tot ceq j Rs) in Hj. rewrite Tot in Hj. apply (mem_tot ceq j R). exact Hj.
    - intros j ej Mj Ej. exists ej. split; [exact Ej|]. split; [reflexivity|]. apply (mem_tot ceq j Rs) in Mj. rewrite Tot in Mj. apply (mem_tot ceq j R) in Mj.
      destruct (mem_ref ceq R Mj) as (e2 & E2 & E3 & E4). rewrite Ej in E2. injection E2 as <-. lia.
    - intros j ej Hj Ej. apply in_app_or in Hj. destruct Hj as [Hj|Hj]; eauto.
    - intros j ej Hj Ej. apply in_app_or in Hj. destruct Hj as [Hj|Hj]; eauto.
    - intros j ej c [].
    - intros j Hj. right. left. apply in_or_app. auto.
    - intros j Hj. right. right. apply in_or_app. auto.
    - intros j Hj. rewrite !in_app_iff. destruct (HN j Hj) as [K|[K|K]]; auto 6.
    - apply incl_refl.
    - intros j ej Ej Hr Hp Hj. destruct (b_un Bs j Ej Hr Hp Hj) as (U1 & U2 & U3 & U4). cbn [s1 set_lists s_W s_N s_D]. split; [intros K; apply U1, HN'; auto|].
      split; [rewrite in_app_iff; intros [K|K]; [exact (U2 K)|apply U1, HN'; auto]|]. split; [exact U3|]. rewrite occ_app. assert (occ A j = 0) by (apply occ_nin; intros K; apply U1, HN'; auto). lia.
  Qed.

  Lemma trivial_spec : forall own s, Inv own [] [] s -> forall n l, length l <= n -> incl l (s_N s) ->
    exists N B, trivial s l = Ok (N, B) /\ (forall j, occ l j = occ N j + occ B j) /\ forall j e, In j B -> ed s j = Some e -> decided s (e_tgts e) = true.
  Proof.
    intros own s I. induction n as [|n IH]; intros l Hl Hin.
    - destruct l; [|cbn in Hl; lia]. exists [], []. split; [reflexivity|]. split; [reflexivity|intros j e []].
    - destruct l as [|i l]; [exists [], []; split; [reflexivity|split; [reflexivity|intros j e []]]|].
      assert (M : mem [] s i) by (right; left; apply Hin; left; reflexivity). destruct (get_ok ceq I M) as (e & c & G & E & _). cbn [trivial]. rewrite G. cbn [bind fst].
      assert (Hin' : incl l (s_N s)) by (intros x Hx; apply Hin; right; exact Hx).
      destruct (decided s (e_tgts e)) eqn:Ed.
      + destruct l as [|k l].
        * exists [], [i]. split; [reflexivity|]. split; [intros j; reflexivity|]. intros j ej [<-|[]] Ej. congruence.
        * destruct (IH l) as (N & B & F1 & F2 & F3); [cbn in Hl; lia|intros x Hx; apply Hin'; right; exact Hx|]. exists (k :: N), (i :: B). rewrite F1. split; [reflexivity|]. split.
          -- intros j. rewrite !occ_cons, F2. lia.
          -- intros j ej [<-|Hj] Ej; [congruence|eauto].
      + destruct (IH l) as (N & B & F1 & F2 & F3); [cbn in Hl; lia|exact Hin'|]. exists (i :: N), B. rewrite F1. split; [reflexivity|]. split; [|exact F3]. intros j. rewrite !occ_cons, F2. lia.
  Qed.
  Lemma trivial_negation_ok : forall own s, Inv own [] [] s -> exists s', trivial_negation s = Ok s' /\ Inv own [] [] s' /\ (forall x, s_cfg s' x = s_cfg s x) /\ s_W s' = s_W s.
  Proof.
    intros own s I. destruct (@trivial_spec own s I (length (s_N s)) (s_N s) (le_n _) (incl_refl _)) as (N & B & F1 & F2 & F3).
    unfold trivial_negation. rewrite F1. cbn [bind fst snd]. eexists. split; [reflexivity|]. split; [|split; reflexivity].
    rewrite <- (app_nil_r (s_W s)) at 1. apply move_ok; [exact I| |intros j e []|].
    - intros j. rewrite F2. cbn. lia.
    - intros j e Hj E c _ _ _ _. eauto.
  Qed.

  (** * Nothing left to do: the unfounded configurations *)
  Lemma unfounded : forall own s (Q : nat -> Prop), Inv own [] [] s -> s_W s = [] -> s_D s = [] ->
    (forall i e c, In i (s_N s) -> ed s i = Some e -> e_src e = Some c -> asg_of s c = Zero -> ~ Q (depth c)) ->
    forall c, asg_of s c = Zero -> Q (depth c) -> ~ val c.
  Proof.
    intros own s Q (_ & B) HW HD HQ c Hc Hq. apply (sol_least Hsol (fun x => asg_of s x = Zero /\ Q (depth x))); [|auto].
    clear c Hc Hq. intros c (Hc & Hq) h Hh. assert (Hh' := Hh). apply In_nth_error in Hh. destruct Hh as (k & Hk). destruct (b_own B c Hc) as (Hlen & _).
    assert (Ho : exists o, nth_error (own c) k = Some o).
    { destruct (nth_error (own c) k) as [o|] eqn:Eo; [eauto|]. apply nth_error_None in Eo. apply nth_lt in Hk. lia. }
    destruct Ho as ([i|] & Ho).
    - destruct (b_edge B c k Hc Hk Ho) as (e & E & (O1 & O2 & O3 & O4 & O5) & [[]|[W|[W|(W1 & W2)]]]); [rewrite HW in W; destruct W|rewrite HD in W; destruct W|].
      unfold stuck. rewrite <- O2. destruct (e_neg e).
      + exfalso. apply (HQ i e c (proj1 W2) E O1 Hc Hq).
      + destruct W2 as ((t & T1 & T2) & _). exists t. split; [apply O4; exact T1|]. left. split; [exact T2|]. rewrite (lev_depth Hlev c h t Hh' (O4 t T1)), <- O2, Nat.add_0_r. exact Hq.
    - assert (Hb := b_block B c k Hc Hk Ho). unfold blocked in Hb. unfold stuck. destruct (h_neg h).
      + intros t Ht. apply (b_one B). auto.
      + destruct Hb as (t & T1 & T2). exists t. split; [exact T1|]. right. apply (b_czero B t T2).
  Qed.

  Lemma max_distance_spec : forall own s, Inv own [] [] s -> forall l, incl l (s_N s) ->
    exists m, max_distance s l = Ok m /\ forall i e c, In i l -> ed s i = Some e -> e_src e = Some c -> undone s c -> dist s c <= m.
  Proof.
    intros own s I. induction l as [|i l IH]; intros Hin; cbn [max_distance].
    - exists 0. split; [reflexivity|]. intros i e c [].
    - assert (M : mem [] s i) by (right; left; apply Hin; left; reflexivity). destruct (get_ok ceq I M) as (e & c & G & E & Es & _). rewrite G. cbn [bind fst snd].
      destruct IH as (m & F1 & F2); [intros x Hx; apply Hin; right; exact Hx|]. rewrite F1. cbn [bind]. eexists. split; [reflexivity|].
      intros j ej cj [<-|Hj] Ej Ecj Hu.
      + rewrite E in Ej. injection Ej as <-. rewrite Es in Ecj. injection Ecj as <-. unfold undone in Hu. rewrite Hu. unfold dist. lia.
      + specialize (F2 j ej cj Hj Ej Ecj Hu). destruct (done (asg_of s c)); lia.
  Qed.
  Lemma release_neg_spec : forall own s d, Inv own [] [] s -> forall n l, length l <= n -> incl l (s_N s) ->
    exists N A, release_neg s d l = Ok (N, A) /\ (forall j, occ l j = occ N j + occ A j) /\
      forall j e c, In j A -> ed s j = Some e -> e_src e = Some c -> undone s c -> d <= dist s c.
  Proof.
    intros own s d I. induction n as [|n IH]; intros l Hl Hin.
    - destruct l; [|cbn in Hl; lia]. exists [], []. split; [reflexivity|]. split; [reflexivity|intros j e c []].
    - destruct l as [|i l]; [exists [], []; split; [reflexivity|split; [reflexivity|intros j e c []]]|].
      assert (M : mem [] s i) by (right; left; apply Hin; left; reflexivity). destruct (get_ok ceq I M) as (e & c & G & E & Es & _). cbn [release_neg]. rewrite G. cbn [bind fst snd].
      assert (Hin' : incl l (s_N s)) by (intros x Hx; apply Hin; right; exact Hx).
      destruct ((d <=? c_dist (s_cfg s c)) || done (asg_of s c)) eqn:Ed.
      + assert (Hd : undone s c -> d <= dist s c) by (intros Hu; unfold undone in Hu; rewrite Hu, orb_false_r in Ed; apply Nat.leb_le in Ed; exact Ed).
        assert (Hi : forall ej cj, ed s i = Some ej -> e_src ej = Some cj -> undone s cj -> d <= dist s cj) by (intros ej cj Ej Ecj Hu; rewrite E in Ej; injection Ej as <-; rewrite Es in Ecj; injection Ecj as <-; auto).
        destruct l as [|k l].
        * exists [], [i]. split; [reflexivity|]. split; [intros j; reflexivity|]. intros j ej cj [<-|[]]; eauto.
        * destruct (IH l) as (N & B & F1 & F2 & F3); [cbn in Hl; lia|intros x Hx; apply Hin'; right; exact Hx|]. exists (k :: N), (i :: B). rewrite F1. split; [reflexivity|]. split.
          -- intros j. rewrite !occ_cons, F2. lia.
          -- intros j ej cj [<-|Hj]; eauto.
      + destruct (IH l) as (N & B & F1 & F2 & F3); [cbn in Hl; lia|exact Hin'|]. exists (i :: N), B. rewrite F1. split; [reflexivity|]. split; [|exact F3]. intros j. rewrite !occ_cons, F2. lia.
  Qed.
  Lemma release_negation_ok : forall own s, Inv own [] [] s -> s_W s = [] -> s_D s = [] ->
    exists s', release_negation_edges s = Ok s' /\ Inv own [] [] s' /\ (forall x, s_cfg s' x = s_cfg s x).
  Proof.
    intros own s I HW HD. destruct (@max_distance_spec own s I (s_N s) (incl_refl _)) as (m & F1 & F2).
    destruct (@release_neg_spec own s m I (length (s_N s)) (s_N s) (le_n _) (incl_refl _)) as (N & A & G1 & G2 & G3).
    unfold release_negation_edges. rewrite F1. cbn [bind]. rewrite G1. cbn [bind fst snd]. eexists. split; [reflexivity|]. split; [|reflexivity].
    rewrite <- (app_nil_r (s_D s)). apply move_ok; [exact I| | |intros j e []].
    - intros j. rewrite G2. cbn. lia.
    - assert (B := proj2 I). assert (Unf : forall x, asg_of s x = Zero -> m < depth x -> ~ val x).
      { apply (@unfounded own s (fun d => m < d) I HW HD). intros i e c Hi E Es Hc Hlt. assert (Hu : undone s c) by (unfold undone; rewrite Hc; reflexivity).
        specialize (F2 i e c Hi E Es Hu). rewrite (b_dist1 B c) in F2 by (rewrite Hc; discriminate). lia. }
      intros j e Hj E c K1 K2 K3 K4 K5 t Ht. assert (HjN : In j (s_N s)) by (apply occ_in; rewrite G2; apply occ_in in Hj; lia).
      assert (M : mem [] s j) by (right; left; exact HjN).
      destruct (@owner conf ceq g val depth own [] [] s j I e c M E K4 K3 K5) as (k & h & Hk & Hg & Hin & O).
      destruct (b_edge B c k K5 Hg Hk) as (e2 & E2 & _ & Wt). rewrite E in E2. injection E2 as <-. destruct Wt as [[]|[Wt|[Wt|(W1 & W2)]]]; [rewrite HW in Wt; destruct Wt|rewrite HD in Wt; destruct Wt|].
      rewrite K1 in W2. destruct W2 as (_ & W2). split; [apply W2; exact Ht|]. destruct (asg_of s t) eqn:Et.
      + exfalso. apply (W2 t Ht Et).
      + right. apply (Unf t Et). destruct O as (O1 & O2 & O3 & O4 & O5). rewrite (lev_depth Hlev c h t Hin (O4 t Ht)), <- O2, K1.
        assert (Hu : undone s c) by (unfold undone; rewrite K5; reflexivity). specialize (G3 j e c Hj E K4 Hu). rewrite (b_dist1 B c) in G3 by (rewrite K5; discriminate). lia.
      + left. reflexivity.
      + right. apply (b_czero B t Et).
  Qed.

  (** * The search *)
  Definition right_answer (r : res bool) : Prop :=
    match r with Ok b => b = true <-> val init | NoFuel => True | _ => False end.
  Lemma done_answer : forall own s, Inv own [] [] s -> done (asg_of s init) = true -> (asg_eq (asg_of s init) One = true <-> val init).
  Proof.
    intros own s (_ & B) Hd. destruct (asg_of s init) eqn:Ea; try discriminate; cbn [asg_eq].
    - assert (K := b_one B init Ea). tauto.
    - assert (K := b_czero B init Ea). split; [discriminate|contradiction].
  Qed.
  Variable choice : nat -> nat.
  Lemma loop_ok : forall fuel own s cnt, Inv own [] [] s -> asg_of s init <> Unknown -> right_answer (loop ceq g addr init choice fuel s cnt).
  Proof.
    induction fuel as [|fuel IH]; intros own s cnt I Hi; [exact Logic.I|]. cbn [loop].
    destruct (@pop_ok own s (choice fuel) I) as [(P1 & P2 & P3)|(i & s1 & own2 & s2 & P1 & P2 & P3 & P4)]; rewrite P1; cbn [bind].
    - destruct (done (asg_of s init)) eqn:Ed; [eapply done_answer; eauto|].
      destruct (trivial_negation_ok I) as (s3 & T1 & T2 & T3 & T4). rewrite T1. cbn [bind]. assert (A3 : asg_of s3 init = asg_of s init) by (unfold asg_of; rewrite T3; reflexivity).
      assert (Hz : asg_of s init = Zero) by (destruct (asg_of s init); try discriminate; [congruence|reflexivity]).
      assert (End : forall sf, Inv own [] [] sf -> asg_of sf init = Zero -> empty sf = true -> asg_eq (asg_of sf init) One = true <-> val init).
      { intros sf J Hf He. rewrite Hf. cbn [asg_eq]. split; [discriminate|]. intros Hv. exfalso. unfold empty in He. destruct (s_W sf) eqn:EW; [|discriminate]. destruct (s_N sf) eqn:EN; [|discriminate]. destruct (s_D sf) eqn:ED; [|discriminate].
        apply (@unfounded own sf (fun _ => True) J EW ED) with init; auto. intros j e c Hj. rewrite EN in Hj. destruct Hj. }
      destruct (s_D s3) as [|d ds] eqn:ED.
      + destruct (@release_negation_ok own s3 T2) as (s4 & U1 & U2 & U3); [rewrite T4; exact P2|exact ED|]. rewrite U1. cbn [bind fst snd].
        assert (A4 : asg_of s4 init = Zero) by (unfold asg_of; rewrite U3; fold (asg_of s3 init); congruence).
        destruct (empty s4) eqn:Ee; [apply End; auto|]. apply (IH own); [exact U2|rewrite A4; discriminate].
      + cbn [bind fst snd]. assert (Ee : empty s3 = false) by (unfold empty; rewrite ED; destruct (s_W s3), (s_N s3); reflexivity). rewrite Ee. apply (IH own); [exact T2|congruence].
    - rewrite P2. cbn [bind].
      assert (T : exists s3, (if Nat.eqb (S cnt mod 1000) 0 then trivial_negation s2 else Ok s2) = Ok s3 /\ Inv own2 [] [] s3 /\ (forall x, s_cfg s3 x = s_cfg s2 x)).
      { destruct (Nat.eqb (S cnt mod 1000) 0); [destruct (trivial_negation_ok P3) as (s3 & T1 & T2 & T3 & T4); exists s3; auto|exists s2; auto]. }
      destruct T as (s3 & T1 & T2 & T3). rewrite T1. cbn [bind]. assert (A3 : asg_of s3 init <> Unknown) by (unfold asg_of; rewrite T3; apply P4; exact Hi).
      destruct (done (asg_of s3 init)) eqn:Ed; [eapply done_answer; eauto|]. apply (IH own2); auto.
  Qed.

  Lemma init_inv : Inv (fun _ => []) [] [] (st_init conf).
  Proof.
    split.
    - exists []. split; cbn.
      + intros i Hi. unfold tot in Hi. cbn in Hi. lia.
      + intros i [].
      + constructor.
      + constructor.
      + reflexivity.
      + intros i e E. destruct i; discriminate E.
    - assert (A : forall c, asg_of (st_init conf) c = Unknown) by reflexivity.
      split; try (intros; exfalso; match goal with H : asg_of _ _ = _ |- _ => rewrite A in H; discriminate H | H : In _ _ |- _ => destruct H | H : _ <> _ |- _ => apply H; reflexivity end).
      + intros i [[]|[[]|[[]|[[]|(c & [])]]]].
      + intros x [].
      + intros c. cbn. lia.
      + intros i e E. destruct i; discriminate E.
  Qed.
  Lemma search_ok : forall fuel, right_answer (search ceq g addr init choice fuel).
  Proof.
    intros fuel. unfold search.
    destruct (@explore_ok conf ceq g val depth addr Hsol (fun _ => []) [] [] (st_init conf) init init_inv eq_refl) as (own & s & F1 & F2 & F3); [cbn; symmetry; apply (lev_init Hlev)|apply incl_refl|].
    rewrite F1. cbn [bind]. apply (loop_ok fuel 0 F2). destruct (x_c F3) as [(K & _)|(K & _)]; intros K'; rewrite K' in K; discriminate.
  Qed.
End Search.
