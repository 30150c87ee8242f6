From Verif Require Import Base BaseLemmas NetSpec EncoderModel StoreModel StoreSpec StoreProofs SearchModel SearchSpec.
From Coq Require Import Permutation.
Set Implicit Arguments.

(** ** The store operations one by one *)
Lemma add_refines : forall places k s a m, (N.of_nat places < 2 ^ 32)%N -> repr places k s a -> mark_ok places m ->
  (store_add s m = Throw /\ 2047 < places) \/
  (exists s' a', repr places k s' a' /\ as_hist a' = as_hist a /\ as_last a' = as_last a /\
     as_peak a' = N.max (as_peak a) (total32 m) /\
     ((over_bound k m = true /\ store_add s m = Ok (s', (false, None)) /\ as_marks a' = as_marks a) \/
      (over_bound k m = false /\ In m (as_marks a) /\ as_marks a' = as_marks a /\
       exists i, store_add s m = Ok (s', (false, Some i))) \/
      (over_bound k m = false /\ ~ In m (as_marks a) /\ as_marks a' = as_marks a ++ [m] /\
       store_add s m = Ok (s', (true, Some (length (as_marks a))))))).
Proof.
  intros places k s a m Hp R Hm.
  destruct (@store_op_refines places k s a (SAdd m) Hp R Hm) as [(m' & E & Hb & H)|H].
  - left. injection E as <-. cbn [store_op] in H. split; [|exact (@key_small places m Hp Hm Hb)].
    destruct (store_add s m) as [[? ?]| | |]; try discriminate; reflexivity.
  - right. cbn [aset_op store_op] in H.
    assert (X : forall s' o, (r <- store_add s m;; Ok (fst r, OAdd (snd r))) = Ok (s', OAdd o) -> store_add s m = Ok (s', o)).
    { intros s' o E. destruct (store_add s m) as [[? ?]| | |]; cbn [bind fst snd] in E; try discriminate. congruence. }
    destruct (over_bound k m) eqn:Eo.
    + destruct H as (s' & H & R'). exists s'. eexists. split; [exact R'|]. cbn [as_hist as_last as_peak as_marks].
      repeat split. left. auto.
    + destruct (position m (as_marks a)) as [i|] eqn:Ep.
      * destruct H as (s' & H & R'). exists s'. eexists. split; [exact R'|]. cbn [as_hist as_last as_peak as_marks].
        repeat split. right; left. split; [reflexivity|]. split; [|split; [reflexivity|]; eauto].
        apply position_some in Ep. eapply nth_error_In; exact Ep.
      * destruct H as (s' & H & R'). exists s'. eexists. split; [exact R'|]. cbn [as_hist as_last as_peak as_marks].
        repeat split. right; right. split; [reflexivity|]. apply position_none in Ep. auto.
Qed.

Lemma decode_refines : forall places k s a id m, (N.of_nat places < 2 ^ 32)%N -> repr places k s a ->
  nth_error (as_marks a) id = Some m ->
  exists s' a', store_decode s id = Ok (s', m) /\ repr places k s' a' /\
    as_marks a' = as_marks a /\ as_hist a' = as_hist a /\ as_last a' = id /\ as_peak a' = as_peak a.
Proof.
  intros places k s a id m Hp R Hm.
  destruct (@store_op_refines places k s a (SDecode id) Hp R I) as [(? & ? & _)|H]; [discriminate|].
  cbn [aset_op store_op] in H. rewrite Hm in H. destruct H as (s' & H & R').
  exists s'. eexists. split; [|split; [exact R'|]; auto].
  destruct (store_decode s id) as [[? ?]| | |]; cbn [bind fst snd] in H; try discriminate. injection H as -> ->. reflexivity.
Qed.

Lemma set_history_refines : forall places k s a id t, (N.of_nat places < 2 ^ 32)%N -> repr places k s a ->
  id < length (as_marks a) ->
  exists s' a', store_set_history s id t = Ok s' /\ repr places k s' a' /\
    as_marks a' = as_marks a /\ as_last a' = as_last a /\ as_peak a' = as_peak a /\
    as_hist a' = (fun i => if Nat.eqb i id then Some (as_last a, t) else as_hist a i).
Proof.
  intros places k s a id t Hp R Hi.
  destruct (@store_op_refines places k s a (SSetHist id t) Hp R I) as [(? & ? & _)|H]; [discriminate|].
  cbn [aset_op store_op] in H. apply Nat.ltb_lt in Hi. rewrite Hi in H. destruct H as (s' & H & R').
  exists s'. eexists. split; [|split; [exact R'|]; auto].
  destruct (store_set_history s id t) as [?| | |]; cbn [bind fst snd] in H; try discriminate. congruence.
Qed.

Lemma get_history_refines : forall places k s a id h, repr places k s a ->
  id < length (as_marks a) -> as_hist a id = Some h -> store_get_history s id = Ok h.
Proof.
  intros places k s a id h R Hi Hh. unfold store_get_history, rd. rewrite (rp_hist R Hi), Hh. reflexivity.
Qed.

(** ** Query evaluation *)
Lemma runq_app : forall q st l1 l2, runq q st (l1 ++ l2) = runq q (runq q st l1) l2.
Proof. intros. unfold runq. apply fold_left_app. Qed.
Lemma nohit_nil : forall q st, nohit q st [].
Proof. intros q st l1 m l2 H. destruct l1; discriminate. Qed.
Lemma nohit_snoc : forall q st l m, nohit q st l -> snd (q (runq q st l) m) = false -> nohit q st (l ++ [m]).
Proof.
  intros q st l m H Hm l1 x l2 E.
  destruct l2 as [|y l2] using rev_ind.
  - apply app_inj_tail in E. destruct E as (-> & ->). exact Hm.
  - clear IHl2. rewrite app_comm_cons, app_assoc in E. apply app_inj_tail in E. destruct E as (E & _).
    eapply H. exact E.
Qed.
Lemma runq_snoc : forall q st l m, runq q st (l ++ [m]) = fst (q (runq q st l) m).
Proof. intros. rewrite runq_app. reflexivity. Qed.

Lemma maxtot_app : forall l m, maxtot (l ++ [m]) = N.max (maxtot l) (total32 m).
Proof. induction l as [|x l IH]; intros m; simpl; [lia|]. rewrite IH. lia. Qed.
Lemma maxtot_in : forall l m, In m l -> (total32 m <= maxtot l)%N.
Proof. induction l as [|x l IH]; intros m H; simpl; [contradiction|]. destruct H as [->|H]; [lia|]. specialize (IH m H). lia. Qed.

Section Proofs.
  Variable Q : wlist.
  Variable content : wl_t Q -> list nat.
  Variable B : N.
  Variable crash : Prop.
  Variable good : wl_t Q -> Prop.
  Hypothesis HQ : is_bag B crash Q good content.
  Variable qs : list query.
  Variable dist : nat -> list N -> N.
  Variable handle : nat -> rslt -> rslt * bool.
  Variable succ : list N -> list (nat * list N) * res unit.
  Variable use : bool.
  Variable places : nat.
  Variable k : N.
  Variable init : marking.
  Variable rs0 : list rslt.
  Variable qst0 : list N.
  Hypothesis Hplaces : (N.of_nat places < 2 ^ 32)%N.
  Hypothesis Hinit : mark_ok places init.
  Hypothesis Hsucc : forall m t m', mark_ok places m -> In (t, m') (fst (succ m)) -> mark_ok places m'.
  Hypothesis Hhandle : forall i, fst (handle i Satisfied) <> Unknown.
  Hypothesis Hrs0 : length rs0 = length qs.
  Hypothesis Hqst0 : length qst0 = length qs.
  Hypothesis Hsize : forall l, NoDup l -> (forall m, In m l -> sreach succ k init m) -> (N.of_nat (length l) <= B)%N.

  Notation walk := (swalk succ k init).
  Notation st0 i := (nth i qst0 0%N).

  (** Parent links of the stored markings. *)
  Definition links (a : aset) : Prop :=
    nth_error (as_marks a) 0 = Some init /\ over_bound k init = false /\
    forall id m, 0 < id -> nth_error (as_marks a) id = Some m ->
      exists p t mp, as_hist a id = Some (p, t) /\ p < id /\ nth_error (as_marks a) p = Some mp /\
        In (t, m) (fst (succ mp)) /\ over_bound k m = false.

  Lemma links_walk : forall a, links a -> forall id m, nth_error (as_marks a) id = Some m -> sreach succ k init m.
  Proof.
    intros a (H0 & Hb & H). induction id as [id IH] using lt_wf_ind. intros m Hm.
    destruct id as [|id].
    - rewrite H0 in Hm. injection Hm as <-. exists []. constructor; exact Hb.
    - destruct (H (S id) m) as (p & t & mp & _ & Hlt & Hp & Hi & Ho); [lia|exact Hm|].
      destruct (IH p Hlt mp Hp) as (w & Hw). exists (w ++ [t]). econstructor; eauto.
  Qed.

  Lemma print_trace_ok : forall s a, repr places k s a -> links a ->
    forall fuel id m, id < fuel -> nth_error (as_marks a) id = Some m ->
    exists w, walk w m /\ forall acc, print_trace fuel s id acc = Ok (w ++ acc).
  Proof.
    intros s a R (H0 & Hb & H). induction fuel as [|f IH]; intros id m Hf Hm; [lia|]. cbn [print_trace].
    destruct (Nat.eqb_spec id 0) as [->|Hne].
    - rewrite H0 in Hm. injection Hm as <-. exists []. split; [constructor; exact Hb|]. reflexivity.
    - destruct (H id m) as (p & t & mp & Hh & Hlt & Hp & Hi & Ho); [lia|exact Hm|].
      rewrite (@get_history_refines places k s a id (p, t) R); [|eapply nth_error_lt; exact Hm|exact Hh].
      cbn [bind fst snd]. destruct (IH p mp) as (w & Hw & E); [lia|exact Hp|].
      exists (w ++ [t]). split; [econstructor; eauto|]. intros acc. rewrite E, <- app_assoc. reflexivity.
  Qed.

  (** An event reporting satisfaction is justified by the markings stored so far. *)
  Definition sat_ev (l : list marking) (e : event) : Prop :=
    ev_result e = Satisfied /\
    exists q pre m post w, nth_error qs (ev_query e) = Some q /\ l = pre ++ m :: post /\
      nohit q (st0 (ev_query e)) pre /\
      q (runq q (st0 (ev_query e)) pre) m = (ev_value e, true) /\
      ev_trace e = Ok w /\ walk w m.

  Lemma sat_ev_app : forall l l' e, sat_ev l e -> sat_ev (l ++ l') e.
  Proof.
    intros l l' e (H1 & q & pre & m & post & w & H2 & -> & H). split; [exact H1|].
    exists q, pre, m, (post ++ l'), w. split; [exact H2|]. split; [rewrite <- app_assoc; reflexivity|exact H].
  Qed.

  (** Results not given at the start come from a callback. *)
  Definition res_ok (s : sst Q) : Prop :=
    length (s_res s) = length qs /\ length (s_qst s) = length qs /\
    forall i, nth i (s_res s) Unknown = nth i rs0 Unknown \/
      exists e, In e (s_log s) /\ ev_query e = i /\ nth i (s_res s) Unknown = fst (handle i (ev_result e)).

  (** Queries still unknown were false on all of [l]. *)
  Definition q_ok (s : sst Q) (i : nat) (l : list marking) : Prop :=
    forall q, nth_error qs i = Some q -> nth i (s_res s) Unknown = Unknown ->
      nth i (s_qst s) 0%N = runq q (st0 i) l /\ nohit q (st0 i) l.

  Definition same_core (s s' : sst Q) : Prop :=
    s_store s' = s_store s /\ s_queue s' = s_queue s /\ s_sat s' = s_sat s /\
    s_explored s' = s_explored s /\ s_expanded s' = s_expanded s.

  Lemma is_unknown_spec : forall r, is_unknown r = true <-> r = Unknown.
  Proof. intros []; simpl; split; intros H; congruence. Qed.

  Lemma nth_upd_res : forall {A} (l : list A) i j x d, nth j (upd l i x) d = if (Nat.eqb j i && (i <? length l))%bool then x else nth j l d.
  Proof.
    intros A l i j x d. destruct (Nat.eqb_spec j i) as [->|Hne]; simpl.
    - destruct (Nat.ltb_spec i (length l)) as [Hl|Hl]; [apply nth_upd_eq; exact Hl|].
      rewrite (nth_overflow (upd l i x)), nth_overflow by (rewrite ?upd_length; lia). reflexivity.
    - apply nth_upd_neq. congruence.
  Qed.

  Lemma next_heur_spec : forall s i, s_heur s < length qs ->
    let s' := next_heur qs s i in
    same_core s s' /\ s_res s' = s_res s /\ s_qst s' = s_qst s /\ s_log s' = s_log s /\ s_heur s' < length qs.
  Proof.
    intros s i Hh. cbn zeta. unfold next_heur, same_core.
    destruct (Nat.eqb i (s_heur s) && negb (is_unknown (nth i (s_res s) Unknown)) && (2 <=? length qs)) eqn:E.
    - cbn [s_store s_queue s_sat s_explored s_expanded s_res s_qst s_log s_heur]. repeat split.
      generalize (seq 1 (length qs - 1)). revert Hh. generalize (s_heur s) as h. intros h Hh l. revert h Hh.
      induction l as [|n l IH]; intros h Hh; simpl; [exact Hh|]. apply IH. apply Nat.mod_upper_bound. lia.
    - repeat split. exact Hh.
  Qed.

  (** Why the search stops early: the result handler asks for it, or no query is left. *)
  Definition stopped (s : sst Q) : Prop :=
    (exists i, snd (handle i Satisfied) = true) \/
    forall j, j < length qs -> nth j (s_res s) Unknown <> Unknown.

  Lemma check_loop_ok : forall l i m marks0 ad s,
    (exists pre, qs = pre ++ l /\ length pre = i) ->
    s_heur s < length qs -> res_ok s ->
    Forall (sat_ev (marks0 ++ [m])) (s_log s) ->
    (exists w, print_trace (S (s_sat s)) (s_store s) (s_sat s) [] = Ok w /\ walk w m) ->
    (forall j, j < i -> q_ok s j (marks0 ++ [m])) ->
    (forall j, i <= j -> q_ok s j marks0) ->
    (ad = true -> forall j, j < i -> nth j (s_res s) Unknown <> Unknown) ->
    let r := check_loop qs handle l i m ad s in
    same_core s (fst r) /\ s_heur (fst r) < length qs /\ res_ok (fst r) /\
    Forall (sat_ev (marks0 ++ [m])) (s_log (fst r)) /\
    (snd r = false -> forall j, q_ok (fst r) j (marks0 ++ [m])) /\
    (snd r = true -> stopped (fst r)).
  Proof.
    induction l as [|q l IH]; intros i m marks0 ad s (pre & Hqs & Hpre) Hh Hr Hlog Htr Hlo Hhi Had; cbn [check_loop].
    - cbn zeta. cbn [fst snd]. split; [unfold same_core; auto|]. split; [exact Hh|]. split; [exact Hr|]. split; [exact Hlog|].
      split; [|intros ->; right; intros j Hj; apply Had; [reflexivity|]; rewrite Hqs, app_length in Hj; simpl in Hj; lia].
      intros _ j. destruct (Nat.lt_ge_cases j i) as [Hj|Hj]; [apply Hlo; exact Hj|].
      intros q Hq. exfalso. apply nth_error_lt in Hq. rewrite Hqs, app_length in Hq. simpl in Hq. lia.
    - cbn zeta.
      assert (Hi : nth_error qs i = Some q) by (rewrite Hqs, nth_error_app2, Hpre, Nat.sub_diag by lia; reflexivity).
      assert (Hil : i < length qs) by (eapply nth_error_lt; exact Hi).
      assert (Hnext : exists pre', qs = pre' ++ l /\ length pre' = S i).
      { exists (pre ++ [q]). rewrite <- app_assoc, app_length. simpl. split; [exact Hqs|lia]. }
      destruct Hr as (Hr1 & Hr2 & Hr3).
      destruct (is_unknown (nth i (s_res s) Unknown)) eqn:Eu.
      + apply is_unknown_spec in Eu. destruct (Hhi i (le_n _) q Hi Eu) as (Hst & Hno).
        destruct (q (nth i (s_qst s) 0%N) m) as [st' b] eqn:Eq. cbn [fst snd].
        destruct b.
        * (* satisfied *)
          cbn [do_callback]. unfold do_callback.
          cbn [s_store s_queue s_res s_qst s_heur s_sat s_log s_expanded s_explored].
          set (e := mkEv i Satisfied _ _ _ _ _ _).
          destruct (handle i Satisfied) as [o stop] eqn:Eh. cbn [fst snd].
          set (s2 := mkSS _ _ _ _ _ _ _ (e :: s_log s) _ _).
          assert (He : sat_ev (marks0 ++ [m]) e).
          { split; [reflexivity|]. destruct Htr as (w & Ht & Hw). exists q, marks0, m, [], w.
            cbn [ev_query ev_value ev_trace e]. split; [exact Hi|]. split; [reflexivity|]. split; [exact Hno|].
            split; [|split; [exact Ht|exact Hw]]. rewrite nth_upd_eq by lia. rewrite <- Hst. exact Eq. }
          assert (Hr' : res_ok s2).
          { unfold res_ok. cbn [s2 s_res s_qst s_log]. rewrite !upd_length. split; [exact Hr1|]. split; [exact Hr2|].
            intros j. rewrite nth_upd_res. destruct (Nat.eqb_spec j i) as [->|Hne]; cbn [andb].
            - destruct (Nat.ltb_spec i (length (s_res s))); [|lia]. right. exists e.
              split; [left; reflexivity|]. split; [reflexivity|]. cbn [ev_result e]. rewrite Eh. reflexivity.
            - destruct (Hr3 j) as [H|(x & H1 & H2 & H3)]; [left; exact H|]. right. exists x.
              split; [right; exact H1|auto]. }
          assert (Hlog' : Forall (sat_ev (marks0 ++ [m])) (s_log s2)) by (constructor; assumption).
          destruct stop.
          { cbn [fst snd]. split; [unfold same_core; auto|]. split; [exact Hh|]. split; [exact Hr'|].
            split; [exact Hlog'|]. split; [discriminate|]. intros _. left. exists i. rewrite Eh. reflexivity. }
          destruct (next_heur_spec s2 i) as (Hc & Hn1 & Hn2 & Hn3 & Hn4); [exact Hh|].
          destruct Hc as (C1 & C2 & C3 & C4 & C5).
          assert (IHr := IH (S i) m marks0 ad (next_heur qs s2 i)). cbn zeta in IHr.
          destruct IHr as (D & E1 & E2 & E3 & E4).
          -- exact Hnext.
          -- exact Hn4.
          -- unfold res_ok. rewrite Hn1, Hn2, Hn3. exact Hr'.
          -- rewrite Hn3. exact Hlog'.
          -- rewrite C1, C3. exact Htr.
          -- intros j Hj x Hx. rewrite Hn1, Hn2. cbn [s2 s_res s_qst]. rewrite !nth_upd_res.
             destruct (Nat.eqb_spec j i) as [->|Hne]; cbn [andb].
             ++ assert (x = q) by congruence. subst x. destruct (Nat.ltb_spec i (length (s_res s))); [|lia].
                intros Ho. exfalso. apply (Hhandle i). rewrite Eh. exact Ho.
             ++ apply Hlo; [lia|exact Hx].
          -- intros j Hj x Hx. rewrite Hn1, Hn2. cbn [s2 s_res s_qst]. rewrite !nth_upd_res.
             destruct (Nat.eqb_spec j i) as [->|Hne]; [lia|]. cbn [andb]. apply Hhi; [lia|exact Hx].
          -- intros Ha j Hj. rewrite Hn1. cbn [s2 s_res]. rewrite nth_upd_res.
             destruct (Nat.eqb_spec j i) as [->|Hne]; cbn [andb]; [|apply Had; [exact Ha|lia]].
             destruct (Nat.ltb_spec i (length (s_res s))); [|lia]. intros Ho. apply (Hhandle i). rewrite Eh. exact Ho.
          -- split; [|auto]. destruct D as (D1 & D2 & D3 & D4 & D5). unfold same_core.
             rewrite D1, D2, D3, D4, D5, C1, C2, C3, C4, C5. auto.
        * (* not satisfied *)
          set (s2 := mkSS _ _ _ _ _ _ _ _ _ _).
          destruct (next_heur_spec s2 i) as (Hc & Hn1 & Hn2 & Hn3 & Hn4); [exact Hh|].
          destruct Hc as (C1 & C2 & C3 & C4 & C5).
          assert (IHr := IH (S i) m marks0 false (next_heur qs s2 i)). cbn zeta in IHr.
          destruct IHr as (D & E1 & E2 & E3 & E4).
          -- exact Hnext.
          -- exact Hn4.
          -- unfold res_ok. rewrite Hn1, Hn2, Hn3. cbn [s2 s_res s_qst s_log]. rewrite upd_length. auto.
          -- rewrite Hn3. exact Hlog.
          -- rewrite C1, C3. exact Htr.
          -- intros j Hj x Hx. rewrite Hn1, Hn2. cbn [s2 s_res s_qst]. rewrite !nth_upd_res.
             destruct (Nat.eqb_spec j i) as [->|Hne]; cbn [andb].
             ++ assert (x = q) by congruence. subst x. destruct (Nat.ltb_spec i (length (s_qst s))); [|lia].
                intros _. rewrite runq_snoc. rewrite <- Hst, Eq. split; [reflexivity|].
                apply nohit_snoc; [exact Hno|]. rewrite <- Hst, Eq. reflexivity.
             ++ apply Hlo; [lia|exact Hx].
          -- intros j Hj x Hx. rewrite Hn1, Hn2. cbn [s2 s_res s_qst]. rewrite !nth_upd_res.
             destruct (Nat.eqb_spec j i) as [->|Hne]; [lia|]. cbn [andb]. apply Hhi; [lia|exact Hx].
          -- discriminate.
          -- split; [|auto]. destruct D as (D1 & D2 & D3 & D4 & D5). unfold same_core.
             rewrite D1, D2, D3, D4, D5, C1, C2, C3, C4, C5. auto.
      + destruct (next_heur_spec s i) as (Hc & Hn1 & Hn2 & Hn3 & Hn4); [exact Hh|].
        destruct Hc as (C1 & C2 & C3 & C4 & C5).
        assert (IHr := IH (S i) m marks0 ad (next_heur qs s i)). cbn zeta in IHr.
        destruct IHr as (D & E1 & E2 & E3 & E4).
        * exact Hnext.
        * exact Hn4.
        * unfold res_ok. rewrite Hn1, Hn2, Hn3. auto.
        * rewrite Hn3. exact Hlog.
        * rewrite C1, C3. exact Htr.
        * intros j Hj x Hx. rewrite Hn1, Hn2. destruct (Nat.eq_dec j i) as [->|Hne].
          -- intros Ho. apply is_unknown_spec in Ho. congruence.
          -- apply Hlo; [lia|exact Hx].
        * intros j Hj x Hx. rewrite Hn1, Hn2. apply Hhi; [lia|exact Hx].
        * intros Ha j Hj. rewrite Hn1. destruct (Nat.eq_dec j i) as [->|Hne]; [|apply Had; [exact Ha|lia]].
          intros Ho. apply is_unknown_spec in Ho. congruence.
        * split; [|auto]. destruct D as (D1 & D2 & D3 & D4 & D5). unfold same_core.
          rewrite D1, D2, D3, D4, D5, C1, C2, C3, C4, C5. auto.
  Qed.

  Lemma check_ok : forall m marks0 s,
    s_heur s < length qs -> res_ok s ->
    Forall (sat_ev marks0) (s_log s) ->
    (exists w, print_trace (S (s_sat s)) (s_store s) (s_sat s) [] = Ok w /\ walk w m) ->
    (use = true -> forall j, q_ok s j marks0) ->
    let r := check_queries qs handle use m s in
    same_core s (fst r) /\ s_heur (fst r) < length qs /\ res_ok (fst r) /\
    Forall (sat_ev (marks0 ++ [m])) (s_log (fst r)) /\
    (snd r = false -> use = true -> forall j, q_ok (fst r) j (marks0 ++ [m])) /\
    (snd r = true -> stopped (fst r)).
  Proof.
    intros m marks0 s Hh Hr Hlog Htr Hq. cbn zeta. unfold check_queries.
    assert (Hlog' : Forall (sat_ev (marks0 ++ [m])) (s_log s)).
    { eapply Forall_impl; [|exact Hlog]. intros e. apply sat_ev_app. }
    destruct use.
    - destruct (@check_loop_ok qs 0 m marks0 true s) as (H1 & H2 & H3 & H4 & H5 & H6); auto.
      + exists []. auto.
      + intros j Hj. lia.
      + intros _ j Hj. lia.
      + split; [exact H1|]. split; [exact H2|]. split; [exact H3|]. split; [exact H4|]. split; [intros Hs _; exact (H5 Hs)|exact H6].
    - cbn [fst snd]. split; [unfold same_core; auto|]. split; [exact Hh|]. split; [exact Hr|]. split; [exact Hlog'|].
      split; discriminate.
  Qed.

  (** ** The invariant of the search *)
  Definition closed (l : list marking) (id : nat) : Prop :=
    forall m, nth_error l id = Some m ->
      snd (succ m) = Ok tt /\
      forall t m', In (t, m') (fst (succ m)) -> In m' l \/ over_bound k m' = true.

  Record inv (b : bool) (s : sst Q) (a : aset) : Prop := {
    iv_repr : repr places k (s_store s) a;
    iv_links : links a;
    iv_expl : s_explored s = length (as_marks a);
    iv_peak : k = 0%N -> as_peak a = maxtot (as_marks a);
    iv_heur : s_heur s < length qs;
    iv_res : res_ok s;
    iv_log : Forall (sat_ev (as_marks a)) (s_log s);
    iv_q : b = false -> use = true -> forall j, q_ok s j (as_marks a);
    iv_stop : b = true -> stopped s;
    iv_good : good (s_queue s)
  }.

  Lemma over_bound_0 : forall m, over_bound 0 m = false.
  Proof. reflexivity. Qed.

  Lemma closed_app : forall l l' id, id < length l -> closed l id -> closed (l ++ l') id.
  Proof.
    intros l l' id Hi H m Hm. rewrite nth_error_app1 in Hm by exact Hi. destruct (H m Hm) as (H1 & H2).
    split; [exact H1|]. intros t m' Hin. destruct (H2 t m' Hin); [left; apply in_or_app; auto|auto].
  Qed.

  Lemma mark_in_ok : forall s a b m, inv b s a -> In m (as_marks a) -> mark_ok places m.
  Proof. intros s a b m H Hm. exact (rp_marks (iv_repr H) m Hm). Qed.

  Lemma process_ok : forall l e s a c mc dn,
    inv false s a -> as_last a = c -> nth_error (as_marks a) c = Some mc ->
    fst (succ mc) = dn ++ l -> snd (succ mc) = e ->
    (forall t m', In (t, m') dn -> In m' (as_marks a) \/ over_bound k m' = true) ->
    match process qs dist handle use l e s with
    | Ok (s', b) => exists a' new, inv b s' a' /\ as_marks a' = as_marks a ++ new /\
        Permutation (content (s_queue s')) (seq (length (as_marks a)) (length new) ++ content (s_queue s)) /\
        s_expanded s' = s_expanded s /\ (b = false -> closed (as_marks a') c)
    | Throw => e = Throw \/ 2047 < places
    | UB => e = UB \/ crash
    | NoFuel => e = NoFuel
    end.
  Proof.
    induction l as [|[t m] l IH]; intros e s a c mc dn I Hl Hc Hdn He Hdone; cbn [process].
    - destruct e as [[]| | |]; cbn [bind]; auto. exists a, []. rewrite app_nil_r. simpl.
      split; [exact I|]. split; [reflexivity|]. split; [apply Permutation_refl|]. split; [reflexivity|].
      intros _ m Hm. assert (m = mc) by congruence. subst m. split; [exact He|].
      intros t m' Hin. apply Hdone with t. rewrite Hdn, app_nil_r in Hin. exact Hin.
    - assert (Hin : In (t, m) (fst (succ mc))) by (rewrite Hdn; apply in_or_app; right; left; reflexivity).
      assert (Hmc : mark_ok places mc) by (eapply mark_in_ok; [exact I|eapply nth_error_In; exact Hc]).
      assert (Hm : mark_ok places m) by (eapply Hsucc; [exact Hmc|exact Hin]).
      assert (Hdn' : fst (succ mc) = (dn ++ [(t, m)]) ++ l) by (rewrite <- app_assoc; exact Hdn).
      destruct (@add_refines places k (s_store s) a m Hplaces (iv_repr I) Hm) as [(-> & Hbig)|H]; [cbn [bind]; auto|].
      destruct H as (st' & a' & R' & Hh & Hla & Hpk & H).
      destruct H as [(Ho & -> & Hmk)|[(Ho & Hold & Hmk & i & ->)|(Ho & Hnew & Hmk & ->)]]; cbn [bind fst snd].
      + (* over the bound *)
        assert (Ie : inv false (set_store s st') a').
        { constructor; cbn [set_store s_store s_explored s_heur s_log s_res s_qst]; rewrite ?Hmk.
          - exact R'.
          - unfold links. rewrite Hmk, Hh. exact (iv_links I).
          - exact (iv_expl I).
          - intros Hk. rewrite Hk, over_bound_0 in Ho. discriminate.
          - exact (iv_heur I).
          - exact (iv_res I).
          - exact (iv_log I).
          - exact (iv_q I).
          - discriminate.
          - exact (iv_good I). }
        specialize (IH e (set_store s st') a' c mc (dn ++ [(t, m)]) Ie).
        rewrite Hmk in IH. apply IH; auto; [congruence|].
        intros t' m' Hi. apply in_app_or in Hi. destruct Hi as [Hi|[Hi|[]]]; [eauto|]. injection Hi as <- <-. auto.
      + (* already stored *)
        assert (Ie : inv false (set_store s st') a').
        { constructor; cbn [set_store s_store s_explored s_heur s_log s_res s_qst]; rewrite ?Hmk.
          - exact R'.
          - unfold links. rewrite Hmk, Hh. exact (iv_links I).
          - exact (iv_expl I).
          - intros Hk. rewrite Hpk, (iv_peak I Hk). assert (X := maxtot_in _ _ Hold). lia.
          - exact (iv_heur I).
          - exact (iv_res I).
          - exact (iv_log I).
          - exact (iv_q I).
          - discriminate.
          - exact (iv_good I). }
        specialize (IH e (set_store s st') a' c mc (dn ++ [(t, m)]) Ie).
        rewrite Hmk in IH. apply IH; auto; [congruence|].
        intros t' m' Hi. apply in_app_or in Hi. destruct Hi as [Hi|[Hi|[]]]; [eauto|]. injection Hi as <- <-. auto.
      + (* new *)
        unfold push_queue. cbn [set_store s_heur s_queue].
        assert (Hhe := iv_heur I). destruct (Nat.ltb_spec (s_heur s) (length qs)); [|lia].
        assert (HB : (N.of_nat (length (as_marks a)) < B)%N).
        { assert (X := Hsize (l := m :: as_marks a)). cbn [length] in X.
          assert (N.of_nat (S (length (as_marks a))) <= B)%N; [|lia]. apply X.
          - constructor; [exact Hnew|exact (rp_nodup (iv_repr I))].
          - intros x [<-|Hx].
            + assert (Y : sreach succ k init mc) by (eapply links_walk; [exact (iv_links I)|exact Hc]).
              destruct Y as (w & Hw). exists (w ++ [t]). econstructor; eauto.
            + apply In_nth_error in Hx. destruct Hx as (id & Hx). eapply links_walk; [exact (iv_links I)|exact Hx]. }
        destruct (bag_push HQ (s_queue s) (length (as_marks a)) (dist (s_heur s) m) (Some t) (iv_good I) HB) as [(q' & -> & Hgd & Hpush)|(-> & Hcr)];
          [|cbn [bind]; auto].
        cbn [bind set_queue set_store s_store].
        destruct (@set_history_refines places k st' a' (length (as_marks a)) t Hplaces R') as (st2 & a2 & -> & R2 & Hmk2 & Hla2 & Hpk2 & Hh2).
        { rewrite Hmk, app_length. simpl. lia. }
        cbn [bind s_queue s_res s_qst s_heur s_log s_expanded s_explored set_queue set_store].
        set (s3 := mkSS _ _ _ _ _ _ _ _ _ _).
        assert (Hlk : links a2).
        { destruct (iv_links I) as (L1 & L2 & L3). unfold links. rewrite Hmk2, Hmk, Hh2, Hh, Hla, Hl.
          assert (Hpos : 0 < length (as_marks a)) by (eapply nth_error_lt; exact L1).
          split; [rewrite nth_error_app1 by exact Hpos; exact L1|]. split; [exact L2|].
          intros id x Hid Hx. destruct (Nat.lt_ge_cases id (length (as_marks a))) as [Hlt|Hge].
          - rewrite nth_error_app1 in Hx by exact Hlt. destruct (L3 id x Hid Hx) as (p & u & mp & P1 & P2 & P3 & P4).
            exists p, u, mp. destruct (Nat.eqb_spec id (length (as_marks a))); [lia|].
            split; [exact P1|]. split; [exact P2|]. split; [rewrite nth_error_app1 by lia; exact P3|exact P4].
          - rewrite nth_error_app2 in Hx by exact Hge.
            destruct (id - length (as_marks a)) as [|d] eqn:Ed; [|destruct d; discriminate]. simpl in Hx. injection Hx as <-.
            assert (id = length (as_marks a)) by lia. subst id. rewrite Nat.eqb_refl.
            exists c, t, mc. split; [reflexivity|]. assert (c < length (as_marks a)) by (eapply nth_error_lt; exact Hc).
            split; [lia|]. split; [rewrite nth_error_app1 by lia; exact Hc|]. auto. }
        destruct (@print_trace_ok st2 a2 R2 Hlk (S (length (as_marks a))) (length (as_marks a)) m) as (w & Hw & Htr).
        { lia. }
        { rewrite Hmk2, Hmk, nth_error_app2, Nat.sub_diag by lia. reflexivity. }
        destruct (@check_ok m (as_marks a) s3) as (Hcore & C1 & C2 & C3 & C4 & C5).
        { exact Hhe. }
        { destruct (iv_res I) as (X1 & X2 & X3). unfold res_ok. cbn [s3 s_res s_qst s_log]. auto. }
        { exact (iv_log I). }
        { exists w. cbn [s3 s_sat s_store]. rewrite Htr, app_nil_r. auto. }
        { intros Hu. exact (iv_q I eq_refl Hu). }
        destruct (check_queries qs handle use m s3) as [s4 b4]. cbn [fst snd] in *.
        destruct Hcore as (K1 & K2 & K3 & K4 & K5).
        assert (Ie : inv b4 s4 a2).
        { constructor; rewrite ?Hmk2, ?Hmk.
          - rewrite K1. exact R2.
          - exact Hlk.
          - rewrite K4. cbn [s3 s_explored]. rewrite (iv_expl I), app_length. simpl. lia.
          - intros Hk. rewrite Hpk2, Hpk, (iv_peak I Hk), maxtot_app. reflexivity.
          - exact C1.
          - exact C2.
          - exact C3.
          - exact C4.
          - exact C5.
          - rewrite K2. exact Hgd. }
        assert (Hbag : Permutation (content (s_queue s4)) (length (as_marks a) :: content (s_queue s))).
        { rewrite K2. exact Hpush. }
        destruct b4.
        * exists a2, [m]. split; [exact Ie|]. split; [rewrite Hmk2; exact Hmk|]. split; [exact Hbag|].
          split; [rewrite K5; reflexivity|]. discriminate.
        * specialize (IH e s4 a2 c mc (dn ++ [(t, m)]) Ie). rewrite Hmk2, Hmk in IH.
          assert (Hclt : c < length (as_marks a)) by (eapply nth_error_lt; exact Hc).
          assert (IH' := IH ltac:(congruence) ltac:(rewrite nth_error_app1 by lia; exact Hc) Hdn' He). clear IH.
          assert (Hd2 : forall t0 m', In (t0, m') (dn ++ [(t, m)]) -> In m' (as_marks a ++ [m]) \/ over_bound k m' = true).
          { intros t' m' Hi. apply in_app_or in Hi. destruct Hi as [Hi|[Hi|[]]].
            - destruct (Hdone _ _ Hi); [left; apply in_or_app; auto|auto].
            - injection Hi as <- <-. left. apply in_or_app. right. left. reflexivity. }
          specialize (IH' Hd2). destruct (process qs dist handle use l e s4) as [[s5 b5]| | |]; auto.
          destruct IH' as (a5 & new & I5 & M5 & P5 & X5 & Y5).
          exists a5, (m :: new). split; [exact I5|]. split; [rewrite M5, <- app_assoc; reflexivity|].
          split; [|split; [rewrite X5, K5; reflexivity|exact Y5]].
          eapply perm_trans; [exact P5|]. rewrite app_length. simpl (length [m]). rewrite Nat.add_1_r. cbn [length seq app].
          eapply perm_trans; [apply Permutation_app_head; exact Hbag|].
          apply Permutation_sym, Permutation_middle.
  Qed.

  (** All identifiers: popped ones [ps] (closed) and waiting ones. *)
  Definition frontier (s : sst Q) (a : aset) (ps : list nat) : Prop :=
    Permutation (ps ++ content (s_queue s)) (seq 0 (length (as_marks a))) /\
    length ps = s_expanded s /\
    forall id, In id ps -> closed (as_marks a) id.

  Lemma search_loop_ok : (forall m, mark_ok places m -> snd (succ m) <> UB /\ snd (succ m) <> NoFuel) ->
    forall fuel s a ps, inv false s a -> frontier s a ps ->
    match search_loop qs dist handle succ use fuel s with
    | Ok (s', b) => exists a', inv b s' a' /\ (b = false -> exists ps', frontier s' a' ps' /\ content (s_queue s') = [])
    | Throw => (exists m, sreach succ k init m /\ snd (succ m) = Throw) \/ 2047 < places
    | UB => crash
    | NoFuel => exists l, NoDup l /\ s_expanded s + fuel <= length l /\
                  forall m, In m l -> mark_ok places m /\ sreach succ k init m
    end.
  Proof.
    intros Hend. induction fuel as [|f IH]; intros s a ps I (F1 & F2 & F3); cbn [search_loop].
    - exists (as_marks a). split; [exact (rp_nodup (iv_repr I))|]. split.
      + apply Permutation_length in F1. rewrite app_length, seq_length in F1. lia.
      + intros m Hm. split; [eapply mark_in_ok; eauto|]. apply In_nth_error in Hm. destruct Hm as (id & Hm).
        eapply links_walk; [exact (iv_links I)|exact Hm].
    - destruct (bag_pop HQ (s_queue s) (iv_good I)) as [(-> & Hb)|[(id & q' & -> & Hgd & Hb)|(-> & Hcr)]]; cbn [bind].
      { exists a. split; [exact I|]. intros _. exists ps. split; [split; auto|]. exact Hb. }
      2:{ exact Hcr. }
      assert (Hid : id < length (as_marks a)).
      { assert (Hi : In id (seq 0 (length (as_marks a)))).
        { eapply Permutation_in; [exact F1|]. apply in_or_app. right.
          eapply Permutation_in; [apply Permutation_sym; exact Hb|]. left; reflexivity. }
        apply in_seq in Hi. lia. }
      destruct (nth_error_ex _ Hid) as (m & Hm).
      destruct (@decode_refines places k (s_store s) a id m Hplaces (iv_repr I) Hm) as (st' & a' & -> & R' & Hmk & Hh & Hla & Hpk).
      cbn [bind fst snd].
      set (s1 := set_store (set_queue s q') st').
      assert (I1 : inv false s1 a').
      { constructor; cbn [s1 set_store set_queue s_store s_explored s_heur s_log s_res s_qst]; rewrite ?Hmk.
        - exact R'.
        - unfold links. rewrite Hmk, Hh. exact (iv_links I).
        - exact (iv_expl I).
        - intros Hk. rewrite Hpk. exact (iv_peak I Hk).
        - exact (iv_heur I).
        - exact (iv_res I).
        - exact (iv_log I).
        - exact (iv_q I).
        - discriminate.
        - exact Hgd. }
      assert (Hmok : mark_ok places m) by (eapply mark_in_ok; [exact I|eapply nth_error_In; exact Hm]).
      assert (P := @process_ok (fst (succ m)) (snd (succ m)) s1 a' id m [] I1 Hla).
      rewrite Hmk in P. specialize (P Hm eq_refl eq_refl ltac:(intros ? ? [])).
      destruct (process qs dist handle use (fst (succ m)) (snd (succ m)) s1) as [[s2 b2]| | |]; cbn [bind fst snd].
      + destruct P as (a2 & new & I2 & M2 & P2 & X2 & Y2). destruct b2.
        { exists a2. split; [exact I2|]. discriminate. }
        set (s3 := mkSS _ _ _ _ _ _ _ _ _ _).
        specialize (IH s3 a2 (ps ++ [id])).
        assert (I3 : inv false s3 a2) by (destruct I2; constructor; assumption).
        assert (F : frontier s3 a2 (ps ++ [id])).
        { split; [|split].
          - cbn [s3 s_queue]. rewrite M2, app_length, seq_app. rewrite <- app_assoc.
            eapply perm_trans; [apply Permutation_app_head, Permutation_app_head; exact P2|]. simpl (0 + _).
            cbn [s1 set_store set_queue s_queue].
            eapply perm_trans; [|apply Permutation_app_tail; exact F1].
            rewrite <- app_assoc. apply Permutation_app_head.
            eapply perm_trans; [|apply Permutation_app_tail, Permutation_sym; exact Hb].
            simpl. constructor. apply Permutation_app_comm.
          - rewrite app_length. simpl. cbn [s3 s_expanded]. rewrite X2. cbn [s1 set_store set_queue s_expanded]. lia.
          - intros x Hx. apply in_app_or in Hx. destruct Hx as [Hx|[<-|[]]]; [|apply Y2; reflexivity].
            rewrite M2. apply closed_app; [|apply F3; exact Hx].
            assert (Hi : In x (seq 0 (length (as_marks a)))).
            { eapply Permutation_in; [exact F1|]. apply in_or_app; auto. }
            apply in_seq in Hi. lia. }
        specialize (IH I3 F).
        destruct (search_loop qs dist handle succ use f s3) as [[s4 b4]| | |]; auto.
        destruct IH as (l & L1 & L2 & L3). exists l. split; [exact L1|]. split; [|exact L3].
        cbn [s3 s_expanded] in L2. rewrite X2 in L2. cbn [s1 set_store set_queue s_expanded] in L2. lia.
      + destruct P as [P|P]; [left|right; exact P]. exists m. split; [|exact P]. eapply links_walk; [exact (iv_links I)|exact Hm].
      + destruct (Hend m Hmok). destruct P; [contradiction|assumption].
      + destruct (Hend m Hmok). contradiction.
  Qed.

  Lemma frontier_complete : forall s a ps, inv false s a -> frontier s a ps -> content (s_queue s) = [] ->
    (forall m, In m (as_marks a) <-> sreach succ k init m) /\
    (forall m, In m (as_marks a) -> snd (succ m) = Ok tt).
  Proof.
    intros s a ps I (F1 & _ & F3) Hq.
    assert (Hall : forall id, id < length (as_marks a) -> In id ps).
    { intros id Hid. rewrite Hq, app_nil_r in F1. eapply Permutation_in; [apply Permutation_sym; exact F1|].
      apply in_seq. lia. }
    split.
    2:{ intros m Hm. apply In_nth_error in Hm. destruct Hm as (id & Hm).
        destruct (F3 id (Hall id (nth_error_lt _ _ Hm)) m Hm) as (H & _). exact H. }
    intros m. split.
    - intros Hm. apply In_nth_error in Hm. destruct Hm as (id & Hm). eapply links_walk; [exact (iv_links I)|exact Hm].
    - intros (w & Hw). induction Hw as [Ho|w m t m' Hw IH Hin Ho].
      + eapply nth_error_In. apply (iv_links I).
      + apply In_nth_error in IH. destruct IH as (id & Hid).
        assert (Hp : In id ps) by (apply Hall; eapply nth_error_lt; exact Hid).
        destruct (F3 id Hp m Hid) as (_ & H). destruct (H t m' Hin) as [H'|H']; [exact H'|congruence].
  Qed.

  (** ** Final answers *)
  Definition verdict_ok (e : event) : Prop :=
    match ev_result e with
    | Satisfied =>
      exists q pre m w, nth_error qs (ev_query e) = Some q /\
        (forall x, In x pre -> sreach succ k init x) /\
        nohit q (st0 (ev_query e)) pre /\
        q (runq q (st0 (ev_query e)) pre) m = (ev_value e, true) /\
        ev_trace e = Ok w /\ walk w m
    | NotSatisfied =>
      exists q l, nth_error qs (ev_query e) = Some q /\ NoDup l /\
        (forall x, In x l <-> sreach succ k init x) /\
        (forall x, In x l -> snd (succ x) = Ok tt) /\
        (use = true -> nohit q (st0 (ev_query e)) l /\ ev_value e = runq q (st0 (ev_query e)) l) /\
        (over_bound k init = false -> ev_explored e = length l /\ ev_bounds e = map (peak l) (seq 0 places) /\
           (k = 0%N -> ev_maxtok e = maxtot l))
    | _ => False
    end.

  Lemma sat_verdict : forall l e, (forall x, In x l -> sreach succ k init x) -> sat_ev l e -> verdict_ok e.
  Proof.
    intros l e Hl (H1 & q & pre & m & post & w & H2 & -> & H3 & H4 & H5 & H6). unfold verdict_ok. rewrite H1.
    exists q, pre, m, w. split; [exact H2|]. split; [|auto]. intros x Hx. apply Hl. apply in_or_app; auto.
  Qed.

  Definition fin_ok (s : sst Q) (l : list marking) (n : nat) : Prop :=
    (forall e, In e (s_log s) -> verdict_ok e) /\ res_ok s /\
    (forall j, n <= j -> use = true -> q_ok s j l).

  Lemma finish_ok : forall l, NoDup l -> (forall x, In x l <-> sreach succ k init x) ->
    (forall x, In x l -> snd (succ x) = Ok tt) ->
    forall n i s, i + n = length qs -> fin_ok s l i ->
    (over_bound k init = false -> s_explored s = length l /\ ss_bound (s_store s) = map (peak l) (seq 0 places) /\
       (k = 0%N -> ss_maxtok (s_store s) = maxtot l)) ->
    (forall j, j < i -> fst (handle j NotSatisfied) <> Unknown -> nth j (s_res s) Unknown <> Unknown) ->
    let s' := finish_queries handle n i s in
    fin_ok s' l (length qs) /\
    (forall j, j < length qs -> fst (handle j NotSatisfied) <> Unknown -> nth j (s_res s') Unknown <> Unknown).
  Proof.
    intros l Hnd Hl Hle. induction n as [|n IH]; intros i s Hi F Hst Hkn; cbn [finish_queries]; cbn zeta.
    - replace i with (length qs) in * by lia. auto.
    - destruct F as (F1 & F2 & F3). destruct F2 as (G1 & G2 & G3).
      destruct (nth_error_ex qs (i := i)) as (q & Hq); [lia|].
      destruct (is_unknown (nth i (s_res s) Unknown)) eqn:Eu.
      + apply is_unknown_spec in Eu. apply IH; [lia| | |].
        * unfold do_callback. cbn [fst]. split; [|split].
          -- intros e [<-|He]; [|apply F1; exact He]. unfold verdict_ok. cbn [ev_result ev_query ev_value ev_explored ev_bounds ev_maxtok].
             exists q, l. split; [exact Hq|]. split; [exact Hnd|]. split; [exact Hl|]. split; [exact Hle|]. split; [|exact Hst].
             intros Hu. destruct (F3 i (le_n _) Hu q Hq Eu). auto.
          -- unfold res_ok. cbn [s_res s_qst s_log]. rewrite upd_length. split; [exact G1|]. split; [exact G2|].
             intros j. rewrite nth_upd_res. destruct (Nat.eqb_spec j i) as [->|Hne]; cbn [andb].
             ++ destruct (Nat.ltb_spec i (length (s_res s))); [|lia]. right. eexists. split; [left; reflexivity|]. auto.
             ++ destruct (G3 j) as [H|(x & H1 & H2 & H3)]; [left; exact H|]. right. exists x. split; [right; exact H1|auto].
          -- intros j Hj Hu x Hx. cbn [s_res s_qst]. rewrite nth_upd_res.
             destruct (Nat.eqb_spec j i) as [->|Hne]; [lia|]. cbn [andb]. apply (F3 j); [lia|exact Hu|exact Hx].
        * exact Hst.
        * intros j Hj Hh. unfold do_callback. cbn [fst s_res]. rewrite nth_upd_res.
          destruct (Nat.eqb_spec j i) as [->|Hne]; cbn [andb].
          -- destruct (Nat.ltb_spec i (length (s_res s))); [|lia]. apply Hh.
          -- apply Hkn; [lia|exact Hh].
      + apply IH; [lia| | |].
        * split; [exact F1|]. split; [unfold res_ok; auto|]. intros j Hj Hu x Hx. apply (F3 j); [lia|exact Hu|exact Hx].
        * exact Hst.
        * intros j Hj Hh. destruct (Nat.eq_dec j i) as [->|Hne]; [|apply Hkn; [lia|exact Hh]].
          intros Hc. apply is_unknown_spec in Hc. congruence.
  Qed.

  Lemma bound_list : forall s a, repr places k s a -> ss_bound s = map (peak (as_marks a)) (seq 0 places).
  Proof.
    intros s a R. apply (nth_ext _ _ 0%N 0%N); [rewrite map_length, seq_length; exact (rp_blen R)|].
    intros p Hp. rewrite (rp_blen R) in Hp. rewrite (rp_bound R Hp).
    rewrite (nth_indep _ 0%N (peak (as_marks a) 0)) by (rewrite map_length, seq_length; exact Hp).
    rewrite map_nth, seq_nth by exact Hp. reflexivity.
  Qed.

  Theorem try_reach_ok : forall fuel heur,
    (forall m, mark_ok places m -> snd (succ m) <> UB /\ snd (succ m) <> NoFuel) ->
    heur < length qs ->
    match try_reach Q qs dist handle succ use fuel places k init rs0 qst0 heur with
    | Ok (s, b) =>
        (forall e, In e (s_log s) -> verdict_ok e) /\ res_ok s /\
        (b = true -> stopped s) /\
        (b = false -> forall j, j < length qs -> fst (handle j NotSatisfied) <> Unknown -> nth j (s_res s) Unknown <> Unknown)
    | Throw => (exists m, sreach succ k init m /\ snd (succ m) = Throw) \/ 2047 < places
    | UB => crash
    | NoFuel => exists l, NoDup l /\ fuel <= length l /\ forall m, In m l -> mark_ok places m /\ sreach succ k init m
    end.
  Proof.
    intros fuel heur Hend Hheur. unfold try_reach.
    assert (Rn := repr_new places k).
    destruct (@add_refines places k _ _ init Hplaces Rn Hinit) as [(-> & Hbig)|H]; [cbn [bind]; auto|].
    destruct H as (st & a & R & Hh & Hla & Hpk & H). cbn [aset_empty as_marks as_peak] in H, Hpk.
    assert (Hres0 : forall sto qu he sa lg ex xp, lg = [] -> res_ok (mkSS Q sto qu rs0 qst0 he sa lg ex xp)).
    { intros sto qu he sa lg ex xp ->. unfold res_ok. cbn [s_res s_qst s_log]. auto. }
    assert (Hq0 : forall sto qu he sa lg ex xp j, q_ok (mkSS Q sto qu rs0 qst0 he sa lg ex xp) j []).
    { intros sto qu he sa lg ex xp j q Hq Hu. cbn [s_qst]. split; [reflexivity|apply nohit_nil]. }
    destruct H as [(Ho & -> & Hmk)|[(Ho & [] & _)|(Ho & _ & Hmk & ->)]]; cbn [bind fst snd].
    - (* the initial marking exceeds the bound *)
      destruct (@finish_ok []) with (n := length qs) (i := 0) (s := mkSS Q st (wl_new Q) rs0 qst0 heur 0 [] 0 1) as (F & G).
      + constructor.
      + intros x. split; [intros []|]. intros (w & Hw).
        assert (Hb : over_bound k init = false) by (clear - Hw; induction Hw; auto). congruence.
      + intros x [].
      + reflexivity.
      + split; [intros e []|]. split; [apply Hres0; reflexivity|]. intros j _ _. apply Hq0.
      + intros Hb. congruence.
      + intros j Hj. lia.
      + cbn zeta in F. destruct F as (F1 & F2 & _). cbn [bind]. split; [exact F1|]. split; [exact F2|]. split; [discriminate|]. intros _; exact G.
    - simpl (length []). set (s1 := mkSS Q st (wl_new Q) rs0 qst0 heur 0 [] 0 1).
      assert (Hlk : links a).
      { unfold links. rewrite Hmk. simpl. split; [reflexivity|]. split; [exact Ho|].
        intros id m Hid Hm. destruct id as [|[|id]]; simpl in Hm; [lia|discriminate|discriminate]. }
      assert (Hc : let c := if use then check_queries qs handle use init s1 else (s1, false) in
                 inv (snd c) (fst c) a /\ s_queue (fst c) = wl_new Q /\ s_expanded (fst c) = 0).
      { cbn zeta.
        destruct (@check_ok init [] s1) as (Hcore & C1 & C2 & C3 & C4 & C5).
        - exact Hheur.
        - apply Hres0; reflexivity.
        - constructor.
        - exists []. split; [reflexivity|]. constructor; exact Ho.
        - intros _ j. apply Hq0.
        - assert (X : (if use then check_queries qs handle use init s1 else (s1, false)) = check_queries qs handle use init s1).
          { unfold check_queries. destruct use; reflexivity. }
          rewrite X. destruct (check_queries qs handle use init s1) as [s4 b4]. cbn [fst snd] in *.
          destruct Hcore as (K1 & K2 & K3 & K4 & K5). split; [|split; [rewrite K2; reflexivity|rewrite K5; reflexivity]].
          constructor; rewrite ?Hmk; auto.
          + rewrite K1. exact R.
          + rewrite Hpk. intros _. cbn [maxtot fold_right app]. lia.
          + rewrite K2. exact (proj1 (bag_new HQ)). }
      cbn zeta in Hc. destruct (if use then check_queries qs handle use init s1 else (s1, false)) as [s2 b2].
      cbn [fst snd] in *. destruct Hc as (I2 & Q2 & X2).
      assert (Hall : forall x, In x (as_marks a) -> sreach succ k init x).
      { intros x Hx. apply In_nth_error in Hx. destruct Hx as (id & Hx). eapply links_walk; eauto. }
      destruct b2; cbn [bind fst snd].
      + split; [|split; [exact (iv_res I2)|split; [exact (iv_stop I2)|discriminate]]].
        intros e He. eapply sat_verdict; [exact Hall|]. 
        exact (proj1 (Forall_forall _ _) (iv_log I2) e He).
      + unfold push_queue. assert (Hhe := iv_heur I2). destruct (Nat.ltb_spec (s_heur s2) (length qs)); [|lia]. cbn [bind].
        assert (HB : (N.of_nat 0 < B)%N).
        { assert (X := Hsize (l := as_marks a)). rewrite Hmk in X, Hall. cbn [length app] in X, Hall.
          assert (N.of_nat 1 <= B)%N; [|lia]. apply X; [|exact Hall]. constructor; [intros []|constructor]. }
        destruct (bag_push HQ (s_queue s2) 0 (dist (s_heur s2) init) None (iv_good I2) HB) as [(q' & -> & Hgd & Hpush)|(-> & Hcr)];
          [|cbn [bind]; exact Hcr].
        cbn [bind]. set (s3 := set_queue s2 _).
        assert (I3 : inv false s3 a) by (destruct I2; constructor; assumption).
        assert (F : frontier s3 a []).
        { split; [|split].
          - cbn [s3 set_queue s_queue app]. rewrite Hmk. simpl. rewrite Q2, (proj2 (bag_new HQ)) in Hpush. exact Hpush.
          - symmetry. exact X2.
          - intros id []. }
        assert (S := @search_loop_ok Hend fuel s3 a [] I3 F).
        destruct (search_loop qs dist handle succ use fuel s3) as [[s4 b4]| | |]; cbn [bind fst snd]; auto.
        * destruct S as (a4 & I4 & C4).
          assert (Hall4 : forall x, In x (as_marks a4) -> sreach succ k init x).
          { intros x Hx. apply In_nth_error in Hx. destruct Hx as (id & Hx). eapply links_walk; [exact (iv_links I4)|exact Hx]. }
          assert (Hlog4 : forall e, In e (s_log s4) -> verdict_ok e).
          { intros e He. eapply sat_verdict; [exact Hall4|]. exact (proj1 (Forall_forall _ _) (iv_log I4) e He). }
          destruct b4; cbn [bind fst snd].
          -- split; [exact Hlog4|]. split; [exact (iv_res I4)|split; [exact (iv_stop I4)|discriminate]].
          -- destruct (C4 eq_refl) as (ps & F4 & E4).
             destruct (@finish_ok (as_marks a4)) with (n := length qs) (i := 0) (s := s4) as (G1 & G2).
             ++ exact (rp_nodup (iv_repr I4)).
             ++ exact (proj1 (frontier_complete I4 F4 E4)).
             ++ exact (proj2 (frontier_complete I4 F4 E4)).
             ++ reflexivity.
             ++ split; [exact Hlog4|]. split; [exact (iv_res I4)|]. intros j _ Hu. exact (iv_q I4 eq_refl Hu j).
             ++ intros _. split; [exact (iv_expl I4)|]. split; [exact (bound_list (iv_repr I4))|].
                intros Hk. rewrite (rp_peak (iv_repr I4)). exact (iv_peak I4 Hk).
             ++ intros j Hj. lia.
             ++ destruct G1 as (G1 & G3 & _). split; [exact G1|]. split; [exact G3|]. split; [discriminate|]. intros _; exact G2.
        * destruct S as (l & S1 & S2 & S3). exists l. split; [exact S1|]. split; [lia|exact S3].
  Qed.
End Proofs.
