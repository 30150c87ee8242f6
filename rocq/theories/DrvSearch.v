(** The search reports every open goal once, and right. *)
From Verif Require Import Base BaseLemmas NetSpec NetModel NetProofs PqlSyntax PqlSpec PqlModel PqlProofs StoreModel StoreSpec StoreProofs
  SearchModel SearchSpec SearchProofs QueueModel QueueProofs SearchMain StubModel StubSearch CmpModel CmpSpec CmpSearch DrvModel DrvSpec DrvProofs.

Section Once.
  Variable Q : wlist.
  Variable qs : list query.
  Variable dist : nat -> list N -> N.
  Variable handle : nat -> rslt -> rslt * bool.
  Variable succ : list N -> list (nat * list N) * res unit.
  Hypothesis Hh : forall i r, r <> Unknown -> fst (handle i r) <> Unknown.
  Variable rs0 : list rslt.

  Definition once (s : sst Q) : Prop :=
    length (s_res s) = length qs /\
    (forall i, nth i (s_res s) Unknown = Unknown -> nth i rs0 Unknown = Unknown) /\
    NoDup (map ev_query (s_log s)) /\
    forall e, In e (s_log s) -> ev_query e < length qs /\ nth (ev_query e) rs0 Unknown = Unknown /\ nth (ev_query e) (s_res s) Unknown <> Unknown.

  Lemma once_callback : forall s i r, once s -> r <> Unknown -> i < length qs -> nth i (s_res s) Unknown = Unknown -> once (fst (do_callback handle s i r)).
  Proof.
    intros s i r (A & B & C & D) Hr Hi U. unfold once, do_callback. cbn [fst s_res s_log map ev_query]. rewrite upd_length. split; [exact A|]. split; [|split].
    - intros j Hj. destruct (Nat.eq_dec j i) as [->|Nj]; [auto|]. rewrite nth_upd_neq in Hj by congruence. auto.
    - constructor; [|exact C]. intros X. apply in_map_iff in X. destruct X as (e & <- & He). destruct (D e He) as (_ & _ & Y). contradiction.
    - intros e [<-|He].
      + cbn [ev_query]. split; [exact Hi|]. split; [apply B, U|]. rewrite nth_upd_eq by lia. apply Hh. exact Hr.
      + destruct (D e He) as (X & Y & Z). split; [exact X|]. split; [exact Y|]. destruct (Nat.eq_dec (ev_query e) i) as [E|E]; [rewrite E, nth_upd_eq by lia; apply Hh; exact Hr|].
        rewrite nth_upd_neq by congruence. exact Z.
  Qed.
  Lemma once_eq : forall s s' : sst Q, s_res s' = s_res s -> s_log s' = s_log s -> once s -> once s'.
  Proof. intros s s' E F. unfold once. rewrite E, F. auto. Qed.
  Lemma once_heur : forall s i, once s -> once (next_heur qs s i).
  Proof. intros s i. apply once_eq; unfold next_heur; destruct (_ && _)%bool; reflexivity. Qed.
  Lemma once_loop : forall l i m ad (s : sst Q), i + length l = length qs -> once s -> once (fst (check_loop qs handle l i m ad s)).
  Proof.
    induction l as [|q l IH]; intros i m ad s Hl Hs; cbn [check_loop]; [exact Hs|]. cbn [length] in Hl.
    destruct (is_unknown (nth i (s_res s) Unknown)) eqn:U; [|apply IH; [lia|apply once_heur; exact Hs]].
    assert (U' : nth i (s_res s) Unknown = Unknown) by (destruct (nth i (s_res s) Unknown); discriminate U || reflexivity).
    destruct (snd (q (nth i (s_qst s) 0%N) m)); [|apply IH; [lia|apply once_heur; exact Hs]].
    match goal with |- context [do_callback handle ?x i Satisfied] => set (s1 := x) end.
    assert (H1 : once (fst (do_callback handle s1 i Satisfied))) by (apply once_callback; [exact Hs|discriminate|lia|exact U']).
    destruct (snd (do_callback handle s1 i Satisfied)); [exact H1|]. apply IH; [lia|apply once_heur; exact H1].
  Qed.
  Lemma once_check : forall m (s : sst Q), once s -> once (fst (check_queries qs handle true m s)).
  Proof. intros m s Hs. apply once_loop; auto. Qed.
  Lemma once_push : forall (s s' : sst Q) id m t, push_queue qs dist s id m t = Ok s' -> once s -> once s'.
  Proof.
    intros s s' id m t. unfold push_queue. destruct (s_heur s <? length qs); [|discriminate].
    destruct (wl_push Q (s_queue s) id (dist (s_heur s) m) t); try discriminate. cbn [bind]. intros E. injection E as <-. apply once_eq; reflexivity.
  Qed.
  Lemma once_process : forall l e (s s' : sst Q) b, once s -> process qs dist handle true l e s = Ok (s', b) -> once s'.
  Proof.
    induction l as [|[t m] l IH]; intros e s s' b Hs E; cbn [process] in E.
    - destruct e as [u| | |]; try discriminate E. cbn [bind] in E. injection E as <- <-. exact Hs.
    - destruct (store_add (s_store s) m) as [[st o]| | |]; try discriminate E. cbn [bind fst snd] in E.
      destruct o as [[] [id|]]; try (apply (IH e _ s' b) in E; [exact E|revert Hs; apply once_eq; reflexivity]).
      destruct (push_queue qs dist (set_store s st) id m (Some t)) as [s2| | |] eqn:P; try discriminate E. cbn [bind] in E. apply once_push in P; [|revert Hs; apply once_eq; reflexivity].
      destruct (store_set_history (s_store s2) id t) as [h| | |]; try discriminate E. cbn [bind] in E.
      match type of E with context [check_queries qs handle true m ?x] => assert (A : once (fst (check_queries qs handle true m x))); [apply once_check; revert P; apply once_eq; reflexivity|]; destruct (check_queries qs handle true m x) as [sc bc] end.
      cbn [fst snd] in *. destruct bc; [injection E as <- <-; exact A|]. apply (IH e _ s' b) in E; auto.
  Qed.
  Lemma once_search : forall fuel (s s' : sst Q) b, once s -> search_loop qs dist handle succ true fuel s = Ok (s', b) -> once s'.
  Proof.
    induction fuel as [|f IH]; intros s s' b Hr E; cbn [search_loop] in E; [discriminate|].
    destruct (wl_pop Q (s_queue s)) as [o| | |]; try discriminate E. cbn [bind] in E. destruct o as [[id q']|]; [|injection E as <- <-; exact Hr].
    destruct (store_decode (s_store s) id) as [d| | |]; try discriminate E. cbn [bind] in E.
    match type of E with (bind ?p _) = _ => destruct p as [[sp bp]| | |] eqn:P; try discriminate E end. cbn [bind fst snd] in E. apply once_process in P; [|revert Hr; apply once_eq; reflexivity].
    destruct bp; [injection E as <- <-; auto|]. apply (IH _ s' b) in E; auto.
  Qed.
  Lemma once_finish : forall n i (s : sst Q), i + n <= length qs -> once s -> once (finish_queries handle n i s).
  Proof.
    induction n as [|n IH]; intros i s Hn Hs; cbn [finish_queries]; [exact Hs|]. apply IH; [lia|].
    destruct (is_unknown (nth i (s_res s) Unknown)) eqn:U; [|exact Hs]. apply once_callback; [exact Hs|discriminate|lia|]. destruct (nth i (s_res s) Unknown); discriminate U || reflexivity.
  Qed.
  Lemma once_try : forall fuel places k init qst0 heur (s : sst Q) b, length rs0 = length qs ->
    try_reach Q qs dist handle succ true fuel places k init rs0 qst0 heur = Ok (s, b) -> once s.
  Proof.
    intros fuel places k init qst0 heur s b Hr E. unfold try_reach in E. destruct (store_add (store_new places k) init) as [[st o]| | |]; try discriminate E. cbn [bind fst snd] in E.
    assert (Ini : forall a c d g h x y z, once (mkSS Q a c rs0 d g h [] x y) /\ z = z :> nat).
    { intros. split; [|reflexivity]. unfold once. cbn [s_res s_log map]. split; [exact Hr|]. split; [auto|]. split; [constructor|intros e []]. }
    match type of E with (bind ?p _) = _ => destruct p as [[sp bp]| | |] eqn:P; try discriminate E end. cbn [bind fst snd] in E.
    assert (Hp : once sp).
    { destruct o as [[] [id|]]; try (injection P as <- <-; apply (Ini _ _ _ _ _ _ _ 0)).
      match type of P with context [check_queries qs handle true init ?x] => assert (A : once (fst (check_queries qs handle true init x))) by (apply once_check, (Ini _ _ _ _ _ _ _ 0)); destruct (check_queries qs handle true init x) as [sc bc] end.
      cbn [fst snd] in *. destruct bc; [injection P as <- <-; exact A|].
      destruct (push_queue qs dist sc id init None) as [s2| | |] eqn:X; try discriminate P. cbn [bind] in P. apply once_push in X; [|exact A]. apply once_search in P; auto. }
    destruct bp; injection E as <- <-; [exact Hp|]. apply once_finish; auto.
  Qed.
End Once.

Section Right.
  Variable net : cnet.
  Hypothesis HS : searchable net 0.
  Hypothesis Hpl : 0 < cn_places net.
  Variable st : strategy.
  Hypothesis Hst : strategy_ok st.
  Notation P := (to_pnet net).
  Notation init := (cn_init net).
  Notation tests goals := (map pure_query (map (goal_fn net) goals)).

  Theorem run_search_right : forall dist rnd fuel, reach_right net (fun _ => True) (run_search st dist rnd fuel net).
  Proof.
    intros dist rnd fuel goals opn handle Hlen Hg Hh Hf. pose proof HS as (L & Hplaces & Hinit & Hspace). unfold run_search.
    destruct goals as [|g0 gs].
    { destruct opn; [|discriminate Hlen]. cbn [map length].
      assert (D : forall r, calls_right net [] [] ([], r)) by (intros r; split; [intros i v []|split; [constructor|intros _ [|i] X; discriminate X]]).
      match goal with |- context [match ?p with _ => _ end] => destruct p as [[s b]| | |] eqn:X end; try apply D.
      assert (Z := once_try (queue_of st) [] dist handle (net_stream net) Hh [] _ _ _ _ _ _ _ _ eq_refl X). destruct Z as (_ & _ & _ & Z).
      destruct (s_log s) as [|e l]; [apply D|]. destruct (Z e (or_introl eq_refl)) as (Y & _). cbn in Y. lia. }
    set (goals := g0 :: gs) in *.
    destruct (SearchModel.try_reach _ _ _ _ _ _ _ _ _ _ _ _ _) as [[s b]| | |] eqn:E;
      try (split; [intros i v []|split; [constructor|discriminate]]).
    set (rs0 := map (fun b : bool => if b then Unknown else Ignore) opn) in *.
    assert (Hr0 : length rs0 = length (tests goals)) by (unfold rs0; rewrite !map_length; exact Hlen).
    assert (Hopn : forall i, i < length goals -> nth i rs0 Unknown = Unknown -> nth i opn false = true).
    { unfold rs0. rewrite <- Hlen. clear. induction opn as [|x l IH]; intros [|i] Hi H; cbn in *; try lia; [destruct x; [reflexivity|discriminate H]|]. apply IH; [lia|exact H]. }
    assert (Hcl : forall i, i < length goals -> nth i opn false = true -> nth i rs0 Unknown = Unknown).
    { unfold rs0. rewrite <- Hlen. clear. induction opn as [|x l IH]; intros [|i] Hi H; cbn in *; try lia; [rewrite H; reflexivity|]. apply IH; [lia|exact H]. }
    destruct (once_try (queue_of st) (tests goals) dist handle (net_stream net) Hh rs0 _ _ _ _ _ _ s b Hr0 E) as (O1 & O2 & O3 & O4).
    destruct (@strategy_bag net Hplaces st Hst) as (good & content & HB).
    assert (Hwalk : forall w m, swalk (net_stream net) 0 init w m -> mark_ok (cn_places net) m /\ run P init w m) by (intros w m Hw; destruct (swalk_ok L Hinit Hw) as (A & B & _); auto).
    assert (Hsp : forall l, NoDup l -> (forall m, In m l -> sreach (net_stream net) 0 init m) -> (N.of_nat (length l) <= 2 ^ 32)%N).
    { intros l Hl Hm. apply Hspace; [exact Hl|]. intros m Hi. apply kreach_0. destruct (Hm m Hi) as (w & Hw). destruct (Hwalk _ _ Hw) as (_ & R). exists w. exact R. }
    assert (HhS : forall i, fst (handle i Satisfied) <> Unknown) by (intros i; apply Hh; discriminate).
    assert (Hq0 : length (map (fun _ : cond => 0%N) goals) = length (tests goals)) by (rewrite !map_length; reflexivity).
    assert (Hheur : rnd mod length goals < length (tests goals)) by (rewrite !map_length; apply Nat.mod_upper_bound; discriminate).
    assert (T := @try_reach_ok (queue_of st) content _ _ good HB (tests goals) dist handle (net_stream net) true (cn_places net) 0 init rs0 (map (fun _ => 0%N) goals)
      Hplaces Hinit (fun m t m' => @ns_mark_ok net L m t m') HhS Hr0 Hq0 Hsp fuel (rnd mod length goals) (ns_end L) Hheur). rewrite E in T. destruct T as (T1 & (R1 & R2 & R3) & _ & T4).
    rewrite !map_length in *. cbn [fst snd]. unfold calls_right. cbn [fst snd].
    split; [|split].
    - intros i v Hi. rewrite <- in_rev in Hi. apply in_map_iff in Hi. destruct Hi as (e & Ee & He). injection Ee as <- <-.
      destruct (O4 e He) as (A1 & A2 & _). split; [apply Hopn; auto|]. destruct (nth_error goals (ev_query e)) as [g|] eqn:Eg; [|apply nth_error_None in Eg; lia].
      exists g. split; [reflexivity|]. assert (Ag : atomic g = true) by (apply (Hg _ g Eg (Hopn _ A1 A2))).
      specialize (T1 e He). unfold verdict_ok in T1.
      assert (Hn : nth_error (tests goals) (ev_query e) = Some (pure_query (goal_fn net g))) by (rewrite !nth_error_map, Eg; reflexivity).
      destruct (ev_result e) eqn:Er; try contradiction.
      + left. split; [reflexivity|]. destruct T1 as (q & pre & m & w & B1 & _ & _ & B2 & _ & B3). rewrite Hn in B1. injection B1 as <-.
        destruct (Hwalk _ _ B3) as (C1 & C2). apply mark_ok_fits in C1. destruct C1 as (C1 & C3).
        exists m. split; [exists w; exact C2|].
        apply (goal_fn_sat net L Hpl m g C1 (proj1 (fits_32 m) C3) Ag). unfold pure_query in B2. congruence.
      + right. split; [reflexivity|]. destruct T1 as (q & l & B1 & _ & B2 & B3 & B4 & _). rewrite Hn in B1. injection B1 as <-. destruct (B4 eq_refl) as (B5 & _).
        intros (m & R & Sm). assert (Hm : sreach (net_stream net) 0 init m).
        { apply (kreach_sreach L Hinit); [|apply kreach_0; exact R]. intros x Hx. apply B3, B2. exact Hx. }
        pose proof Hm as (w & Hw). destruct (Hwalk _ _ Hw) as (C & _). apply mark_ok_fits in C. destruct C as (C1 & C2). apply B2 in Hm. pose proof (nohit_pure B5 _ Hm) as F.
        apply (goal_fn_sat net L Hpl m g C1 (proj1 (fits_32 m) C2) Ag) in Sm. congruence.
    - rewrite map_rev. apply NoDup_rev. rewrite map_map. exact O3.
    - intros _ i Hi. rewrite map_rev, <- in_rev, map_map. change (In i (map ev_query (s_log s))).
      assert (Hl : i < length goals).
      { rewrite <- Hlen. destruct (Nat.lt_ge_cases i (length opn)) as [X|X]; [exact X|]. rewrite nth_overflow in Hi by exact X. discriminate. }
      assert (Hu := Hcl i Hl Hi).
      assert (Hr : nth i (s_res s) Unknown <> Unknown).
      { destruct b; [|apply (T4 eq_refl i Hl); apply Hh; discriminate].
        apply (@try_halt (queue_of st) (tests goals) dist handle (net_stream net) HhS) in E; [|rewrite !map_length; exact Hr0].
        destruct E as [(j & Hj & A & B)|A]; [rewrite Hf in B; discriminate B|]. apply A. rewrite !map_length. exact Hl. }
      destruct (R3 i) as [Z|(e & He & Hq & _)]; [congruence|]. apply in_map_iff. exists e. auto.
  Qed.
End Right.
