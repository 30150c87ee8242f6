(** The search for goals gives each operand the right result. *)
From Verif Require Import Base BaseLemmas NetSpec NetModel NetProofs PqlSyntax PqlSpec PqlModel PqlProofs StoreModel StoreSpec StoreProofs
  SearchModel SearchSpec SearchProofs QueueModel QueueProofs SearchMain StubSpec StubModel StubTheory StubMain StubSearch CmpModel CmpSpec.

(** ** When the search ends early, a stored result ended it *)
Section Halt.
  Variable Q : wlist.
  Variable qs : list query.
  Variable dist : nat -> list N -> N.
  Variable handle : nat -> rslt -> rslt * bool.
  Variable succ : list N -> list (nat * list N) * res unit.
  Hypothesis Hh : forall i, fst (handle i Satisfied) <> Unknown.

  Definition halted (s : sst Q) : Prop :=
    (exists j, j < length qs /\ nth j (s_res s) Unknown = fst (handle j Satisfied) /\ snd (handle j Satisfied) = true) \/
    forall j, j < length qs -> nth j (s_res s) Unknown <> Unknown.

  Lemma next_heur_res : forall (s : sst Q) i, s_res (next_heur qs s i) = s_res s.
  Proof. intros s i. unfold next_heur. destruct (_ && _)%bool; reflexivity. Qed.
  Lemma check_loop_halt : forall l i m ad (s : sst Q), i + length l = length qs -> length (s_res s) = length qs ->
    (ad = true -> forall j, j < i -> nth j (s_res s) Unknown <> Unknown) ->
    let r := check_loop qs handle l i m ad s in
    length (s_res (fst r)) = length qs /\ (snd r = true -> halted (fst r)).
  Proof.
    induction l as [|q l IH]; intros i m ad s Hl Hr Ha; cbn [check_loop]; cbn [length] in Hl.
    - cbn zeta. cbn [fst snd]. split; [exact Hr|]. intros ->. right. intros j Hj. apply Ha; [reflexivity|lia].
    - destruct (is_unknown (nth i (s_res s) Unknown)) eqn:U.
      + destruct (snd (q (nth i (s_qst s) 0%N) m)) eqn:V.
        * unfold do_callback. cbn [fst snd s_res]. destruct (snd (handle i Satisfied)) eqn:T.
          -- cbn zeta. cbn [fst snd s_res]. rewrite upd_length. split; [exact Hr|]. intros _. left. exists i. split; [lia|]. cbn [s_res]. rewrite nth_upd_eq by lia. auto.
          -- apply IH; [lia| |].
             ++ rewrite next_heur_res. cbn [s_res]. rewrite upd_length. exact Hr.
             ++ rewrite next_heur_res. cbn [s_res]. intros A j Hj. destruct (Nat.eq_dec j i) as [->|N]; [rewrite nth_upd_eq by lia; apply Hh|]. rewrite nth_upd_neq by congruence. apply Ha; [exact A|lia].
        * apply IH; [lia| |discriminate]. rewrite next_heur_res. exact Hr.
      + apply IH; [lia| |].
        * rewrite next_heur_res. exact Hr.
        * rewrite next_heur_res. intros A j Hj. destruct (Nat.eq_dec j i) as [->|N]; [intros X; rewrite X in U; discriminate|]. apply Ha; [exact A|lia].
  Qed.
  Lemma check_halt : forall m (s : sst Q), length (s_res s) = length qs ->
    let r := check_queries qs handle true m s in
    length (s_res (fst r)) = length qs /\ (snd r = true -> halted (fst r)).
  Proof. intros m s H. apply (check_loop_halt qs 0 m true s); [reflexivity|exact H|intros _ j Hj; lia]. Qed.
  Lemma push_queue_res : forall (s s' : sst Q) id m t, push_queue qs dist s id m t = Ok s' -> s_res s' = s_res s.
  Proof.
    intros s s' id m t. unfold push_queue. destruct (s_heur s <? length qs); [|discriminate].
    destruct (wl_push Q (s_queue s) id (dist (s_heur s) m) t); try discriminate. cbn [bind]. intros E. injection E as <-. reflexivity.
  Qed.
  Lemma process_halt : forall l e (s s' : sst Q) b, length (s_res s) = length qs ->
    process qs dist handle true l e s = Ok (s', b) -> length (s_res s') = length qs /\ (b = true -> halted s').
  Proof.
    induction l as [|[t m] l IH]; intros e s s' b Hr E; cbn [process] in E.
    - destruct e as [u| | |]; try discriminate E. cbn [bind] in E. injection E as <- <-. split; [exact Hr|discriminate].
    - destruct (store_add (s_store s) m) as [[st o]| | |]; try discriminate E. cbn [bind fst snd] in E.
      destruct o as [[] [id|]]; try (apply (IH e _ s' b) in E; [exact E|exact Hr]).
      destruct (push_queue qs dist (set_store s st) id m (Some t)) as [s2| | |] eqn:P; try discriminate E. cbn [bind] in E. apply push_queue_res in P.
      destruct (store_set_history (s_store s2) id t) as [h| | |]; try discriminate E. cbn [bind] in E.
      match type of E with context [check_queries qs handle true m ?x] => destruct (check_halt m x) as (A & B); [cbn [s_res]; rewrite P; exact Hr|]; destruct (check_queries qs handle true m x) as [sc bc] end.
      cbn [fst snd] in *. destruct bc; [injection E as <- <-; auto|]. apply (IH e _ s' b) in E; auto.
  Qed.
  Lemma search_loop_halt : forall fuel (s s' : sst Q) b, length (s_res s) = length qs ->
    search_loop qs dist handle succ true fuel s = Ok (s', b) -> length (s_res s') = length qs /\ (b = true -> halted s').
  Proof.
    induction fuel as [|f IH]; intros s s' b Hr E; cbn [search_loop] in E; [discriminate|].
    destruct (wl_pop Q (s_queue s)) as [o| | |]; try discriminate E. cbn [bind] in E. destruct o as [[id q']|]; [|injection E as <- <-; split; [exact Hr|discriminate]].
    destruct (store_decode (s_store s) id) as [d| | |]; try discriminate E. cbn [bind] in E.
    match type of E with (bind ?p _) = _ => destruct p as [[sp bp]| | |] eqn:P; try discriminate E end. cbn [bind fst snd] in E. apply process_halt in P; [|exact Hr]. destruct P as (A & B).
    destruct bp; [injection E as <- <-; auto|]. apply (IH _ s' b) in E; auto.
  Qed.
  Lemma try_halt : forall fuel places k init rs0 qst0 heur (s : sst Q), length rs0 = length qs ->
    try_reach Q qs dist handle succ true fuel places k init rs0 qst0 heur = Ok (s, true) -> halted s.
  Proof.
    intros fuel places k init rs0 qst0 heur s Hr E. unfold try_reach in E. destruct (store_add (store_new places k) init) as [[st o]| | |]; try discriminate E. cbn [bind fst snd] in E.
    match type of E with (bind ?p _) = _ => destruct p as [[sp bp]| | |] eqn:P; try discriminate E end. cbn [bind fst snd] in E.
    destruct bp; [|discriminate E]. injection E as <-. destruct o as [[] [id|]]; try discriminate P.
    match type of P with context [check_queries qs handle true init ?x] => destruct (check_halt init x) as (A & B); [exact Hr|]; destruct (check_queries qs handle true init x) as [sc bc] end.
    cbn [fst snd] in *. destruct bc; [injection P as <-; auto|].
    destruct (push_queue qs dist sc id init None) as [s2| | |] eqn:X; try discriminate P. cbn [bind] in P. apply push_queue_res in X.
    apply search_loop_halt in P; [apply P; reflexivity|congruence].
  Qed.
End Halt.

Section Right.
  Variable net : cnet.
  Hypothesis HS : searchable net 0.
  Hypothesis Hpl : 0 < cn_places net.
  Variable st : strategy.
  Hypothesis Hst : strategy_ok st.
  Notation P := (to_pnet net).
  Notation init := (cn_init net).
  Notation tests goals := (map pure_query (map (goal_fn net) goals)).

  Lemma stream_right : forall ns goals handle dist fuel heur s b,
    (forall m t m', mark_ok (cn_places net) m -> In (t, m') (fst (ns m)) -> mark_ok (cn_places net) m') ->
    (forall m, mark_ok (cn_places net) m -> snd (ns m) <> UB /\ snd (ns m) <> NoFuel) ->
    (forall w m, swalk ns 0 init w m -> mark_ok (cn_places net) m /\ run P init w m) ->
    ((forall m, sreach ns 0 init m -> snd (ns m) = Ok tt) -> forall g, In g goals -> attainable P init g -> exists m, sreach ns 0 init m /\ sat P m g) ->
    (forall g, In g goals -> atomic g = true) ->
    (forall i r, r <> Unknown -> fst (handle i r) <> Unknown) ->
    heur < length goals ->
    SearchModel.try_reach (queue_of st) (tests goals) dist handle ns true fuel (cn_places net) 0 init (map (fun _ => Unknown) goals) (map (fun _ => 0%N) goals) heur = Ok (s, b) ->
    length (s_res s) = length goals /\
    (forall i g, nth_error goals i = Some g ->
       nth i (s_res s) Unknown = Unknown \/
       attainable P init g /\ nth i (s_res s) Unknown = fst (handle i Satisfied) \/
       ~ attainable P init g /\ nth i (s_res s) Unknown = fst (handle i NotSatisfied)) /\
    (forall i, i < length goals -> nth i (s_res s) Unknown = Unknown ->
       exists j v, j < length goals /\ nth j (s_res s) Unknown = fst (handle j v) /\ nth j (s_res s) Unknown <> Unknown /\ snd (handle j v) = true).
  Proof.
    intros ns goals handle dist fuel heur s b Hok Hend Hwalk Hcomp Hat Hh Hheur E. pose proof HS as (L & Hplaces & Hinit & Hspace).
    destruct (@strategy_bag net Hplaces st Hst) as (good & content & HB).
    assert (Hsp : forall l, NoDup l -> (forall m, In m l -> sreach ns 0 init m) -> (N.of_nat (length l) <= 2 ^ 32)%N).
    { intros l Hl Hm. apply Hspace; [exact Hl|]. intros m Hi. apply kreach_0. destruct (Hm m Hi) as (w & Hw). destruct (Hwalk _ _ Hw) as (_ & R). exists w. exact R. }
    assert (HhS : forall i, fst (handle i Satisfied) <> Unknown) by (intros i; apply Hh; discriminate).
    assert (T := @try_reach_ok (queue_of st) content _ _ good HB (tests goals) dist handle ns true (cn_places net) 0 init (map (fun _ => Unknown) goals) (map (fun _ => 0%N) goals)
      Hplaces Hinit Hok HhS). rewrite !map_length in T. specialize (T eq_refl eq_refl Hsp fuel heur Hend Hheur). rewrite E in T. destruct T as (T1 & (R1 & R2 & R3) & _ & T4).
    rewrite !map_length in R1, R2. split; [exact R1|]. split.
    - intros i g Hg. destruct (R3 i) as [Z|(e & He & Hq & Hv)].
      { left. rewrite Z. clear. revert i. induction goals as [|x l IH]; intros [|i]; cbn; auto. }
      right. specialize (T1 e He). unfold verdict_ok in T1. rewrite Hq in T1.
      assert (Ag : atomic g = true) by (apply Hat; eapply nth_error_In; eauto).
      assert (Hn : nth_error (tests goals) i = Some (pure_query (goal_fn net g))) by (rewrite !nth_error_map, Hg; reflexivity).
      destruct (ev_result e) eqn:Er; try contradiction.
      + left. destruct T1 as (q & pre & m & w & A1 & _ & _ & A2 & _ & A3). rewrite Hn in A1. injection A1 as <-.
        destruct (Hwalk _ _ A3) as (B1 & B2). apply mark_ok_fits in B1. destruct B1 as (B1 & B3).
        split; [|exact Hv]. exists m. split; [exists w; exact B2|].
        apply (goal_fn_sat net L Hpl m g B1 (proj1 (fits_32 m) B3) Ag). unfold pure_query in A2. congruence.
      + right. destruct T1 as (q & l & A1 & _ & A2 & A3 & A4 & _). rewrite Hn in A1. injection A1 as <-. destruct (A4 eq_refl) as (A5 & _).
        split; [|exact Hv]. intros Ha. destruct (Hcomp ltac:(intros m Hm; apply A3, A2; exact Hm) g (nth_error_In _ _ Hg) Ha) as (m & Hm & Sm).
        pose proof Hm as (w & Hw). destruct (Hwalk _ _ Hw) as (B & _). apply mark_ok_fits in B. destruct B as (B1 & B2). apply A2 in Hm. pose proof (nohit_pure A5 _ Hm) as F.
        apply (goal_fn_sat net L Hpl m g B1 (proj1 (fits_32 m) B2) Ag) in Sm. congruence.
    - intros i Hi U. destruct b; [|exfalso; apply (T4 eq_refl i Hi); [apply Hh; discriminate|exact U]].
      apply (@try_halt (queue_of st) (tests goals) dist handle ns HhS) in E; [|rewrite !map_length; reflexivity].
      destruct E as [(j & Hj & A & B)|A]; [|exfalso; apply (A i); [rewrite !map_length; exact Hi|exact U]].
      rewrite !map_length in Hj. exists j, Satisfied. split; [exact Hj|]. split; [exact A|]. split; [rewrite A; apply HhS|exact B].
  Qed.

  Lemma reach_nil : forall stub mk k dist rnd fuel handle rs, search_reach net k stub mk st dist rnd fuel [] handle = Ok rs -> rs = [].
  Proof.
    intros stub mk k dist rnd fuel handle rs E. unfold search_reach in E. cbn [map length] in E.
    match type of E with (bind ?p _) = _ => destruct p as [[s b]| | |] eqn:X; try discriminate E end. cbn [bind fst] in E. injection E as <-.
    unfold SearchModel.try_reach in X. destruct (store_add (store_new (cn_places net) k) init) as [[so o]| | |]; try discriminate X. cbn [bind fst snd check_queries check_loop length] in X.
    destruct o as [[] [id|]]; cbn [bind fst snd finish_queries] in X; injection X as <- <-; reflexivity.
  Qed.

  (** Without reduction. *)
  Theorem plain_right : forall dist rnd fuel, search_right P init (fun _ => True)
    (fun pos goals handle => search_reach net 0 false false st (dist pos) (rnd pos) (fuel pos) goals handle).
  Proof.
    intros dist rnd fuel pos goals handle rs Hg Hh E. pose proof HS as (L & _ & Hinit & _).
    destruct goals as [|g0 gs]; [apply reach_nil in E; subst rs; cbn; split; [reflexivity|split; [intros [|i] g X; discriminate X|intros i X; lia]]|].
    unfold search_reach in E. match type of E with (bind ?p _) = _ => destruct p as [[s b]| | |] eqn:X; try discriminate E end. cbn [bind fst] in E. injection E as <-.
    eapply stream_right; [| | | | | | |exact X].
    - intros m t m'. apply (ns_mark_ok L).
    - apply (ns_end L).
    - intros w m Hw. destruct (swalk_ok L Hinit Hw) as (A & B & _). auto.
    - intros He g _ (m & R & S). exists m. split; [|exact S]. apply (kreach_sreach L Hinit He). apply kreach_0. exact R.
    - intros g Hin. apply (Hg g Hin).
    - exact Hh.
    - apply Nat.mod_upper_bound. discriminate.
  Qed.

  (** With stubborn reduction. *)
  Theorem stubborn_right : forall mk dist rnd fuel, dirs_ok net ->
    search_right P init (fun g => por_cond g = true /\ forall m, reachable P init m -> small m g)
    (fun pos goals handle => search_reach net 0 true mk st (dist pos) (rnd pos) (fuel pos) goals handle).
  Proof.
    intros mk dist rnd fuel D pos goals handle rs Hg Hh E. pose proof HS as (L & _ & Hinit & _).
    destruct goals as [|g0 gs]; [apply reach_nil in E; subst rs; cbn; split; [reflexivity|split; [intros [|i] g X; discriminate X|intros i X; lia]]|].
    unfold search_reach in E. match type of E with (bind ?p _) = _ => destruct p as [[s b]| | |] eqn:X; try discriminate E end. cbn [bind fst] in E. injection E as <-.
    set (goals := g0 :: gs) in *.
    eapply stream_right; [| | | | | | |exact X].
    - intros m t m'. apply (rs_mark_ok net L Hpl D mk goals).
    - apply (rs_end net L Hpl D mk goals).
    - intros w m Hw. destruct (rs_explored net L Hpl D mk goals HS w m Hw) as (A & B & _). auto.
    - intros He g Hin Ha. destruct (Hg g Hin) as (A1 & A2 & A3).
      assert (Ex : forall m, explored P (chosen net mk goals) init m -> sreach (stub_stream net mk goals) 0 init m) by (apply (explored_rs net L Hpl D mk goals HS); exact He).
      destruct (@stubborn_reach net L Hpl D mk goals g init) as (T & _); auto.
      + exact (proj1 Hinit).
      + intros m Em. split; [|apply A3; eapply explored_reachable; eauto]. destruct (Ex m Em) as (w & Hw). destruct (rs_explored net L Hpl D mk goals HS w m Hw) as (B & _).
        apply mark_ok_fits in B. apply fits_32. exact (proj2 B).
      + destruct T as (g' & Eg & Sg'); [exact Ha|]. exists g'. auto.
    - intros g Hin. apply (Hg g Hin).
    - exact Hh.
    - apply Nat.mod_upper_bound. discriminate.
  Qed.
End Right.
