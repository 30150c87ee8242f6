(** Tarjan's algorithm on the product finds an accepting cycle exactly when there is one. *)
From Verif Require Import Base BaseLemmas NetSpec LtlSpec LtlModel PqlRuns LtlProd LtlGraph LtlNdfs LtlTarjanCore.
Set Implicit Arguments.

Section Tarjan.
  Variable net : pnet.
  Variable m0 : marking.
  Variable aut : buchi.
  Variable order : nat -> marking -> nat -> list (nat * marking) * res unit.
  Variable kbound : N.
  Variable hash : pstate -> nat.
  Hypothesis net_wf : wf_pnet net.
  Hypothesis order_ok : forall k m q, reachable net m0 m ->
    (forall t m', In (t, m') (fst (order k m q)) -> step net m t m') /\
    (snd (order k m q) = Throw \/
     snd (order k m q) = Ok tt /\ forall t m', step net m t m' -> In (t, m') (fst (order k m q))).

  Notation inb := (inb kbound).
  Notation bsucc := (bsucc net aut kbound).
  Notation cyc := (cyc net aut kbound).
  Notation ireach := (ireach net m0 aut kbound).
  Notation going := (going net aut kbound).
  Notation chain := (chain net aut kbound).
  Notation core := (core net m0 aut kbound).
  Notation bad := (bad net m0 aut kbound).

  (** The last position below [n] whose state has hash [h]. *)
  Fixpoint lastpos (ids : nat -> pstate) (n : nat) (h : nat) : option nat :=
    match n with
    | O => None
    | S k => if Nat.eqb (hash (ids k)) h then Some k else lastpos ids k h
    end.
  Lemma lastpos_ext : forall ids ids' n h, (forall i, i < n -> ids i = ids' i) -> lastpos ids n h = lastpos ids' n h.
  Proof.
    intros ids ids' n h. induction n as [|k IH]; intros H; [reflexivity|]. cbn. rewrite (H k) by lia. rewrite IH; [reflexivity|]. intros i Hi. apply H. lia.
  Qed.
  Lemma lastpos_some : forall ids n h i, lastpos ids n h = Some i -> i < n /\ hash (ids i) = h /\ forall j, i < j < n -> hash (ids j) <> h.
  Proof.
    intros ids n h i. induction n as [|k IH]; [discriminate|]. cbn. destruct (Nat.eqb_spec (hash (ids k)) h) as [E|E].
    - intros [= <-]. split; [lia|]. split; [exact E|]. intros j Hj. lia.
    - intros H. destruct (IH H) as (A & B & C). split; [lia|]. split; [exact B|]. intros j Hj. destruct (Nat.eq_dec j k) as [->|N]; [exact E|apply C; lia].
  Qed.
  Lemma lastpos_none : forall ids n h, lastpos ids n h = None -> forall j, j < n -> hash (ids j) <> h.
  Proof.
    intros ids n h. induction n as [|k IH]; intros H j Hj; [lia|]. cbn in H. destruct (Nat.eqb_spec (hash (ids k)) h) as [E|E]; [discriminate|].
    destruct (Nat.eq_dec j k) as [->|N]; [exact E|apply IH; [exact H|lia]].
  Qed.

  (** The array and the hash chains describe the live entries. *)
  Record rep (st : tst) (ids : nat -> pstate) (lows : nat -> nat) : Prop := {
    r_ent : forall i, i < t_size st -> exists fl, nth_error (t_data st) i = Some (mkCE (lows i) (ids i) (lastpos ids i (hash (ids i))) fl);
    r_hash : forall h, t_chash st h = lastpos ids (t_size st) h;
    r_a : t_a st = filter (fun p => accepting aut (ids p)) (map fst (t_d st))
  }.
  Arguments r_ent {st ids lows} _ i _.
  Arguments r_hash {st ids lows} _ h.
  Arguments r_a {st ids lows} _.
  Definition TInv (st : tst) (w : pstate) : Prop :=
    t_viol st = false /\ exists ids lows, rep st ids lows /\ core (t_size st) ids lows (t_d st) (t_store st) (t_seen st) w.
  Definition good (st : tst) (w : pstate) : Prop := t_viol st = true /\ bad \/ TInv st w.

  Lemma len_of : forall st ids lows i, rep st ids lows -> i < t_size st -> i < length (t_data st).
  Proof. intros st ids lows i R Hi. destruct (r_ent R i Hi) as (fl & E). apply nth_error_Some. congruence. Qed.
  Lemma rd_some : forall A (l : list A) i x, nth_error l i = Some x -> rd l i = Ok x.
  Proof. intros A l i x H. unfold rd. rewrite H. reflexivity. Qed.

  (** The chain of a hash value contains every live state with that hash. *)
  Lemma lookup_ok : forall st ids lows s, rep st ids lows -> (forall i j, i < t_size st -> j < t_size st -> ids i = ids j -> i = j) ->
    forall k n, n <= t_size st -> n <= k ->
    exists r, lookup (S k) (t_data st) s (lastpos ids n (hash s)) = Ok r /\
      match r with Some i => i < n /\ ids i = s | None => forall i, i < n -> ids i <> s end.
  Proof.
    intros st ids lows s R Inj. induction k as [|k IH]; intros n Hn Hk.
    - assert (n = 0) as -> by lia. exists None. split; [reflexivity|]. intros i Hi. lia.
    - remember (S k) as k1. cbn [lookup]. destruct (lastpos ids n (hash s)) as [i|] eqn:E.
      + apply lastpos_some in E. destruct E as (A & B & C). destruct (r_ent R i) as (fl & Q); [lia|]. rewrite (rd_some _ _ Q). cbn [bind ce_id ce_next].
        destruct (peqb_spec (ids i) s) as [Es|Es].
        * exists (Some i). split; [reflexivity|]. split; assumption.
        * rewrite B. subst k1. destruct (IH i) as (r & Er & Hr); [lia|lia|]. exists r. split; [exact Er|].
          destruct r as [j|]; [destruct Hr; split; [lia|assumption]|]. intros j Hj. destruct (le_lt_dec i j) as [L|L]; [|exact (Hr j L)].
          destruct (Nat.eq_dec j i) as [->|N]; [exact Es|]. intros Q2. apply (C j); [lia|]. rewrite Q2. reflexivity.
      + exists None. split; [reflexivity|]. intros i Hi Q. apply (@lastpos_none ids n (hash s) E i Hi). rewrite Q. reflexivity.
  Qed.

  (** A push. *)
  Lemma push_rep : forall st ids lows s, rep st ids lows -> (forall a, In a (map fst (t_d st)) -> a < t_size st) ->
    rep (tpush aut hash st s) (fun i => if Nat.eqb i (t_size st) then s else ids i) (fun i => if Nat.eqb i (t_size st) then t_size st else lows i).
  Proof.
    intros st ids lows s R Hd. set (n := t_size st) in *. set (ids' := fun i => if Nat.eqb i n then s else ids i).
    assert (I1 : ids' n = s) by (unfold ids'; rewrite Nat.eqb_refl; reflexivity).
    assert (I2 : forall i, i < n -> ids' i = ids i) by (intros i Hi; unfold ids'; destruct (Nat.eqb_spec i n); [lia|reflexivity]).
    assert (I3 : forall k h, k <= n -> lastpos ids' k h = lastpos ids k h).
    { intros k h Hk. apply lastpos_ext. intros i Hi. apply I2. lia. }
    constructor; cbn [tpush t_size t_data t_chash t_a t_d map fst].
    - intros i Hi. fold n. fold n in Hi. unfold cpush.
      assert (Hlen : n <= length (t_data st)).
      { destruct (Nat.eq_dec n 0) as [->|N]; [lia|]. assert (Q : n - 1 < t_size st) by (fold n; lia). pose proof (len_of R Q). lia. }
      destruct (Nat.eq_dec i n) as [->|N].
      + rewrite I1, Nat.eqb_refl, I3 by lia. exists true. rewrite (r_hash R). fold n.
        destruct (Nat.ltb_spec n (length (t_data st))) as [L|L]; [rewrite nth_error_upd_eq by exact L; reflexivity|].
        rewrite nth_error_app2 by lia. replace (n - length (t_data st)) with 0 by lia. reflexivity.
      + assert (Hi' : i < n) by lia. rewrite I2, I3 by lia. destruct (Nat.eqb_spec i n); [lia|].
        destruct (r_ent R i Hi') as (fl & Q). exists fl. rewrite <- Q.
        destruct (Nat.ltb_spec n (length (t_data st))) as [L|L]; [rewrite nth_error_upd_neq by lia; reflexivity|].
        rewrite nth_error_app1 by lia. reflexivity.
    - intros h. fold n. unfold chash_set. cbn [lastpos]. rewrite I1, I3 by lia. rewrite (Nat.eqb_sym (hash s) h). rewrite (r_hash R). reflexivity.
    - fold n. cbn [filter]. rewrite I1. rewrite (r_a R).
      rewrite (@filter_ext_in nat (fun p => accepting aut (ids' p)) (fun p => accepting aut (ids p)) (map fst (t_d st))); [reflexivity|].
      intros a Ha. rewrite I2; [reflexivity|exact (Hd a Ha)].
  Qed.

  (** An update of the low link of the top. *)
  Lemma update_rep : forall st ids lows p si d to ct, rep st ids lows -> t_d st = (p, si) :: d -> p < t_size st -> nth_error (t_data st) to = Some ct ->
    exists st', tupdate st to = Ok st' /\
      (ce_low ct <= lows p /\ rep st' ids (fun i => if Nat.eqb i p then ce_low ct else lows i) /\
         t_viol st' = match t_a st with [] => false | a :: _ => to <=? a end
       \/ lows p < ce_low ct /\ st' = st) /\
      t_size st' = t_size st /\ t_d st' = t_d st /\ t_store st' = t_store st /\ t_seen st' = t_seen st /\ t_a st' = t_a st.
  Proof.
    intros st ids lows p si d to ct R Ed Hp Et. unfold tupdate. rewrite Ed. rewrite (rd_some _ _ Et). cbn [bind].
    destruct (r_ent R p Hp) as (fl & Ep). rewrite (rd_some _ _ Ep). cbn [bind ce_low ce_id ce_next ce_dstack].
    destruct (Nat.leb_spec (ce_low ct) (lows p)) as [L|L]; eexists; (split; [reflexivity|]).
    - split; [left|cbn; repeat split; auto]. split; [exact L|]. split; [|reflexivity]. constructor; cbn [t_size t_data t_chash t_a t_d].
      + intros i Hi. destruct (Nat.eqb_spec i p) as [->|N].
        * exists fl. rewrite nth_error_upd_eq; [reflexivity|]. exact (len_of R Hp).
        * rewrite nth_error_upd_neq by congruence. exact (r_ent R i Hi).
      + exact (r_hash R).
      + rewrite (r_a R), Ed. reflexivity.
    - split; [right; split; [exact L|reflexivity]|]. repeat split; auto.
  Qed.

  (** Popping the entries from [p] on. *)
  Lemma pop_scc_ok : forall ids lows p k st, (forall i, i < t_size st -> exists fl, nth_error (t_data st) i = Some (mkCE (lows i) (ids i) (lastpos ids i (hash (ids i))) fl)) ->
    (forall h, t_chash st h = lastpos ids (t_size st) h) -> p <= t_size st -> t_size st - p <= k ->
    exists st', tpop_scc hash k p st = Ok st' /\ t_size st' = p /\ t_data st' = t_data st /\ t_d st' = t_d st /\ t_a st' = t_a st /\
      t_seen st' = t_seen st /\ t_viol st' = t_viol st /\ t_clock st' = t_clock st /\
      (forall h, t_chash st' h = lastpos ids p h) /\
      (forall x, In x (t_store st') <-> In x (t_store st) \/ exists i, p <= i < t_size st /\ ids i = x).
  Proof.
    intros ids lows p. induction k as [|k IH]; intros st He Hh Hp Hk.
    - assert (E : t_size st = p) by lia. cbn [tpop_scc]. rewrite E, Nat.ltb_irrefl. exists st. split; [reflexivity|]. split; [exact E|]. repeat (split; [reflexivity|]).
      split; [rewrite <- E; exact Hh|]. intros x. split; [intros H; left; exact H|]. intros [H|(i & Hi & _)]; [exact H|lia].
    - cbn [tpop_scc]. destruct (Nat.ltb_spec p (t_size st)) as [L|L].
      + unfold tpopc. destruct (t_size st) as [|n] eqn:En; [lia|]. destruct (He n) as (fl & Q); [lia|]. rewrite (rd_some _ _ Q). cbn [bind ce_id ce_next].
        match goal with |- context [tpop_scc _ _ _ ?s] => set (st1 := s) end.
        destruct (IH st1) as (st' & E1 & E2 & E3 & E4 & E5 & E6 & E7 & E8 & E9 & E10); cbn [st1 t_size t_data t_chash].
        * intros i Hi. apply He. lia.
        * intros h. unfold chash_set. rewrite Hh. cbn [lastpos]. rewrite (Nat.eqb_sym h). destruct (Nat.eqb_spec (hash (ids n)) h) as [<-|N]; reflexivity.
        * lia.
        * lia.
        * exists st'. split; [exact E1|]. split; [exact E2|]. split; [exact E3|]. split; [exact E4|]. split; [exact E5|]. split; [exact E6|]. split; [exact E7|]. split; [exact E8|].
          split; [exact E9|]. intros x. rewrite E10. cbn [st1 t_store t_size]. rewrite padd_in. split.
          -- intros [[->|H]|(i & Hi & H)]; [right; exists n; split; [lia|reflexivity]|left; exact H|right; exists i; split; [lia|exact H]].
          -- intros [H|(i & Hi & H)]; [left; right; exact H|]. destruct (Nat.eq_dec i n) as [->|N]; [left; left; congruence|right; exists i; split; [lia|exact H]].
      + assert (E : t_size st = p) by lia. exists st. split; [reflexivity|]. split; [exact E|]. repeat (split; [reflexivity|]).
        split; [rewrite <- E; exact Hh|]. intros x. split; [intros H; left; exact H|]. intros [H|(i & Hi & _)]; [exact H|lia].
  Qed.

  Lemma filter_head : forall (f : nat -> bool) p r n, decr n (p :: r) ->
    match filter f (p :: r) with x :: l => if p =? x then l else filter f (p :: r) | [] => [] end = filter f r.
  Proof.
    intros f p r n (_ & H). cbn [filter]. destruct (f p) eqn:E; [rewrite Nat.eqb_refl; reflexivity|].
    destruct (filter f r) as [|x l] eqn:F; [reflexivity|]. assert (In x r) by (apply (proj1 (filter_In f x r)); rewrite F; left; reflexivity).
    pose proof (@decr_lt r p x H H0). destruct (Nat.eqb_spec p x); [lia|reflexivity].
  Qed.
  Lemma filter_top : forall (f : nat -> bool) ds n a l, decr n ds -> filter f ds = a :: l -> forall b, In b ds -> f b = true -> b <= a.
  Proof.
    intros f. induction ds as [|p r IH]; intros n a l H E b Hb Hf; [destruct Hb|]. cbn [filter] in E. destruct H as (H1 & H2).
    destruct Hb as [->|Hb].
    - rewrite Hf in E. injection E as -> _. lia.
    - destruct (f p); [injection E as <- _; pose proof (@decr_lt r p b H2 Hb); lia|exact (IH p a l H2 E b Hb Hf)].
  Qed.

  (** A pop, after the last successor of the top. *)
  Lemma pop_ok : forall st ids lows p si d w w', rep st ids lows -> t_viol st = false -> t_d st = (p, si) :: d ->
    (exists si0, core (t_size st) ids lows ((p, si0) :: d) (t_store st) (t_seen st) w) ->
    (forall y, bsucc (ids p) y -> dn aut (t_size st) ids lows (p :: map fst d) (t_store st) p p y) ->
    exists st', tpop hash st = Ok st' /\ TInv st' w' /\ forall x, In x (t_seen st) -> In x (t_seen st').
  Proof.
    intros st ids lows p si d w w' R Hv Ed (si0 & K) Hall.
    pose proof (k_decr K) as Hdec. cbn [map fst] in Hdec. assert (Hp : p < t_size st) by (exact (proj1 Hdec)).
    unfold tpop. rewrite Ed. destruct (r_ent R p Hp) as (fl & Ep). rewrite (rd_some _ _ Ep). cbn [bind ce_low ce_id ce_next].
    match goal with |- context [tpop_scc _ _ _ ?s] => set (st1 := s) end.
    assert (Hent : forall i, i < t_size st1 -> exists fl, nth_error (t_data st1) i = Some (mkCE (lows i) (ids i) (lastpos ids i (hash (ids i))) fl)).
    { intros i Hi. cbn [st1 t_data t_size] in *. destruct (Nat.eq_dec i p) as [->|N]; [exists false; rewrite nth_error_upd_eq by (exact (len_of R Hp)); reflexivity|].
      rewrite nth_error_upd_neq by congruence. exact (r_ent R i Hi). }
    assert (Ep1 : nth_error (t_data st1) p = Some (mkCE (lows p) (ids p) (lastpos ids p (hash (ids p))) false)).
    { cbn [st1 t_data]. rewrite nth_error_upd_eq by (exact (len_of R Hp)). reflexivity. }
    assert (Ha : forall stx, t_a stx = t_a st -> match t_a stx with x :: r => if p =? x then r else t_a stx | [] => [] end = filter (fun q => accepting aut (ids q)) (map fst d)).
    { intros stx ->. rewrite (r_a R), Ed. cbn [map fst]. apply (filter_head (fun q => accepting aut (ids q)) Hdec). }
    destruct (Nat.eqb_spec (lows p) p) as [L|L].
    - destruct (@pop_scc_ok ids lows p (t_size st1) st1) as (st2 & E1 & E2 & E3 & E4 & E5 & E6 & E7 & E8 & E9 & E10);
        [exact Hent|exact (r_hash R)|cbn [st1 t_size]; lia|lia|].
      rewrite E1. cbn [bind]. rewrite (Ha st2 E5).
      match goal with |- context [tupdate ?s _] => set (st3 := s) end.
      assert (R3 : rep st3 ids lows).
      { constructor; cbn [st3 t_size t_data t_chash t_a t_d].
        - intros i Hi. rewrite E3. apply Hent. cbn [st1 t_size]. lia.
        - intros h. rewrite E2. apply E9.
        - rewrite E4. reflexivity. }
      assert (K3 : core (t_size st3) ids lows (t_d st3) (t_store st3) (t_seen st3) w').
      { cbn [st3 t_size t_d t_store t_seen]. rewrite E2, E4, E6. cbn [st1 t_d t_seen]. eapply core_pop_scc; [exact K|exact Hall|exact L|]. exact E10. }
      assert (Hv3 : t_viol st3 = false) by (cbn [st3 t_viol]; rewrite E7; exact Hv).
      assert (Hs3 : t_seen st3 = t_seen st) by (cbn [st3 t_seen]; rewrite E6; reflexivity).
      replace (t_d st3) with d by (cbn [st3 t_d]; rewrite E4; reflexivity).
      destruct d as [|[q sq] d'].
      + exists st3. split; [reflexivity|]. split; [|intros x; rewrite Hs3; trivial]. split; [exact Hv3|]. exists ids, lows. split; assumption.
      + assert (Hq : q < t_size st3) by (cbn [st3 t_size]; rewrite E2; exact (proj1 (proj2 Hdec))).
        assert (Hdd : t_d st3 = (q, sq) :: d') by (cbn [st3 t_d]; rewrite E4; reflexivity).
        assert (Et : nth_error (t_data st3) p = Some (mkCE (lows p) (ids p) (lastpos ids p (hash (ids p))) false)) by (cbn [st3 t_data]; rewrite E3; exact Ep1).
        destruct (update_rep p R3 Hdd Hq Et) as (st4 & F1 & [(F2 & _)|(F2 & ->)] & _).
        * cbn [ce_low] in F2. pose proof (k_low K3 Hq) as Q2. cbn [st3 t_size] in Hq. lia.
        * exists st3. split; [exact F1|]. split; [|intros x; rewrite Hs3; trivial]. split; [exact Hv3|]. exists ids, lows. split; assumption.
    - cbn [bind]. change (t_a st1) with (t_a st). rewrite (Ha st eq_refl).
      match goal with |- context [tupdate ?s _] => set (st3 := s) end.
      change (t_d st3) with d.
      destruct d as [|[q sq] d'].
      { exfalso. assert (B : 0 < t_size st) by lia. destruct (k_bot K B) as [E|[]]. cbn in E. subst p. pose proof (k_low K Hp). lia. }
      assert (R3 : rep st3 ids lows).
      { constructor; cbn [st3 t_size t_data t_chash t_a t_d]; [exact Hent|exact (r_hash R)|reflexivity]. }
      assert (Hq : q < t_size st3) by (cbn [st3 st1 t_size]; destruct Hdec as (? & ? & _); cbn in *; lia).
      destruct (update_rep p R3 eq_refl Hq Ep1) as (st4 & F1 & F2 & F3 & F4 & F5 & F6 & F7). cbn [ce_low] in F2.
      exists st4. split; [exact F1|]. split; [|intros x; rewrite F6; trivial]. destruct F2 as [(F2 & R4 & V4)|(F2 & ->)].
      + split.
        * rewrite V4. cbn [st3 t_a]. destruct (filter _ _) as [|a l] eqn:Ef; [reflexivity|]. apply Nat.leb_gt.
          assert (Q : In a (q :: map fst d')) by (apply (proj1 (filter_In (fun q => accepting aut (ids q)) a _)); change (map fst ((q, sq) :: d')) with (q :: map fst d') in Ef; rewrite Ef; left; reflexivity).
          exact (@decr_lt (q :: map fst d') p a (proj2 Hdec) Q).
        * exists ids, (fun i => if Nat.eqb i q then lows p else lows i). split; [exact R4|]. rewrite F3, F4, F5, F6. cbn [st3 st1 t_size t_d t_store t_seen].
          eapply core_pop_keep; [exact K|exact Hall|exact L|]. left. split; [exact F2|reflexivity].
      + split; [exact Hv|]. exists ids, lows. split; [exact R3|]. cbn [st3 st1 t_size t_d t_store t_seen].
        eapply core_pop_keep; [exact K|exact Hall|exact L|]. right. split; [exact F2|reflexivity].
  Qed.

  Definition tend (st : tst) (r : res (tst * pstate)) : Prop :=
    match r with
    | Ok (st', w') => good st' w' /\ (t_viol st' = true \/ t_d st' = [] /\ forall x, In x (t_seen st) -> In x (t_seen st'))
    | Throw => True
    | UB => False
    | NoFuel => True
    end.
  Lemma tend_le : forall st st' r, (forall x, In x (t_seen st) -> In x (t_seen st')) -> tend st' r -> tend st r.
  Proof.
    intros st st' [[s w]| | |] H K; try exact K. destruct K as (A & [B|(B & C)]); (split; [exact A|]); [left; exact B|right]. split; [exact B|]. intros x Hx. exact (C x (H x Hx)).
  Qed.

  Lemma call : forall s done k w si, ireach s -> LtlGraph.einv net aut kbound s si w done ->
    nextres net aut kbound s done (prod_next aut order k s w si).
  Proof. intros s done k w si Hr He. eapply prod_next_ok; try eassumption. eapply ireach_reachable. eassumption. Qed.

  Lemma tloop_ok : forall fuel st w, good st w -> tend st (tloop aut order kbound hash fuel st w).
  Proof.
    induction fuel as [|f IH]; intros st w G; [exact I|]. cbn [tloop].
    destruct (t_d st) as [|[p si] d] eqn:Ed.
    { split; [exact G|]. right. split; [exact Ed|trivial]. }
    destruct G as [(Hv & Hb)|(Hv & ids & lows & R & K)].
    { rewrite Hv. split; [left; split; assumption|left; exact Hv]. }
    rewrite Hv. rewrite Ed in K.
    pose proof (k_decr K) as Hdec. cbn [map fst] in Hdec. assert (Hp : p < t_size st) by (exact (proj1 Hdec)).
    destruct (r_ent R p Hp) as (fl & Ep). rewrite (rd_some _ _ Ep). cbn [bind ce_id].
    pose proof (k_ire K Hp) as (Hire & Hib).
    pose proof (@call (ids p) _ (t_clock st) w si Hire (proj1 (k_dok K))) as C. cbv beta in C. cbn [map fst] in C.
    destruct (prod_next aut order (t_clock st) (ids p) w si) as [[[more w'] si']| | |]; cbn [bind]; try exact C; try exact I.
    destruct more; cbn [negb].
    - destruct C as (C1 & C2 & C3 & C4). destruct (inb (fst w')) eqn:Eb; cbn [negb].
      + specialize (C3 eq_refl). clear C4. assert (E : bsucc (ids p) w') by (split; assumption). cbn [t_seen t_data t_size t_a t_chash t_store t_viol t_clock].
        match goal with |- context [tupdate ?s _] => set (st2 := s) end.
        assert (Hseen2 : forall x, In x (t_seen st) -> In x (t_seen st2)) by (intros x Hx; cbn [st2 t_seen]; apply padd_in; right; exact Hx).
        assert (R2 : rep st2 ids lows).
        { constructor; cbn [st2 t_size t_data t_chash t_a t_d]; [exact (r_ent R)|exact (r_hash R)|rewrite (r_a R), Ed; reflexivity]. }
        rewrite (r_hash R (hash w')).
        assert (Inj : forall i j, i < t_size st2 -> j < t_size st2 -> ids i = ids j -> i = j) by (cbn [st2 t_size]; intros i j Hi Hj; exact (k_inj K Hi Hj)).
        destruct (@lookup_ok st2 ids lows w' R2 Inj (t_size st) (t_size st) (Nat.le_refl _) (Nat.le_refl _)) as (r & Er & Hr).
        cbn [st2 t_data] in Er. rewrite Er. cbn [bind]. destruct r as [j|].
        * destruct Hr as (Hj & Ej). destruct (r_ent R2 j Hj) as (fj & Et).
          destruct (update_rep j R2 eq_refl Hp Et) as (st3 & F1 & F2 & F3 & F4 & F5 & F6 & F7). cbn [ce_low] in F2. rewrite F1. cbn [bind].
          apply (@tend_le st st3); [intros x Hx; rewrite F6; exact (Hseen2 x Hx)|]. apply IH.
          assert (Hpad : padd w' (t_seen st) = t_seen st).
          { unfold padd. destruct (pmem_spec w' (t_seen st)) as [M|M]; [reflexivity|]. exfalso. apply M. apply (k_seen K). right. exists j. split; [exact Hj|exact Ej]. }
          assert (Hpin : forall a, In a (p :: map fst d) -> accepting aut (ids a) = true -> In a (t_a st2)).
          { intros a Ha Hac. cbn [st2 t_a]. rewrite (r_a R), Ed. apply filter_In. split; [exact Ha|exact Hac]. }
          subst w'.
          destruct F2 as [(F2 & R3 & V3)|(F2 & ->)].
          -- destruct (t_viol st3) eqn:Ev.
             ++ left. split; [exact Ev|]. destruct (t_a st2) as [|a l] eqn:Ea; [discriminate|]. symmetry in V3. apply Nat.leb_le in V3.
                assert (Q : In a (p :: map fst d) /\ accepting aut (ids a) = true).
                { apply (proj1 (filter_In (fun q => accepting aut (ids q)) a (p :: map fst d))). change (p :: map fst d) with (map fst ((p, si) :: d)). rewrite <- Ed, <- (r_a R). change (t_a st) with (t_a st2). rewrite Ea. left; reflexivity. }
                exists (ids a). destruct (live_bad K E Hj (proj1 Q) (proj2 Q) V3) as (B1 & B2). split; [exact B1|]. split; [exact (proj2 Q)|]. left. exact B2.
             ++ right. split; [exact Ev|]. exists ids, (fun i => if Nat.eqb i p then lows j else lows i). split; [exact R3|].
                rewrite F3, F4, F5, F6. cbn [st2 t_size t_d t_store t_seen]. rewrite Hpad.
                eapply core_live; [exact K|exact E|exact Hj|exact C3|]. left. split; [exact F2|]. split; [reflexivity|].
                intros a Ha Hac. destruct (t_a st2) as [|b l] eqn:Ea; [destruct (Hpin a Ha Hac)|].
                symmetry in V3. apply Nat.leb_gt in V3. assert (a <= b); [|lia].
                apply (@filter_top (fun q => accepting aut (ids q)) (p :: map fst d) (t_size st) b l Hdec); [|exact Ha|exact Hac].
                change (p :: map fst d) with (map fst ((p, si) :: d)). rewrite <- Ed, <- (r_a R). exact Ea.
          -- right. split; [first [exact Hv|reflexivity]|]. exists ids, lows. split; [exact R2|]. cbn [st2 t_size t_d t_store t_seen]. rewrite Hpad.
             eapply core_live; [exact K|exact E|exact Hj|exact C3|]. right. split; [exact F2|reflexivity].
        * cbn [st2 t_store]. destruct (pmem_spec w' (t_store st)) as [M|M].
          -- apply (@tend_le st st2 _ Hseen2). apply IH. right. split; [first [exact Hv|reflexivity]|]. exists ids, lows. split; [exact R2|]. cbn [st2 t_size t_d t_store t_seen].
             assert (Hpad : padd w' (t_seen st) = t_seen st).
             { unfold padd. destruct (pmem_spec w' (t_seen st)) as [N|N]; [reflexivity|]. exfalso. apply N. apply (k_seen K). left. exact M. }
             rewrite Hpad. eapply core_stored; [exact K|exact M|exact C3].
          -- assert (Hns : ~ In w' (t_seen st)).
             { intros N. apply (k_seen K) in N. destruct N as [N|(i & Hi & N)]; [contradiction|exact (Hr i Hi N)]. }
             assert (Hpad : padd w' (t_seen st) = w' :: t_seen st).
             { unfold padd. destruct (pmem_spec w' (t_seen st)) as [N|N]; [contradiction|reflexivity]. }
             apply (@tend_le st (tpush aut hash st2 w')); [intros x Hx; cbn [tpush t_seen]; exact (Hseen2 x Hx)|]. apply IH.
             assert (Hst : ireach w') by (eapply ireach_step; [exact Hire|exact E]).
             destruct (accepting aut w' && self_loop aut w') eqn:Eself.
             ++ left. cbn [tpush t_viol]. rewrite Eself. split; [reflexivity|]. apply andb_true_iff in Eself. exists w'. split; [exact Hst|]. split; [exact (proj1 Eself)|right; exact (proj2 Eself)].
             ++ right. split; [cbn [tpush t_viol]; rewrite Eself; first [exact Hv|reflexivity]|]. eexists _, _.
                split; [apply (@push_rep st2 ids lows w' R2); intros a Ha; cbn [st2 t_size]; exact (@decr_lt _ _ _ Hdec Ha)|].
                cbn [tpush st2 t_size t_d t_store t_seen]. rewrite Hpad. eapply core_push; [exact K|exact Hst|exact Eb|exact Hns|reflexivity| | | |].
                ** split; [exact E|exact (k_chain K)].
                ** intros Z. lia.
                ** discriminate.
                ** constructor.
                   --- split; [exact C2|]. exists w'. exact C3.
                   --- pose proof (proj2 (k_dok K)) as F. rewrite Forall_forall in *. intros e He. eapply low_mono; [|exact (F e He)]. intros x Hx. right. exact Hx.
      + specialize (C4 eq_refl).
        match goal with |- context [tloop _ _ _ _ f ?s w'] => apply (@tend_le st s); [trivial|]; apply IH end.
        right. split; [first [exact Hv|reflexivity]|]. exists ids, lows. split.
        * constructor; cbn [t_size t_data t_chash t_a t_d]; [exact (r_ent R)|exact (r_hash R)|rewrite (r_a R), Ed; reflexivity].
        * cbn [t_size t_d t_store t_seen]. eapply core_skip; [exact K|exact C4].
    - match goal with |- context [tpop _ ?s] => set (st1 := s) end.
      assert (R1 : rep st1 ids lows).
      { constructor; cbn [st1 t_size t_data t_chash t_a t_d]; [exact (r_ent R)|exact (r_hash R)|rewrite (r_a R), Ed; reflexivity]. }
      destruct (@pop_ok st1 ids lows p si' d w w' R1 eq_refl eq_refl (ex_intro _ si K)) as (st' & E1 & E2 & E3).
      { intros y (Y1 & Y2). exact (C y Y1 Y2). }
      rewrite E1. cbn [bind]. apply (@tend_le st st'); [exact E3|]. apply IH. right. exact E2.
  Qed.

  Lemma tarjan_inits_ok : forall fuel inits st w, (forall s, In s inits -> In s (initial_states aut m0)) ->
    good st w -> (t_viol st = true \/ t_d st = []) ->
    match tarjan_inits aut order kbound hash fuel inits st w with
    | Ok st' => (exists w', good st' w') /\ (t_viol st' = true \/ t_d st' = [] /\ (forall x, In x (t_seen st) -> In x (t_seen st')) /\
                  forall s, In s inits -> inb (fst s) = true -> In s (t_seen st'))
    | Throw => True
    | UB => False
    | NoFuel => True
    end.
  Proof.
    intros fuel. induction inits as [|s r IH]; intros st w Hin G Hd; cbn [tarjan_inits].
    { split; [exists w; exact G|]. destruct Hd as [Hd|Hd]; [left; exact Hd|right]. split; [exact Hd|]. split; [trivial|intros s []]. }
    destruct (t_viol st) eqn:Ev; [split; [exists w; exact G|left; exact Ev]|].
    destruct Hd as [Hd|Hd]; [discriminate|].
    destruct G as [(Hv & _)|(_ & ids & lows & R & K)]; [congruence|].
    assert (Hr : forall x, In x r -> In x (initial_states aut m0)) by (intros x Hx; apply Hin; right; exact Hx).
    assert (Hz : t_size st = 0).
    { destruct (t_size st) as [|n] eqn:En; [reflexivity|]. rewrite Hd in K. destruct (k_bot K (Nat.lt_0_succ n)). }
    match goal with |- context [tloop _ _ _ _ fuel ?s w] => set (st1 := s) end.
    assert (G1 : good st1 s \/ good st1 w).
    { unfold st1. destruct (inb (fst s)) eqn:Eb; cbn [andb]; [|right; right; split; [exact Ev|exists ids, lows; split; assumption]].
      destruct (pmem_spec s (t_seen st)) as [M|M]; cbn [negb]; [right; right; split; [exact Ev|exists ids, lows; split; assumption]|].
      left. assert (Hst : ireach s).
      { exists s. split; [split; [apply Hin; left; reflexivity|exact Eb]|constructor]. }
      match goal with |- good (tpush _ _ ?x _) _ => set (st2 := x) end.
      assert (R2 : rep st2 ids lows).
      { constructor; cbn [st2 t_size t_data t_chash t_a t_d]; [exact (r_ent R)|exact (r_hash R)|exact (r_a R)]. }
      destruct (accepting aut s && self_loop aut s) eqn:Eself.
      + left. cbn [tpush t_viol]. rewrite Eself. split; [reflexivity|]. apply andb_true_iff in Eself. exists s. split; [exact Hst|]. split; [exact (proj1 Eself)|right; exact (proj2 Eself)].
      + right. split; [cbn [tpush t_viol]; rewrite Eself; reflexivity|]. eexists _, _.
        split; [apply (@push_rep st2 ids lows s R2); cbn [st2 t_d]; rewrite Hd; intros a []|].
        cbn [tpush st2 t_size t_d t_store t_seen]. eapply core_push; [exact K|exact Hst|exact Eb|exact M|reflexivity| | | |]; rewrite Hd; try reflexivity.
        * intros _. exact Hz.
        * constructor. }
    assert (Hw : good st1 w).
    { destruct G1 as [[G1|(V & i1 & l1 & A & B)]|G1]; [left; exact G1| |exact G1].
      right. split; [exact V|]. exists i1, l1. split; [exact A|]. clear - B Ev Hd. revert B. unfold st1.
      destruct (inb (fst s) && negb (pmem s (t_seen st))); cbn [tpush t_d]; rewrite Hd; intros B; destruct B; constructor; try assumption.
      destruct k_dok as (Q1 & Q2). split; [|exact Q2]. left. reflexivity. }
    pose proof (tloop_ok fuel Hw) as T. destruct (tloop aut order kbound hash fuel st1 w) as [[st2 w2]| | |]; cbn [bind fst snd]; try exact T.
    destruct T as (T1 & T2).
    assert (T3 : t_viol st2 = true \/ t_d st2 = []) by (destruct T2 as [T2|(T2 & _)]; [left; exact T2|right; exact T2]).
    specialize (IH st2 w2 Hr T1 T3).
    destruct (tarjan_inits aut order kbound hash fuel r st2 w2) as [st3| | |] eqn:E3; try exact IH.
    destruct IH as (A & B). split; [exact A|]. destruct B as [B|(B1 & B2 & B3)]; [left; exact B|].
    destruct T2 as [T2|(T2 & T4)].
    { destruct r as [|s' r']; cbn [tarjan_inits] in E3; [|rewrite T2 in E3]; injection E3 as <-; left; exact T2. }
    right. split; [exact B1|].
    assert (Hmono : forall x, In x (t_seen st) -> In x (t_seen st1)).
    { intros x Hx. unfold st1. destruct (inb (fst s) && negb (pmem s (t_seen st))); [right; exact Hx|exact Hx]. }
    split; [intros x Hx; apply B2, T4, Hmono; exact Hx|].
    intros x [<-|Hx] Hb; [|exact (B3 x Hx Hb)]. apply B2, T4. unfold st1. rewrite Hb. cbn [andb].
    destruct (pmem_spec s (t_seen st)) as [M|M]; cbn [negb]; [exact M|left; reflexivity].
  Qed.

  Lemma tarjan_cycles : forall fuel,
    match tarjan_check aut order kbound hash fuel m0 with
    | Ok true => exists l, (forall s, istart m0 aut kbound s -> In s l) /\ (forall x y, In x l -> bsucc x y -> In y l) /\
                   (forall x, In x l -> accepting aut x = true -> ~ cyc x)
    | Ok false => bad
    | Throw => True
    | UB => False
    | NoFuel => True
    end.
  Proof.
    intros fuel. unfold tarjan_check.
    assert (I0 : good (mkT [] [] 0 [] [] (fun _ => None) [] false 0) (m0, 0)).
    { right. split; [reflexivity|]. exists (fun _ => (m0, 0)), (fun i => i). split; [constructor; cbn; [intros i Hi; lia|reflexivity|reflexivity]|]. apply core_init. }
    pose proof (@tarjan_inits_ok fuel (initial_states aut m0) _ _ (fun s H => H) I0 (or_intror eq_refl)) as H.
    destruct (tarjan_inits _ _ _ _ _ _ _ _) as [st| | |]; cbn [bind]; try exact H.
    destruct H as ((w & G) & H). destruct (t_viol st) eqn:Ev; cbn [negb].
    - destruct G as [(_ & B)|(V & _)]; [exact B|congruence].
    - destruct H as [H|(H1 & _ & H2)]; [discriminate|]. destruct G as [(V & _)|(_ & ids & lows & R & K)]; [congruence|].
      assert (Hz : t_size st = 0).
      { destruct (t_size st) as [|n] eqn:En; [reflexivity|]. rewrite H1 in K. destruct (k_bot K (Nat.lt_0_succ n)). }
      exists (t_store st). split; [|split; [exact (k_scl K)|exact (k_sac K)]].
      intros s (S1 & S2). pose proof (proj1 (k_seen K s) (H2 s S1 S2)) as [Q|(i & Hi & _)]; [exact Q|lia].
  Qed.
End Tarjan.
