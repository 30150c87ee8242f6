From Verif Require Import Base BaseLemmas SearchModel SearchSpec QueueModel.
From Coq Require Import Permutation.
Set Implicit Arguments.

Lemma id32_small : forall id, (N.of_nat id < 2 ^ 32)%N -> id32 id = id.
Proof. intros id H. unfold id32. rewrite N.mod_small by exact H. apply Nat2N.id. Qed.

Definition bfs_content (q : bfs_t) : list nat := bq_queue q ++ bq_cache q.
Lemma bfs_bag : forall shuf, (forall n l, Permutation l (shuf n l)) ->
  is_bag (2 ^ 32) False (bfs_list shuf) (fun _ => True) bfs_content.
Proof.
  intros shuf Hs. constructor.
  - split; [exact I|reflexivity].
  - intros q id d t _ Hid. left. eexists. split; [reflexivity|]. split; [exact I|]. unfold bfs_content, bfs_push. cbn [bq_queue bq_cache].
    rewrite id32_small by exact Hid. rewrite app_assoc. apply Permutation_sym, Permutation_cons_append.
  - intros q _. cbn [bfs_list wl_pop]. unfold bfs_pop, bfs_content.
    assert (P : Permutation (bq_queue q ++ bq_cache q) (bq_queue q ++ shuf (bq_draw q) (bq_cache q))).
    { apply Permutation_app_head, Hs. }
    destruct (bq_queue q ++ shuf (bq_draw q) (bq_cache q)) as [|x r].
    + left. split; [reflexivity|]. apply Permutation_sym, Permutation_nil in P. exact P.
    + right; left. exists x. eexists. split; [reflexivity|]. split; [exact I|]. cbn [bq_queue bq_cache]. rewrite app_nil_r. exact P.
Qed.

Definition rdfs_content (q : rdfs_t) : list nat := rq_cache q ++ rq_stack q.
Lemma rdfs_bag : forall shuf, (forall n l, Permutation l (shuf n l)) ->
  is_bag (2 ^ 32) False (rdfs_list shuf) (fun _ => True) rdfs_content.
Proof.
  intros shuf Hs. constructor.
  - split; [exact I|reflexivity].
  - intros q id d t _ Hid. left. eexists. split; [reflexivity|]. split; [exact I|]. unfold rdfs_content, rdfs_push. cbn [rq_stack rq_cache].
    rewrite id32_small by exact Hid. rewrite <- app_assoc. apply Permutation_sym, Permutation_middle.
  - intros q _. cbn [rdfs_list wl_pop]. unfold rdfs_pop, rdfs_content.
    destruct (rq_cache q) as [|y c].
    + destruct (rq_stack q) as [|x r]; [left; auto|].
      right; left. exists x. eexists. split; [reflexivity|]. split; [exact I|]. cbn [rq_cache rq_stack app]. apply Permutation_refl.
    + right; left. eexists. eexists. split; [reflexivity|]. split; [exact I|]. cbn [rq_cache rq_stack app].
      assert (P := Hs (rq_draw q) (y :: c)).
      assert (Hne : shuf (rq_draw q) (y :: c) <> []).
      { intros E. rewrite E in P. apply Permutation_sym, Permutation_nil in P. discriminate. }
      rewrite (app_comm_cons c). eapply perm_trans; [apply Permutation_app_tail; exact P|].
      rewrite (app_removelast_last 0 Hne) at 1.
      rewrite <- app_assoc. simpl. eapply perm_trans; [apply Permutation_sym, Permutation_middle|].
      constructor. apply Permutation_app_tail, Permutation_rev.
Qed.

Lemma dfs_bag : is_bag (2 ^ 32) False dfs_list (fun _ => True) (fun q => q).
Proof.
  constructor.
  - split; [exact I|reflexivity].
  - intros q id d t _ Hid. left. eexists. split; [reflexivity|]. split; [exact I|]. cbn beta. rewrite id32_small by exact Hid. apply Permutation_refl.
  - intros [|x r] _; [left; auto|]. right; left. exists x, r. auto.
Qed.

Lemma pq_pop_none : forall l, pq_pop l = None -> l = [].
Proof. intros [|x l]; cbn; [reflexivity|]. destruct (pq_pop l) as [[y r]|]; [destruct (wless x y)|]; discriminate. Qed.
Lemma pq_pop_perm : forall l x r, pq_pop l = Some (x, r) -> Permutation l (x :: r).
Proof.
  induction l as [|y l IH]; intros x r; cbn; [discriminate|].
  destruct (pq_pop l) as [[z q]|] eqn:E.
  - specialize (IH z q eq_refl). destruct (wless y z); intros H; injection H as <- <-.
    + eapply perm_trans; [apply perm_skip; exact IH|apply perm_swap].
    + constructor. exact IH.
  - intros H. injection H as <- <-. apply pq_pop_none in E. subst l. apply Permutation_refl.
Qed.

Lemma wless_trans_f : forall a b c, wless a b = false -> wless b c = false -> wless a c = false.
Proof.
  intros [a1 a2] [b1 b2] [c1 c2]. unfold wless. cbn [fst snd].
  destruct (N.eqb_spec a1 b1), (N.eqb_spec b1 c1), (N.eqb_spec a1 c1); subst; try congruence;
  rewrite ?Nat.ltb_ge, ?N.ltb_ge; lia.
Qed.
Lemma wless_asym : forall a b, wless a b = true -> wless b a = false.
Proof.
  intros [a1 a2] [b1 b2]. unfold wless. cbn [fst snd].
  destruct (N.eqb_spec a1 b1), (N.eqb_spec b1 a1); subst; try congruence; try lia;
  rewrite ?Nat.ltb_ge, ?N.ltb_ge, ?Nat.ltb_lt, ?N.ltb_lt; lia.
Qed.
(** The popped element is greatest. *)
Lemma pq_pop_max : forall l x r, pq_pop l = Some (x, r) -> forall y, In y r -> wless x y = false.
Proof.
  induction l as [|y l IH]; intros x r; cbn; [discriminate|].
  destruct (pq_pop l) as [[z q]|] eqn:E.
  - specialize (IH z q eq_refl). destruct (wless y z) eqn:Ew; intros H; injection H as <- <-; intros u [<-|Hu].
    + apply wless_asym; exact Ew.
    + apply IH; exact Hu.
    + exact Ew.
    + eapply wless_trans_f; [exact Ew|]. apply IH; exact Hu.
  - intros H. injection H as <- <-. intros u [].
Qed.

Lemma heur_bag : is_bag (2 ^ 32) False heur_list (fun _ => True) (fun q => map snd q).
Proof.
  constructor.
  - split; [exact I|reflexivity].
  - intros q id d t _ Hid. left. eexists. split; [reflexivity|]. split; [exact I|]. cbn [map snd]. rewrite id32_small by exact Hid. apply Permutation_refl.
  - intros q _. cbn [heur_list wl_pop]. destruct (pq_pop q) as [[x r]|] eqn:E.
    + right; left. exists (snd x), r. split; [reflexivity|]. split; [exact I|]. apply pq_pop_perm in E.
      apply (Permutation_map snd) in E. exact E.
    + left. apply pq_pop_none in E. subst q. auto.
Qed.

(** The order of the heuristic queue: smallest distance first, then the latest
    identifier. *)
Lemma heur_order : forall q id q', wl_pop heur_list q = Ok (Some (id, q')) ->
  exists d, In (d, id) q /\ forall d' id', In (d', id') q -> (d < d')%N \/ (d = d' /\ id' <= id).
Proof.
  intros q id q'. cbn [heur_list wl_pop]. destruct (pq_pop q) as [[[d x] r]|] eqn:E; [|discriminate].
  intros H. cbn [snd] in H. injection H as <- <-.
  assert (P := pq_pop_perm _ E). exists d. split.
  - eapply Permutation_in; [apply Permutation_sym; exact P|left; reflexivity].
  - intros d' id' Hi. eapply Permutation_in in Hi; [|exact P]. destruct Hi as [Hi|Hi].
    + injection Hi as <- <-. right. auto.
    + assert (W := pq_pop_max _ E _ Hi). unfold wless in W. cbn [fst snd] in W.
      destruct (N.eqb_spec d d').
      * right. split; [assumption|]. apply Nat.ltb_ge in W. exact W.
      * left. apply N.ltb_ge in W. lia.
Qed.

(** ** Potency queue *)
Definition pot_content (q : pot_t) : list nat := map snd (concat (pq_qs q)).
Definition pot_ok (q : pot_t) : Prop :=
  pq_size q = length (concat (pq_qs q)) /\
  length (pq_qs q) = (if Nat.eqb (length (pq_pots q)) 0 then 1 else length (pq_pots q)).

Lemma concat_upd : forall {A} (l : list (list A)) i c, nth_error l i = Some c ->
  forall c', exists r, Permutation (concat l) (c ++ r) /\ Permutation (concat (upd l i c')) (c' ++ r).
Proof.
  intros A. induction l as [|x l IH]; intros i c H c'; destruct i as [|i]; cbn in H; try discriminate.
  - injection H as ->. exists (concat l). split; apply Permutation_refl.
  - destruct (IH i c H c') as (r & P1 & P2). exists (x ++ r). cbn [upd concat]. split.
    + eapply perm_trans; [apply Permutation_app_head; exact P1|]. rewrite !app_assoc. apply Permutation_app_tail, Permutation_app_comm.
    + eapply perm_trans; [apply Permutation_app_head; exact P2|]. rewrite !app_assoc. apply Permutation_app_tail, Permutation_app_comm.
Qed.

Lemma pot_select_spec : forall coin pots qs t n d cur x d',
  pot_select coin pots qs t n d cur = (Some x, d') ->
  cur = Some x \/ (t <= x /\ exists c e, nth_error qs (x - t) = Some (e :: c) /\ x - t < length pots).
Proof.
  intros coin. induction pots as [|p pots IH]; intros qs t n d cur x d'; cbn.
  - intros H. injection H as -> _. auto.
  - destruct qs as [|[|e c] qs].
    + intros H. injection H as -> _. auto.
    + intros H. apply IH in H. destruct H as [H|(H1 & c & e & H2 & H3)]; [auto|]. right. split; [lia|].
      exists c, e. replace (x - t) with (S (x - S t)) by lia. split; [exact H2|simpl; lia].
    + intros H. apply IH in H. destruct H as [H|(H1 & c' & e' & H2 & H3)].
      * match goal with H : (if ?b then _ else _) = _ |- _ => destruct b end; [|auto].
        injection H as <-. right. split; [lia|]. exists c, e. rewrite Nat.sub_diag. split; [reflexivity|simpl; lia].
      * right. split; [lia|]. exists c', e'. replace (x - t) with (S (x - S t)) by lia. split; [exact H2|simpl; lia].
Qed.

(** The invariant is kept as a subset type so that the queue is a [wlist]. *)
Lemma pot_push_ok : forall q id d t, pot_ok q ->
  (exists q', pot_push q id d t = Ok q' /\ pot_ok q' /\ Permutation (pot_content q') (id :: pot_content q)) \/
  (pot_push q id d t = UB /\ exists u, t = Some u /\ length (pq_pots q) <= u).
Proof.
  intros q id d t (H1 & H2). unfold pot_push.
  assert (G : forall u pots c, length pots = length (pq_pots q) -> nth_error (pq_qs q) u = Some c ->
    let q' := mkPot (pq_draw q) (S (pq_size q)) (pq_dist q) pots (upd (pq_qs q) u ((d, id) :: c)) in
    pot_ok q' /\ Permutation (pot_content q') (id :: pot_content q)).
  { intros u pots c Hl Hc q'. destruct (concat_upd _ _ Hc ((d, id) :: c)) as (r & P1 & P2).
    assert (P : Permutation (concat (pq_qs q')) ((d, id) :: concat (pq_qs q))).
    { cbn [q' pq_qs]. eapply perm_trans; [exact P2|]. simpl. constructor. apply Permutation_sym. exact P1. }
    split.
    - split; cbn [q' pq_size pq_qs pq_pots].
      + apply Permutation_length in P. cbn [q' pq_qs] in P. rewrite P. simpl. rewrite H1. reflexivity.
      + rewrite upd_length, Hl. exact H2.
    - unfold pot_content. apply (Permutation_map snd) in P. exact P. }
  destruct t as [u|].
  - destruct (Nat.lt_ge_cases u (length (pq_pots q))) as [Hu|Hu].
    + left. destruct (nth_error_ex _ Hu) as (p & Hp). rewrite (rd_some _ _ Hp). cbn [bind].
      destruct (nth_error_ex (pq_qs q) (i := u)) as (c & Hc).
      { rewrite H2. destruct (Nat.eqb_spec (length (pq_pots q)) 0); lia. }
      rewrite (rd_some _ _ Hc). cbn [bind]. eexists. split; [reflexivity|]. apply G; [apply upd_length|exact Hc].
    + right. unfold rd at 1. rewrite (proj2 (nth_error_None _ _) Hu). cbn [bind]. eauto.
  - left. destruct (nth_error_ex (pq_qs q) (i := 0)) as (c & Hc).
    { rewrite H2. destruct (Nat.eqb_spec (length (pq_pots q)) 0); lia. }
    rewrite (rd_some _ _ Hc). cbn [bind]. eexists. split; [reflexivity|]. apply G; [reflexivity|exact Hc].
Qed.

Lemma pot_take_ok : forall q d t c e, pot_ok q -> nth_error (pq_qs q) t = Some (e :: c) ->
  exists id q', pot_take q d t = Ok (Some (id, q')) /\ pot_ok q' /\ Permutation (pot_content q) (id :: pot_content q').
Proof.
  intros q d t c e (H1 & H2) Hc. unfold pot_take. rewrite (rd_some _ _ Hc). cbn [bind].
  destruct (pq_pop (e :: c)) as [[x r]|] eqn:E; [|apply pq_pop_none in E; discriminate].
  assert (P := pq_pop_perm _ E). exists (snd x). eexists. split; [reflexivity|].
  destruct (concat_upd _ _ Hc r) as (s & P1 & P2).
  assert (PP : Permutation (concat (pq_qs q)) (x :: concat (upd (pq_qs q) t r))).
  { eapply perm_trans; [exact P1|]. eapply perm_trans; [apply Permutation_app_tail; exact P|].
    simpl. constructor. apply Permutation_sym. exact P2. }
  split.
  - split; cbn [pq_size pq_qs pq_pots]; [|rewrite upd_length; exact H2].
    apply Permutation_length in PP. simpl in PP. lia.
  - unfold pot_content. cbn [pq_qs]. apply (Permutation_map snd) in PP. exact PP.
Qed.

Lemma pot_pop_ok : forall coin q, pot_ok q ->
  (pot_pop coin q = Ok None /\ pot_content q = []) \/
  (exists id q', pot_pop coin q = Ok (Some (id, q')) /\ pot_ok q' /\ Permutation (pot_content q) (id :: pot_content q')) \/
  pot_pop coin q = UB.
Proof.
  intros coin q Hok. destruct Hok as (H1 & H2). unfold pot_pop.
  destruct (Nat.eqb_spec (pq_size q) 0) as [Hz|Hz].
  - left. split; [reflexivity|]. unfold pot_content. rewrite Hz in H1. symmetry in H1.
    apply length_zero_iff_nil in H1. rewrite H1. reflexivity.
  - destruct (pq_pots q) as [|p0 pots] eqn:Ep.
    + simpl in H2. destruct (pq_qs q) as [|c [|? ?]] eqn:Eq; try discriminate. simpl in H1. rewrite app_nil_r in H1.
      destruct c as [|e c]; [simpl in H1; lia|].
      right; left. apply (@pot_take_ok q (pq_draw q) 0 c e).
      * split; [rewrite Eq; simpl; rewrite app_nil_r; exact H1|rewrite Ep, Eq; reflexivity].
      * rewrite Eq. reflexivity.
    + rewrite <- Ep in *. destruct (pot_select coin (pq_pots q) (pq_qs q) 0 0 (pq_draw q) None) as [[t|] d] eqn:Es.
      * apply pot_select_spec in Es. destruct Es as [Es|(_ & c & e & Hn & _)]; [discriminate|].
        rewrite Nat.sub_0_r in Hn. right; left. apply (@pot_take_ok q d t c e); [split; assumption|exact Hn].
      * auto.
Qed.

Lemma pot_new_ok : forall pot0 d0, pot_ok (pot_new pot0 d0) /\ pot_content (pot_new pot0 d0) = [].
Proof.
  intros pot0 d0. unfold pot_ok, pot_content, pot_new. cbn [pq_size pq_qs pq_pots].
  assert (H : forall n, concat (repeat (@nil (N * nat)) n) = []) by (induction n; simpl; auto).
  rewrite H, repeat_length. auto.
Qed.

(** No undefined pop while the sum of all potencies fits in 32 bits and no potency is 0. *)
Lemma pot_select_some : forall coin pots qs t n d cur,
  length pots <= length qs -> (n + sumN pots < 2 ^ 32)%N -> (forall p, In p pots -> 0 < p)%N ->
  (cur <> None \/ (n = 0%N /\ exists i e c, i < length pots /\ nth_error qs i = Some (e :: c))) ->
  fst (pot_select coin pots qs t n d cur) <> None.
Proof.
  intros coin. induction pots as [|p pots IH]; intros qs t n d cur Hl Hs Hp Hc; cbn [pot_select].
  - destruct Hc as [Hc|(_ & i & e & c & Hi & _)]; [exact Hc|simpl in Hi; lia].
  - destruct qs as [|[|e c] qs]; simpl in Hl; [lia| |].
    + cbn [sumN fold_right] in Hs. apply IH; [lia| | |].
      * unfold sumN in *. simpl in Hs. lia.
      * intros q Hq. apply Hp. right; exact Hq.
      * destruct Hc as [Hc|(Hn & i & e & c & Hi & Hn')]; [auto|]. right. split; [exact Hn|].
        destruct i as [|i]; [discriminate|]. exists i, e, c. simpl in Hi. split; [lia|exact Hn'].
    + assert (Hp0 : (0 < p)%N) by (apply Hp; left; reflexivity).
      assert (Hsum : (n + p + sumN pots < 2 ^ 32)%N) by (unfold sumN in *; simpl in Hs; lia).
      rewrite (N.mod_small (n + p)) by lia.
      apply IH; [lia|exact Hsum|intros q Hq; apply Hp; right; exact Hq|]. left.
      destruct (N.eqb_spec (n + p) 0); [lia|].
      destruct (N.leb_spec (n + p) p) as [Hle|Hgt]; [discriminate|].
      destruct Hc as [Hc|(Hn & _)]; [|lia]. destruct (coin d); [discriminate|exact Hc].
Qed.

Lemma pot_pop_defined : forall coin q, pot_ok q -> (sumN (pq_pots q) < 2 ^ 32)%N ->
  (forall p, In p (pq_pots q) -> 0 < p)%N -> pot_pop coin q <> UB.
Proof.
  intros coin q Hok Hs Hp E. assert (Hok' := Hok). destruct Hok' as (H1 & H2). unfold pot_pop in E.
  destruct (Nat.eqb_spec (pq_size q) 0) as [Hz|Hz]; [discriminate|].
  destruct (pq_pots q) as [|p0 pots] eqn:Ep.
  - simpl in H2. destruct (pq_qs q) as [|c [|? ?]] eqn:Eq; try discriminate. simpl in H1. rewrite app_nil_r in H1.
    destruct c as [|e c]; [simpl in H1; lia|].
    destruct (@pot_take_ok q (pq_draw q) 0 c e Hok) as (id & q' & E' & _); [rewrite Eq; reflexivity|]. congruence.
  - rewrite <- Ep in *. destruct (pot_select coin (pq_pots q) (pq_qs q) 0 0 (pq_draw q) None) as [[t|] d] eqn:Es.
    + apply pot_select_spec in Es. destruct Es as [Es|(_ & c & e & Hn & _)]; [discriminate|].
      rewrite Nat.sub_0_r in Hn. destruct (@pot_take_ok q d t c e Hok Hn) as (id & q' & E' & _). congruence.
    + assert (X := @pot_select_some coin (pq_pots q) (pq_qs q) 0 0%N (pq_draw q) None).
      rewrite Es in X. cbn [fst] in X. apply X; auto.
      * rewrite H2. destruct (Nat.eqb_spec (length (pq_pots q)) 0); lia.
      * right. split; [reflexivity|].
        assert (Hex : exists i e c, nth_error (pq_qs q) i = Some (e :: c)).
        { clear - H1 Hz. revert H1 Hz. generalize (pq_size q). induction (pq_qs q) as [|[|e c] l IH]; intros n H1 Hz; simpl in H1; [lia| |].
          - destruct (IH n H1 Hz) as (i & e & c & Hi). exists (S i), e, c. exact Hi.
          - exists 0, e, c. reflexivity. }
        destruct Hex as (i & e & c & Hi). exists i, e, c. split; [|exact Hi].
        apply nth_error_lt in Hi. rewrite H2 in Hi. rewrite Ep in *. simpl in *. exact Hi.
Qed.

Lemma pot_bag : forall coin pot0 d0, is_bag (2 ^ 64) True (pot_list coin pot0 d0) pot_ok pot_content.
Proof.
  intros coin pot0 d0. constructor.
  - exact (pot_new_ok pot0 d0).
  - intros q id d t Hq _. destruct (@pot_push_ok q id d t Hq) as [H|(H & _)]; [left; exact H|right; auto].
  - intros q Hq. destruct (@pot_pop_ok coin q Hq) as [H|[H|H]]; auto.
Qed.

(** ** Result handler *)
Lemma printer_known : forall a sp inv bu r, r <> Unknown -> fst (printer_handle a sp inv bu r) <> Unknown /\
  snd (printer_handle a sp inv bu r) = false.
Proof.
  intros a sp inv bu r Hr. destruct r; try congruence;
  destruct a, sp, inv; try destruct bu as [[]|]; cbn; split; congruence.
Qed.
