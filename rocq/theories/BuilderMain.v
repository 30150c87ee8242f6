(** Proof of C03: the compiled net behaves as the declared one. *)
From Verif Require Import Base BaseLemmas NetSpec NetModel NetProofs BuilderModel BuilderSpec BuilderProofs BuilderCalls.
From Coq Require Import Permutation.
Set Implicit Arguments.

Definition spec_of (cs : list call) : dspec :=
  mkD (is_place cs) (is_trans cs) (init_of cs) (in_of cs) (fun p t w => In (CIn p t true w) cs)
      (fun p t => out_of cs t p) (player_of cs).

Lemma do_calls_app : forall cs1 cs2 b, do_calls b (cs1 ++ cs2) = (b' <- do_calls b cs1 ;; do_calls b' cs2).
Proof.
  induction cs1 as [|c cs1 IH]; intros cs2 b; simpl; [reflexivity|].
  destruct (do_call b c); simpl; auto.
Qed.

Lemma is_place_snoc : forall cs c p, is_place (cs ++ [c]) p <-> is_place cs p \/ declares_place p c.
Proof.
  intros cs c p. unfold is_place. rewrite Exists_app, Exists_cons, Exists_nil. tauto.
Qed.
Lemma is_trans_snoc : forall cs c p, is_trans (cs ++ [c]) p <-> is_trans cs p \/ declares_trans p c.
Proof.
  intros cs c p. unfold is_trans. rewrite Exists_app, Exists_cons, Exists_nil. tauto.
Qed.
Lemma init_of_snoc : forall cs c p, init_of (cs ++ [c]) p =
  match c with CPlace q k => if Nat.eqb q p then k else init_of cs p | _ => init_of cs p end.
Proof. intros cs c p. unfold init_of. rewrite fold_left_app. reflexivity. Qed.
Lemma in_of_snoc : forall cs c p t, in_of (cs ++ [c]) p t =
  (in_of cs p t + match c with CIn q u false w => if Nat.eqb q p && Nat.eqb u t then w else 0 | _ => 0 end)%N.
Proof. intros. unfold in_of. rewrite map_app, sumN_app. simpl. f_equal. lia. Qed.
Lemma out_of_snoc : forall cs c p t, out_of (cs ++ [c]) t p =
  (out_of cs t p + match c with COut u q w => if Nat.eqb q p && Nat.eqb u t then w else 0 | _ => 0 end)%N.
Proof. intros. unfold out_of. rewrite map_app, sumN_app. simpl. f_equal. lia. Qed.

Lemma player_of_snoc : forall cs c t, is_trans cs t -> player_of (cs ++ [c]) t = player_of cs t.
Proof.
  intros cs c t H. unfold player_of.
  assert (Hf : exists x, find (fun c0 => match c0 with CTrans u _ => Nat.eqb u t | _ => false end) cs = Some x).
  { induction H as [x l Hx|x l Hx IH]; simpl.
    - destruct x; simpl in Hx; try contradiction. subst. rewrite Nat.eqb_refl. eauto.
    - destruct x; auto. destruct (Nat.eqb name t); eauto. }
  destruct Hf as (x & Hx).
  assert (find (fun c0 => match c0 with CTrans u _ => Nat.eqb u t | _ => false end) (cs ++ [c]) = Some x).
  { clear H. revert Hx. induction cs as [|y cs IH]; simpl; [discriminate|].
    destruct (match y with CTrans u _ => Nat.eqb u t | _ => false end); auto. }
  rewrite H0, Hx. reflexivity.
Qed.
Lemma player_of_new : forall cs t pl, ~ is_trans cs t -> player_of (cs ++ [CTrans t pl]) t = pl.
Proof.
  intros cs t pl H. unfold player_of.
  assert (find (fun c0 => match c0 with CTrans u _ => Nat.eqb u t | _ => false end) (cs ++ [CTrans t pl]) = Some (CTrans t pl)).
  { induction cs as [|y cs IH]; simpl; [rewrite Nat.eqb_refl; reflexivity|].
    assert (Hy : (match y with CTrans u _ => Nat.eqb u t | _ => false end) = false).
    { destruct y; auto. apply Nat.eqb_neq. intros E. apply H. apply Exists_cons_hd. exact E. }
    rewrite Hy. apply IH. intros E. apply H. apply Exists_cons_tl. exact E. }
  rewrite H0. reflexivity.
Qed.

Lemma in_of_pos : forall cs p t, weights_pos cs ->
  ((0 < in_of cs p t)%N <-> exists w, In (CIn p t false w) cs).
Proof.
  induction cs as [|c cs IH]; intros p t Hw.
  - unfold in_of; simpl. split; [lia|]. intros (w & []).
  - inversion Hw as [|? ? Hc Hcs]; subst. specialize (IH p t Hcs).
    change (in_of (c :: cs) p t) with
      ((match c with CIn q u false w => if Nat.eqb q p && Nat.eqb u t then w else 0 | _ => 0 end) + in_of cs p t)%N.
    split.
    + intros H. destruct c as [| |q u [|] w|]; try (destruct IH as (IH & _); destruct IH as (w' & Hw'); [lia|exists w'; right; exact Hw']; fail).
      destruct (Nat.eqb_spec q p), (Nat.eqb_spec u t); simpl in H; subst;
        try (destruct IH as (IH & _); destruct IH as (w' & Hw'); [lia|exists w'; right; exact Hw']; fail).
      exists w. left; reflexivity.
    + intros (w & [->|Hin]).
      * rewrite !Nat.eqb_refl. simpl. lia.
      * assert (0 < in_of cs p t)%N by (apply IH; eauto). lia.
Qed.

Lemma calls_ok_snoc : forall cs c, calls_ok (cs ++ [c]) <-> calls_ok cs /\ call_ok cs c.
Proof.
  intros cs c. split.
  - intros H. split.
    + intros l1 x l2 E. apply (H l1 x (l2 ++ [c])). rewrite E, <- app_assoc. reflexivity.
    + apply (H cs c []). reflexivity.
  - intros (H & Hc) l1 x l2 E. destruct l2 as [|y l2] using rev_ind.
    + apply app_inj_tail in E. destruct E as (-> & ->). exact Hc.
    + rewrite app_comm_cons, app_assoc in E. apply app_inj_tail in E. destruct E as (-> & _).
      apply (H l1 x l2). reflexivity.
Qed.

Lemma add_in_auto : forall b p t inh w, index_of p (b_pnames b) = None -> index_of t (b_tnames b) <> None ->
  add_input_arc b p t inh w = add_input_arc (add_place b p 0) p t inh w.
Proof.
  intros b p t inh w Hp Ht. unfold add_input_arc. rewrite Hp.
  assert (H1 : b_tnames (add_place b p 0) = b_tnames b).
  { unfold add_place. rewrite Hp. reflexivity. }
  rewrite H1. destruct (index_of t (b_tnames b)); [|reflexivity].
  assert (H2 : exists i, index_of p (b_pnames (add_place b p 0)) = Some i).
  { unfold add_place. rewrite Hp. simpl. rewrite index_of_app, Hp. simpl. rewrite Nat.eqb_refl. eauto. }
  destruct H2 as (i & H2). rewrite H2. rewrite ?H2, ?H1. reflexivity.
Qed.
Lemma add_out_auto : forall b p t w, index_of p (b_pnames b) = None -> index_of t (b_tnames b) <> None ->
  add_output_arc b t p w = add_output_arc (add_place b p 0) t p w.
Proof.
  intros b p t w Hp Ht. unfold add_output_arc. rewrite Hp.
  assert (H1 : b_tnames (add_place b p 0) = b_tnames b).
  { unfold add_place. rewrite Hp. reflexivity. }
  rewrite H1. destruct (index_of t (b_tnames b)); [|reflexivity].
  assert (H2 : exists i, index_of p (b_pnames (add_place b p 0)) = Some i).
  { unfold add_place. rewrite Hp. simpl. rewrite index_of_app, Hp. simpl. rewrite Nat.eqb_refl. eauto. }
  destruct H2 as (i & H2). rewrite H2. rewrite ?H2, ?H1. reflexivity.
Qed.

Lemma init_of_undeclared : forall cs p, ~ is_place cs p -> init_of cs p = 0%N.
Proof.
  intros cs p. induction cs as [|c cs IH] using rev_ind; intros H; [reflexivity|].
  rewrite is_place_snoc in H. rewrite init_of_snoc. destruct c; try (apply IH; tauto).
  destruct (Nat.eqb_spec name p); [exfalso; apply H; right; simpl; congruence|apply IH; tauto].
Qed.

(** Ensuring that the place of an arc exists. *)
Definition with_place (d : dspec) (p : nat) : dspec :=
  mkD (fun q => d_place d q \/ q = p) (d_trans d) (d_init d) (d_in d) (d_inh d) (d_out d) (d_player d).

Lemma ensure_place : forall cs b p, rel (spec_of cs) b ->
  exists b1, rel (with_place (spec_of cs) p) b1 /\ b_tnames b1 = b_tnames b /\
    b1 = (match index_of p (b_pnames b) with None => add_place b p 0 | Some _ => b end).
Proof.
  intros cs b p R. eexists. split; [|split; [|reflexivity]].
  - destruct (index_of p (b_pnames b)) as [i|] eqn:E.
    + apply (rel_ext (d := spec_of cs)); [|exact R]. constructor; simpl; try reflexivity.
      intros q. split; [auto|]. intros [H| ->]; [exact H|]. apply (rl_p R).
      apply index_of_some in E. eapply nth_error_In; exact E.
    + eapply rel_ext; [|apply add_place_rel; exact R]. constructor; simpl; try reflexivity.
      intros q. unfold fset. destruct (Nat.eqb_spec q p) as [->|]; [|reflexivity].
      symmetry. apply init_of_undeclared. change (is_place cs p) with (d_place (spec_of cs) p).
      rewrite <- (rl_p R). apply index_of_none; exact E.
  - destruct (index_of p (b_pnames b)) eqn:E; [reflexivity|]. unfold add_place. rewrite E. reflexivity.
Qed.

Lemma is_trans_dec : forall cs b t, rel (spec_of cs) b -> is_trans cs t \/ (~ is_trans cs t /\ index_of t (b_tnames b) = None).
Proof.
  intros cs b t R. destruct (index_of t (b_tnames b)) as [i|] eqn:E.
  - left. apply (rl_t R). apply index_of_some in E. eapply nth_error_In; exact E.
  - right. split; [|reflexivity]. intros H. apply index_of_none in E. apply E. apply (rl_t R). exact H.
Qed.

Lemma has_inh_dec : forall cs p t, (exists w, In (CIn p t true w) cs) \/ (forall w, ~ In (CIn p t true w) cs).
Proof.
  induction cs as [|c cs IH]; intros p t; [right; intros w []|].
  destruct (IH p t) as [(w & H)|H]; [left; exists w; right; exact H|].
  destruct c as [| |q u i w|]; try (right; intros w' [E|E]; [discriminate|apply (H w' E)]; fail).
  destruct i; [|right; intros w' [E|E]; [discriminate|apply (H w' E)]].
  destruct (Nat.eq_dec q p) as [->|Hne]; [destruct (Nat.eq_dec u t) as [->|Hne]|].
  - left. exists w. left; reflexivity.
  - right. intros w' [E|E]; [congruence|apply (H w' E)].
  - right. intros w' [E|E]; [congruence|apply (H w' E)].
Qed.

Lemma calls_rel : forall cs, weights_pos cs ->
  (calls_ok cs /\ exists b, do_calls b_empty cs = Ok b /\ rel (spec_of cs) b) \/
  (~ calls_ok cs /\ do_calls b_empty cs = Throw).
Proof.
  induction cs as [|c cs IH] using rev_ind; intros Hw.
  - left. split; [intros l1 x l2 E; destruct l1; discriminate|]. exists b_empty. split; [reflexivity|].
    eapply rel_ext; [|apply rel_empty]. constructor; simpl; try tauto; try reflexivity.
    + intros p. split; [tauto|]. intros H; inversion H.
    + intros p. split; [tauto|]. intros H; inversion H.
  - apply Forall_app in Hw. destruct Hw as (Hw & Hwc). inversion Hwc as [|? ? Hc _]; subst. clear Hwc.
    rewrite calls_ok_snoc, do_calls_app.
    destruct (IH Hw) as [(Hok & b & Hb & R)|(Hbad & Hb)]; rewrite Hb; cbn [bind].
    2:{ right. split; [tauto|reflexivity]. }
    assert (Hone : forall c0, do_calls b [c0] = do_call b c0).
    { intros c0. simpl. destruct (do_call b c0); reflexivity. }
    rewrite Hone. clear Hone IH Hb.
    destruct c as [p k|t pl|p t inh w|t p w]; cbn [do_call call_ok].
    + left. split; [auto|]. eexists. split; [reflexivity|].
      eapply rel_ext; [|apply add_place_rel; exact R]. constructor; simpl; intros.
      * rewrite is_place_snoc. simpl. intuition.
      * rewrite is_trans_snoc. simpl. tauto.
      * rewrite init_of_snoc. unfold fset. rewrite Nat.eqb_sym. reflexivity.
      * rewrite in_of_snoc. lia.
      * rewrite in_app_iff. simpl. intuition discriminate.
      * rewrite out_of_snoc. lia.
      * symmetry. apply player_of_snoc; assumption.
    + left. split; [auto|]. eexists. split; [reflexivity|].
      assert (R' : rel (mkD (is_place cs) (is_trans cs) (init_of cs) (in_of cs) (fun p t w => In (CIn p t true w) cs)
                     (fun p t => out_of cs t p) (player_of (cs ++ [CTrans t pl]))) b).
      { eapply rel_ext; [|exact R]. constructor; simpl; try reflexivity.
        intros u Hu. symmetry. apply player_of_snoc; exact Hu. }
      eapply rel_ext; [|apply add_trans_rel; [exact R'|]].
      * constructor; simpl; intros.
        -- rewrite is_place_snoc. simpl. intuition.
        -- rewrite is_trans_snoc. simpl. intuition.
        -- rewrite init_of_snoc. reflexivity.
        -- rewrite in_of_snoc. lia.
        -- rewrite in_app_iff. simpl. intuition discriminate.
        -- rewrite out_of_snoc. lia.
        -- reflexivity.
      * simpl. intros Hn. apply player_of_new; exact Hn.
    + destruct (is_trans_dec t R) as [Ht|(Ht & Hi)].
      2:{ right. split; [tauto|]. unfold add_input_arc. rewrite Hi. reflexivity. }
      destruct (ensure_place p R) as (b1 & R1 & Htn & Hb1).
      assert (Heq : add_input_arc b p t inh w = add_input_arc b1 p t inh w).
      { subst b1. destruct (index_of p (b_pnames b)) eqn:E; [reflexivity|]. apply add_in_auto; [exact E|].
        intros Hn. apply index_of_none in Hn. apply Hn. apply (rl_t R). exact Ht. }
      rewrite Heq.
      assert (Hp1 : d_place (with_place (spec_of cs) p) p) by (simpl; auto).
      assert (Ht1 : d_trans (with_place (spec_of cs) p) t) by exact Ht.
      assert (Hgood : (forall w', ~ In (CIn p t (negb inh) w') cs) ->
                      (if inh then d_in (with_place (spec_of cs) p) p t = 0%N
                       else forall x, ~ d_inh (with_place (spec_of cs) p) p t x)).
      { intros Hn. destruct inh; simpl in *; [|exact Hn].
        destruct (N.eq_0_gt_0_cases (in_of cs p t)) as [E|E]; [exact E|].
        exfalso. apply in_of_pos in E; [|exact Hw]. destruct E as (w' & E). apply (Hn w' E). }
      assert (Hdec : (forall w', ~ In (CIn p t (negb inh) w') cs) \/ exists w', In (CIn p t (negb inh) w') cs).
      { destruct inh; simpl.
        - destruct (N.eq_0_gt_0_cases (in_of cs p t)) as [E|E].
          + left. intros w' Hin. assert (0 < in_of cs p t)%N by (apply in_of_pos; eauto). lia.
          + right. apply in_of_pos; assumption.
        - destruct (has_inh_dec cs p t); auto. }
      destruct Hdec as [Hn|Hn].
      * left. split; [auto|].
        destruct (@add_in_rel _ b1 p t inh w R1 Hp1 Ht1) as (b' & Hb' & R').
        { intros ->. exact Hc. }
        { apply Hgood; exact Hn. }
        exists b'. split; [exact Hb'|]. eapply rel_ext; [|exact R'].
        constructor; simpl; intros.
        -- rewrite is_place_snoc. simpl. intuition.
        -- rewrite is_trans_snoc. simpl. tauto.
        -- rewrite init_of_snoc. reflexivity.
        -- rewrite in_of_snoc. rewrite (Nat.eqb_sym p p0), (Nat.eqb_sym t t0).
           destruct inh; [rewrite andb_false_r; lia|]. simpl. rewrite andb_true_r.
           destruct ((p0 =? p) && (t0 =? t)); lia.
        -- rewrite in_app_iff. simpl. split; [intros [H|(-> & -> & -> & ->)]; auto|].
           intros [H|[H|[]]]; [auto|]. injection H as -> -> -> ->. auto.
        -- rewrite out_of_snoc. lia.
        -- symmetry. apply player_of_snoc; assumption.
      * right. split; [intros (_ & _ & H); destruct Hn as (w' & Hn); apply (H w' Hn)|].
        apply (@add_in_throw _ b1 p t inh w R1 Hp1 Ht1).
        destruct inh; simpl in *; [apply in_of_pos; assumption|exact Hn].
    + destruct (is_trans_dec t R) as [Ht|(Ht & Hi)].
      2:{ right. split; [tauto|]. unfold add_output_arc. rewrite Hi. reflexivity. }
      destruct (ensure_place p R) as (b1 & R1 & Htn & Hb1).
      assert (Heq : add_output_arc b t p w = add_output_arc b1 t p w).
      { subst b1. destruct (index_of p (b_pnames b)) eqn:E; [reflexivity|]. apply add_out_auto; [exact E|].
        intros Hn. apply index_of_none in Hn. apply Hn. apply (rl_t R). exact Ht. }
      rewrite Heq.
      assert (Hp1 : d_place (with_place (spec_of cs) p) p) by (simpl; auto).
      assert (Ht1 : d_trans (with_place (spec_of cs) p) t) by exact Ht.
      left. split; [auto|].
      destruct (@add_out_rel _ b1 p t w R1 Hp1 Ht1 Hc) as (b' & Hb' & R').
      exists b'. split; [exact Hb'|]. eapply rel_ext; [|exact R'].
      constructor; simpl; intros.
      * rewrite is_place_snoc. simpl. intuition.
      * rewrite is_trans_snoc. simpl. tauto.
      * rewrite init_of_snoc. reflexivity.
      * rewrite in_of_snoc. lia.
      * rewrite in_app_iff. simpl. intuition discriminate.
      * rewrite out_of_snoc. rewrite (Nat.eqb_sym p p0), (Nat.eqb_sym t t0).
        destruct ((p0 =? p) && (t0 =? t)); lia.
      * symmetry. apply player_of_snoc; assumption.
Qed.

(** ** From arcs to weights *)
Lemma weight_at_perm : forall l l' p, Permutation l l' -> weight_at l p = weight_at l' p.
Proof.
  intros l l' p H. induction H; rewrite ?weight_at_cons; lia.
Qed.

Lemma weight_at_fnd : forall l p, NoDup (map arc_place l) ->
  weight_at l p = match fnd p l with Some a => if arc_inhib a then 0%N else arc_weight a | None => 0%N end.
Proof.
  induction l as [|a l IH]; intros p Hnd; [reflexivity|].
  simpl in Hnd. inversion Hnd as [|? ? Hni Hnd']; subst. rewrite weight_at_cons. unfold fnd. simpl. fold (fnd p l).
  destruct (Nat.eqb_spec (arc_place a) p) as [He|Hne].
  - rewrite weight_at_notin by congruence. simpl. destruct (arc_inhib a); simpl; lia.
  - simpl. rewrite IH by exact Hnd'. reflexivity.
Qed.

Lemma weight_at_ren : forall ids l i, (forall a, In a l -> get ids (arc_place a) = get ids i -> arc_place a = i) ->
  weight_at (map (ren ids) l) (get ids i) = weight_at l i.
Proof.
  intros ids; induction l as [|a l IH]; intros i H; [reflexivity|].
  cbn [map]. rewrite !weight_at_cons. rewrite IH by (intros c Hc; apply H; right; exact Hc).
  cbn [ren arc_place arc_inhib arc_weight]. f_equal.
  destruct (Nat.eqb_spec (arc_place a) i) as [He|Hne].
  - rewrite He, Nat.eqb_refl. reflexivity.
  - destruct (Nat.eqb_spec (get ids (arc_place a)) (get ids i)) as [E|_]; [|reflexivity].
    exfalso. apply Hne. apply H; [left; reflexivity|exact E].
Qed.


(** [idx] numbers the names satisfying [P] by 0..n-1, one number per name. *)
Definition numbering (P : nat -> Prop) (n : nat) (idx : nat -> nat) : Prop :=
  (forall x, P x -> idx x < n) /\
  (forall x y, P x -> P y -> idx x = idx y -> x = y) /\
  (forall i, i < n -> exists x, P x /\ idx x = i).

Theorem builder_correct : forall cs b reorder,
  weights_pos cs -> do_calls b_empty cs = Ok b -> (exists p, is_place cs p) ->
  exists net ids tids pidx tidx,
    make_net b reorder = Ok (net, ids, tids) /\ layout net /\
    numbering (is_place cs) (cn_places net) pidx /\
    numbering (is_trans cs) (cn_ntrans net) tidx /\ dirs_ok net /\
    (forall p, is_place cs p -> exists i, index_of p (b_pnames b) = Some i /\ nth i ids None = Some (pidx p)) /\
    (forall t, is_trans cs t -> exists i, index_of t (b_tnames b) = Some i /\ nth i tids None = Some (tidx t)) /\
    length (cn_init net) = cn_places net /\
    (forall p, is_place cs p -> tokens (cn_init net) (pidx p) = init_of cs p) /\
    (forall t m m', is_trans cs t -> length m = cn_places net ->
       (step (to_pnet net) m (tidx t) m' <->
        length m' = cn_places net /\
        decl_fires cs t (fun p => tokens m (pidx p)) (fun p => tokens m' (pidx p)))) /\
    (forall t, is_trans cs t -> (exists p, 0 < in_of cs p t)%N ->
       nth_error (cn_ctrl net) (tidx t) = Some (Z.eqb (player_of cs t) 0)).
Proof.
  intros cs b reorder Hw Hb (p0 & Hp0).
  destruct (calls_rel Hw) as [(_ & b' & Hb' & R)|(_ & Ht)]; [|congruence].
  assert (b' = b) by congruence. subst b'. clear Hb'.
  assert (W := rl_wf R).
  assert (Hlp : forall i, live_p b i <-> i < length (b_pnames b)).
  { intros i. unfold live_p. rewrite <- (bw_np W). split; [tauto|]. intros Hi. split; [exact Hi|apply (rl_ps R Hi)]. }
  assert (Hlt : forall i, live_t b i <-> i < length (b_tnames b)).
  { intros i. unfold live_t. rewrite <- (bw_nt W). split; [tauto|]. intros Hi. split; [exact Hi|apply (rl_ts R Hi)]. }
  assert (Hne : live_ps b <> []).
  { apply (rl_p R) in Hp0. apply In_nth_error in Hp0. destruct Hp0 as (i & Hi).
    assert (In i (live_ps b)) by (apply in_live_ps, Hlp; eapply nth_error_lt; exact Hi).
    destruct (live_ps b); [contradiction|discriminate]. }
  destruct (make_net_ok W reorder Hne) as (net & ids & tids & es & Hmk & L & M).
  set (pidx := fun p => match index_of p (b_pnames b) with Some i => get ids i | None => 0 end).
  set (tidx := fun t => match index_of t (b_tnames b) with
                        | Some i => match index_of i es with Some k => k | None => 0 end | None => 0 end).
  assert (Hget : forall i, i < length (b_pnames b) -> nth i ids None = Some (get ids i)).
  { intros i Hi. assert (Hn := ma_all M (proj2 (Hlp i) Hi)). unfold get. destruct (nth i ids None); [reflexivity|congruence]. }
  assert (HP : forall p, is_place cs p -> exists i, index_of p (b_pnames b) = Some i /\ pidx p = get ids i /\ nth i ids None = Some (pidx p) /\ nth_error (b_pnames b) i = Some p).
  { intros p Hp. assert (Hin : In p (b_pnames b)) by (apply (rl_p R); exact Hp).
    apply In_nth_error in Hin. destruct Hin as (i & Hi). exists i.
    assert (Hii := index_of_nth _ (bw_pn W) Hi). assert (pidx p = get ids i) by (unfold pidx; rewrite Hii; reflexivity).
    split; [exact Hii|]. split; [exact H|]. split; [rewrite H; apply Hget; eapply nth_error_lt; exact Hi|exact Hi]. }
  assert (HT : forall t, is_trans cs t -> exists j, index_of t (b_tnames b) = Some j /\ nth_error es (tidx t) = Some j /\
             nth j tids None = Some (tidx t) /\ nth_error (b_tnames b) j = Some t).
  { intros t Ht. assert (Hin : In t (b_tnames b)) by (apply (rl_t R); exact Ht).
    apply In_nth_error in Hin. destruct Hin as (j & Hj). exists j.
    assert (Hjj := index_of_nth _ (bw_tn W) Hj).
    assert (Hjl : live_t b j) by (apply Hlt; eapply nth_error_lt; exact Hj).
    apply (ma_es M) in Hjl. apply In_nth_error in Hjl. destruct Hjl as (k & Hk).
    assert (Hkk := index_of_nth _ (ma_nd M) Hk).
    assert (Htk : tidx t = k) by (unfold tidx; rewrite Hjj, Hkk; reflexivity).
    rewrite Htk. split; [exact Hjj|]. split; [exact Hk|]. split; [|exact Hj].
    rewrite (ma_tids M); [exact Hkk|]. rewrite (bw_nt W). eapply nth_error_lt; exact Hj. }
  assert (Hlen_es : length es = cn_ntrans net).
  { rewrite (ma_nt M). apply Permutation_length. apply NoDup_Permutation;
      [exact (ma_nd M)|apply NoDup_filter, seq_NoDup|]. intros x. rewrite (ma_es M), in_live_ts. reflexivity. }
  assert (Hpinj : forall i k, i < length (b_pnames b) -> k < length (b_pnames b) -> get ids i = get ids k -> i = k).
  { intros i k Hi Hk E. assert (E1 := Hget i Hi). assert (E2 := Hget k Hk). rewrite E in E1.
    eapply (io_inj (ma_ids M)); eauto. }
  assert (Nump : numbering (is_place cs) (cn_places net) pidx).
  { split; [|split].
    - intros p Hp. destruct (HP p Hp) as (i & _ & _ & Hi & _). rewrite (ma_np M). apply (io_rng (ma_ids M) _ Hi).
    - intros p q Hp Hq E. destruct (HP p Hp) as (i & Hi1 & _ & Hi & Hi2). destruct (HP q Hq) as (k & Hk1 & _ & Hk & Hk2).
      rewrite E in Hi. assert (i = k) by (eapply (io_inj (ma_ids M)); eauto). congruence.
    - intros j Hj. rewrite (ma_np M) in Hj. destruct (io_sur (ma_ids M) Hj) as (i & Hi).
      destruct (io_rng (ma_ids M) _ Hi) as (_ & Hl). apply Hlp in Hl. destruct (nth_error_ex _ Hl) as (p & Hp).
      exists p. assert (Hip : is_place cs p) by (apply (rl_p R); eapply nth_error_In; exact Hp).
      split; [exact Hip|]. destruct (HP p Hip) as (i' & _ & _ & Hi' & Hp').
      assert (i' = i). { assert (X := index_of_nth _ (bw_pn W) Hp). assert (Y := index_of_nth _ (bw_pn W) Hp'). congruence. }
      subst i'. congruence. }
  assert (Numt : numbering (is_trans cs) (cn_ntrans net) tidx).
  { split; [|split].
    - intros t Ht. destruct (HT t Ht) as (j & _ & Hj & _). rewrite <- Hlen_es. eapply nth_error_lt; exact Hj.
    - intros t u Ht Hu E. destruct (HT t Ht) as (j & _ & Hj & _ & Hj'). destruct (HT u Hu) as (k & _ & Hk & _ & Hk').
      rewrite E in Hj. congruence.
    - intros k Hk. rewrite <- Hlen_es in Hk. destruct (nth_error_ex _ Hk) as (j & Hj).
      assert (Hl : live_t b j) by (apply (ma_es M); eapply nth_error_In; exact Hj).
      apply Hlt in Hl. destruct (nth_error_ex _ Hl) as (t & Ht). exists t.
      assert (Hit : is_trans cs t) by (apply (rl_t R); eapply nth_error_In; exact Ht). split; [exact Hit|].
      unfold tidx. rewrite (index_of_nth _ (bw_tn W) Ht), (index_of_nth _ (ma_nd M) Hj). reflexivity. }
  exists net, ids, tids, pidx, tidx.
  split; [exact Hmk|]. split; [exact L|]. split; [exact Nump|]. split; [exact Numt|]. split; [exact (ma_dirs M)|].
  split. { intros p Hp. destruct (HP p Hp) as (i & H1 & _ & H2 & _). eauto. }
  split. { intros t Ht. destruct (HT t Ht) as (j & H1 & _ & H2 & _). eauto. }
  split. { rewrite (ma_np M). apply (ma_init M). }
  split. { intros p Hp. destruct (HP p Hp) as (i & _ & _ & Hi & Hn). unfold tokens.
           rewrite (proj2 (ma_init M) _ _ Hi). apply (rl_init R). exact Hn. }
  split.
  2:{ intros t Ht (p & Hp). destruct (HT t Ht) as (j & _ & Hj & _ & Hjn). rewrite (ma_ctrl M _ Hj). f_equal.
      unfold ctrl_of. rewrite (rl_pl R _ Hjn). cbn [spec_of d_player].
      assert (Hip : is_place cs p).
      { apply in_of_pos in Hp; [|exact Hw]. destruct Hp as (w & Hin). apply Exists_exists. eexists. split; [exact Hin|]. reflexivity. }
      destruct (HP p Hip) as (i & _ & _ & _ & Hi).
      assert (Hpr := rl_pre R _ _ Hi Hjn). unfold pre_rel in Hpr. cbn [spec_of d_in d_inh] in Hpr.
      destruct (fnd i (bt_pre (tr_of b j))) as [a|] eqn:Ef; [|lia].
      apply fnd_some in Ef. destruct Ef as (Ha & _). destruct (arc_inhib a) eqn:Ei; [lia|].
      destruct (forallb arc_inhib (bt_pre (tr_of b j))) eqn:Ea; [|reflexivity].
      rewrite forallb_forall in Ea. specialize (Ea a Ha). congruence. }
  intros t m m' Ht Hm.
  destruct (HT t Ht) as (j & _ & Hj & _ & Hjn).
  assert (Hjl : j < length (b_trans b)) by (rewrite (bw_nt W); eapply nth_error_lt; exact Hjn).
  assert (Htl : tidx t < cn_ntrans net) by (apply Numt; exact Ht).
  assert (P1 := ma_pre M _ Hj). assert (P2 := ma_post M _ Hj).
  assert (Hplaces : forall a, In a (bt_pre (tr_of b j)) -> arc_place a < length (b_pnames b)).
  { intros a Ha. apply Hlp. apply (bw_pre W a Hjl Ha). }
  assert (Hplaces' : forall a, In a (bt_post (tr_of b j)) -> arc_place a < length (b_pnames b)).
  { intros a Ha. apply Hlp. apply (bw_post W a Hjl Ha). }
  assert (Win : forall p, is_place cs p -> weight_at (tr_pre (net_trans net (tidx t))) (pidx p) = in_of cs p t).
  { intros p Hp. destruct (HP p Hp) as (i & _ & Epi & _ & Hi). rewrite Epi, (weight_at_perm _ P1).
    assert (Hil := nth_error_lt _ _ Hi).
    rewrite weight_at_ren by (intros a Ha E; apply Hpinj; auto).
    rewrite weight_at_fnd by apply (bw_ndpre W Hjl).
    assert (Hpr := rl_pre R _ _ Hi Hjn). unfold pre_rel in Hpr. cbn [spec_of d_in d_inh] in Hpr.
    destruct (fnd i (bt_pre (tr_of b j))) as [a|]; [destruct (arc_inhib a)|]; destruct Hpr as (-> & _); reflexivity. }
  assert (Wout : forall p, is_place cs p -> weight_at (tr_post (net_trans net (tidx t))) (pidx p) = out_of cs t p).
  { intros p Hp. destruct (HP p Hp) as (i & _ & Epi & _ & Hi). rewrite Epi, (weight_at_perm _ P2).
    assert (Hil := nth_error_lt _ _ Hi).
    rewrite weight_at_ren by (intros a Ha E; apply Hpinj; auto).
    rewrite weight_at_fnd by apply (bw_ndpost W Hjl).
    assert (Hpr := rl_post R _ _ Hi Hjn). unfold post_rel in Hpr. cbn [spec_of d_out] in Hpr.
    destruct (fnd i (bt_post (tr_of b j))) as [a|] eqn:Ef; [|symmetry; exact Hpr].
    apply fnd_some in Ef. destruct Ef as (Ha & _). destruct (bw_post W a Hjl Ha) as (_ & -> & _). symmetry; exact Hpr. }
  assert (Hund : forall p, ~ is_place cs p -> in_of cs p t = 0%N /\ forall w, ~ In (CIn p t true w) cs).
  { intros p Hp. destruct (rl_nop R p t Hp) as (H1 & _ & H2). auto. }
  assert (Hpdec : forall p, is_place cs p \/ ~ is_place cs p).
  { intros p. change (is_place cs p) with (d_place (spec_of cs) p). rewrite <- (rl_p R).
    destruct (in_dec Nat.eq_dec p (b_pnames b)); auto. }
  assert (Hen : enabled (net_trans net (tidx t)) m <-> decl_enabled cs t (fun p => tokens m (pidx p))).
  { split.
    - intros En p. destruct (Hpdec p) as [Hp|Hp].
      2:{ destruct (Hund p Hp) as (-> & H2). split; [lia|]. intros w Hin. exfalso. apply (H2 w Hin). }
      destruct (HP p Hp) as (i & _ & Epi & _ & Hi).
      assert (Hpr := rl_pre R _ _ Hi Hjn). unfold pre_rel in Hpr. cbn [spec_of d_in d_inh] in Hpr.
      destruct (fnd i (bt_pre (tr_of b j))) as [a|] eqn:Ef.
      2:{ destruct Hpr as (-> & H2). split; [lia|]. intros w Hin. exfalso. apply (H2 w Hin). }
      apply fnd_some in Ef. destruct Ef as (Ha & Hap).
      assert (Hok : arc_ok m (ren ids a)).
      { apply En. eapply Permutation_in; [apply Permutation_sym; exact P1|]. apply in_map; exact Ha. }
      unfold arc_ok in Hok. cbn [ren arc_place arc_weight arc_inhib] in Hok. rewrite Hap, <- Epi in Hok.
      destruct (arc_inhib a).
      + destruct Hpr as (-> & _ & H2). split; [lia|]. apply H2. exact Hok.
      + destruct Hpr as (-> & _ & H2). split; [exact Hok|]. intros w Hin. exfalso. apply (H2 w Hin).
    - intros De x Hx. eapply Permutation_in in Hx; [|exact P1]. apply in_map_iff in Hx.
      destruct Hx as (a & <- & Ha). assert (Hil := Hplaces a Ha). destruct (nth_error_ex _ Hil) as (p & Hp).
      assert (Hip : is_place cs p) by (apply (rl_p R); eapply nth_error_In; exact Hp).
      destruct (HP p Hip) as (i & _ & Epi & _ & Hi).
      assert (i = arc_place a). { assert (X := index_of_nth _ (bw_pn W) Hp). assert (Y := index_of_nth _ (bw_pn W) Hi). congruence. }
      subst i. destruct (De p) as (D1 & D2).
      assert (Hpr := rl_pre R _ _ Hi Hjn). unfold pre_rel in Hpr. cbn [spec_of d_in d_inh] in Hpr.
      assert (Hf : fnd (arc_place a) (bt_pre (tr_of b j)) = Some a).
      { assert (Hnd := bw_ndpre W Hjl). revert Ha Hnd. generalize (bt_pre (tr_of b j)) as l.
        induction l as [|y l IH]; simpl; [tauto|]. intros [->|Ha] Hnd.
        - unfold fnd. simpl. rewrite Nat.eqb_refl. reflexivity.
        - inversion Hnd as [|? ? Hni Hnd']; subst. unfold fnd. simpl. fold (fnd (arc_place a) l).
          destruct (Nat.eqb_spec (arc_place y) (arc_place a)) as [E|_]; [|apply IH; assumption].
          exfalso. apply Hni. rewrite E. apply in_map; exact Ha. }
      rewrite Hf in Hpr. unfold arc_ok. cbn [ren arc_place arc_weight arc_inhib]. rewrite <- Epi.
      destruct (arc_inhib a).
      + destruct Hpr as (_ & _ & H2). apply H2. exact D2.
      + destruct Hpr as (<- & _). exact D1. }
  split.
  - intros (tr & Htr & En & Hl & Hf). apply net_trans_inv in Htr. destruct Htr as (_ & ->).
    split; [congruence|]. split; [apply Hen; exact En|]. intros p Hp.
    assert (Hpl : pidx p < length m) by (rewrite Hm; apply Nump; exact Hp).
    destruct (Hf _ Hpl) as (_ & E). rewrite Win, Wout in E by exact Hp. exact E.
  - intros (Hl & De & Hf). exists (net_trans net (tidx t)).
    split; [apply net_trans_in; exact Htl|]. split; [apply Hen; exact De|]. split; [congruence|].
    intros k Hk. rewrite Hm in Hk. destruct (proj2 (proj2 Nump) k Hk) as (p & Hp & <-).
    rewrite Win, Wout by exact Hp. split; [apply (De p)|apply Hf; exact Hp].
Qed.

Lemma builder_accepts : forall cs, weights_pos cs ->
  (calls_ok cs /\ exists b, do_calls b_empty cs = Ok b) \/
  (~ calls_ok cs /\ do_calls b_empty cs = Throw).
Proof.
  intros cs Hw. destruct (calls_rel Hw) as [(H & b & Hb & _)|H]; [left|right; exact H].
  split; [exact H|]. exists b; exact Hb.
Qed.

Theorem builder_sorted : forall cs b reorder net ids tids,
  weights_pos cs -> do_calls b_empty cs = Ok b -> (exists p, is_place cs p) ->
  make_net b reorder = Ok (net, ids, tids) -> sorted_arcs net.
Proof.
  intros cs b reorder net0 ids0 tids0 Hw Hb (p0 & Hp0) Hmk0.
  destruct (calls_rel Hw) as [(_ & b' & Hb' & R)|(_ & Ht)]; [|congruence].
  assert (b' = b) by congruence. subst b'. clear Hb'.
  assert (W := rl_wf R).
  assert (Hne : live_ps b <> []).
  { apply (rl_p R) in Hp0. apply In_nth_error in Hp0. destruct Hp0 as (i & Hi).
    assert (In i (live_ps b)).
    { apply in_live_ps. assert (Hl : i < length (b_pnames b)) by (eapply nth_error_lt; exact Hi). unfold live_p. rewrite (bw_np W). split; [exact Hl|]. apply (rl_ps R). rewrite ?(bw_np W). exact Hl. }
    destruct (live_ps b); [contradiction|discriminate]. }
  destruct (make_net_ok W reorder Hne) as (net & ids & tids & es & Hmk & L & M).
  rewrite Hmk in Hmk0. injection Hmk0 as <- <- <-. exact (ma_sorted M).
Qed.
