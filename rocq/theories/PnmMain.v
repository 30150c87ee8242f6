(** The net of a PNML file (C43). *)
From Coq Require Import Ascii String.
From Verif Require Import Base XqModel NetSpec NetModel BuilderModel BuilderSpec BuilderMain PnmModel PnmSpec PnmProofs.
Local Open Scope string_scope.

(** ** The state after all items *)
Definition places_in (l : list item) : list (string * N) := flat_map (fun i => match i with IPlace p n => [(p, n)] | _ => [] end) l.
Definition trans_in (l : list item) : list xtrans := flat_map (fun i => match i with ITrans t pl => [mkXT t pl] | _ => [] end) l.
Definition arcs_in (l : list item) : list xarc := flat_map (fun i => match i with IArc a b w i => [mkXA a b (Z.of_N w) (Some i)] | _ => [] end) l.
Definition names_in (l : list item) : list (string * bool) := flat_map (fun i => match i with IPlace p _ => [(p, true)] | ITrans t _ => [(t, false)] | _ => [] end) l.
Lemma put_all : forall l s, fold_left put l s =
  mkP (p_places s ++ places_in l) (rev (names_in l) ++ p_names s) (p_arcs s ++ arcs_in l) (p_trans s ++ trans_in l).
Proof.
  induction l as [|i l IH]; intros s; cbn [fold_left].
  - unfold places_in, names_in, arcs_in, trans_in. cbn [flat_map rev app]. rewrite !app_nil_r. destruct s; reflexivity.
  - rewrite IH. unfold places_in, names_in, arcs_in, trans_in. destruct i; cbn [put flat_map app p_places p_names p_arcs p_trans rev];
      rewrite <- ?app_assoc; reflexivity.
Qed.

Section Read.
  Variable nm : string -> nat.
  Hypothesis Inj : forall a b, nm a = nm b -> a = b.

  (** ** The calls *)
  Definition place_call (p : string * N) : call := CPlace (nm (fst p)) (snd p).
  Definition trans_call (t : xtrans) : call := CTrans (nm (xt_id t)) (xt_player t).
  Definition arc_call (names : list (string * bool)) (a : xarc) : list call :=
    match lookup names (xa_source a), lookup names (xa_target a) with
    | Some true, Some false => match xa_inhib a with Some i => [CIn (nm (xa_source a)) (nm (xa_target a)) i (to_u32 (xa_weight a))] | None => [] end
    | Some false, Some true => [COut (nm (xa_source a)) (nm (xa_target a)) (to_u32 (xa_weight a))]
    | _, _ => []
    end.
  Lemma do_calls_app : forall l1 l2 b, do_calls b (l1 ++ l2) = (b' <- do_calls b l1 ;; do_calls b' l2).
  Proof. induction l1 as [|c l1 IH]; intros l2 b; cbn [app do_calls bind]; auto. destruct (do_call b c); cbn [bind]; auto. Qed.
  Lemma places_calls : forall l b, do_calls b (map place_call l) = Ok (fold_left (fun b p => add_place b (nm (fst p)) (snd p)) l b).
  Proof. induction l as [|p l IH]; intros b; cbn [map do_calls fold_left]; auto. unfold place_call at 1. cbn [do_call bind]. apply IH. Qed.
  Lemma trans_calls : forall l b, do_calls b (map trans_call l) = Ok (fold_left (fun b t => add_transition b (nm (xt_id t)) (xt_player t)) l b).
  Proof. induction l as [|p l IH]; intros b; cbn [map do_calls fold_left]; auto. unfold trans_call at 1. cbn [do_call bind]. apply IH. Qed.
  Lemma arcs_calls : forall names l b, (forall a, In a l -> xa_inhib a <> None) -> add_arcs nm names l b = do_calls b (flat_map (arc_call names) l).
  Proof.
    intros names. induction l as [|a l IH]; intros b H; cbn [add_arcs flat_map do_calls]; auto. rewrite do_calls_app. unfold arc_call at 1.
    destruct (xa_inhib a) as [i|] eqn:E; [|exfalso; exact (H a (or_introl eq_refl) E)].
    assert (H' : forall a, In a l -> xa_inhib a <> None) by (intros; apply H; right; auto).
    destruct (lookup names (xa_source a)) as [[]|]; destruct (lookup names (xa_target a)) as [[]|]; cbn [do_calls do_call bind]; auto.
    - destruct (add_input_arc b (nm (xa_source a)) (nm (xa_target a)) i (to_u32 (xa_weight a))); cbn [bind]; auto.
    - destruct (add_output_arc b (nm (xa_source a)) (nm (xa_target a)) (to_u32 (xa_weight a))); cbn [bind]; auto.
  Qed.

  Definition item_call_at (names : list (string * bool)) (i : item) : list call :=
    match i with IArc a b w i => arc_call names (mkXA a b (Z.of_N w) (Some i)) | _ => [] end.
  Lemma arcs_items_at : forall L l, flat_map (arc_call L) (arcs_in l) = flat_map (item_call_at L) l.
  Proof.
    unfold arcs_in. intros L. induction l as [|i l' IH]; auto. cbn [flat_map]. rewrite flat_map_app, IH.
    f_equal. destruct i; cbn [flat_map item_call_at]; rewrite ?app_nil_r; reflexivity.
  Qed.
  Section Items.
    Variable l : list item.
    Hypothesis OK : net_ok l.
    Hypothesis WT : forall a b w i, In (IArc a b w i) l -> (0 < w < 2 ^ 31)%N.
    Definition names : list (string * bool) := rev (names_in l) ++ [].
    Definition item_call : item -> list call := item_call_at names.
    Definition calls : list call := (map place_call (places_in l) ++ map trans_call (trans_in l) ++ flat_map item_call l)%list.

    Lemma ids_names : ids l = map fst (names_in l).
    Proof.
      unfold ids, names_in. clear. induction l as [|i l' IH]; auto. cbn [flat_map]. rewrite map_app, IH. destruct i; reflexivity.
    Qed.
    Lemma in_names : forall s (b : bool), In (s, b) (names_in l) <-> (if b then is_pl l s else is_tr l s).
    Proof.
      intros s b. unfold names_in. rewrite in_flat_map. split.
      - intros (i & I & H). destruct i as [p n|t pl|]; cbn [In] in H; [| |contradiction]; destruct H as [E|[]]; injection E as -> <-.
        + exists n. exact I.
        + exists pl. exact I.
      - destruct b; intros (n & H); eexists; (split; [exact H|left; reflexivity]).
    Qed.
    Lemma nodup_names : NoDup (map fst names).
    Proof.
      unfold names. rewrite app_nil_r, map_rev. apply NoDup_rev. rewrite <- ids_names. exact (proj1 OK).
    Qed.
    Lemma lookup_in : forall L s b, NoDup (map fst L) -> In (s, b) L -> lookup L s = Some b.
    Proof.
      induction L as [|(s0, b0) L IH]; intros s b N1 H; [contradiction|]. unfold lookup. cbn [find fst map] in *. inversion N1 as [|? ? N2 N3 Eq1]. subst.
      destruct (String.eqb_spec s0 s) as [->|D].
      - destruct H as [E|H]; [injection E as <-; reflexivity|]. exfalso. apply N2. apply in_map_iff. exists (s, b). auto.
      - destruct H as [E|H]; [injection E as -> _; contradiction|]. apply IH; auto.
    Qed.
    Lemma lookup_names : forall s (b : bool), (if b then is_pl l s else is_tr l s) -> lookup names s = Some b.
    Proof. intros s b H. apply lookup_in; [apply nodup_names|]. unfold names. rewrite app_nil_r. apply -> in_rev. apply in_names. exact H. Qed.
    Lemma pl_not_tr : forall s, is_pl l s -> is_tr l s -> False.
    Proof. intros s A B. pose proof (lookup_names s true A) as E1. pose proof (lookup_names s false B) as E2. congruence. Qed.
    Lemma u32_w : forall a b w i, In (IArc a b w i) l -> to_u32 (Z.of_N w) = w.
    Proof.
      intros a b w i H. apply WT in H. change (2 ^ 31)%N with 2147483648%N in H. unfold to_u32.
      rewrite Z.mod_small by (change (2 ^ 32)%Z with 4294967296%Z; lia). apply N2Z.id.
    Qed.
    Lemma arc_items : forall a b w i, In (IArc a b w i) l ->
      item_call (IArc a b w i) = [CIn (nm a) (nm b) i w] /\ is_pl l a /\ is_tr l b \/
      item_call (IArc a b w i) = [COut (nm a) (nm b) w] /\ is_tr l a /\ is_pl l b /\ i = false.
    Proof.
      intros a b w i H. destruct OK as (_ & A & _). unfold item_call, item_call_at, arc_call. cbn [xa_source xa_target xa_weight xa_inhib]. rewrite (u32_w _ _ _ _ H).
      destruct (A _ _ _ _ H) as [(P & T)|(T & P & I)].
      - left. rewrite (lookup_names a true P), (lookup_names b false T). auto.
      - right. rewrite (lookup_names a false T), (lookup_names b true P). auto.
    Qed.

    Lemma sum_app : forall a b, sumN (a ++ b) = (sumN a + sumN b)%N.
    Proof. induction a as [|x a IH]; intros b; cbn [app sumN]; [lia|]. rewrite IH. lia. Qed.
    Lemma in_calls : forall c, In c calls <->
      (exists p n, In (IPlace p n) l /\ c = CPlace (nm p) n) \/ (exists t pl, In (ITrans t pl) l /\ c = CTrans (nm t) pl) \/
      (exists a b w i, In (IArc a b w i) l /\ In c (item_call (IArc a b w i))).
    Proof.
      intros c. unfold calls. rewrite !in_app_iff, !in_map_iff, in_flat_map. split.
      - intros [(x & E & H)|[(x & E & H)|(x & H & E)]].
        + unfold places_in in H. apply in_flat_map in H as (i & I & H). destruct i as [p n| |]; cbn [In] in H; try contradiction. destruct H as [<-|[]]. left. exists p, n. split; auto.
        + unfold trans_in in H. apply in_flat_map in H as (i & I & H). destruct i as [|t pl|]; cbn [In] in H; try contradiction. destruct H as [<-|[]]. right. left. exists t, pl. split; auto.
        + destruct x as [| |a b w i]; try contradiction E. right. right. exists a, b, w, i. auto.
      - intros [(p & n & H & ->)|[(t & pl & H & ->)|(a & b & w & i & H & E)]].
        + left. exists (p, n). split; auto. unfold places_in. apply in_flat_map. exists (IPlace p n). split; [auto|left; auto].
        + right. left. exists (mkXT t pl). split; auto. unfold trans_in. apply in_flat_map. exists (ITrans t pl). split; [auto|left; auto].
        + right. right. exists (IArc a b w i). auto.
    Qed.
    Lemma in_in : forall q u i w, In (CIn q u i w) calls -> exists p t, q = nm p /\ u = nm t /\ In (IArc p t w i) l /\ is_pl l p /\ is_tr l t.
    Proof.
      intros q u i w H. apply in_calls in H as [(p & n & _ & E)|[(t & pl & _ & E)|(a & b & w' & i' & H & E)]]; try discriminate E.
      destruct (arc_items _ _ _ _ H) as [(Q & P & T)|(Q & _)]; rewrite Q in E; destruct E as [E|[]]; [|discriminate E]. injection E as <- <- <- <-. exists a, b. auto.
    Qed.
    Lemma in_out : forall q u w, In (COut u q w) calls -> exists t p, q = nm p /\ u = nm t /\ In (IArc t p w false) l /\ is_pl l p /\ is_tr l t.
    Proof.
      intros q u w H. apply in_calls in H as [(p & n & _ & E)|[(t & pl & _ & E)|(a & b & w' & i' & H & E)]]; try discriminate E.
      destruct (arc_items _ _ _ _ H) as [(Q & _)|(Q & P & T & I)]; rewrite Q in E; destruct E as [E|[]]; [discriminate E|]. injection E as <- <- <-. subst i'. exists a, b. auto.
    Qed.
    Lemma place_iff : forall q, is_place calls q <-> exists p, q = nm p /\ is_pl l p.
    Proof.
      intros q. unfold is_place. rewrite Exists_exists. split.
      - intros (c & C & D). destruct c as [a k|t pl|a t i w|t a w]; cbn [declares_place] in D; try contradiction; subst q.
        + apply in_calls in C as [(p & n & H & E)|[(t & pl & _ & E)|(x & y & w & i & H & E)]]; try discriminate E.
          * injection E as -> ->. exists p. split; auto. exists n; auto.
          * destruct (arc_items _ _ _ _ H) as [(Q & _)|(Q & _)]; rewrite Q in E; destruct E as [E|[]]; discriminate E.
        + apply in_in in C as (p & u & -> & _ & _ & P & _). eauto.
        + apply in_out in C as (u & p & -> & _ & _ & P & _). eauto.
      - intros (p & -> & (n & H)). exists (CPlace (nm p) n). split; [|reflexivity]. apply in_calls. left. exists p, n. auto.
    Qed.
    Lemma trans_iff : forall q, is_trans calls q <-> exists t, q = nm t /\ is_tr l t.
    Proof.
      intros q. unfold is_trans. rewrite Exists_exists. split.
      - intros (c & C & D). destruct c as [a k|t pl|a t i w|t a w]; cbn [declares_trans] in D; try contradiction. subst q.
        apply in_calls in C as [(p & n & H & E)|[(t' & pl' & H & E)|(x & y & w & i & H & E)]]; try discriminate E.
        + injection E as -> ->. exists t'. split; auto. exists pl'; auto.
        + destruct (arc_items _ _ _ _ H) as [(Q & _)|(Q & _)]; rewrite Q in E; destruct E as [E|[]]; discriminate E.
      - intros (t & -> & (pl & H)). exists (CTrans (nm t) pl). split; [|reflexivity]. apply in_calls. right. left. exists t, pl. auto.
    Qed.
    Lemma nm_eqb : forall a b, Nat.eqb (nm a) (nm b) = String.eqb a b.
    Proof. intros a b. destruct (String.eqb_spec a b) as [->|D]; [apply Nat.eqb_refl|]. apply Nat.eqb_neq. intros E. apply D, Inj, E. Qed.
    Lemma sum_calls : forall f : call -> N, (forall p n, f (CPlace p n) = 0%N) -> (forall t pl, f (CTrans t pl) = 0%N) ->
      sumN (map f calls) = sumN (map f (flat_map item_call l)).
    Proof.
      intros f F1 F2. unfold calls. rewrite !map_app, !sum_app.
      assert (Z1 : forall L, sumN (map f (map place_call L)) = 0%N) by (induction L as [|x L IH]; auto; cbn [map sumN]; unfold place_call at 1; rewrite F1, IH; auto).
      assert (Z2 : forall L, sumN (map f (map trans_call L)) = 0%N) by (induction L as [|x L IH]; auto; cbn [map sumN]; unfold trans_call at 1; rewrite F2, IH; auto).
      rewrite Z1, Z2. reflexivity.
    Qed.
    Lemma sum_items : forall (f : call -> N) (g : item -> N) L, (forall i, In i L -> sumN (map f (item_call i)) = g i) ->
      sumN (map f (flat_map item_call L)) = sumN (map g L).
    Proof.
      intros f g. induction L as [|i L IH]; intros H; auto. cbn [flat_map map sumN]. rewrite map_app, sum_app, H by (left; auto). rewrite IH; auto. intros; apply H; right; auto.
    Qed.
    Lemma in_of_eq : forall p t, is_pl l p -> in_of calls (nm p) (nm t) = arcs_between l p t.
    Proof.
      intros p t P. unfold in_of. rewrite sum_calls by reflexivity. unfold arcs_between. apply sum_items. intros i I. destruct i as [| |a b w i]; auto.
      destruct (arc_items _ _ _ _ I) as [(Q & _)|(Q & T & _ & ->)]; rewrite Q; cbn [map sumN].
      - destruct i; [reflexivity|]. rewrite !nm_eqb. destruct (String.eqb a p && String.eqb b t); lia.
      - destruct (String.eqb_spec a p) as [->|]; [exfalso; exact (pl_not_tr p P T)|reflexivity].
    Qed.
    Lemma out_of_eq : forall p t, is_pl l p -> out_of calls (nm t) (nm p) = arcs_between l t p.
    Proof.
      intros p t P. unfold out_of. rewrite sum_calls by reflexivity. unfold arcs_between. apply sum_items. intros i I. destruct i as [| |a b w i]; auto.
      destruct (arc_items _ _ _ _ I) as [(Q & A & T)|(Q & T & _ & ->)]; rewrite Q; cbn [map sumN].
      - destruct i; [reflexivity|]. destruct (String.eqb_spec b p) as [->|]; [exfalso; exact (pl_not_tr p P T)|]. rewrite andb_false_r. reflexivity.
      - rewrite !nm_eqb, andb_comm. destruct (String.eqb a t && String.eqb b p); lia.
    Qed.
    Lemma in_of_zero : forall q u, (forall w, ~ In (CIn q u false w) calls) -> in_of calls q u = 0%N.
    Proof.
      intros q u. unfold in_of. induction calls as [|c cs IH]; intros H; auto. cbn [map sumN]. rewrite IH by (intros w W; apply (H w); right; auto).
      destruct c as [| |a t i w|]; auto. destruct i; auto. destruct (Nat.eqb_spec a q) as [->|]; auto. destruct (Nat.eqb_spec t u) as [->|]; auto.
      exfalso. apply (H w). left. auto.
    Qed.
    Lemma fires_iff : forall t M M', decl_fires calls (nm t) M M' <-> item_fires l t (fun p => M (nm p)) (fun p => M' (nm p)).
    Proof.
      intros t M M'. unfold decl_fires, decl_enabled, item_fires. split.
      - intros (E & F). split.
        + intros p P. destruct (E (nm p)) as (E1 & E2). rewrite (in_of_eq p t P) in E1. split; auto. intros w W. apply E2. apply in_calls. right. right. exists p, t, w, true. split; auto.
          destruct (arc_items _ _ _ _ W) as [(Q & _)|(_ & _ & _ & D)]; [rewrite Q; left; auto|discriminate D].
        + intros p P. rewrite F by (apply place_iff; eauto). rewrite in_of_eq, out_of_eq by auto. reflexivity.
      - intros (E & F). split.
        + intros q. split.
          * destruct (N.eq_dec (in_of calls q (nm t)) 0) as [Z|NZ]; [rewrite Z; lia|].
            assert (X : exists p, q = nm p /\ is_pl l p).
            { unfold in_of in NZ. assert (Y : exists w, In (CIn q (nm t) false w) calls).
              { revert NZ. generalize calls. clear. intros cs. induction cs as [|c cs IH]; cbn [map sumN]; [congruence|]. intros NZ.
                destruct c as [| |a u i w|]; try (destruct IH as (w' & W); [exact NZ|exists w'; right; exact W]).
                destruct i; [destruct IH as (w' & W); [exact NZ|exists w'; right; exact W]|].
                destruct (Nat.eqb_spec a q) as [->|]; [|destruct IH as (w' & W); [exact NZ|exists w'; right; exact W]].
                destruct (Nat.eqb_spec u (nm t)) as [->|]; [|destruct IH as (w' & W); [exact NZ|exists w'; right; exact W]].
                exists w. left. auto. }
              destruct Y as (w & Y). apply in_in in Y as (p & u & -> & _ & _ & P & _). eauto. }
            destruct X as (p & -> & P). rewrite (in_of_eq p t P). apply E, P.
          * intros w W. apply in_in in W as (p & u & -> & U & W & P & _). apply Inj in U. subst u. exact (proj2 (E p P) w W).
        + intros q Q. apply place_iff in Q as (p & -> & P). rewrite in_of_eq, out_of_eq by auto. apply F, P.
    Qed.
    Lemma place_once : forall L p n n', NoDup (ids L) -> In (IPlace p n) L -> In (IPlace p n') L -> n = n'.
    Proof.
      induction L as [|i L IH]; intros p n n' N1 A B; [contradiction|]. cbn [ids flat_map] in N1. change (flat_map _ L) with (ids L) in N1.
      assert (X : forall k, In (IPlace p k) L -> In p (ids L)) by (intros k K; unfold ids; apply in_flat_map; exists (IPlace p k); split; [auto|left; auto]).
      destruct A as [->|A], B as [E|B].
      - congruence.
      - exfalso. inversion N1; subst. eauto.
      - subst i. exfalso. inversion N1; subst. eauto.
      - destruct i; try (inversion N1; subst); eapply IH; eauto.
    Qed.
    Lemma trans_once : forall L t n n', NoDup (ids L) -> In (ITrans t n) L -> In (ITrans t n') L -> n = n'.
    Proof.
      induction L as [|i L IH]; intros p n n' N1 A B; [contradiction|]. cbn [ids flat_map] in N1. change (flat_map _ L) with (ids L) in N1.
      assert (X : forall k, In (ITrans p k) L -> In p (ids L)) by (intros k K; unfold ids; apply in_flat_map; exists (ITrans p k); split; [auto|left; auto]).
      destruct A as [->|A], B as [E|B].
      - congruence.
      - exfalso. inversion N1; subst. eauto.
      - subst i. exfalso. inversion N1; subst. eauto.
      - destruct i; try (inversion N1; subst); eapply IH; eauto.
    Qed.
    Lemma init_eq : forall p n, In (IPlace p n) l -> init_of calls (nm p) = n.
    Proof.
      intros p n H.
      assert (U : forall k, In (CPlace (nm p) k) calls -> k = n).
      { intros k K. apply in_calls in K as [(p' & n' & H' & E)|[(t & pl & _ & E)|(x & y & w & i & H' & E)]]; try discriminate E.
        - injection E as E ->. apply Inj in E. subst p'. eapply place_once; [exact (proj1 OK)|exact H'|exact H].
        - destruct (arc_items _ _ _ _ H') as [(Q & _)|(Q & _)]; rewrite Q in E; destruct E as [E|[]]; discriminate E. }
      assert (G : forall cs acc, (forall k, In (CPlace (nm p) k) cs -> k = n) -> (exists k, In (CPlace (nm p) k) cs) \/ acc = n ->
        fold_left (fun acc c => match c with CPlace q k => if Nat.eqb q (nm p) then k else acc | _ => acc end) cs acc = n).
      { induction cs as [|c cs IH]; intros acc A B; cbn [fold_left].
        - destruct B as [(k & [])|B]; auto.
        - apply IH; [intros k K; apply A; right; auto|]. destruct c as [q k| | |]; try (destruct B as [(k' & [E|B])|B]; [discriminate E|left; eauto|right; auto]).
          destruct (Nat.eqb_spec q (nm p)) as [->|D]; [right; apply A; left; auto|]. destruct B as [(k' & [E|B])|B]; [injection E as -> _; contradiction|left; eauto|right; auto]. }
      unfold init_of. apply G; auto. left. exists n. apply in_calls. left. exists p, n. auto.
    Qed.
    Lemma player_eq : forall t pl, In (ITrans t pl) l -> player_of calls (nm t) = pl.
    Proof.
      intros t pl H. unfold player_of. destruct (find _ calls) as [c|] eqn:F.
      - apply find_some in F as (I & E). destruct c as [|u pl'| |]; try discriminate E. apply Nat.eqb_eq in E. subst u.
        apply in_calls in I as [(p' & n' & _ & E)|[(t' & pl2 & H' & E)|(x & y & w & i & H' & E)]]; try discriminate E.
        + injection E as E ->. apply Inj in E. subst t'. eapply trans_once; [exact (proj1 OK)|exact H'|exact H].
        + destruct (arc_items _ _ _ _ H') as [(Q & _)|(Q & _)]; rewrite Q in E; destruct E as [E|[]]; discriminate E.
      - exfalso. assert (I : In (CTrans (nm t) pl) calls) by (apply in_calls; right; left; exists t, pl; auto).
        pose proof (find_none _ _ F _ I) as E. cbn in E. rewrite Nat.eqb_refl in E. discriminate E.
    Qed.
    Lemma weights_ok : weights_pos calls.
    Proof.
      unfold weights_pos. apply Forall_forall. intros c C. destruct c as [| |q u i w|u q w]; auto.
      - destruct i; auto. apply in_in in C as (p & t & _ & _ & H & _). apply WT in H. lia.
      - apply in_out in C as (t & p & _ & _ & H & _). apply WT in H. lia.
    Qed.
    Lemma split_after : forall (A B l1 : list call) c l2, (A ++ B)%list = (l1 ++ c :: l2)%list -> ~ In c A -> exists r, l1 = (A ++ r)%list.
    Proof.
      induction A as [|a A IH]; intros B l1 c l2 E H; [exists l1; auto|]. destruct l1 as [|x l1]; cbn [app] in E.
      - injection E as -> _. exfalso. apply H. left; auto.
      - injection E as -> E. destruct (IH _ _ _ _ E) as (r & ->); [intros I; apply H; right; auto|]. exists r. reflexivity.
    Qed.
    Lemma calls_fine : calls_ok calls.
    Proof.
      intros l1 c l2 E. assert (C : In c calls) by (rewrite E; apply in_or_app; right; left; auto).
      assert (TR : forall t, (forall p n, c <> CPlace p n) -> (forall u pl, c <> CTrans u pl) -> is_tr l t -> is_trans l1 (nm t)).
      { intros t N1 N2 (pl & T). unfold calls in E. rewrite app_assoc in E.
        destruct (split_after _ _ _ _ _ E) as (r & ->).
        - rewrite in_app_iff, !in_map_iff. intros [(x & X & _)|(x & X & _)]; [apply (N1 (nm (fst x)) (snd x))|apply (N2 (nm (xt_id x)) (xt_player x))]; symmetry; exact X.
        - unfold is_trans. apply Exists_exists. exists (CTrans (nm t) pl). split; [|reflexivity]. apply in_or_app. left. apply in_or_app. right. apply in_map_iff.
          exists (mkXT t pl). split; auto. unfold trans_in. apply in_flat_map. exists (ITrans t pl). split; [auto|left; auto]. }
      destruct c as [| |q u i w|u q w]; cbn [call_ok]; auto.
      - apply in_in in C as (p & t & -> & -> & H & P & T). split; [apply TR; auto; discriminate|]. intros w' W.
        assert (W' : In (CIn (nm p) (nm t) (negb i) w') calls) by (rewrite E; apply in_or_app; left; exact W).
        apply in_in in W' as (p' & t' & E1 & E2 & H' & _). apply Inj in E1, E2. subst p' t'. destruct OK as (_ & _ & D).
        destruct i; [exact (D _ _ _ _ H H')|exact (D _ _ _ _ H' H)].
      - apply in_out in C as (t & p & -> & -> & H & P & T). apply TR; auto; discriminate.
    Qed.
  End Items.
End Read.

(** ** The theorem *)
Lemma has_weights : forall x l, has x l -> forall a b w i, In (IArc a b w i) l -> (0 < w < 2 ^ 31)%N.
Proof.
  refine (has_mind (fun x l => forall a b w i, In (IArc a b w i) l -> (0 < w < 2 ^ 31)%N) (fun ks l => forall a b w i, In (IArc a b w i) l -> (0 < w < 2 ^ 31)%N) _ _ _ _).
  - intros x l _ IH. exact IH.
  - intros a b w i [].
  - intros k ks i l I _ IH a b w j [E|H]; [|eapply IH; eauto]. subst i. inversion I; subst; auto.
  - intros k ks l1 l2 _ _ IH1 _ IH2 a b w i H. apply in_app_iff in H as [H|H]; eauto.
Qed.
Lemma parse_ok : forall nm x l, describes x l -> parse nm x = (b <- do_calls b_empty (map (place_call nm) (places_in l) ++ map (trans_call nm) (trans_in l) ++ flat_map (item_call nm l) l) ;; Ok (Some b)).
Proof.
  intros nm x l (T & D & (n & N1 & N2) & D' & H). unfold parse. rewrite (proj2 (is_tag_true _ x) T). cbn [negb]. unfold is_colored. rewrite (no_kid_ex _ _ D).
  destruct (find (is_tag "net") (kids x)) as [n'|] eqn:F.
  2:{ pose proof (find_none _ _ F n N1) as E. apply is_tag_false in E. contradiction. }
  apply find_some in F as (F1 & F2). apply is_tag_true in F2. rewrite (no_kid_ex _ _ (D' _ F1 F2)). cbn [bind]. rewrite (element_ok _ _ H). cbn [bind].
  rewrite put_all. cbn [p_places p_names p_arcs p_trans app]. rewrite !do_calls_app, places_calls. cbn [bind]. rewrite do_calls_app, trans_calls. cbn [bind].
  change (rev (names_in l) ++ [])%list with (names l). rewrite arcs_calls.
  - rewrite arcs_items_at. reflexivity.
  - intros a A. unfold arcs_in in A. apply in_flat_map in A as (i & _ & A). destruct i; try contradiction. destruct A as [<-|[]]. discriminate.
Qed.

Theorem reading_ok : forall nm, (forall a b, nm a = nm b -> a = b) -> forall x l reorder,
  describes x l -> net_ok l -> (exists p, is_pl l p) ->
  exists net pidx tidx, read_net nm x reorder = Ok net /\ layout net /\
    numbered (is_pl l) (cn_places net) pidx /\ numbered (is_tr l) (cn_ntrans net) tidx /\
    length (cn_init net) = cn_places net /\
    (forall p n, In (IPlace p n) l -> tokens (cn_init net) (pidx p) = n) /\
    (forall t m m', is_tr l t -> length m = cn_places net ->
       (step (to_pnet net) m (tidx t) m' <->
        length m' = cn_places net /\ item_fires l t (fun p => tokens m (pidx p)) (fun p => tokens m' (pidx p)))) /\
    (forall t pl, In (ITrans t pl) l -> (exists p, is_pl l p /\ (0 < arcs_between l p t)%N) ->
       nth_error (cn_ctrl net) (tidx t) = Some (Z.eqb pl 0)).
Proof.
  intros nm Inj x l reorder D OK (p0 & P0). assert (WT := has_weights x l (proj2 (proj2 (proj2 (proj2 D))))).
  pose proof (calls_fine nm Inj l OK WT) as CF. pose proof (weights_ok nm Inj l OK WT) as W.
  destruct (@builder_accepts (calls nm l) W) as [(_ & b & B)|(N1 & _)]; [|contradiction].
  assert (PP : forall p, is_pl l p -> is_place (calls nm l) (nm p)) by (intros p P; apply (place_iff nm Inj l OK WT); eauto).
  assert (TT : forall t, is_tr l t -> is_trans (calls nm l) (nm t)) by (intros t T; apply (trans_iff nm Inj l OK WT); eauto).
  destruct (@builder_correct (calls nm l) b reorder W B (ex_intro _ (nm p0) (PP p0 P0)))
    as (net & ids & tids & pidx & tidx & M & L & (PN1 & PN2 & PN3) & (TN1 & TN2 & TN3) & _ & _ & _ & LI & IN & ST & CT).
  exists net, (fun p => pidx (nm p)), (fun t => tidx (nm t)). split.
  { unfold read_net. rewrite (parse_ok nm x l D). change (map (place_call nm) (places_in l) ++ map (trans_call nm) (trans_in l) ++ flat_map (item_call nm l) l)%list with (calls nm l).
    rewrite B. cbn [bind]. rewrite M. reflexivity. }
  split; [exact L|]. split; [|split; [|split; [exact LI|split; [|split]]]].
  - split; [intros p P; apply PN1; auto|]. split; [intros p q P Q E; apply Inj, PN2; auto|].
    intros i Hi. destruct (PN3 i Hi) as (q & Q & <-). apply (place_iff nm Inj l OK WT) in Q as (p & -> & P). eauto.
  - split; [intros p P; apply TN1; auto|]. split; [intros p q P Q E; apply Inj, TN2; auto|].
    intros i Hi. destruct (TN3 i Hi) as (q & Q & <-). apply (trans_iff nm Inj l OK WT) in Q as (p & -> & P). eauto.
  - intros p n H. rewrite IN by (apply PP; exists n; auto). apply (init_eq nm Inj l OK WT _ _ H).
  - intros t m m' T E. rewrite (ST (nm t) m m' (TT t T) E). rewrite (fires_iff nm Inj l OK WT). reflexivity.
  - intros t pl H (p & P & A). rewrite (CT (nm t)) by (first [apply TT; exists pl; exact H|exists (nm p); rewrite (in_of_eq nm Inj l OK WT p t P); exact A]).
    rewrite (player_eq nm Inj l OK WT _ _ H). reflexivity.
Qed.
