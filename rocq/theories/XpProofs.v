(** Proofs for C36. *)
From Verif Require Import Base BaseLemmas ColSyntax ColSpec XpModel XpSpec.

Fixpoint xml_rect2 (P : xml -> Prop) (H : forall t ks, Forall P ks -> P (X t ks)) (x : xml) : P x :=
  match x with
  | X t ks => H t ks ((fix go (l : list xml) : Forall P l :=
                         match l with [] => Forall_nil P | k :: l' => Forall_cons k (xml_rect2 P H k) (go l') end) ks)
  end.

(** ** The odometer *)
Section Odometer.
Context {A : Type}.
Fixpoint rem (ps : list (list A)) (ix : list nat) : list (list A) :=
  match ps, ix with
  | p :: ps', i :: ix' =>
    match nth_error p i with
    | Some a => map (cons a) (rem ps' ix') ++ flat_map (fun a => map (cons a) (cart ps')) (skipn (S i) p)
    | None => []
    end
  | _, _ => [[]]
  end.
Definition valid_ix (ps : list (list A)) (ix : list nat) : Prop := Forall2 (fun p i => i < length p) ps ix.
Fixpoint can_inc (ps : list (list A)) (ix : list nat) : bool :=
  match ps, ix with
  | p :: ps', i :: ix' => can_inc ps' ix' || (i + 1 <? length p)
  | _, _ => false
  end.
Fixpoint next_ix (ps : list (list A)) (ix : list nat) : list nat :=
  match ps, ix with
  | p :: ps', i :: ix' => if can_inc ps' ix' then i :: next_ix ps' ix' else (i + 1) :: repeat 0 (length ix')
  | _, _ => ix
  end.
Lemma valid_len : forall ps ix, valid_ix ps ix -> length ps = length ix.
Proof. induction 1; cbn; auto. Qed.
Lemma rem_zero : forall ps, Forall (fun p => p <> []) ps -> rem ps (repeat 0 (length ps)) = cart ps.
Proof.
  induction 1 as [|p ps N F IH]; cbn; [reflexivity|]. destruct p as [|a p]; [congruence|]. cbn. rewrite IH. reflexivity.
Qed.
Lemma valid_zero : forall ps, Forall (fun p => p <> []) ps -> valid_ix ps (repeat 0 (length ps)).
Proof. induction 1; cbn; constructor; auto. destruct x; [congruence|cbn; lia]. Qed.
Lemma pick_valid : forall ps ix, valid_ix ps ix -> exists c, pick_all ps ix = Ok c.
Proof.
  induction 1 as [|p i ps ix L F IH]; cbn; [eauto|]. destruct IH as [c ->].
  unfold rd. destruct (nth_error p i) eqn:E; [cbn; eauto|]. apply nth_error_None in E. lia.
Qed.
Lemma skipn_nth : forall (p : list A) i a, nth_error p i = Some a -> skipn i p = a :: skipn (S i) p.
Proof. induction p as [|x p IH]; intros [|i] a H; cbn in *; try discriminate; [congruence|auto]. Qed.
Lemma rem_step : forall ps ix c, valid_ix ps ix -> pick_all ps ix = Ok c ->
  rem ps ix = c :: (if can_inc ps ix then rem ps (next_ix ps ix) else []).
Proof.
  intros ps ix c V. revert c. induction V as [|p i ps ix L V IH]; intros c H; [cbn in *; congruence|].
  cbn [pick_all] in H. cbn [rem can_inc next_ix].
  unfold rd in H. destruct (nth_error p i) as [a|] eqn:E; cbn in H; [|discriminate].
  destruct (pick_all ps ix) as [c'| | |]; cbn in H; try discriminate. inversion H; subst c. rewrite (IH _ eq_refl).
  destruct (can_inc ps ix); cbn [orb map app].
  - cbn [rem]. rewrite E. reflexivity.
  - destruct (Nat.ltb_spec (i + 1) (length p)).
    + replace (i + 1) with (S i) by lia. cbn [rem]. destruct (nth_error p (S i)) as [a'|] eqn:E'; [|apply nth_error_None in E'; lia].
      rewrite (skipn_nth _ _ _ E'). cbn [flat_map].
      replace (repeat 0 (length ix)) with (repeat 0 (length ps)) by (rewrite (valid_len _ _ V); reflexivity).
      rewrite rem_zero; [reflexivity|]. clear - V. induction V; constructor; auto. destruct x; [cbn in *; lia|congruence].
    + rewrite skipn_all2 by lia. reflexivity.
Qed.
Lemma valid_next : forall ps ix, valid_ix ps ix -> can_inc ps ix = true -> valid_ix ps (next_ix ps ix).
Proof.
  induction 1 as [|p i ps ix L V IH]; cbn; intros H; [discriminate|].
  destruct (can_inc ps ix); constructor; auto.
  - apply IH; auto.
  - cbn in H. apply Nat.ltb_lt in H. lia.
  - rewrite <- (valid_len _ _ V). apply valid_zero.
    clear - V. induction V; constructor; auto. destruct x; [cbn in *; lia|congruence].
Qed.
Lemma last_inc_ok : forall ps ix i li, valid_ix ps ix ->
  (can_inc ps ix = false -> last_inc ps ix i li = li) /\
  (can_inc ps ix = true -> forall li', last_inc ps ix i li = last_inc ps ix i li' /\ i <= last_inc ps ix i li < i + length ix /\
     increment ix (last_inc ps ix i li - i) = next_ix ps ix).
Proof.
  intros ps ix i li V. revert i li. induction V as [|p j ps ix L V IH]; intros i li; cbn [can_inc last_inc next_ix].
  - split; [auto|discriminate].
  - split.
    + intros H. apply orb_false_iff in H. destruct H as [H1 H2]. rewrite H2. apply (IH (S i) li). auto.
    + intros H li'. destruct (can_inc ps ix) eqn:C; cbn [orb] in H.
      * destruct (IH (S i) (if j + 1 <? length p then i else li)) as [_ K]. destruct (K eq_refl (if j + 1 <? length p then i else li')) as (K1 & K2 & K3).
        split; [exact K1|]. cbn [length]. split; [lia|].
        set (z := last_inc ps ix (S i) (if j + 1 <? length p then i else li)) in *.
        replace (z - i) with (S (z - S i)) by lia. rewrite <- K3. unfold increment. cbn [firstn nth_error length app]. f_equal.
      * rewrite H. destruct (IH (S i) i) as [K _]. rewrite (K eq_refl). split; [reflexivity|]. cbn [length]. split; [lia|].
        replace (i - i) with 0 by lia. unfold increment. cbn [firstn nth_error app length]. f_equal. f_equal. lia.
Qed.
Lemma combos_ok : forall fuel ps ix, ps <> [] -> valid_ix ps ix -> length (rem ps ix) <= fuel -> combos fuel ps ix = Ok (rem ps ix).
Proof.
  induction fuel as [|fuel IH]; intros ps ix NE V L.
  - destruct (pick_valid _ _ V) as [c E]. rewrite (rem_step _ _ _ V E) in L. cbn in L. lia.
  - cbn [combos]. destruct (pick_valid _ _ V) as [c E]. rewrite E. cbn [bind]. pose proof (rem_step _ _ _ V E) as R.
    destruct (last_inc_ok ps ix 0 0 V) as [K1 K2]. rewrite R in L. rewrite R.
    destruct ps as [|p ps]; [congruence|]. destruct ix as [|i ix]; [inversion V|].
    destruct (can_inc (p :: ps) (i :: ix)) eqn:C.
    + destruct (K2 eq_refl 0) as (_ & B & N). rewrite Nat.sub_0_r in N. rewrite N. pose proof (valid_next _ _ V C) as VN.
      destruct (next_ix (p :: ps) (i :: ix)) as [|j ix'] eqn:EN; [inversion VN|]. inversion VN; subst.
      assert (J : j <? length p = true) by (apply Nat.ltb_lt; auto). rewrite J. rewrite IH; [reflexivity|auto|auto|].
      cbn [length] in L. apply le_S_n in L. exact L.
    + rewrite (K1 eq_refl). unfold increment. cbn [firstn nth_error app].
      cbn [can_inc] in C. apply orb_false_iff in C. destruct C as [_ C]. apply Nat.ltb_ge in C.
      assert (J : i + 1 <? length p = false) by (apply Nat.ltb_ge; auto). rewrite J. reflexivity.
Qed.
Lemma cart_length : forall (ps : list (list A)), length (cart ps) = fold_right (fun p n => length p * n) 1 ps.
Proof.
  induction ps as [|p ps IH]; cbn; [reflexivity|]. rewrite <- IH. induction p; cbn; [reflexivity|].
  rewrite app_length, map_length, IHp. reflexivity.
Qed.
Lemma all_combos_ok : forall (ps : list (list A)), ps <> [] -> Forall (fun p => p <> []) ps -> all_combos ps = Ok (cart ps).
Proof.
  intros ps NE F. unfold all_combos. rewrite combos_ok; auto.
  - rewrite rem_zero; auto.
  - apply valid_zero; auto.
  - rewrite rem_zero, cart_length; auto.
Qed.
End Odometer.

(** ** Names of colours *)
Section Names.
Variable tab : list tdecl.
Variable cmap : list nat.
Variable names : list (list nat).
Hypothesis NAMES : forall ty l, nth_error tab ty = None \/ (exists cs, nth_error tab ty = Some (TProd cs)) -> nth_error names ty = Some l -> l = [].
Hypothesis NOUNARY : forall ty c, nth_error tab ty <> Some (TProd [c]).

Lemma find_seq : forall (f : nat -> bool) n i, i < n -> f i = true -> (forall j, j < i -> f j = false) -> find f (seq 0 n) = Some i.
Proof.
  intros f n i L T M. assert (G : forall k a, a <= i -> i < a + k -> find f (seq a k) = Some i).
  { induction k; intros a A B; [lia|]. cbn. destruct (Nat.eq_dec a i) as [->|N]; [rewrite T; auto|]. rewrite M by lia. apply IHk; lia. }
  apply G; lia.
Qed.
Lemma color_named_some : forall ty i name, has tab names ty i name ->
  (forall j, has tab names ty j name -> j = i) -> color_named tab names ty name = Ok (Some i).
Proof.
  intros ty i name [[n E] H] U. unfold color_named. rewrite E. f_equal. apply find_seq.
  - apply nth_error_Some. congruence.
  - apply Nat.eqb_eq. apply nth_error_nth. auto.
  - intros j J. apply Nat.eqb_neq. intros K. assert (j = i); [|lia]. apply U. split; [eauto|].
    rewrite (nth_error_nth' _ 0); [congruence|]. apply Nat.lt_trans with i; auto. apply nth_error_Some. congruence.
Qed.
Lemma color_named_res : forall ty name, exists r, color_named tab names ty name = Ok r /\
  forall i, r = Some i -> has tab names ty i name.
Proof.
  intros ty name. unfold color_named. destruct (nth_error tab ty) as [[n|cs]|] eqn:E.
  - eexists. split; [reflexivity|]. intros i F. apply find_some in F. destruct F as [F1 F2]. apply in_seq in F1. apply Nat.eqb_eq in F2.
    split; [eauto|]. rewrite (nth_error_nth' _ 0) by lia. congruence.
  - destruct cs as [|c [|d cs]].
    + eexists. split; [reflexivity|]. discriminate.
    + exfalso. eapply NOUNARY; eauto.
    + eexists. split; [reflexivity|]. discriminate.
  - eexists. split; [reflexivity|]. intros i F. exfalso. apply find_some in F. destruct F as [F1 _]. apply in_seq in F1.
    destruct (nth_error names ty) as [l|] eqn:G.
    + rewrite (NAMES ty l) in G; auto. rewrite (nth_error_nth _ _ [] G) in F1. cbn in F1. lia.
    + rewrite nth_overflow in F1 by (apply nth_error_None; auto). cbn in F1. lia.
Qed.

(** Without the context of a place the name has to be unique. *)
Lemma find_color_unique : forall ty i name, unique_names tab names -> has tab names ty i name -> In ty cmap ->
  find_color tab cmap names None name = Ok (EUser ty i).
Proof.
  intros ty i name U H I. unfold find_color. assert (E : find_color_loop tab names None cmap name = Ok (ty, i)); [|rewrite E; reflexivity].
  induction cmap as [|t l IH]; [inversion I|]. cbn. destruct (color_named_res t name) as (r & E & R). rewrite E. cbn [bind].
  destruct r as [j|].
  - destruct (U _ _ _ _ _ H (R j eq_refl)). subst. reflexivity.
  - apply IH. destruct I as [->|I]; auto. exfalso. rewrite (color_named_some ty i name H) in E; [discriminate|]. intros k K. symmetry. eapply U; eauto.
Qed.
(** In the context of a place whose type is an enumeration, only within the type. *)
Lemma find_color_context : forall ty i name n, nth_error tab ty = Some (TEnum n) -> has tab names ty i name ->
  (forall j, has tab names ty j name -> j = i) -> In ty cmap ->
  find_color tab cmap names (Some ty) name = Ok (EUser ty i).
Proof.
  intros ty i name n E H U I. unfold find_color. assert (G : find_color_loop tab names (Some ty) cmap name = Ok (ty, i)); [|rewrite G; reflexivity].
  induction cmap as [|t l IH]; [inversion I|]. cbn. rewrite E. destruct (Nat.eqb_spec t ty) as [->|N].
  - rewrite (color_named_some ty i name H U). reflexivity.
  - apply IH. destruct I; [congruence|auto].
Qed.
(** In the context of a place whose type is a product, within its constituents. *)
Lemma find_color_product : forall p cs ty i name, nth_error tab p = Some (TProd cs) -> 2 <= length cs ->
  (forall c, In c cs -> exists n, nth_error tab c = Some (TEnum n)) -> In ty cs -> has tab names ty i name ->
  (forall ty' j, In ty' cs -> has tab names ty' j name -> ty' = ty /\ j = i) -> cmap <> [] ->
  find_color tab cmap names (Some p) name = Ok (EUser ty i).
Proof.
  intros p cs ty i name E L EN I H U NE. unfold find_color.
  assert (G : find_nested tab names cs name = Ok (Some (ty, i))).
  { clear E L NE. assert (U' : forall j, has tab names ty j name -> j = i) by (intros j J; apply (U ty j I J)).
    induction cs as [|c cs IH]; [inversion I|]. cbn. destruct (EN c (or_introl eq_refl)) as [n EC]. rewrite EC.
    destruct (color_named_res c name) as (r & ER & R). rewrite ER. cbn [bind]. destruct r as [j|].
    - destruct (U c j (or_introl eq_refl) (R j eq_refl)). subst. reflexivity.
    - apply IH.
      + intros d D. apply EN. right; auto.
      + destruct I as [->|I]; auto. exfalso. rewrite (color_named_some ty i name H U') in ER. discriminate.
      + intros ty' j T J. apply U; auto. right; auto. }
  destruct cmap as [|t l]; [congruence|]. cbn [find_color_loop]. rewrite E. destruct cs as [|c [|d cs]]; [cbn in L; lia|cbn in L; lia|].
  rewrite G. reflexivity.
Qed.
End Names.

(** ** Terms *)
Section Terms.
Variable tab : list tdecl.
Variable cmap : list nat.
Variable vars : list nat.
Variable names : list (list nat).
Variable ctx : option nat.
Variable color_of : nat -> nat * nat.
Variable known : nat -> Prop.
Hypothesis KNOWN : forall name, known name -> find_color tab cmap names ctx name = Ok (EUser (fst (color_of name)) (snd (color_of name))).

Notation parse_color := (parse_color tab cmap names ctx).
Notation elems := (elems tab vars color_of).
Definition ev (b : assignment) (e : cexp) : nat * value := (ctype vars e, cval tab vars b e).

Lemma all_some_map : forall {A B} (f : A -> option B) l r, all_some (map f l) = Some r -> Forall2 (fun a c => f a = Some c) l r.
Proof.
  induction l as [|a l IH]; cbn; intros r H; [inversion H; constructor|].
  destruct (f a) eqn:E; [|discriminate]. destruct (all_some (map f l)) eqn:E2; [|discriminate]. inversion H; subst. constructor; auto.
Qed.

Lemma single_ok : forall x, single known x -> exists e, parse_color x = Ok [e] /\
  forall b r, elems b x = Some r -> r = [ev b e].
Proof.
  induction x as [t ks IH] using xml_rect2. intros S.
  destruct t; cbn in S; try contradiction.
  - destruct ks as [|k [|? ?]]; try contradiction. inversion IH; subst. destruct (H1 S) as (e & E & M). exists e. split; [exact E|exact M].
  - destruct ks as [|k [|? ?]]; try contradiction. inversion IH; subst. destruct (H1 S) as (e & E & M). exists e. split; [exact E|exact M].
  - exists EDot. split; [reflexivity|]. intros b r H. inversion H. reflexivity.
  - exists (EVar v). split; [reflexivity|]. intros b r H. inversion H. reflexivity.
  - exists (EUser (fst (color_of name)) (snd (color_of name))). split; [cbn; rewrite KNOWN; auto|]. intros b r H. inversion H. reflexivity.
  - destruct ks as [|k [|? ?]]; try contradiction. inversion IH; subst. destruct (H1 S) as (e & E & M). exists (ESucc e).
    split; [cbn [XpModel.parse_color]; rewrite E; reflexivity|]. intros b r H. cbn in H. destruct (elems b k) as [l|] eqn:EL; [|discriminate].
    specialize (M b l EL). subst l. cbn in H. unfold ev. cbn. destruct (cval tab vars b e); [|discriminate]. inversion H. reflexivity.
  - destruct ks as [|k [|? ?]]; try contradiction. inversion IH; subst. destruct (H1 S) as (e & E & M). exists (EPred e).
    split; [cbn [XpModel.parse_color]; rewrite E; reflexivity|]. intros b r H. cbn in H. destruct (elems b k) as [l|] eqn:EL; [|discriminate].
    specialize (M b l EL). subst l. cbn in H. unfold ev. cbn. destruct (cval tab vars b e); [|discriminate]. inversion H. reflexivity.
Qed.

Lemma sort_ok : forall ks, enum_sort tab ks -> exists ty n, user_sort (X Tall ks) = Ok ty /\ nth_error tab ty = Some (TEnum n) /\ 0 < n /\
  (exists k', ks = [X (Tsort ty) k']).
Proof.
  intros ks H. unfold enum_sort in H. destruct ks as [|[t k'] [|? ?]]; try contradiction.
  - destruct t; try contradiction. destruct H as (n & E & P). exists ty, n. cbn. eauto.
  - destruct t; contradiction.
Qed.
Lemma sort_elems : forall ty n k' b, nth_error tab ty = Some (TEnum n) ->
  elems b (X Tall [X (Tsort ty) k']) = Some (map (ev b) (sort_colors tab ty)).
Proof.
  intros ty n k' b E. cbn. unfold values, sort_colors. rewrite E. rewrite !map_map. reflexivity.
Qed.

Lemma component_ok : forall x, component tab known x -> exists l, parse_color x = Ok l /\ l <> [] /\
  forall b r, elems b x = Some r -> r = map (ev b) l.
Proof.
  induction x as [t ks IH] using xml_rect2. intros C.
  assert (SG : single known (X t ks) -> exists l, parse_color (X t ks) = Ok l /\ l <> [] /\ forall b r, elems b (X t ks) = Some r -> r = map (ev b) l).
  { intros S. destruct (single_ok _ S) as (e & E & M). exists [e]. split; [exact E|]. split; [discriminate|]. exact M. }
  destruct t; try (apply SG; exact C); cbn in C.
  - destruct ks as [|k [|? ?]]; try (apply SG; exact C). inversion IH; subst. destruct (H1 C) as (e & E & M). exists e. split; [exact E|exact M].
  - destruct ks as [|k [|? ?]]; try (apply SG; exact C). inversion IH; subst. destruct (H1 C) as (e & E & M). exists e. split; [exact E|exact M].
  - destruct (sort_ok _ C) as (ty & n & U & E & P & k' & ->). exists (sort_colors tab ty). split; [cbn [XpModel.parse_color]; rewrite U; reflexivity|].
    split; [unfold sort_colors; rewrite E; destruct n; [lia|discriminate]|]. intros b r H. rewrite (sort_elems ty n) in H by auto. congruence.
Qed.

Lemma go_mapM : forall {A B} (f : A -> res B) l,
  (fix go (l : list A) : res (list B) := match l with [] => Ok [] | k :: l' => b <- f k ;; bs <- go l' ;; Ok (b :: bs) end) l = mapM f l.
Proof. induction l as [|a l IH]; cbn; [reflexivity|]. rewrite IH. reflexivity. Qed.

Lemma components_ok : forall ks, Forall (component tab known) ks -> exists ps, mapM parse_color ks = Ok ps /\ length ps = length ks /\
  Forall (fun p => p <> []) ps /\ forall b rs, all_some (map (elems b) ks) = Some rs -> rs = map (map (ev b)) ps.
Proof.
  induction 1 as [|k ks C F IH]; cbn.
  - exists []. repeat split; auto. intros b rs H. inversion H. reflexivity.
  - destruct IH as (ps & E & L & N & M). destruct (component_ok _ C) as (l & E1 & N1 & M1). exists (l :: ps). rewrite E1, E.
    split; [reflexivity|]. split; [cbn; auto|]. split; [constructor; auto|]. intros b rs H.
    destruct (elems b k) as [r|] eqn:ER; [|discriminate]. destruct (all_some (map (elems b) ks)) as [rs'|] eqn:ES; [|discriminate].
    inversion H. cbn. f_equal; eauto.
Qed.

Lemma cart_map : forall {A B} (f : A -> B) ps, cart (map (map f) ps) = map (map f) (cart ps).
Proof.
  induction ps as [|p ps IH]; cbn; [reflexivity|]. rewrite IH. induction p as [|a p IHp]; cbn; [reflexivity|].
  rewrite map_app, IHp, !map_map. reflexivity.
Qed.
Lemma tuples_ok : forall b (cs : list (list cexp)) r, 
  all_some (map (fun c => match all_some (map (fun p : nat * value => match p with (_, VE i) => Some i | _ => None end) c) with
                          | Some l => Some (0, VT l) | None => None end) (map (map (ev b)) cs)) = Some r ->
  r = map (ev b) (map ETup cs).
Proof.
  intros b. induction cs as [|c cs IH]; cbn; intros r H; [inversion H; reflexivity|].
  destruct (all_some (map _ (map (ev b) c))) as [l|] eqn:E; [|discriminate].
  destruct (all_some (map _ (map (map (ev b)) cs))) as [r'|] eqn:E2; [|discriminate].
  inversion H; subst. f_equal; [|apply IH; auto]. unfold ev. cbn. f_equal. f_equal.
  rewrite map_map in E. apply all_some_map in E. clear - E. induction E as [|e i c l H E IH]; cbn; [reflexivity|]. rewrite <- IH. f_equal.
  unfold ev in H. destruct (cval tab vars b e); [congruence|discriminate].
Qed.

Lemma term_ok : forall x, term tab known x -> exists l, parse_color x = Ok l /\ l <> [] /\
  forall b r, elems b x = Some r -> r = map (ev b) l.
Proof.
  induction x as [t ks IH] using xml_rect2. intros C.
  destruct t; try (apply component_ok; exact C).
  - destruct ks as [|k [|? ?]]; try (apply component_ok; exact C). inversion IH; subst. destruct (H1 C) as (e & E & M). exists e. split; [exact E|exact M].
  - destruct ks as [|k [|? ?]]; try (apply component_ok; exact C). inversion IH; subst. destruct (H1 C) as (e & E & M). exists e. split; [exact E|exact M].
  - destruct C as [NE F]. destruct (components_ok _ F) as (ps & E & L & N & M). exists (map ETup (cart ps)).
    assert (NP : ps <> []) by (destruct ps; [destruct ks; [congruence|discriminate]|discriminate]).
    split; [cbn [XpModel.parse_color]; rewrite go_mapM, E; cbn [bind]; rewrite all_combos_ok by auto; reflexivity|].
    split.
    + assert (G : cart ps <> []).
      { clear - N. induction N as [|p ps P N IH]; cbn; [discriminate|]. destruct p; [congruence|]. cbn. destruct (cart ps); [congruence|discriminate]. }
      destruct (cart ps); [congruence|discriminate].
    + intros b r H. cbn [XpSpec.elems] in H. destruct (all_some (map (elems b) ks)) as [rs|] eqn:ER; [|discriminate].
      rewrite (M b rs ER) in H. rewrite cart_map in H. apply tuples_ok in H. exact H.
Qed.

(** ** Inscriptions *)
Lemma number_ok : forall x, number_below x -> exists k, number x = Some k /\ parse_number x = Ok k.
Proof.
  induction x as [t ks IH] using xml_rect2. intros H. destruct t; cbn in H; try contradiction.
  - destruct ks as [|k [|? ?]]; try contradiction. inversion IH; subst. apply H2 in H. exact H.
  - exists (Z.to_N k). cbn. split.
    + destruct (Z.ltb_spec k 0); [lia|reflexivity].
    + rewrite Z.mod_small by lia. reflexivity.
Qed.

Lemma sum_count : forall b k l v,
  sumN (map (fun e => mval tab vars b e v) (map (fun es => ANum es k) (map (fun e => [e]) l))) = (k * count (map (ev b) l) v)%N.
Proof.
  intros b k. induction l as [|e l IH]; intros v; cbn; [unfold count; cbn; lia|]. rewrite IH. unfold count. cbn [map sumN ev snd].
  unfold count. cbn. destruct (value_eqb (cval tab vars b e) v); lia.
Qed.
Lemma cart_one : forall {A} (l : list A), cart [l] = map (fun e => [e]) l.
Proof. intros A l. cbn. induction l; cbn; [reflexivity|]. rewrite IHl. reflexivity. Qed.
Lemma one_or_add : forall b l v,
  (match l with [a] => mval tab vars b a v | _ => mval tab vars b (AAdd l) v end) = sumN (map (fun e => mval tab vars b e v) l).
Proof. intros b [|a [|c l]] v; cbn; try reflexivity. lia. Qed.

Lemma numbered : forall l k, l <> [] -> exists a,
  (r <- all_combos [l] ;; match map (fun es => ANum es k) r with [a] => Ok a | l => Ok (AAdd l) end) = Ok a /\
  forall b v, mval tab vars b a v = (k * count (map (ev b) l) v)%N.
Proof.
  intros l k N. rewrite all_combos_ok; [|discriminate|constructor; auto]. cbn [bind]. rewrite cart_one.
  set (z := map (fun es => ANum es k) (map (fun e => [e]) l)).
  exists (match z with [a] => a | l => AAdd l end). split; [destruct z as [|? [|? ?]]; reflexivity|].
  intros b v. rewrite <- sum_count. fold z. rewrite <- one_or_add. destruct z as [|? [|? ?]]; reflexivity.
Qed.

Lemma cart_add_ok : forall r s, fold_left cart_add r s = flat_map (fun x => map (app x) (cart r)) s.
Proof.
  induction r as [|p r IH]; intros s; cbn.
  - induction s; cbn; [reflexivity|]. rewrite app_nil_r. f_equal. auto.
  - rewrite IH. unfold cart_add. rewrite flat_map_concat_map. clear IH. 
    induction s as [|x s IHs]; cbn; [reflexivity|].
    rewrite map_app, concat_app. rewrite IHs. f_equal. clear IHs.
    induction p as [|a p IHp]; cbn; [reflexivity|]. rewrite map_app, IHp. f_equal. rewrite map_map. apply map_ext. intros c. rewrite <- app_assoc. reflexivity.
Qed.
Lemma cart2_ok : forall a b r, fold_left cart_add r (cart2 a b) = cart (a :: b :: r).
Proof.
  intros a b r. rewrite cart_add_ok. cbn [cart]. unfold cart2.
  induction a as [|x a IH]; cbn; [reflexivity|]. rewrite flat_map_app, IH. f_equal. clear IH.
  induction b as [|y b IH]; cbn; [reflexivity|]. rewrite map_app, IH. f_equal. rewrite map_map. reflexivity.
Qed.

Notation collect := (collect tab cmap names ctx).
Lemma collect_component : forall x, component tab known x -> forall acc, exists l, parse_color x = Ok l /\ collect x acc = Ok (acc ++ [l]).
Proof.
  induction x as [t ks IH] using xml_rect2. intros C acc.
  assert (SG : single known (X t ks) -> (match t with Tuser _ | Tdot | Tvar _ | Tsucc | Tpred => True | _ => False end) ->
     exists l, parse_color (X t ks) = Ok l /\ collect (X t ks) acc = Ok (acc ++ [l])).
  { intros S T. destruct (single_ok _ S) as (e & E & _). exists [e]. split; [exact E|]. destruct t; try contradiction; cbn [XpModel.collect]; rewrite E; reflexivity. }
  destruct t; try (apply SG; [exact C|exact I]); cbn in C; try contradiction.
  - destruct ks as [|k [|? ?]]; try contradiction. inversion IH; subst. apply H1; auto.
  - destruct ks as [|k [|? ?]]; try contradiction. inversion IH; subst. apply H1; auto.
  - destruct (sort_ok _ C) as (ty & n & U & E & P & k' & ->). exists (sort_colors tab ty). split.
    + cbn [XpModel.parse_color]. rewrite U. reflexivity.
    + cbn [XpModel.collect]. rewrite U. reflexivity.
Qed.
Lemma elems_wrap : forall b t k, component tab known k -> forall r, (t = Tsubterm \/ t = Tstructure) -> elems b (X t [k]) = Some r -> elems b k = Some r.
Proof. intros b t k _ r [->| ->] H; exact H. Qed.

Fixpoint collect_all (l : list xml) (acc : list (list cexp)) : res (list (list cexp)) :=
  match l with
  | [] => Ok acc
  | X _ [] :: _ => UB
  | X _ (k :: _) :: l' => a <- collect k acc ;; collect_all l' a
  end.
Lemma collect_tuple : forall ks acc, collect (X Ttuple ks) acc = collect_all ks acc.
Proof.
  intros ks. cbn [XpModel.collect]. induction ks as [|[t k] ks IH]; intros acc; [reflexivity|]. destruct k as [|k k']; [reflexivity|].
  cbn. destruct (collect k acc); cbn; auto.
Qed.
Lemma collect_all_ok : forall ks, Forall (fun k => exists t k', k = X t [k'] /\ (t = Tstructure \/ t = Tsubterm) /\ component tab known k') ks ->
  exists ps, (forall acc, collect_all ks acc = Ok (acc ++ ps)) /\ mapM parse_color ks = Ok ps /\ length ps = length ks.
Proof.
  induction 1 as [|x ks (t & k & -> & T & C) F IH].
  - exists []. cbn. repeat split; auto. intros. rewrite app_nil_r. reflexivity.
  - destruct IH as (ps & E & M & L). destruct (collect_component k C []) as (l & EL & _).
    exists (l :: ps). split; [|split].
    + intros acc. cbn [collect_all]. destruct (collect_component k C acc) as (l' & EL' & EC). rewrite EC. cbn [bind]. rewrite E.
      assert (l' = l) by congruence. subst. rewrite <- app_assoc. reflexivity.
    + assert (P : parse_color (X t [k]) = Ok l) by (destruct T; subst; exact EL). cbn [mapM]. rewrite P, M. reflexivity.
    + cbn. auto.
Qed.

Notation parse_arc := (parse_arc tab cmap names ctx).
Notation inscription := (inscription tab vars color_of).
Lemma add_count : forall b l v, mval tab vars b (AAdd (map (fun s => ANum [ETup s] 1) l)) v = count (map (ev b) (map ETup l)) v.
Proof.
  intros b l v. cbn [mval]. induction l as [|s l IH]; [reflexivity|]. cbn [map sumN]. rewrite IH. unfold count. cbn [map sumN mval].
  rewrite N.add_0_r. reflexivity.
Qed.
Lemma tuple_ok : forall ks, 2 <= length ks -> Forall (fun k => exists t k', k = X t [k'] /\ (t = Tstructure \/ t = Tsubterm) /\ component tab known k') ks ->
  exists a, (cols <- collect (X Ttuple ks) [] ;; tuple_expr cols 1) = Ok a /\
  forall b m, inscription b (X Ttuple ks) = Some m -> forall v, mval tab vars b a v = m v.
Proof.
  intros ks L F. destruct (collect_all_ok ks F) as (ps & E & P & LP). rewrite collect_tuple, E. cbn [bind app].
  destruct ps as [|p [|q ps]]; [cbn in *; lia|cbn in *; lia|]. cbn [tuple_expr]. rewrite cart2_ok. eexists. split; [reflexivity|].
  intros b m H v. rewrite add_count.
  assert (FC : Forall (component tab known) ks) by (eapply Forall_impl; [|exact F]; intros x (t & k & -> & [-> | ->] & C); exact C).
  destruct (components_ok ks FC) as (ps' & EP & _ & NP & M). assert (ps' = p :: q :: ps) by congruence. subst ps'.
  cbn [XpSpec.inscription] in H. destruct (elems b (X Ttuple ks)) as [r|] eqn:ER; [|discriminate]. inversion H; subst m.
  cbn [XpSpec.elems] in ER. destruct (all_some (map (elems b) ks)) as [rs|] eqn:ES; [|discriminate].
  rewrite (M b rs ES), cart_map in ER. apply tuples_ok in ER. subst r. reflexivity.
Qed.

Lemma arcs_ok : forall ks, Forall (fun x => forall (W : Prop) sib, (W -> sib = [x]) -> inscription_ok tab known x W -> exists a, parse_arc x sib = Ok a /\
    forall b m, inscription b x = Some m -> forall v, mval tab vars b a v = m v) ks ->
  forall sib, fold_right (fun k P => inscription_ok tab known k False /\ P) True ks ->
  exists l, mapM (fun k => parse_arc k sib) ks = Ok l /\
    forall b ms, all_some (map (inscription b) ks) = Some ms -> forall v, map (fun e => mval tab vars b e v) l = map (fun m => m v) ms.
Proof.
  induction 1 as [|k ks H F IH]; intros sib OK; cbn in *.
  - exists []. split; [reflexivity|]. intros b ms E v. inversion E. reflexivity.
  - destruct OK as [O1 O2]. destruct (IH sib O2) as (l & E & M). destruct (H False sib ltac:(contradiction) O1) as (a & EA & MA).
    exists (a :: l). rewrite EA, E. split; [reflexivity|]. intros b ms ES v.
    destruct (inscription b k) as [m|] eqn:EM; [|discriminate]. destruct (all_some (map (inscription b) ks)) as [ms'|] eqn:EM2; [|discriminate].
    inversion ES. cbn. rewrite (MA b m EM v), (M b ms' EM2 v). reflexivity.
Qed.

Lemma go_sub : forall sib l acc,
  (fix go (l : list xml) (acc : aexp) : res aexp := match l with [] => Ok acc | k :: l' => b <- parse_arc k sib ;; go l' (ASub acc b) end) l acc =
  (r <- mapM (fun k => parse_arc k sib) l ;; Ok (fold_left ASub r acc)).
Proof.
  intros sib. induction l as [|k l IH]; intros acc; [reflexivity|]. cbn. destruct (parse_arc k sib); cbn; auto. rewrite IH.
  destruct (mapM _ l); reflexivity.
Qed.
Lemma fold_sub : forall b v l a, mval tab vars b (fold_left ASub l a) v = (mval tab vars b a v - sumN (map (fun e => mval tab vars b e v) l))%N.
Proof. intros b v. induction l as [|e l IH]; intros a; cbn; [lia|]. rewrite IH. cbn. lia. Qed.

Theorem inscriptions_ok : forall x (W : Prop) sib, (W -> sib = [x]) -> inscription_ok tab known x W ->
  exists a, parse_arc x sib = Ok a /\ forall b m, inscription b x = Some m -> forall v, mval tab vars b a v = m v.
Proof.
  induction x as [t ks IH] using xml_rect2. intros W sib HW OK.
  destruct t; cbn [inscription_ok] in OK; try contradiction.
  - destruct ks as [|k [|? ?]]; try contradiction. inversion IH; subst. destruct (H1 True [k] (fun _ => eq_refl) OK) as (a & E & M). exists a. split; [exact E|exact M].
  - destruct ks as [|k [|? ?]]; try contradiction. inversion IH; subst. destruct (H1 True [k] (fun _ => eq_refl) OK) as (a & E & M). exists a. split; [exact E|exact M].
  - (* tuple *)
    destruct OK as [L F]. destruct (tuple_ok ks L F) as (a & E & M). exists a. split; [exact E|exact M].
  - (* all *)
    destruct OK as [w C]. rewrite (HW w) in *. destruct (sort_ok _ C) as (ty & n & U & E & P & k' & ->).
    cbn [XpModel.parse_arc]. unfold number_of. cbn [parse_number bind]. cbn [N.eqb mapM]. cbn [XpModel.parse_color]. rewrite U. cbn [bind].
    destruct (numbered (sort_colors tab ty) 1) as (a & EA & MA); [unfold sort_colors; rewrite E; destruct n; [lia|discriminate]|].
    exists a. split; [exact EA|]. intros b m H v. rewrite MA. cbn [XpSpec.inscription] in H. rewrite (sort_elems ty n) in H by auto. inversion H. lia.
  - (* numberof *)
    destruct ks as [|n [|t [|? ?]]]; try contradiction. destruct OK as [[NB NZ] T]. destruct (number_ok n NB) as (k & NK & PK).
    destruct (term_ok t T) as (l & E & NE & M). cbn [XpModel.parse_arc]. unfold number_of. rewrite PK. cbn [bind].
    destruct (N.eqb_spec k 0) as [->|KZ]; [congruence|]. cbn [mapM]. rewrite E. cbn [bind].
    destruct (numbered l k NE) as (a & EA & MA). exists a. split; [exact EA|]. intros b m H v. rewrite MA.
    cbn [XpSpec.inscription] in H. rewrite NK in H. destruct (elems b t) as [r|] eqn:ER; [|discriminate]. inversion H. rewrite (M b r ER). reflexivity.
  - (* add *)
    destruct (arcs_ok ks IH ks OK) as (l & E & M). exists (AAdd l). cbn [XpModel.parse_arc]. rewrite go_mapM, E. split; [reflexivity|].
    intros b m H v. cbn [XpSpec.inscription] in H. destruct (all_some (map (inscription b) ks)) as [ms|] eqn:EM; [|discriminate]. inversion H. cbn. rewrite (M b ms EM v). reflexivity.
  - (* subtract *)
    destruct ks as [|l [|r rest]]; try contradiction. destruct OK as (O1 & O2 & O3). inversion IH as [|? ? H1 IH1]; subst. 
    destruct (H1 False (l :: r :: rest) ltac:(contradiction) O1) as (a & EA & MA).
    destruct (arcs_ok (r :: rest) IH1 (l :: r :: rest)) as (bs & EB & MB); [cbn; auto|].
    cbn [mapM] in EB. destruct (parse_arc r (l :: r :: rest)) as [b1| | |] eqn:ER; try discriminate. cbn [bind] in EB.
    destruct (mapM (fun k => parse_arc k (l :: r :: rest)) rest) as [bs'| | |] eqn:ES; try discriminate. cbn in EB. inversion EB; subst bs.
    cbn [XpModel.parse_arc]. rewrite EA, ER. cbn [bind]. rewrite go_sub, ES. cbn [bind]. eexists. split; [reflexivity|].
    intros b m H v. rewrite fold_sub. cbn [mval]. cbn [XpSpec.inscription] in H.
    destruct (inscription b l) as [ml|] eqn:EL; [|discriminate]. destruct (all_some (map (inscription b) (r :: rest))) as [ms|] eqn:EM; [|discriminate].
    inversion H. rewrite <- (MB b ms EM v). rewrite (MA b ml EL v). cbn. lia.
  - (* scalar product *)
    destruct ks as [|s [|t [|? ?]]]; try contradiction. destruct OK as [NB O]. destruct (number_ok s NB) as (k & NK & PK).
    inversion IH as [|? ? _ IH1]; subst. inversion IH1 as [|? ? H1 _]; subst.
    destruct (H1 False [s; t] ltac:(contradiction) O) as (a & EA & MA). exists (AScal a k). cbn [XpModel.parse_arc]. rewrite EA, PK. split; [reflexivity|].
    intros b m H v. cbn [XpSpec.inscription] in H. rewrite NK in H. destruct (inscription b t) as [mt|] eqn:ET; [|discriminate]. inversion H. cbn. rewrite (MA b mt ET v). reflexivity.
Qed.

(** ** Guards *)
Notation parse_guard := (parse_guard tab cmap names ctx).
Notation guard := (guard tab vars color_of).
Lemma compare_ok : forall t neg l r a c, match t with Tlt | Tgt | Tle | Tge | Teq | Tne => True | _ => False end ->
  parse_color l = Ok [a] -> parse_color r = Ok [c] ->
  exists g, parse_guard (X t [l; r]) neg = Ok g /\
    forall b v, compare t (cval tab vars b a) (cval tab vars b c) = Some v -> gval tab vars b g = xorb neg v.
Proof.
  intros t neg l r a c T L R.
  destruct t; try contradiction; cbn [XpModel.parse_guard]; rewrite L, R; cbn [bind]; eexists; (split; [reflexivity|]); intros b v H; destruct neg; cbn [gval xorb];
    unfold compare in H; unfold velt, vele;
    try (destruct (cval tab vars b a) as [i|]; [|discriminate]; destruct (cval tab vars b c) as [j|]; [|discriminate]);
    inversion H; subst; try reflexivity; try (rewrite negb_involutive; reflexivity).
  all: repeat match goal with
       | |- context [?x <? ?y] => destruct (Nat.ltb_spec x y)
       | |- context [?x <=? ?y] => destruct (Nat.leb_spec x y)
       end; cbn; auto; try lia; destruct (value_eqb _ _); reflexivity.
Qed.

Lemma go_or : forall neg l acc,
  (fix go (l : list xml) (acc : gexp) : res gexp :=
     match l with [] => Ok acc | k :: l' => c <- parse_guard k neg ;; go l' (if neg then GAnd acc c else GOr acc c) end) l acc =
  (r <- mapM (fun k => parse_guard k neg) l ;; Ok (fold_left (if neg then GAnd else GOr) r acc)).
Proof.
  intros neg. induction l as [|k l IH]; intros acc; [reflexivity|]. cbn. destruct (parse_guard k neg); cbn; auto. rewrite IH.
  destruct (mapM _ l); destruct neg; reflexivity.
Qed.
Lemma fold_or : forall b neg vs l a v, Forall2 (fun g v => gval tab vars b g = xorb neg v) l vs -> gval tab vars b a = xorb neg v ->
  gval tab vars b (fold_left (if neg then GAnd else GOr) l a) = xorb neg (v || existsb (fun v => v) vs).
Proof.
  intros b neg vs l a v F. revert a v. induction F as [|g w l vs G F IH]; intros a v A; cbn.
  - rewrite orb_false_r. exact A.
  - rewrite (IH _ (v || w)).
    + rewrite orb_assoc. reflexivity.
    + destruct neg; cbn; rewrite A, G; destruct v, w; reflexivity.
Qed.

Lemma guards_list : forall neg ks, Forall (fun x => forall neg, guard_ok known x neg -> exists g, parse_guard x neg = Ok g /\
    forall b v, guard b x = Some v -> gval tab vars b g = xorb neg v) ks ->
  fold_right (fun k P => guard_ok known k neg /\ P) True ks ->
  exists l, mapM (fun k => parse_guard k neg) ks = Ok l /\
    forall b vs, all_some (map (guard b) ks) = Some vs -> Forall2 (fun g v => gval tab vars b g = xorb neg v) l vs.
Proof.
  intros neg. induction 1 as [|k ks H F IH]; intros OK; cbn in *.
  - exists []. split; [reflexivity|]. intros b vs E. inversion E. constructor.
  - destruct OK as [O1 O2]. destruct (IH O2) as (l & E & M). destruct (H neg O1) as (g & EG & MG). exists (g :: l). rewrite EG, E. split; [reflexivity|].
    intros b vs ES. destruct (guard b k) as [v|] eqn:EV; [|discriminate]. destruct (all_some (map (guard b) ks)) as [vs'|] eqn:EV2; [|discriminate].
    inversion ES. constructor; auto.
Qed.

Theorem guards_ok : forall x neg, guard_ok known x neg -> exists g, parse_guard x neg = Ok g /\
  forall b v, guard b x = Some v -> gval tab vars b g = xorb neg v.
Proof.
  induction x as [t ks IH] using xml_rect2. intros neg OK.
  assert (REL : match t with Tlt | Tgt | Tle | Tge | Teq | Tne => True | _ => False end -> forall l r, ks = [l; r] -> single known l -> single known r ->
    exists g, parse_guard (X t ks) neg = Ok g /\ forall b v, guard b (X t ks) = Some v -> gval tab vars b g = xorb neg v).
  { intros T l r -> SL SR. destruct (single_ok l SL) as (a & EA & MA). destruct (single_ok r SR) as (c & EC & MC).
    destruct (compare_ok t neg l r a c T EA EC) as (g & EG & MG). exists g. split; [exact EG|]. intros b v H. apply MG.
    assert (H' : match elems b l, elems b r with Some [(_, u)], Some [(_, w)] => compare t u w | _, _ => None end = Some v) by (destruct t; try contradiction; exact H).
    destruct (elems b l) as [rl|] eqn:EL; [|discriminate]. specialize (MA b rl EL). subst rl. cbn in H'.
    destruct (elems b r) as [rr|] eqn:ER; [|discriminate]. specialize (MC b rr ER). subst rr. cbn in H'. exact H'. }
  destruct t; cbn [guard_ok] in OK; try contradiction;
    try (destruct ks as [|l [|r [|? ?]]]; try contradiction; destruct OK; eapply REL; eauto; fail).
  - destruct ks as [|k [|? ?]]; try contradiction. inversion IH; subst. destruct (H1 neg OK) as (g & E & M). exists g. split; [exact E|exact M].
  - destruct ks as [|k [|? ?]]; try contradiction. inversion IH; subst. destruct (H1 neg OK) as (g & E & M). exists g. split; [exact E|exact M].
  - (* not *)
    destruct ks as [|k [|? ?]]; try contradiction. inversion IH; subst. destruct OK as [-> O]. destruct (H1 true O) as (g & E & M). exists g.
    split; [exact E|]. intros b v H. cbn [XpSpec.guard] in H. destruct (guard b k) as [w|] eqn:EW; [|discriminate]. inversion H. rewrite (M b w EW). destruct w; reflexivity.
  - (* and *)
    destruct ks as [|k [|k' [|? ?]]]; try contradiction.
    + inversion IH; subst. destruct (H1 neg OK) as (g & E & M). exists g. split; [exact E|]. intros b v H. apply M.
      cbn [XpSpec.guard map all_some] in H. destruct (guard b k) as [w|]; [|discriminate]. cbn in H. rewrite andb_true_r in H. exact H.
    + destruct OK as [O1 O2]. inversion IH as [|? ? H1 IH1]; subst. inversion IH1 as [|? ? H2 _]; subst.
      destruct (H1 neg O1) as (g & E & M). destruct (H2 neg O2) as (g' & E' & M'). cbn [XpModel.parse_guard]. rewrite E, E'. cbn [bind].
      eexists. split; [reflexivity|]. intros b v H. cbn [XpSpec.guard map all_some] in H.
      destruct (guard b k) as [w|] eqn:EW; [|discriminate]. destruct (guard b k') as [w'|] eqn:EW'; [|discriminate]. inversion H.
      specialize (M b w EW). specialize (M' b w' EW'). destruct neg; cbn; rewrite M, M'; destruct w, w'; reflexivity.
  - (* or *)
    destruct ks as [|k [|k' rest]]; try contradiction.
    + inversion IH; subst. destruct OK as [OK _]. destruct (H1 neg OK) as (g & E & M). exists g. split; [exact E|]. intros b v H. apply M.
      cbn [XpSpec.guard map all_some] in H. destruct (guard b k) as [w|]; [|discriminate]. cbn in H. rewrite orb_false_r in H. exact H.
    + destruct OK as [O1 O2]. inversion IH as [|? ? H1 IH1]; subst. destruct (H1 neg O1) as (g & E & M).
      destruct (guards_list neg (k' :: rest) IH1 O2) as (l & EL & ML).
      cbn [mapM] in EL. destruct (parse_guard k' neg) as [g'| | |] eqn:ER; try discriminate. cbn [bind] in EL.
      destruct (mapM (fun k => parse_guard k neg) rest) as [ls| | |] eqn:ES; try discriminate. cbn in EL. inversion EL; subst l.
      cbn [XpModel.parse_guard]. rewrite E, ER. cbn [bind]. rewrite go_or, ES. cbn [bind]. eexists. split; [reflexivity|].
      intros b v H. cbn [XpSpec.guard] in H. cbn [map all_some] in H.
      destruct (guard b k) as [w|] eqn:EW; [|discriminate]. 
      change (match guard b k' with Some a => match all_some (map (guard b) rest) with Some r => Some (a :: r) | None => None end | None => None end)
        with (all_some (map (guard b) (k' :: rest))) in H.
      destruct (all_some (map (guard b) (k' :: rest))) as [vs|] eqn:EV; [|discriminate]. specialize (ML b vs EV). inversion ML as [|? w' ? vs' G F]; subst.
      cbn in H. inversion H. rewrite (fold_or b neg vs' ls _ (w || w')); auto.
      * rewrite orb_assoc. reflexivity.
      * specialize (M b w EW). destruct neg; cbn; rewrite M, G; destruct w, w'; reflexivity.
Qed.
End Terms.
