(** C36: guards and inscriptions of coloured nets are read from PNML with the meaning they
    have in the file. *)
From Verif Require Import Base ColSyntax ColSpec XpModel XpSpec XpProofs XpExamples.

(** Guards without negations below negations and with conjunctions of at most two parts. *)
Theorem C36_guards_partial : forall tab cmap vars names color_of,
  unique_names tab names ->
  (forall ty c, nth_error tab ty <> Some (TProd [c])) ->
  (forall ty l, nth_error tab ty = None \/ (exists cs, nth_error tab ty = Some (TProd cs)) -> nth_error names ty = Some l -> l = []) ->
  forall x, guard_ok (fun name => has tab names (fst (color_of name)) (snd (color_of name)) name /\ In (fst (color_of name)) cmap) x false ->
  exists g, parse_guard tab cmap names None x false = Ok g /\
    forall b v, guard tab vars color_of b x = Some v -> gval tab vars b g = v.
Proof.
  intros tab cmap vars names color_of U NU NE x OK.
  destruct (guards_ok tab cmap vars names None color_of _ (fun name H => find_color_unique tab cmap names NE NU _ _ name U (proj1 H) (proj2 H)) x false OK) as (g & E & M).
  exists g. split; [exact E|]. intros b v H. rewrite (M b v H). destruct v; reflexivity.
Qed.
Print Assumptions C36_guards_partial.

(** Inscriptions of arcs, without sums in tuples and <all> of products. *)
Theorem C36_inscriptions_partial : forall tab cmap vars names color_of,
  unique_names tab names ->
  (forall ty c, nth_error tab ty <> Some (TProd [c])) ->
  (forall ty l, nth_error tab ty = None \/ (exists cs, nth_error tab ty = Some (TProd cs)) -> nth_error names ty = Some l -> l = []) ->
  forall x, inscription_ok tab (fun name => has tab names (fst (color_of name)) (snd (color_of name)) name /\ In (fst (color_of name)) cmap) x False ->
  forall siblings, exists a, parse_arc tab cmap names None x siblings = Ok a /\
    forall b m, inscription tab vars color_of b x = Some m -> forall v, mval tab vars b a v = m v.
Proof.
  intros tab cmap vars names color_of U NU NE x OK siblings.
  apply (inscriptions_ok tab cmap vars names None color_of _ (fun name H => find_color_unique tab cmap names NE NU _ _ name U (proj1 H) (proj2 H)) x False siblings); [contradiction|exact OK].
Qed.
Print Assumptions C36_inscriptions_partial.

(** Initial markings: the names of colours are those of the type of the place, or of its
    constituents, and need to be unique only there. *)
Theorem C36_initial_markings_partial : forall tab cmap vars names color_of p types,
  ((exists n, nth_error tab p = Some (TEnum n)) /\ types = [p] /\ In p cmap \/
   nth_error tab p = Some (TProd types) /\ 2 <= length types /\ cmap <> []) ->
  (forall c, In c types -> exists n, nth_error tab c = Some (TEnum n)) ->
  (forall ty i ty' i' name, In ty types -> In ty' types -> has tab names ty i name -> has tab names ty' i' name -> ty = ty' /\ i = i') ->
  (forall ty c, nth_error tab ty <> Some (TProd [c])) ->
  (forall ty l, nth_error tab ty = None \/ (exists cs, nth_error tab ty = Some (TProd cs)) -> nth_error names ty = Some l -> l = []) ->
  forall x, inscription_ok tab (fun name => has tab names (fst (color_of name)) (snd (color_of name)) name /\ In (fst (color_of name)) types) x False ->
  forall siblings, exists a, parse_arc tab cmap names (Some p) x siblings = Ok a /\
    forall b m, inscription tab vars color_of b x = Some m -> forall v, mval tab vars b a v = m v.
Proof.
  intros tab cmap vars names color_of p types P EN U NU NE x OK siblings.
  refine (inscriptions_ok tab cmap vars names (Some p) color_of _ _ x False siblings _ OK); [|contradiction].
  intros name [H I]. cbv beta in *. destruct P as [([n E] & -> & J)|(E & L & J)].
  - destruct I as [I|[]]. rewrite <- I in *. apply (find_color_context tab cmap names _ _ name n E H); auto.
    intros j K. destruct (U _ _ _ _ _ (or_introl eq_refl) (or_introl eq_refl) K H). auto.
  - apply (find_color_product tab cmap names NE NU p types _ _ name E L EN I H); auto.
    intros ty' j T K. apply (U _ _ _ _ name T I K H).
Qed.
Print Assumptions C36_initial_markings_partial.

(** Findings: the excluded cases are read wrongly. *)
Theorem C36_double_negation_refuted : exists x g b, guard xp_tab xp_vars xp_color b x = Some true /\
  parse_guard xp_tab xp_map xp_names None x false = Ok g /\ gval xp_tab xp_vars b g = false.
Proof. exact double_negation. Qed.
Print Assumptions C36_double_negation_refuted.
Theorem C36_three_conjuncts_refuted : exists x g b, guard xp_tab xp_vars xp_color b x = Some false /\
  parse_guard xp_tab xp_map xp_names None x false = Ok g /\ gval xp_tab xp_vars b g = true.
Proof. exact three_conjuncts. Qed.
Print Assumptions C36_three_conjuncts_refuted.
Theorem C36_tuple_sum_refuted : exists x m a b, inscription xp_tab xp_vars xp_color b x = Some m /\ m (VT [1; 0]) = 1%N /\
  parse_arc xp_tab xp_map xp_names None x [x] = Ok a /\ mval xp_tab xp_vars b a (VT [1; 0]) = 0%N /\ mval xp_tab xp_vars b a (VT [0; 0]) = 2%N.
Proof. exact tuple_sum. Qed.
Print Assumptions C36_tuple_sum_refuted.
Theorem C36_all_product_refuted : exists x m b, inscription xp_tab xp_vars xp_color b x = Some m /\ m (VT [2; 1]) = 1%N /\
  parse_arc xp_tab xp_map xp_names None x [x] = UB.
Proof. exact all_product. Qed.
Print Assumptions C36_all_product_refuted.
Theorem C36_shared_name_refuted : exists tab cmap names name, has tab names 2 0 name /\
  parse_arc tab cmap names None (X Tnumberof [num 1; col name]) [] = Ok (ANum [EUser 1 1] 1).
Proof. exact shared_name. Qed.
Print Assumptions C36_shared_name_refuted.

(** A guard and an inscription that meet the hypotheses. *)
Example C36_hypotheses : unique_names xp_tab xp_names /\
  guard_ok (fun name => has xp_tab xp_names (fst (xp_color name)) (snd (xp_color name)) name /\ In (fst (xp_color name)) xp_map) xp_guard false /\
  inscription_ok xp_tab (fun name => has xp_tab xp_names (fst (xp_color name)) (snd (xp_color name)) name /\ In (fst (xp_color name)) xp_map) xp_arc False /\
  guard xp_tab xp_vars xp_color xp_b xp_guard = Some true /\
  guard xp_tab xp_vars xp_color (fun _ => VE 0) xp_guard = Some false /\
  exists m, inscription xp_tab xp_vars xp_color xp_b xp_arc = Some m /\
    map m [VT [0; 0]; VT [1; 0]; VT [1; 1]; VT [2; 0]; VT [2; 1]] = [0; 3; 2; 1; 0]%N.
Proof.
  split; [exact xp_unique|]. split; [exact xp_guard_ok|]. split; [exact xp_arc_ok|]. split; [exact (proj1 xp_guard_value)|].
  split; [exact (proj2 xp_guard_value)|]. exact xp_arc_value.
Qed.
