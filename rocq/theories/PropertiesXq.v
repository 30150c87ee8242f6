(** C38: queries in XML files are read as what they say, written queries are read back with
    the same meaning, and the step to CTL keeps the meaning. *)
From Verif Require Import Base PqlSyntax XqSyntax XqSpec XqModel XqForm XqWrite XqCtl XqExamples.
Local Open Scope string_scope.

(** A well-formed query is read, and the formula says what the query says: over every frame
    (states, runs, tokens, fireable transitions, dead states, winning controllers), every run
    and every naming of runs. *)
Theorem C38_read_query : forall t a s q, good_query q = true ->
  exists c, parse_formula (X t a s [q]) = Ok (Some c) /\ reads c q.
Proof. exact parse_query_ok. Qed.
Print Assumptions C38_read_query.

(** A file with well-formed queries at the chosen numbers gives these queries, in order and
    each with its name. *)
Theorem C38_read_file : forall only a s ks ps, List.length ks = List.length ps ->
  (forall j k p, nth_error ks j = Some k -> nth_error ps j = Some p -> wantsb only j = true ->
     is_property k (fst p) (snd p) /\ good_query (snd p) = true) ->
  exists cs, read_queries only (X Tset a s ks) = Ok (cs, map fst (chosen only 0 ps)) /\
             Forall2 reads cs (map snd (chosen only 0 ps)).
Proof. exact read_file_ok. Qed.
Print Assumptions C38_read_file.
Example C38_read_case :
  good_query q_ag = true /\ good_query q_eu = true /\ good_query q_bound = true /\
  is_property (prop "first" q_ag) "first" q_ag /\
  read_queries [] file = Ok ([c_ag; c_eu; N1 OEF (NBounds ["p1"; "p2"])], ["first"; "second"; "third"]) /\
  read_queries [1; 2] file = Ok ([c_eu; N1 OEF (NBounds ["p1"; "p2"])], ["second"; "third"]).
Proof. exact file_case. Qed.

(** Queries that are written are read back with their names and meanings, in the order in
    which they were written, without those that have an answer (unless these are kept).
    Partial: not for queries for bounds and global properties, limits above 2147483647, empty
    sums and names with white space; for all but global properties see the refutations. *)
Theorem C38_write_read_partial : forall qs names solved keep order,
  (forall i, In i order -> i < List.length qs) -> List.length names = List.length qs -> List.length solved = List.length qs ->
  (forall i, In i (written keep solved order) -> cond_ok (nth i qs NDead) = true /\ nth i names "" <> "") ->
  exists x cs, write_queries qs names solved keep order = Ok x /\
    read_queries [] x = Ok (cs, map (fun i => nth i names "") (written keep solved order)) /\
    Forall2 (fun c i => same (nth i qs NDead) c) cs (written keep solved order).
Proof. exact write_read_ok. Qed.
Print Assumptions C38_write_read_partial.
Example C38_write_case :
  cond_ok c_ag = true /\ cond_ok c_conj = true /\
  written false [false; true; false] [2; 1; 0] = [2; 0] /\
  exists x, write_queries [c_ag; c_eu; c_conj] ["a"; "b"; "c"] [false; true; false] false [2; 1; 0] = Ok x /\
  exists c, read_queries [] x = Ok ([c; c_ag], ["c"; "a"]).
Proof. exact write_case. Qed.

(** A query that is accepted as CTL is turned into a formula of CTL with the same meaning.
    Partial: not for queries that are a formula on runs, and not for "control" of a formula
    on runs; both fail, see the refutations. *)
Theorem C38_to_ctl_partial : forall junk x c, parse_formula x = Ok (Some c) -> path_formula c = false -> controls_states c = true ->
  is_ctl junk c = true -> exists c', as_ctl c = Ok c' /\ ctl c' = true /\ same c c'.
Proof. exact as_ctl_ok. Qed.
Print Assumptions C38_to_ctl_partial.

(** Every query in which quantifiers and operators alternate is accepted as CTL. *)
Theorem C38_ctl_accepted : forall junk c, state_formula c = true -> is_ctl junk c = true.
Proof. exact ctl_passes. Qed.
Print Assumptions C38_ctl_accepted.
Example C38_ctl_case :
  parse_formula (el Tformula [q_ag]) = Ok (Some c_ag) /\ path_formula c_ag = false /\ controls_states c_ag = true /\ state_formula c_ag = true /\
  is_ctl true c_ag = true /\
  as_ctl c_ag = Ok (N1 OAG (NOr [NCmp OpLe (NPlus 0 [] [NId "p1"; NMul 2 [] [NSub [NId "p2"; NLit 3]]]) (NId "p3"); NFire "t1"; NFire "t2"])) /\
  is_ctl false (N1 OA (N1 OG (N1 OF NDead))) = false /\
  as_ctl c_eu = Ok (N2 OEU (NNot NDead) (NCmp OpLt (NLit (-7)) (NId "p1"))).
Proof. exact ctl_case. Qed.

(** Text that is not a number is read as one, or as whatever the memory holds. *)
Theorem C38_numbers_refuted : exists s s',
  number s = None /\ parse_exp (tx Tconstant s) = Ok (Some (NLit 12)) /\
  number s' = None /\ parse_exp (tx Tconstant s') = UB.
Proof. exact bad_numbers. Qed.
Print Assumptions C38_numbers_refuted.
(** Numbers above 2147483647 are undefined behaviour, as are constants whose product does not
    fit in 64 bits. *)
Theorem C38_large_numbers_refuted : exists s, number s = Some 4000000000%Z /\ parse_exp (tx Tconstant s) = UB.
Proof. exact big_number. Qed.
Print Assumptions C38_large_numbers_refuted.
Theorem C38_large_products_refuted : exists x, wf_form x = true /\ parse_form x = UB.
Proof. exact big_sum. Qed.
Print Assumptions C38_large_products_refuted.
(** A query for a bound cannot be read back after it was written. *)
Theorem C38_write_bound_refuted : exists q c t,
  good_query q = true /\ parse_formula (el Tformula [q]) = Ok (Some c) /\ print_cond c = Ok [t] /\ parse_formula (el Tformula [t]) = Throw.
Proof. exact bound_unreadable. Qed.
Print Assumptions C38_write_bound_refuted.
(** Limits on places above 2147483647 cannot be read back. *)
Theorem C38_write_limit_refuted : exists cs t,
  Forall (fun c => name_ok (fst (fst c)) = true /\ (snd (fst c) <= snd c <= u32max)%N) cs /\
  print_cond (NConj false cs) = Ok [t] /\ parse_formula (el Tformula [t]) = UB.
Proof. exact limit_unreadable. Qed.
Print Assumptions C38_write_limit_refuted.
(** An empty sum is written as nothing. *)
Theorem C38_write_empty_sum_refuted : exists t, print_cond (NCmp OpLe (NPlus 0 [] []) (NLit 1)) = Ok [t] /\ parse_formula (el Tformula [t]) = Ok None.
Proof. exact empty_sum. Qed.
Print Assumptions C38_write_empty_sum_refuted.
(** A place whose name has white space is read back as another place. *)
Theorem C38_write_spaces_refuted : exists p t c, print_cond (NCmp OpLe (NId p) (NLit 1)) = Ok [t] /\ parse_formula (el Tformula [t]) = Ok (Some c) /\
  c <> NCmp OpLe (NId p) (NLit 1) /\ ~ same (NCmp OpLe (NId p) (NLit 1)) c.
Proof. exact spaces. Qed.
Print Assumptions C38_write_spaces_refuted.
(** After a query that cannot be read all answers are given under the name of the query
    before. *)
Theorem C38_names_refuted : exists x cs names, read_queries [] x = Ok (cs, names) /\ names = ["first"; "second"] /\ cs = [NDead].
Proof. exact shifted. Qed.
Print Assumptions C38_names_refuted.
(** A property without formula is undefined behaviour. *)
Theorem C38_no_formula_refuted : exists x, tag_of x = Tset /\ read_queries [] x = UB.
Proof. exact no_formula. Qed.
Print Assumptions C38_no_formula_refuted.
(** All but the first part of an invariant are ignored. *)
Theorem C38_dropped_refuted : exists k1 k2, parse_form (el Tinvariant [k1; k2]) = parse_form (el Tinvariant [k1]) /\ parse_form k2 = Ok (Some (NBool false)) /\
  parse_form (el Tinvariant [k1]) = Ok (Some (NNot (N1 OEF (NNot (NBool true))))).
Proof. exact dropped. Qed.
Print Assumptions C38_dropped_refuted.
(** Queries on runs are accepted as CTL, and so is "control" of one; then a null pointer is
    used. *)
Theorem C38_path_query_refuted : exists q c, good_query q = true /\ parse_formula (el Tformula [q]) = Ok (Some c) /\
  is_ctl false c = true /\ is_ctl true c = true /\ as_ctl c = UB.
Proof. exact bare_path. Qed.
Print Assumptions C38_path_query_refuted.
Theorem C38_control_path_refuted : exists q c, good_query q = true /\ parse_formula (el Tformula [q]) = Ok (Some c) /\ path_formula c = false /\
  is_ctl false c = true /\ is_ctl true c = true /\ as_ctl c = UB.
Proof. exact control_path. Qed.
Print Assumptions C38_control_path_refuted.
