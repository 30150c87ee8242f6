(** C34: unfolding a coloured net. *)
From Verif Require Import Base NetSpec NetModel BuilderModel BuilderSpec BuilderMain
  ColSyntax ColSpec ColModel ColEval ColGen ColCorr ColTuple ColNames ColNamesProofs ColFinal ColExamples.
From Coq Require Import Permutation String.

(** An arc expression is evaluated to the multiset it denotes. *)
Theorem C34_arc_expressions : forall n, tab_ok n -> forall e ty b a,
  atyped n e ty -> brel n b a (avars e) -> (aweight e < 2147483648)%N ->
  exists m, evaluate (cn_types n) (cn_map n) (cn_vars n) b e = Ok m /\
    (forall v, vtyped (cn_types n) ty v ->
       mget m (ty, vnum (cn_types n) ty v) = mval (cn_types n) (cn_vars n) a e v) /\
    NoDup (map fst (snd m)).
Proof.
  intros n T e ty b a TY B W. destruct (evaluate_ok n T e ty b a TY B W) as (m & E & R & _). exists m.
  split; [exact E|]. split; [|exact (mr_nodup _ _ _ _ R)].
  intros v V. rewrite (mget_mlook _ _ _ _ _ R). exact (mr_val _ _ _ _ R v V).
Qed.
Print Assumptions C34_arc_expressions.

(** The colours of a product are numbered without gaps or clashes: making a colour from its
    components and taking it apart again agree. *)
Theorem C34_tuple_numbering : forall n, tab_ok n -> forall ty cs l, nth_error (cn_types n) ty = Some (TProd cs) ->
  Forall2 (fun i c => i < esize (cn_types n) c) l cs ->
  get_color (cn_types n) ty (combine cs l) = Ok (ty, vnum (cn_types n) ty (VT l)) /\
  tuple_colors (cn_types n) (ty, vnum (cn_types n) ty (VT l)) = combine cs l.
Proof. exact tuple_numbering. Qed.
Print Assumptions C34_tuple_numbering.
Example C34_tuple_numbering_case : exists l, Forall2 (fun i c => i < esize (cn_types xn) c) l [1; 1] /\ vnum (cn_types xn) 2 (VT l) = 2.
Proof. exists [0; 1]. split; [repeat constructor|reflexivity]. Qed.

(** The bindings of a transition that are enumerated are those satisfying its guard. *)
Theorem C34_bindings : forall n, tab_ok n ->
  (forall v ty, nth_error (cn_vars n) v = Some ty -> exists d, nth_error (cn_types n) ty = Some d) ->
  forall vs, (forall v, In v vs -> v < Datatypes.length (cn_vars n)) ->
  forall g, (forall e, g = Some e -> gtyped n e /\ incl (gvars e) vs) ->
  exists bs, naive_bindings (cn_types n) (cn_map n) (cn_vars n) g vs = Ok bs /\
    (forall b, In b bs -> exists a, binds n a /\ brel n b a vs /\
       forall e, g = Some e -> gval (cn_types n) (cn_vars n) a e = true) /\
    (forall a, binds n a -> (forall e, g = Some e -> gval (cn_types n) (cn_vars n) a e = true) ->
       exists b, In b bs /\ brel n b a vs).
Proof. exact naive_bindings_ok. Qed.
Print Assumptions C34_bindings.

(** Every run of the coloured net is a run of the unfolded net and conversely, and the
    unfolded marking answers queries as the coloured one. *)
Theorem C34_unfolding : forall n enc enct vs,
  cpn_ok n -> (forall u v, enc u = enc v -> u = v) ->
  (forall t i t' i', enct t i = enct t' i' -> t = t' /\ i = i') ->
  (forall t tr, nth_error (cn_trs n) t = Some tr -> forall v, In v (vs t) <-> In v (tvars tr)) ->
  exists s gens, naive_unfold n enc enct vs = Ok (s, gens) /\
    (forall ts M, cruns n (cinit n) ts M ->
       exists xs U, uruns (u_calls s) (init_of (u_calls s)) xs U /\
         Forall2 (fun t x => In x (tnames enct gens t)) ts xs /\
         agrees n enc (u_calls s) (fun p => map snd (pnames s p)) (tnames enct gens) M U) /\
    (forall xs U, uruns (u_calls s) (init_of (u_calls s)) xs U ->
       exists ts M, cruns n (cinit n) ts M /\
         Forall2 (fun t x => In x (tnames enct gens t)) ts xs /\
         agrees n enc (u_calls s) (fun p => map snd (pnames s p)) (tnames enct gens) M U).
Proof. exact unfold_runs. Qed.
Print Assumptions C34_unfolding.

Example C34_unfolding_case : cpn_ok xn /\ (forall u v, xenc u = xenc v -> u = v) /\
  (forall t i t' i', xenct t i = xenct t' i' -> t = t' /\ i = i') /\
  (forall t tr, nth_error (cn_trs xn) t = Some tr -> forall v, In v (xvs t) <-> In v (tvars tr)) /\
  Datatypes.length xn_calls = 21 /\ separate xn /\ 0 < Datatypes.length (cn_pls xn).
Proof.
  split; [exact xn_ok|]. split; [exact xenc_inj|]. split; [exact xenct_inj|]. split; [exact xn_vs|].
  split; [vm_compute; reflexivity|]. split; [exact xn_separate|]. cbn. lia.
Qed.

(** The same down to the compiled net that is searched. *)
Theorem C34_unfolding_compiled : forall n enc enct vs reorder,
  cpn_ok n -> separate n -> 0 < Datatypes.length (cn_pls n) ->
  (forall u v, enc u = enc v -> u = v) ->
  (forall t i t' i', enct t i = enct t' i' -> t = t' /\ i = i') ->
  (forall t tr, nth_error (cn_trs n) t = Some tr -> forall v, In v (vs t) <-> In v (tvars tr)) ->
  exists s gens b net ids tids pidx tidx,
    naive_unfold n enc enct vs = Ok (s, gens) /\ do_calls b_empty (u_calls s) = Ok b /\
    make_net b reorder = Ok (net, ids, tids) /\ layout net /\
    exists R : cmark -> NetSpec.marking -> Prop,
      R (cinit n) (cn_init net) /\
      (forall M m, R M m -> Datatypes.length m = cn_places net) /\
      (forall M m t M', R M m -> cstep n M t M' ->
         exists i m', In i (map tidx (tnames enct gens t)) /\ step (to_pnet net) m i m' /\ R M' m') /\
      (forall M m i m', R M m -> step (to_pnet net) m i m' ->
         exists t M', In i (map tidx (tnames enct gens t)) /\ cstep n M t M' /\ R M' m') /\
      (forall M m p v, R M m -> p < Datatypes.length (cn_pls n) -> vtyped (cn_types n) (ptype n p) v ->
         let x := enc (UCol p (vnum (cn_types n) (ptype n p) v)) in
         (is_place (u_calls s) x -> tokens m (pidx x) = M p v) /\ (~ is_place (u_calls s) x -> M p v = cinit n p v)) /\
      (forall M m p names, R M m -> p < Datatypes.length (cn_pls n) -> Permutation names (map snd (pnames s p)) ->
         (forall t w, ~ In (p, t, w) (cn_inh n)) \/ untouched n p ->
         exists us, place_query names = Ok us /\
           sumN (map (fun u => tokens m (pidx (enc u))) us) = total n M p /\
           sumN (map (fun u => tokens m (pidx (enc u))) (bounds_query names)) = total n M p).
Proof. exact unfold_compiled. Qed.
Print Assumptions C34_unfolding_compiled.

(** The names given to unfolded places and transitions are distinct. *)
Theorem C34_names_distinct :
  (forall pname, (forall p q, pname p = pname q -> p = q) ->
     forall u v, uname_string pname u = uname_string pname v -> u = v) /\
  (forall tname, (forall t t', tname t = tname t' -> t = t') ->
     forall t i t' i', copy_string tname t i = copy_string tname t' i' -> t = t' /\ i = i').
Proof. exact (conj uname_string_inj copy_string_inj). Qed.
Print Assumptions C34_names_distinct.

Example C34_names_case : uname_string (fun p => dec p) (UCol 12 3) = "12_3"%string /\
  uname_string (fun p => dec p) (USum 12) = "12Sum"%string /\ uname_string (fun p => dec p) (UOrph 1) = "1_orphan"%string.
Proof. vm_compute. auto. Qed.

(** Without the condition on inhibitor arcs the token count of a place is wrong: the sum
    place is among the names that are added up, and it hides that tokens have no place. *)
Theorem C34_inhibiting_query_refuted : exists n enc enct vs s gens p,
  cpn_ok n /\ separate n /\ (forall u v, enc u = enc v -> u = v) /\
  (forall t i t' i', enct t i = enct t' i' -> t = t' /\ i = i') /\
  (forall t tr, nth_error (cn_trs n) t = Some tr -> forall v, In v (vs t) <-> In v (tvars tr)) /\
  naive_unfold n enc enct vs = Ok (s, gens) /\ p < Datatypes.length (cn_pls n) /\
  forall names, Permutation names (map snd (pnames s p)) ->
    (forall us, place_query names = Ok us -> sumU enc (init_of (u_calls s)) us <> total n (cinit n) p) /\
    sumU enc (init_of (u_calls s)) (bounds_query names) <> total n (cinit n) p.
Proof. exact inhibiting_query. Qed.
Print Assumptions C34_inhibiting_query_refuted.

(** A transition with an input arc and an inhibitor arc from one place can fire, but its
    net is rejected when it is unfolded. *)
Theorem C34_both_arcs_refuted : exists n enc enct vs s gens M,
  cpn_ok n /\ (forall u v, enc u = enc v -> u = v) /\
  (forall t i t' i', enct t i = enct t' i' -> t = t' /\ i = i') /\
  (forall t tr, nth_error (cn_trs n) t = Some tr -> forall v, In v (vs t) <-> In v (tvars tr)) /\
  cstep n (cinit n) 0 M /\
  naive_unfold n enc enct vs = Ok (s, gens) /\ do_calls b_empty (u_calls s) = Throw.
Proof. exact both_arcs. Qed.
Print Assumptions C34_both_arcs_refuted.
