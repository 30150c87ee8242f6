(** Model of the removal of what is irrelevant for the query from coloured nets
    (src/PetriEngine/Colored/Reduction/RedRuleRelevance.cpp). *)
From Verif Require Import Base ColSyntax ColModel ColRedModel ColRdpModel.
Set Implicit Arguments.

(** The flagged transitions, those still to be looked at (the last one first), and the flagged
    places. *)
Record rst := mkRS { rs_t : list nat; rs_w : list nat; rs_p : list nat }.
Definition memb (x : nat) (l : list nat) : bool := existsb (Nat.eqb x) l.

Section Rule.
(** [used_t], [used_p]: ColoredUseVisitor. *)
Variable used_t used_p : nat -> bool.

(** RedRuleRelevance.cpp:33-44, 56-67: transitions not flagged yet are *)
Definition mark (s : rst) (t : nat) : rst :=
  if memb t (rs_t s) then s else mkRS (t :: rs_t s) (t :: rs_w s) (rs_p s).
Definition flag_place (s : rst) (p : nat) : rst := mkRS (rs_t s) (rs_w s) (p :: rs_p s).
Definition mark_place (n : cpn) (s : rst) (p : nat) : rst :=
  fold_left mark (producers n p) (fold_left mark (consumers n p) (flag_place s p)).
(** 26-46: the places of the query *)
Definition mark_places (n : cpn) (s : rst) : rst :=
  fold_left (fun s p => if used_p p then mark_place n s p else s) (seq 0 (length (cn_pls n))) s.
(** 48-70: the transitions of the query that are not flagged yet *)
Definition mark_transitions (n : cpn) (s : rst) : rst :=
  fold_left (fun s t => if negb (memb t (rs_t s)) && used_t t
                        then fold_left (fun s x => mark_place n s (fst x)) (ct_in (tr_of n t)) (mark s t) else s)
            (seq 0 (length (cn_trs n))) s.

(** 84-95: a loop that does not change the place; VarMultiset.cpp:23-29 operator== *)
Definition neutral (n : cpn) (u q : nat) : res bool :=
  match find_arc q (ct_in (tr_of n u)), find_arc q (ct_out (tr_of n u)) with
  | Some i, Some o =>
    x <- extract (cn_vars n) i ;;
    match x with
    | None => Ok false
    | Some x =>
      y <- extract (cn_vars n) o ;;
      match y with
      | None => Ok false
      | Some y => a <- vsub_eq x y ;; b <- vsub_eq y x ;; Ok (a && b)
      end
    end
  | _, _ => Ok false
  end.
(** 80-99: the producers of an input place *)
Fixpoint mark_pre (n : cpn) (q : nat) (s : rst) (us : list nat) : res rst :=
  match us with
  | [] => Ok s
  | u :: us' =>
    if memb u (rs_t s) then mark_pre n q s us'
    else b <- neutral n u q ;; mark_pre n q (if b then s else mark s u) us'
  end.
(** 77-101: the input places of a transition *)
Fixpoint mark_inputs (n : cpn) (s : rst) (arcs : list (nat * aexp)) : res rst :=
  match arcs with
  | [] => Ok s
  | x :: arcs' => s' <- mark_pre n (fst x) (flag_place s (fst x)) (producers n (fst x)) ;; mark_inputs n s' arcs'
  end.
(** 107-123: the consumers of an inhibiting place *)
Definition harmless (n : cpn) (q : nat) (w : N) (u : nat) : bool :=
  match find_arc q (ct_out (tr_of n u)) with
  | Some o => (w <=? weight o)%N || match find_arc q (ct_in (tr_of n u)) with Some i => (weight i <=? weight o)%N | None => false end
  | None => false
  end.
Definition mark_post (n : cpn) (q : nat) (w : N) (s : rst) : rst :=
  fold_left (fun s u => if harmless n q w u then s else mark s u) (consumers n q) (flag_place s q).
(** 102-124: the inhibitor arcs of a transition *)
Definition mark_inhibitors (n : cpn) (t : nat) (s : rst) : rst :=
  fold_left (fun s x => if Nat.eqb (snd (fst x)) t then mark_post n (fst (fst x)) (snd x) s else s) (cn_inh n) s.
(** 72-125; every transition is put on the list once, so the fuel is enough *)
Fixpoint rel_loop (fuel : nat) (n : cpn) (s : rst) : res rst :=
  match rs_w s with
  | [] => Ok s
  | t :: w =>
    match fuel with
    | O => NoFuel
    | S f => s' <- mark_inputs n (mkRS (rs_t s) w (rs_p s)) (ct_in (tr_of n t)) ;; rel_loop f n (mark_inhibitors n t s')
    end
  end.

(** 141-143: a place is added if none is left *)
Definition add_dummy (r : rnet) : rnet :=
  let n := r_net r in
  if forallb (fun p => memb p (r_pls r)) (seq 0 (length (cn_pls n)))
  then mkR (mkCpn (cn_types n) (cn_map n) (cn_vars n) (cn_pls n ++ [mkCP 0 None]) (cn_trs n) (cn_inh n)) (r_trs r) (r_pls r)
  else r.
(** 16-147 apply.  When the time is up before line 127 the net stays as it is; this is left
    out. *)
Definition relevance (r : rnet) : res rnet :=
  let n := r_net r in
  s <- rel_loop (S (length (cn_trs n))) n (mark_transitions n (mark_places n (mkRS [] [] []))) ;;
  let ps := filter (fun p => negb (memb p (rs_p s) || memb p (r_pls r))) (rev (seq 0 (length (cn_pls n)))) in
  let ts := filter (fun t => negb (memb t (rs_t s) || memb t (r_trs r))) (rev (seq 0 (length (cn_trs n)))) in
  Ok (add_dummy (fold_left skip_transition ts (fold_left skip_place ps r))).
End Rule.
