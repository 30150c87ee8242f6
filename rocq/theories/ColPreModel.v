(** Model of the preemptive firing of transitions in coloured nets
    (src/PetriEngine/Colored/Reduction/RedRulePreemptiveFiring.cpp). *)
From Verif Require Import Base ColSyntax ColModel ColRedModel.
Set Implicit Arguments.

Section Rule.
(** [used_t], [used_p]: ColoredUseVisitor; [same]: equality of the printed expressions;
    [timeout]: hasTimedOut when the place is looked at. *)
Variable used_t used_p : nat -> bool.
Variable same : aexp -> aexp -> bool.
Variable timeout : nat -> bool.
(** What reading the first element of a list of consumers gives after the list has been
    cleared, for the element that was there before: undefined behaviour in C++, the old element
    in an implementation whose clear() leaves the memory alone. *)
Variable cleared : nat -> res nat.

(** Transition::inhibited *)
Definition inhibited (n : cpn) (t : nat) : bool := existsb (fun x => Nat.eqb (snd (fst x)) t) (cn_inh n).

(** RedRulePreemptiveFiring.cpp:62-108 t_is_viable; [fired]: the transitions fired before (by
    name in the code).  A weight of 0 divides by zero. *)
Definition viable (n : cpn) (fired : list nat) (mk : mset) (t p : nat) : res bool :=
  if used_t t then Ok false
  else if existsb (Nat.eqb t) fired then Ok false
  else if match ct_guard (tr_of n t) with Some _ => true | None => false end then Ok false
  else if inhibited n t then Ok false
  else if 1 <? length (ct_in (tr_of n t)) then Ok false
  else
    match find_arc p (ct_in (tr_of n t)) with
    | None => UB
    | Some i =>
      let w := weight i in
      if negb (match producers n p with [] => true | _ => false end) && negb (N.eqb w 1) then Ok false
      else if (1 <? length (snd mk)) && negb (N.eqb w 1) then Ok false
      else if N.eqb w 0 then UB
      else if negb (N.eqb (N.modulo (msize mk) w) 0) then Ok false
      else
        Ok (forallb (fun o =>
              negb (used_p (fst o)) && negb (inhibiting n (fst o)) &&
              forallb (fun u => negb (used_t u)) (consumers n (fst o)) &&
              same (snd o) i) (ct_out (tr_of n t)))
    end.

(** Place::marking is a multiset in the code, here an expression for it: [a + b] is the
    expression with both summands, the empty multiset is no expression. *)
Definition add_init (pl : cplace) (a : aexp) : cplace :=
  mkCP (cp_type pl) (Some (match cp_init pl with None => a | Some x => AAdd [x; a] end)).
Definition with_places (r : rnet) (pls : list cplace) : rnet :=
  let n := r_net r in mkR (mkCpn (cn_types n) (cn_map n) (cn_vars n) pls (cn_trs n) (cn_inh n)) (r_trs r) (r_pls r).
(** 43-46: the tokens are added to the marking of every output place *)
Fixpoint give (pls : list cplace) (a : aexp) (outs : list (nat * aexp)) : list cplace :=
  match outs with
  | [] => pls
  | o :: outs' => give (match nth_error pls (fst o) with Some q => upd pls (fst o) (add_init q a) | None => pls end) a outs'
  end.
(** 24-57: one place *)
Definition fire_place (r : rnet) (fired : list nat) (p : nat) : res (rnet * list nat) :=
  let n := r_net r in
  if existsb (Nat.eqb p) (r_pls r) then Ok (r, fired)
  else
    match nth_error (cn_pls n) p with
    | None => UB
    | Some pl =>
      mk <- marking n pl ;;
      if N.eqb (msize mk) 0 then Ok (r, fired)
      else if inhibiting n p then Ok (r, fired)
      else if used_p p then Ok (r, fired)
      else
        match consumers n p, cp_init pl with
        | [t], Some a =>
          v <- viable n fired mk t p ;;
          if v then
            let pls := give (cn_pls n) a (ct_out (tr_of n t)) in
            match producers n p with
            (* 49-50: skipPlace clears place._post (ColoredReducer.cpp:131), which is read after it *)
            | [] => t' <- cleared t ;; Ok (skip_transition (skip_place (with_places r pls) p) t', t :: fired)
            | _ => Ok (with_places r (upd pls p (mkCP (cp_type pl) None)), t :: fired)
            end
          else Ok (r, fired)
        | _, _ => Ok (r, fired)
        end
    end.
(** 14-60 apply; the flag it returns is left out *)
Fixpoint fire_places (r : rnet) (fired : list nat) (ps : list nat) : res (rnet * list nat) :=
  match ps with
  | [] => Ok (r, fired)
  | p :: ps' => if timeout p then Ok (r, fired) else x <- fire_place r fired p ;; fire_places (fst x) (snd x) ps'
  end.
Definition preemptive (r : rnet) (fired : list nat) : res (rnet * list nat) := fire_places r fired (seq 0 (length (cn_pls (r_net r)))).
End Rule.
