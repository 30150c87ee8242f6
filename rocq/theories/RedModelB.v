(** Model of structural reduction rule B (Reducer.cpp:420-625): the only consumer of a place is
    merged into the producers of the place.  The conventions are those of RedModel.v; a call is
    modelled for one place (one iteration of the outermost loop).  What is recorded for the
    reconstruction of traces (534-547) is not modelled. *)
From Verif Require Import Base NetSpec NetModel BuilderModel RedModel.
Set Implicit Arguments.

Section RuleB.
(** placeInQuery *)
Variable inq : nat -> bool.
(** remove_deadlocks and remove_consumers *)
Variables rdl rc : bool.

(** Reducer.cpp:459-524: whether the consumer [tin] of [p] can be merged into the producer
    [tout]; the answer is the multiplier (473-478) and the weight of the arc consumed.  The
    arc must exist (getInArc and getOutArc are dereferenced); a weight 0 is a division by zero. *)
Definition b_check (b : builder) (p tin tout : nat) : res (option (N * N)) :=
  let i := tr_of b tin in
  let o := tr_of b tout in
  if negb (Nat.eqb (length (bt_post o)) 1) && negb (Nat.eqb (length (bt_pre i)) 1) then Ok None else
  if (negb rdl || negb rc) && negb (Nat.eqb (length (bt_pre i)) 1) then Ok None else
  if (0 <? init_at b p)%N && negb (Nat.eqb (length (bt_pre i)) 1) then Ok None else
  a <- some (in_arc b p tin) ;;
  u <- some (out_arc b tout p) ;;
  if (arc_weight u <? arc_weight a)%N then Ok None else
  if (arc_weight a =? 0)%N then UB else
  if negb (arc_weight u mod arc_weight a =? 0)%N then Ok None else
  if bp_inhib (pl_of b p) || bt_inhib i || bt_inhib o then Ok None else
  if existsb (fun x => bp_inhib (pl_of b (arc_place x)) || inq (arc_place x)) (bt_post i) then Ok None else
  if existsb (fun x => bp_inhib (pl_of b (arc_place x)) || inq (arc_place x)) (bt_pre i) then Ok None else
  if Nat.ltb 1 (length (bt_pre i)) && existsb (fun x => inq (arc_place x)) (bt_pre o) then Ok None else
  if existsb (fun x => (0 <? arc_weight x)%N && negb (Nat.eqb (arc_place x) p))
       (if Nat.ltb (length (bt_pre i)) (length (bt_post o)) then bt_pre i else bt_post o) then Ok None else
  Ok (Some ((arc_weight u / arc_weight a)%N, arc_weight a)).

(** Reducer.cpp:526-617: the arcs of [tin] are moved to [tout] and the arc of [tout] to [p] is
    erased.  The initial marking and the arcs are changed in turns by the code; they are
    different data, and the model changes the marking first. *)
Definition b_merge (b : builder) (p tin tout : nat) (mult w : N) : res builder :=
  let i := tr_of b tin in
  let initm := (init_at b p / w)%N in
  let rest := filter (fun a => negb (Nat.eqb (arc_place a) p)) (bt_pre i) in
  b0 <- fold_res (fun c a => add_init c (arc_place a) (initm * arc_weight a)) (bt_post i) (set_init b p 0) ;;
  b1 <- fold_res (fun c a => add_init c (arc_place a) (initm * arc_weight a)) rest b0 ;;
  b2 <- fold_res (fun c a => add_out c tout (arc_place a) (mult * arc_weight a)) (bt_post i) b1 ;;
  b3 <- fold_res (fun c a => add_in c (arc_place a) tout (mult * arc_weight a)) rest b2 ;;
  skip_out_arc b3 tout p.

(** Reducer.cpp:455-617, one producer. *)
Definition b_producer (p tin : nat) (b : builder) (tout : nat) : res builder :=
  c <- b_check b p tin tout ;;
  match c with
  | None => Ok b
  | Some (mult, w) => b_merge b p tin tout mult w
  end.

(** Reducer.cpp:426-622, one place. *)
Definition rule_b (b : builder) (p : nat) : res builder :=
  let pl := pl_of b p in
  if bp_skip pl || inq p then Ok b else
  match bp_cons pl with
  | [tin] =>
    match bp_prod pl with
    | [] => Ok b
    | _ =>
      if existsb (Nat.eqb tin) (bp_prod pl) then Ok b else
      b1 <- fold_res (b_producer p tin) (bp_prod pl) b ;;
      match bp_prod (pl_of b1 p) with
      | [] => b2 <- skip_place b1 p ;; skip_transition b2 tin
      | _ => Ok b1
      end
    end
  | _ => Ok b
  end.
End RuleB.
