(** Specification for queries about fireable transitions of a coloured net (C44). *)
From Verif Require Import Base NetSpec NetModel ColSyntax ColSpec ExpSpec IgnFireModel.
Set Implicit Arguments.

Section Spec.
Variable n : cpn.

(** A formula in a coloured marking: [FFire t] if [t] can fire with some binding. *)
Fixpoint fholds (M : cmark) (f : fform) : Prop :=
  match f with
  | FBool b => b = true
  | FFire t => exists M', cstep n M t M'
  | FNot f => ~ fholds M f
  | FAnd l => fold_right and True (map (fholds M) l)
  | FOr l => fold_right or False (map (fholds M) l)
  end.
Fixpoint fmeans (q : fquery) : Prop :=
  match q with
  | QEF f => exists M, creach n M /\ fholds M f
  | QAG f => forall M, creach n M -> fholds M f
  | QNot q => ~ fmeans q
  end.
End Spec.

(** The transitions of a query. *)
Fixpoint ftrans (f : fform) : list nat :=
  match f with
  | FBool _ => []
  | FFire t => [t]
  | FNot f => ftrans f
  | FAnd l | FOr l => flat_map ftrans l
  end.
Fixpoint qtrans (q : fquery) : list nat :=
  match q with
  | QEF f | QAG f => ftrans f
  | QNot q => qtrans q
  end.

(** The transition [t] takes tokens from some place, whatever the colours. *)
Definition takes (net : cnet) (t : nat) : Prop :=
  exists a, In a (tr_pre (net_trans net t)) /\ arc_inhib a = false /\ (0 < arc_weight a)%N.
