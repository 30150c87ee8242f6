(** Specification of firing counts and of the linear programs given to the solver. *)
From Verif Require Import Base NetSpec.
Set Implicit Arguments.

(** how often transition [t] occurs in a firing sequence *)
Definition occ (w : list nat) (t : nat) : Z := Z.of_nat (count_occ Nat.eq_dec w t).
(** f 0 + ... + f (n-1) *)
Fixpoint sumto (n : nat) (f : nat -> Z) : Z :=
  match n with O => 0 | S n => sumto n f + f n end%Z.

(** A linear form given by its non-zero coefficients (variable, coefficient). *)
Definition lrow := list (nat * Z).
Definition row_value (r : lrow) (x : nat -> Z) : Z := fold_right Z.add 0%Z (map (fun e => snd e * x (fst e))%Z r).
(** bounds; None is infinite *)
Definition above (lo : option Z) (v : Z) : Prop := match lo with None => True | Some l => (l <= v)%Z end.
Definition below (hi : option Z) (v : Z) : Prop := match hi with None => True | Some h => (v <= h)%Z end.

(** A linear program over the variables 0 .. lp_n - 1: a matrix given by columns, a lower
    bound for each row of it, and further rows with bounds. *)
Record lp := mkLp {
  lp_n : nat;
  lp_columns : list lrow;
  lp_lower : list Z;
  lp_rows : list (lrow * option Z * option Z)
}.
(** entry of a column *)
Definition entry (c : lrow) (p : nat) : Z := fold_right Z.add 0%Z (map snd (filter (fun e => Nat.eqb (fst e) p) c)).
Definition column_sum (P : lp) (x : nat -> Z) (p : nat) : Z :=
  sumto (lp_n P) (fun t => entry (nth t (lp_columns P) []) p * x t)%Z.
(** non-negative integer solutions *)
Definition solution (P : lp) (x : nat -> Z) : Prop :=
  (forall t, (0 <= x t)%Z) /\
  (forall p lo, nth_error (lp_lower P) p = Some lo -> (lo <= column_sum P x p)%Z) /\
  (forall r lo hi, In (r, lo, hi) (lp_rows P) -> above lo (row_value r x) /\ below hi (row_value r x)).

(** What the solver's functions glp_simplex and glp_intopt report: return code and status.
    The program takes the following reports as a proof that there is no solution. *)
Inductive glp_ret := GDone | GTimeLimit | GNoPrimal | GNoDual | GNoFeasible | GOther.
Inductive glp_status := GOpt | GFeas | GInfeas | GNofeas | GUnbnd | GUndef.
Definition reports_infeasible (r : glp_ret * glp_status) : Prop :=
  match fst r with
  | GDone => match snd r with GInfeas | GNofeas | GUndef => True | _ => False end
  | GNoPrimal | GNoDual | GNoFeasible => True
  | GTimeLimit | GOther => False
  end.
(** A solver (its n-th answer may depend on n) that reports infeasibility only for systems
    without non-negative integer solutions. *)
Definition sound_solver (f : nat -> lp -> glp_ret * glp_status) : Prop :=
  forall n P, reports_infeasible (f n P) -> ~ exists x, solution P x.
