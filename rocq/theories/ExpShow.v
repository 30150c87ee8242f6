(** Specification of the traces of the explicit engine (C37): what a printed trace says
    about the coloured net. *)
From Verif Require Import Base ColSyntax ColSpec ColModel ExpSyntax ExpSpec.
Set Implicit Arguments.

Section Show.
Variable n : cpn.
Notation tab := (cn_types n).
Notation vars := (cn_vars n).

(** The number of a colour within a place: of a tuple, the last component varies fastest. *)
Definition color_num (ty : nat) (v : value) : nat :=
  match nth_error tab ty, v with
  | Some (TEnum _), VE i => i
  | Some (TProd cs), VT l => fold_left (fun acc x => acc * snd x + fst x) (combine l (map (esize tab) cs)) 0
  | _, _ => 0
  end.

(** The counts (of a colour number of a place) are those of the marking. *)
Definition shows (cnt : nat -> nat -> Z) (M : cmark) : Prop :=
  forall p pl v, nth_error (cn_pls n) p = Some pl -> vtyped tab (cp_type pl) v ->
    cnt p (color_num (cp_type pl) v) = Z.of_N (M p v).

(** A trace: transition, colours of the variables, counts afterwards. Every step is an
    enabled transition with this binding ([tvars]: the variables of the transition). *)
Inductive follows : cmark -> list (nat * (nat -> nat) * (nat -> nat -> Z)) -> cmark -> Prop :=
| fo_nil : forall M, follows M [] M
| fo_cons : forall M t b cnt tr s M' rest M'',
    nth_error (cn_trs n) t = Some tr -> cenabled n M t tr s ->
    (forall v, In v (tvars tr) -> v < length vars -> s v = VE (b v)) ->
    (forall p v, M' p v = (M p v - moved n s (ct_in tr) p v + moved n s (ct_out tr) p v)%N) ->
    shows cnt M' -> follows M' rest M'' -> follows M ((t, b, cnt) :: rest) M''.

(** The marking decides the query: it satisfies it (EF), or it does not (AG). *)
Definition decides (qt : quant) (q : kquery) (M : cmark) : Prop :=
  match qt with QEF => qholds n M q | QAG => ~ qholds n M q end.
End Show.
