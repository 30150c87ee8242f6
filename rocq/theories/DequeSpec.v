(** A double-ended queue as a list: the operations and their results. *)
From Verif Require Import Base.
Set Implicit Arguments.

Inductive dq_op (T : Type) :=
| OPush (x : T) | OPopFront | OPopBack | OClear | OFront | OBack | ONth (i : nat) | OEmpty | OSize
| OAssign (l : list T). (* assignment from a deque to which [l] was pushed *)
Arguments OPopFront {T}. Arguments OPopBack {T}. Arguments OClear {T}. Arguments OFront {T}. Arguments OBack {T}.
Arguments ONth {T} i. Arguments OEmpty {T}. Arguments OSize {T}.
Inductive dq_obs (T : Type) := RNone | RElem (x : T) | RBool (b : bool) | RSize (n : nat).
Arguments RNone {T}. Arguments RBool {T} b. Arguments RSize {T} n.

(** [None]: the operation is not allowed (an element of an empty queue is asked for or
    removed at the front, an index is out of range, or an empty queue is assigned). *)
Definition list_step (T : Type) (l : list T) (o : dq_op T) : option (list T * dq_obs T) :=
  match o with
  | OPush x => Some (l ++ [x], RNone)
  | OPopFront => match l with [] => None | _ :: l' => Some (l', RNone) end
  | OPopBack => Some (removelast l, RNone)
  | OClear => Some ([], RNone)
  | OFront => match l with [] => None | x :: _ => Some (l, RElem x) end
  | OBack => match rev l with [] => None | x :: _ => Some (l, RElem x) end
  | ONth i => match nth_error l i with Some x => Some (l, RElem x) | None => None end
  | OEmpty => Some (l, RBool match l with [] => true | _ => false end)
  | OSize => Some (l, RSize (length l))
  | OAssign [] => None
  | OAssign r => Some (r, RNone)
  end.
Fixpoint list_run (T : Type) (l : list T) (ops : list (dq_op T)) : option (list (dq_obs T)) :=
  match ops with
  | [] => Some []
  | o :: ops =>
    match list_step l o with
    | None => None
    | Some (l', r) => match list_run l' ops with None => None | Some rs => Some (r :: rs) end
    end
  end.
