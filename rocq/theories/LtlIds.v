(** Model of the numbering of product states, include/LTL/Structures/BitProductStateSet.h. *)
From Verif Require Import Base.
Local Open Scope N_scope.

(** BitProductStateSet.h:39 and 125: nbits; 114-115: BUCHI_MASK, MARKING_SHIFT; size_t is 64 bits. *)
Definition nbits : N := 20.
Definition buchi_mask : N := N.ones nbits.
Definition size_t (x : N) : N := x mod 2 ^ 64.
(** get_buchi_state, BitProductStateSet.h:50. *)
Definition get_buchi_state (id : N) : N := N.land id buchi_mask.
(** get_marking_id, BitProductStateSet.h:52. *)
Definition get_marking_id (id : N) : N := N.shiftr id nbits.
(** get_product_id, BitProductStateSet.h:54-57. *)
Definition get_product_id (marking buchi : N) : N := N.lor (N.land buchi buchi_mask) (size_t (N.shiftl marking nbits)).
