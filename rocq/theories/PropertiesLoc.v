(** Property theorems about the local fixed-point algorithm on dependency graphs: C18. *)
From Verif Require Import Base DgSpec DgModel LocModel LocProofs PropertiesDg.

(** C18.  The same for the local algorithm: whatever edges the strategy hands out, it never uses
    a released edge, never frees one that is in use, and if it ends it gives the value of the
    root. *)
Theorem C18_local : forall conf (ceq : forall a b : conf, {a = b} + {a <> b}) (g : graph conf) val depth init addr choice fuel,
  solution g val -> leveled g init depth ->
  match local_search ceq g addr init choice fuel with
  | Ok b => b = true <-> val init
  | NoFuel => True
  | _ => False
  end.
Proof. intros conf ceq g val depth init addr choice fuel Hs Hl. exact (local_search_ok ceq addr Hs Hl choice fuel). Qed.
Print Assumptions C18_local.

Example C18_local_case : solution dx_g dx_val /\ leveled dx_g 0 dx_depth /\
  local_search Nat.eq_dec dx_g (fun i => i) 0 (fun n => n) 20 = Ok true /\ local_search Nat.eq_dec dx_g (fun i => 100 - i) 3 (fun n => 0) 20 = Ok false.
Proof. split; [exact dx_solution|]. split; [exact dx_leveled|]. split; vm_compute; reflexivity. Qed.
