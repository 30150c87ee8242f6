(** Property theorems about the fixed-point algorithm on dependency graphs: C18. *)
From Verif Require Import Base BaseLemmas DgSpec DgModel DgInv DgSearch.

(** C18.  The certain-zero search, whatever edges the strategy hands out ([choice]), wherever
    edges lie in memory ([addr]) and however many rounds it runs, never uses a released edge,
    never frees one that is in use, and if it ends it gives the value of the root. *)
Theorem C18_certain_zero : forall conf (ceq : forall a b : conf, {a = b} + {a <> b}) (g : graph conf) val depth init addr choice fuel,
  solution g val -> leveled g init depth ->
  match search ceq g addr init choice fuel with
  | Ok b => b = true <-> val init
  | NoFuel => True
  | _ => False
  end.
Proof. intros conf ceq g val depth init addr choice fuel Hs Hl. exact (search_ok ceq addr Hs Hl choice fuel). Qed.
Print Assumptions C18_certain_zero.

Definition h (ts : list nat) := mkHedge false ts.
Definition ng (t : nat) := mkHedge true [t].
(** 0 <- 1 and 2, or 1; 1 <- not 3; 2 <- 2, or 4; 3 <- 3, or 5; 4 holds; 5 does not. *)
Definition dx_g (c : nat) : list (hedge nat) :=
  match c with
  | 0 => [h [2; 1]; h [1]] | 1 => [ng 3] | 2 => [h [2]; h [4]] | 3 => [h [3]; h [5]] | 4 => [h []] | _ => []
  end.
Definition dx_val (c : nat) : Prop := match c with 0 | 1 | 2 | 4 => True | _ => False end.
Definition dx_depth (c : nat) : nat := match c with 3 | 5 => 1 | _ => 0 end.
Lemma dx_solution : solution dx_g dx_val.
Proof.
  split.
  - intros c. destruct c as [|[|[|[|[|[|c]]]]]]; cbn; (split; [intros V|intros (e & He & F)]); try (destruct V; fail); try exact I.
    + exists (h [1]). split; [auto|]. intros t [<-|[]]. exact I.
    + exists (ng 3). split; [auto|]. exists 3. split; [left; reflexivity|cbn; auto].
    + exists (h [4]). split; [auto|]. intros t [<-|[]]. exact I.
    + destruct He as [<-|[<-|[]]]; [apply (F 3); left; reflexivity|apply (F 5); left; reflexivity].
    + exists (h []). split; [auto|]. intros t [].
    + destruct He.
    + destruct He.
  - intros S HS c Hc. destruct c as [|[|[|[|[|[|c]]]]]]; cbn; try (intros []; fail); exfalso.
    + (* 0 *) destruct (HS 0 Hc (h [1]) (or_intror (or_introl eq_refl))) as (t & [<-|[]] & [K|K]); [|exact (K I)]. apply (HS 1 K (ng 3) (or_introl eq_refl) 3). left. reflexivity.
    + apply (HS 1 Hc (ng 3) (or_introl eq_refl) 3). left. reflexivity.
    + destruct (HS 2 Hc (h [4]) (or_intror (or_introl eq_refl))) as (t & [<-|[]] & [K|K]); [|exact (K I)]. destruct (HS 4 K (h []) (or_introl eq_refl)) as (t & [] & _).
    + destruct (HS 4 Hc (h []) (or_introl eq_refl)) as (t & [] & _).
Qed.
Lemma dx_leveled : leveled dx_g 0 dx_depth.
Proof.
  split; [reflexivity| |].
  - intros c e He Hn. destruct c as [|[|[|[|[|[|c]]]]]]; cbn in He; repeat (destruct He as [<-|He]; [cbn in Hn; try discriminate Hn; eexists; reflexivity|]); destruct He.
  - intros c e t He Ht. destruct c as [|[|[|[|[|[|c]]]]]]; cbn in He; repeat (destruct He as [<-|He]; [cbn in Ht; repeat (destruct Ht as [<-|Ht]; [reflexivity|]); destruct Ht|]); destruct He.
Qed.
Example C18_case : solution dx_g dx_val /\ leveled dx_g 0 dx_depth /\
  search Nat.eq_dec dx_g (fun i => i) 0 (fun n => n) 20 = Ok true /\ search Nat.eq_dec dx_g (fun i => 100 - i) 3 (fun n => 0) 20 = Ok false.
Proof. split; [exact dx_solution|]. split; [exact dx_leveled|]. split; vm_compute; reflexivity. Qed.
