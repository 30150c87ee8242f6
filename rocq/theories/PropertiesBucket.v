(** Property theorems about linked_bucket_t: C32. *)
From Verif Require Import Base BucketModel BucketProofs.

(** C32.  For every bucket size, number of threads and interleaving of their steps (also if
    compare_exchange_weak fails spuriously), nothing undefined happens, no two calls of
    next return the same index, and different returned indices denote different cells. *)
Theorem C32_next_distinct : forall C n schedule,
  0 < C -> 0 < n -> (forall th sp, In (th, sp) schedule -> th < n) ->
  exists s, lb_run C schedule (lb_new C n) = Ok s /\ NoDup (lb_returned s) /\
    (forall i, In i (lb_returned s) -> exists c, lb_cell C s i = Ok c) /\
    (forall i i' c, In i (lb_returned s) -> In i' (lb_returned s) -> lb_cell C s i = Ok c -> lb_cell C s i' = Ok c -> i = i').
Proof. intros C n schedule HC. exact (lb_distinct C HC n schedule). Qed.
Print Assumptions C32_next_distinct.
(** A returned index denotes the same cell for ever. *)
Theorem C32_cells_stable : forall C n schedule1 schedule2 s1 s2 i,
  0 < C -> 0 < n -> (forall th sp, In (th, sp) (schedule1 ++ schedule2) -> th < n) ->
  lb_run C schedule1 (lb_new C n) = Ok s1 -> lb_run C schedule2 s1 = Ok s2 -> In i (lb_returned s1) ->
  lb_cell C s2 i = lb_cell C s1 i.
Proof. intros C n schedule1 schedule2 s1 s2 i HC. exact (lb_stable C HC n schedule1 schedule2 s1 s2 i). Qed.
Print Assumptions C32_cells_stable.

(** Two threads with buckets of one element racing for the same link; thread 1 loses, and
    both extend the index. *)
Definition bx_sched : list (nat * bool) :=
  [(0,false);(0,false);(0,false);(1,false);(0,true);(0,false);(1,false);(1,false);(0,false);(0,false);(1,false);
   (1,false);(1,false);(1,false);(0,false);(0,false);(0,false);(1,false);(0,false);(1,false);(1,false);(1,false);(1,false);(0,false);(1,false);(0,false);(1,false);(0,false);(1,false);(0,false);(1,false);(0,false);(1,false)].
Example C32_case : (forall th sp, In (th, sp) bx_sched -> th < 2) /\
  exists s, lb_run 1 bx_sched (lb_new 1 2) = Ok s /\ lb_returned s = [0; 1; 2; 3] /\
  lb_index s = [[Some 0]; [Some 1]; [Some 2]; [Some 4]].
Proof.
  split.
  { intros th sp H. repeat (destruct H as [H|H]; [injection H as <- _; lia|]). destruct H. }
  eexists. split; [vm_compute; reflexivity|]. split; reflexivity.
Qed.
