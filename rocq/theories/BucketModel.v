(** Model of linked_bucket_t (include/PetriEngine/Structures/linked_bucket.h) under
    interleavings of threads.  Every access to an atomic variable is one step (default
    sequentially consistent order).  Element data is not modelled, only where it is kept. *)
From Verif Require Import Base.
Set Implicit Arguments.

(** linked_bucket.h:36-41; buckets are numbered in order of allocation, bucket 0 is _begin. *)
Record bucket := mkBucket { bk_next : option nat; bk_off : nat; bk_cnt : nat }.
(** Where a thread is in next(): outside; at the compare_exchange of line 156 with the
    local variables n, next, tmp; in insertToIndex with the bucket, the position of tmp in
    the index list and the remaining id, before reading _next or (after reading null) before
    the compare_exchange of line 196; before line 174. *)
Inductive lb_pc :=
| PIdle
| PCas (n next : nat) (tmp : option nat)
| PIdx (b j id : nat)
| PExt (b j id : nat)
| PRet.
Record lb_thread := mkThread { th_next : option nat; th_pc : lb_pc }.
Record lb := mkLb {
  lb_heap : list bucket;
  lb_index : list (list (option nat));   (* the blocks of the index, in order *)
  lb_threads : list lb_thread;
  lb_returned : list nat                 (* the results of the calls of next so far *)
}.

Section Bucket.
  Variable C : nat.

  (** linked_bucket.h:53-73, constructor. *)
  Definition lb_new (threads : nat) : lb :=
    mkLb [mkBucket None 0 0] [Some 0 :: repeat None (C - 1)]
      (mkThread (Some 0) PIdle :: repeat (mkThread None PIdle) (threads - 1)) [].

  Definition set_pc (s : lb) (th : nat) (t : lb_thread) : lb :=
    mkLb (lb_heap s) (lb_index s) (upd (lb_threads s) th t) (lb_returned s).

  (** One step of thread [th]; [spurious]: compare_exchange_weak fails although the values
      are equal. *)
  Definition lb_step (spurious : bool) (s : lb) (th : nat) : res lb :=
    t <- rd (lb_threads s) th ;;
    match th_pc t with
    | PIdle =>
      (* lines 138-153: allocation; _offset of n is read *)
      full <- match th_next t with
              | None => Ok true
              | Some b => k <- rd (lb_heap s) b ;; Ok (Nat.eqb (bk_cnt k) C)
              end ;;
      if full then
        let n := match th_next t with None => 0 | Some b => b end in
        k <- rd (lb_heap s) n ;;
        Ok (mkLb (lb_heap s ++ [mkBucket None (bk_off k + C) 0]) (lb_index s)
              (upd (lb_threads s) th (mkThread (th_next t) (PCas n (length (lb_heap s)) None))) (lb_returned s))
      else Ok (set_pc s th (mkThread (th_next t) PRet))
    | PCas n next tmp =>
      (* lines 156-166 *)
      k <- rd (lb_heap s) n ;;
      x <- rd (lb_heap s) next ;;
      let equal := match bk_next k, tmp with
                   | None, None => true
                   | Some a, Some b => Nat.eqb a b
                   | _, _ => false
                   end in
      if equal && negb spurious then
        h <- wr (lb_heap s) n (mkBucket (Some next) (bk_off k) (bk_cnt k)) ;;
        Ok (mkLb h (lb_index s) (upd (lb_threads s) th (mkThread (Some next) (PIdx next 0 (bk_off x)))) (lb_returned s))
      else
        match bk_next k with
        | None => Ok (set_pc s th (mkThread (th_next t) (PCas n next None)))
        | Some b =>
          h <- wr (lb_heap s) next (mkBucket (bk_next x) (bk_off x + C) (bk_cnt x)) ;;
          Ok (mkLb h (lb_index s) (upd (lb_threads s) th (mkThread (th_next t) (PCas b next (Some b)))) (lb_returned s))
        end
    | PIdx b j id =>
      (* lines 185-188 and 211-213 *)
      if C * C <=? id then
        if S j <? length (lb_index s) then Ok (set_pc s th (mkThread (th_next t) (PIdx b (S j) (id - C * C))))
        else Ok (set_pc s th (mkThread (th_next t) (PExt b j id)))
      else
        blk <- rd (lb_index s) j ;;
        blk' <- wr blk (id / C) (Some b) ;;
        Ok (mkLb (lb_heap s) (upd (lb_index s) j blk') (upd (lb_threads s) th (mkThread (th_next t) PRet)) (lb_returned s))
    | PExt b j id =>
      (* lines 189-210; on failure the loop is entered again with the old block *)
      if S j <? length (lb_index s) then Ok (set_pc s th (mkThread (th_next t) (PIdx b j id)))
      else Ok (mkLb (lb_heap s) (lb_index s ++ [repeat None C])
                 (upd (lb_threads s) th (mkThread (th_next t) (PIdx b (S j) (id - C * C)))) (lb_returned s))
    | PRet =>
      (* lines 171-174 *)
      match th_next t with
      | None => UB
      | Some b =>
        k <- rd (lb_heap s) b ;;
        h <- wr (lb_heap s) b (mkBucket (bk_next k) (bk_off k) (S (bk_cnt k))) ;;
        Ok (mkLb h (lb_index s) (upd (lb_threads s) th (mkThread (th_next t) PIdle))
              (lb_returned s ++ [bk_off k + bk_cnt k]))
      end
    end.
  Fixpoint lb_run (sched : list (nat * bool)) (s : lb) : res lb :=
    match sched with
    | [] => Ok s
    | (th, sp) :: rest => s' <- lb_step sp s th ;; lb_run rest s'
    end.

  (** linked_bucket.h:216-226, indexToBucket. *)
  Fixpoint index_to_bucket (blocks : list (list (option nat))) (id : nat) : res (option nat) :=
    match blocks with
    | [] => Ok None
    | blk :: rest => if C * C <=? id then index_to_bucket rest (id - C * C) else rd blk (id / C)
    end.
  (** linked_bucket.h:99-107, the walk along the buckets; [k] steps. *)
  Fixpoint walk (h : list bucket) (n k : nat) : res nat :=
    match k with
    | O => Ok n
    | S k => b <- rd h n ;; match bk_next b with None => UB | Some n' => walk h n' k end
    end.
  (** linked_bucket.h:91-110, operator[]: the bucket and the position in its array. *)
  Definition lb_cell (s : lb) (i : nat) : res (nat * nat) :=
    o <- index_to_bucket (lb_index s) i ;;
    match o with
    | Some b => Ok (b, i mod C)
    | None => b <- walk (lb_heap s) 0 (i / C) ;; Ok (b, i mod C)
    end.
End Bucket.
