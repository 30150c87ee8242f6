(** A concrete net for the search theorems. *)
From Verif Require Import Base BaseLemmas NetSpec NetModel NetProofs BuilderModel BuilderSpec BuilderMain EncoderModel StoreModel StoreSpec
  StoreProofs SearchModel SearchSpec SearchProofs QueueModel QueueProofs SearchMain.
From Coq Require Import Permutation.
Set Implicit Arguments.

(** A set of markings closed under the generator contains all reachable markings. *)
Definition memb (m : marking) (l : list marking) : bool := if in_dec mark_eq_dec m l then true else false.
Definition closedb (net : cnet) (l : list marking) : bool :=
  memb (cn_init net) l &&
  forallb (fun m => match net_stream net m with
                    | (r, Ok _) => forallb (fun x => memb (snd x) l) r
                    | _ => false
                    end) l.
Lemma memb_in : forall m l, memb m l = true -> In m l.
Proof. intros m l. unfold memb. destruct (in_dec mark_eq_dec m l); [auto|discriminate]. Qed.

Lemma closed_all : forall net k l, layout net -> mark_ok (cn_places net) (cn_init net) -> closedb net l = true ->
  forall m, kreach (to_pnet net) k (cn_init net) m -> In m l.
Proof.
  intros net k l L Hi Hc. apply andb_prop in Hc. destruct Hc as (H0 & H1). apply memb_in in H0.
  rewrite forallb_forall in H1. intros m (w & (R & _)).
  assert (G : forall w m0 m, mark_ok (cn_places net) m0 -> In m0 l -> run (to_pnet net) m0 w m -> In m l).
  { clear m w R. induction w as [|t w IH]; intros m0 m Hm Hin R; inversion R as [|? ? m1 ? ? HS HR]; subst; [exact Hin|].
    assert (A := Hm). apply mark_ok_fits in A. destruct A as (A1 & A2).
    specialize (H1 m0 Hin). destruct (net_stream_ok L A1 A2) as (S1 & [(S2 & S3)|(S2 & _)]).
    - specialize (S3 _ _ HS). destruct (net_stream net m0) as [r e] eqn:En. cbn [fst snd] in *. subst e.
      rewrite forallb_forall in H1. eapply (IH m1); [| |exact HR].
      + apply mark_ok_fits. apply (S1 _ _ S3).
      + apply memb_in. exact (H1 _ S3).
    - destruct (net_stream net m0) as [r e]. cbn [fst snd] in *. subst e. discriminate. }
  eapply G; eauto.
Qed.

Unset Implicit Arguments.
(** Two workers (place 10), a lock (11), critical section (12). *)
Definition sx_calls : list call :=
  [CPlace 10 2; CPlace 11 1; CPlace 12 0; CTrans 20 0; CTrans 21 0;
   CIn 10 20 false 1; CIn 11 20 false 1; COut 20 12 1;
   CIn 12 21 false 1; COut 21 10 1; COut 21 11 1].
Definition sx_builder : builder := match do_calls b_empty sx_calls with Ok b => b | _ => b_empty end.
Definition sx_net : cnet := match make_net sx_builder false with Ok (n, _, _) => n | _ => mkCnet 0 0 [] [] [] [] [] end.
Definition sx_marks : list marking := [[2; 1; 0]; [1; 0; 1]]%N.

Lemma sx_layout : layout sx_net.
Proof.
  assert (W : weights_pos sx_calls) by (repeat constructor; lia).
  assert (P : exists p, is_place sx_calls p) by (exists 10; left; reflexivity).
  destruct (@builder_correct sx_calls sx_builder false W eq_refl P) as (net & ids & tids & pidx & tidx & Hm & L & _).
  unfold sx_net. rewrite Hm. exact L.
Qed.
Lemma sx_init : mark_ok (cn_places sx_net) (cn_init sx_net).
Proof.
  split; [reflexivity|]. change (cn_init sx_net) with [2; 1; 0]%N.
  intros v [<-|[<-|[<-|[]]]]; reflexivity.
Qed.
Lemma sx_closed : closedb sx_net sx_marks = true.
Proof. vm_compute. reflexivity. Qed.
Lemma sx_space : forall k, space_at_most (to_pnet sx_net) k (cn_init sx_net) (2 ^ 32).
Proof.
  intros k l Hn Hl. assert (H : length l <= length sx_marks).
  2:{ apply N.le_trans with (N.of_nat (length sx_marks)); [lia|discriminate]. }
  apply NoDup_incl_length; [exact Hn|]. intros m Hm.
  exact (@closed_all sx_net k sx_marks sx_layout sx_init sx_closed m (Hl m Hm)).
Qed.
Lemma sx_searchable : forall k, searchable sx_net k.
Proof.
  intros k. split; [exact sx_layout|]. split; [vm_compute; reflexivity|]. split; [exact sx_init|]. exact (sx_space k).
Qed.

Definition sx_fs : list (list N -> bool) :=
  [fun m => (1 <=? nth 2 m 0)%N; fun m => (2 <=? nth 2 m 0)%N].
(** The first query is an invariant (AG crit < 1), the second a reachability goal. *)
Definition sx_handle (i : nat) : rslt -> rslt * bool := printer_handle false false (Nat.eqb i 0) None.
Definition sx_run (st : strategy) (use : bool) (k : N) :=
  search sx_net k st (map pure_query sx_fs) (fun _ m => nth 2 m 0%N) sx_handle use [Unknown; Unknown] [0; 0]%N 0 10.

Lemma token_bound_refuted : exists k s b f e m,
  sx_run DFS true k = Ok (s, b) /\ nth_error sx_fs 0 = Some f /\
  In e (s_log s) /\ ev_query e = 0 /\ ev_result e = NotSatisfied /\
  reachable (to_pnet sx_net) (cn_init sx_net) m /\ f m = true.
Proof.
  exists 2%N. eexists. eexists. eexists. eexists. exists [1; 0; 1]%N.
  split; [vm_compute; reflexivity|]. split; [reflexivity|]. split; [right; left; reflexivity|].
  split; [reflexivity|]. split; [reflexivity|]. split; [|reflexivity].
  exists [0]. econstructor; [|constructor].
  assert (A : mark_ok (cn_places sx_net) (cn_init sx_net)) by exact sx_init.
  apply mark_ok_fits in A. destruct A as (A1 & A2).
  apply (proj1 (net_stream_ok sx_layout A1 A2)). vm_compute. left; reflexivity.
Qed.
