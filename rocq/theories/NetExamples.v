(** Concrete nets used to show that the hypotheses of the theorems are met. *)
From Verif Require Import Base BaseLemmas NetSpec NetModel NetProofs BuilderModel BuilderSpec BuilderProofs BuilderMain.
Set Implicit Arguments.

(** Two places 10 (3 tokens) and 11, transitions 20..23: 20 moves two tokens from 10
    to one on 11, 21 is the inverse with an inhibitor on 10, 22 has no input, 23 has
    only an inhibitor input. *)
Definition ex_calls : list call :=
  [CPlace 10 3; CTrans 20 0; CTrans 21 1; CTrans 22 0; CTrans 23 1;
   CIn 10 20 false 1; CIn 10 20 false 1; COut 20 11 1;
   CIn 11 21 false 1; CIn 10 21 true 2; COut 21 10 2;
   COut 22 12 1; CIn 12 23 true 4; CIn 12 23 true 3; COut 23 12 1].

Definition ex_builder : builder :=
  match do_calls b_empty ex_calls with Ok b => b | _ => b_empty end.
Definition ex_net : cnet :=
  match make_net ex_builder true with Ok (n, _, _) => n | _ => mkCnet 0 0 [] [] [] [] [] end.

Lemma ex_weights : weights_pos ex_calls.
Proof. repeat constructor; lia. Qed.
Lemma ex_built : do_calls b_empty ex_calls = Ok ex_builder.
Proof. reflexivity. Qed.
Lemma ex_place : exists p, is_place ex_calls p.
Proof. exists 10. left. reflexivity. Qed.

Lemma ex_layout : layout ex_net.
Proof.
  destruct (@builder_correct ex_calls ex_builder true ex_weights ex_built ex_place)
    as (net & ids & tids & pidx & tidx & Hm & L & _).
  unfold ex_net. rewrite Hm. exact L.
Qed.

(** An environment transition without inputs. *)
Definition env_calls : list call := [CPlace 0 0; CTrans 0 1; COut 0 0 1].
Definition env_builder : builder := match do_calls b_empty env_calls with Ok b => b | _ => b_empty end.
Definition env_net : cnet :=
  match make_net env_builder false with Ok (n, _, _) => n | _ => mkCnet 0 0 [] [] [] [] [] end.
Lemma controllable_refuted : exists cs b net ids tids t i,
  weights_pos cs /\ do_calls b_empty cs = Ok b /\ make_net b false = Ok (net, ids, tids) /\
  index_of t (b_tnames b) = Some i /\ player_of cs t = 1%Z /\
  exists k, nth i tids None = Some k /\ nth_error (cn_ctrl net) k = Some true.
Proof.
  exists env_calls, env_builder, env_net, [Some 0], [Some 0], 0, 0.
  split; [repeat constructor; lia|].
  split; [reflexivity|]. split; [vm_compute; reflexivity|].
  split; [reflexivity|]. split; [reflexivity|]. exists 0. split; vm_compute; reflexivity.
Qed.
