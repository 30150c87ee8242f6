(** A sequence with an old rule and rules R and S on one net. *)
From Verif Require Import Base NetSpec NetModel BuilderModel RedTheory RedSpec RedModel RedModelR RedModelS RedSpecS RedProofs RedCand RedCandN RedMain RedExamples RedExamplesS.

(** Rule S removes place 1, rule R place 2 and rule A place 0. *)
Definition n_net : builder := small_net [2; 0; 0; 0; 0]%N [([i_ 0 1], [i_ 1 4]); ([i_ 1 2], [i_ 2 1]); ([i_ 2 1], [i_ 3 1]); ([i_ 3 1], [i_ 4 1])]%N.
Definition n1 := Eval vm_compute in match rule_s (only [4]) true true still n_net [] 1 with Ok s => s | _ => (n_net, []) end.
Definition n2 := Eval vm_compute in match rule_r (only [4]) 100 6 (fst n1) (snd n1) 2 with Ok s => s | _ => (n_net, []) end.
Definition n3 := Eval vm_compute in match try_rule (only [4]) (fst n2) (TryA 5) with Ok b => b | _ => n_net end.
Example n_net_ok : good n_net /\ free n_net [].
Proof. split; [apply goodb_ok; vm_compute; reflexivity|]. split; [constructor|intros t []]. Qed.
Example n_reduced : reduced_all (only [4]) (n_net, []) (n3, []).
Proof.
  apply (@ra_s _ n_net [] true true still 1 n1); [left; exists 1; split; [reflexivity|]; split; [|left; reflexivity]; intros o Ho; cbn in Ho; destruct Ho as [<-|[]]; reflexivity|vm_compute; reflexivity|].
  apply (@ra_r _ (fst n1) (snd n1) 100 6 2 n2); [intros u Hu; vm_compute in Hu; destruct Hu as [<-|[]]; reflexivity|vm_compute; reflexivity|].
  apply (@ra_old _ (fst n2) (snd n2) (TryA 5) n3 []); [exact I|vm_compute; reflexivity|split; [constructor|intros t []]|]. apply ra_nil.
Qed.
Example n_left : (alive_p n3, b_init n3) = ([false; false; false; true; true], [0; 0; 0; 4; 0])%N.
Proof. vm_compute. reflexivity. Qed.
