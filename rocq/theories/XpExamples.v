(** Concrete trees for C36. *)
From Verif Require Import Base ColSyntax ColSpec XpModel XpSpec.

(** dot, two enumerations of three and two colours, and their product. *)
Definition xp_tab : list tdecl := [TEnum 1; TEnum 3; TEnum 2; TProd [1; 2]].
Definition xp_names : list (list nat) := [[]; [10; 11; 12]; [20; 21]; []].
Definition xp_map : list nat := [3; 2; 0; 1].
Definition xp_vars : list nat := [1; 2].
Definition xp_color (name : nat) : nat * nat :=
  match name with 10 => (1, 0) | 11 => (1, 1) | 12 => (1, 2) | 20 => (2, 0) | 21 => (2, 1) | _ => (0, 0) end.

Lemma xp_unique : unique_names xp_tab xp_names.
Proof.
  assert (G : forall ty i name, has xp_tab xp_names ty i name -> (ty, i) = xp_color name).
  { intros ty i name [[n E] H]. destruct ty as [|[|[|[|ty]]]]; cbn in E, H; try discriminate.
    - destruct i; discriminate.
    - destruct i as [|[|[|i]]]; cbn in H; try (inversion H; reflexivity). destruct i; discriminate.
    - destruct i as [|[|i]]; cbn in H; try (inversion H; reflexivity). destruct i; discriminate.
    - destruct ty; discriminate. }
  intros ty i ty' i' name H H'. apply G in H. apply G in H'. split; congruence.
Qed.
Lemma xp_unary : forall ty c, nth_error xp_tab ty <> Some (TProd [c]).
Proof. intros [|[|[|[|ty]]]] c; cbn; try discriminate. destruct ty; discriminate. Qed.
Lemma xp_only : forall ty l, nth_error xp_tab ty = None \/ (exists cs, nth_error xp_tab ty = Some (TProd cs)) -> nth_error xp_names ty = Some l -> l = [].
Proof.
  intros [|[|[|[|ty]]]] l H E; cbn in *; try (inversion E; reflexivity).
  - destruct H as [H|[cs H]]; discriminate.
  - destruct H as [H|[cs H]]; discriminate.
  - destruct ty; discriminate.
Qed.

Definition sub1 (x : xml) : xml := X Tsubterm [x].
Definition var (v : nat) : xml := sub1 (X (Tvar v) []).
Definition col (n : nat) : xml := sub1 (X (Tuser n) []).
Definition rel (t : tag) (l r : xml) : xml := X t [l; r].
Definition all_of (ty : nat) : xml := X Tall [X (Tsort ty) []].
Definition num (k : Z) : xml := sub1 (X (Tnumber k) []).

(** not (x < 11 and succ y = 21) or x = 12 *)
Definition xp_guard : xml :=
  X Tstructure [X Tor [sub1 (X Tnot [sub1 (X Tand [sub1 (rel Tlt (var 0) (col 11)); sub1 (rel Teq (sub1 (X Tsucc [var 1])) (col 21))])]);
                       sub1 (rel Teq (var 0) (col 12))]].
(** 2'(x, all of type 2) + (all of type 1, y) - 1'(10, 20) *)
Definition xp_arc : xml :=
  X Tstructure [X Tsub [sub1 (X Tadd [sub1 (X Tnumberof [num 2; sub1 (X Ttuple [var 0; sub1 (all_of 2)])]);
                                      sub1 (X Ttuple [sub1 (all_of 1); var 1])]);
                        sub1 (X Tnumberof [num 1; sub1 (X Ttuple [col 10; col 20])])]].
Definition xp_b : assignment := fun v => match v with 0 => VE 1 | _ => VE 0 end.

Definition is_declared (name : nat) : Prop :=
  has xp_tab xp_names (fst (xp_color name)) (snd (xp_color name)) name /\ In (fst (xp_color name)) xp_map.
Lemma dec10 : is_declared 10. Proof. split; [split; [eexists|]; reflexivity|cbn; auto]. Qed.
Lemma dec11 : is_declared 11. Proof. split; [split; [eexists|]; reflexivity|cbn; auto]. Qed.
Lemma dec12 : is_declared 12. Proof. split; [split; [eexists|]; reflexivity|cbn; auto]. Qed.
Lemma dec20 : is_declared 20. Proof. split; [split; [eexists|]; reflexivity|cbn; auto]. Qed.
Lemma dec21 : is_declared 21. Proof. split; [split; [eexists|]; reflexivity|cbn; auto]. Qed.
Lemma xp_guard_ok : guard_ok is_declared xp_guard false.
Proof. cbn. pose proof dec11. pose proof dec12. pose proof dec21. tauto. Qed.
Lemma xp_guard_value : guard xp_tab xp_vars xp_color xp_b xp_guard = Some true /\
  guard xp_tab xp_vars xp_color (fun _ => VE 0) xp_guard = Some false.
Proof. vm_compute. auto. Qed.
Lemma num_positive : forall k, (0 < k < 2 ^ 32)%Z -> positive (num k).
Proof. intros k K. split; [cbn; lia|]. cbn. destruct (Z.ltb_spec k 0); [lia|]. intros E. inversion E. lia. Qed.
Lemma xp_arc_ok : inscription_ok xp_tab is_declared xp_arc False.
Proof.
  assert (T : forall ty n k', nth_error xp_tab ty = Some (TEnum n) -> 0 < n -> enum_sort xp_tab [X (Tsort ty) k']) by (intros ty n k' E P; exists n; auto).
  unfold xp_arc. cbn [inscription_ok fold_right sub1]. repeat split; try exact I.
  - apply num_positive. lia.
  - apply num_positive. lia.
  - discriminate.
  - constructor; [exact I|]. constructor; [eapply (T 2 2); [reflexivity|lia]|constructor].
  - cbn; lia.
  - constructor; [|constructor; [|constructor]].
    + exists Tsubterm, (all_of 1). split; [reflexivity|]. split; [auto|]. eapply (T 1 3); [reflexivity|lia].
    + exists Tsubterm, (X (Tvar 1) []). split; [reflexivity|]. split; [auto|]. exact I.
  - apply num_positive. lia.
  - apply num_positive. lia.
  - discriminate.
  - constructor; [exact dec10|]. constructor; [exact dec20|]. constructor.
Qed.
Lemma xp_arc_value : exists m, inscription xp_tab xp_vars xp_color xp_b xp_arc = Some m /\
  map m [VT [0; 0]; VT [1; 0]; VT [1; 1]; VT [2; 0]; VT [2; 1]] = [0; 3; 2; 1; 0]%N.
Proof. eexists. split; [reflexivity|]. vm_compute. reflexivity. Qed.

(** ** Findings *)
(** not (not (x = 10)) is read as not (x = 10). *)
Lemma double_negation : exists x g b, guard xp_tab xp_vars xp_color b x = Some true /\
  parse_guard xp_tab xp_map xp_names None x false = Ok g /\ gval xp_tab xp_vars b g = false.
Proof.
  exists (X Tnot [sub1 (X Tnot [sub1 (rel Teq (var 0) (col 10))])]), (GNe (EVar 0) (EUser 1 0)), (fun _ => VE 0).
  vm_compute. auto.
Qed.
(** x = 10 and y = 20 and x = 11 is read as x = 10 and y = 20. *)
Lemma three_conjuncts : exists x g b, guard xp_tab xp_vars xp_color b x = Some false /\
  parse_guard xp_tab xp_map xp_names None x false = Ok g /\ gval xp_tab xp_vars b g = true.
Proof.
  exists (X Tand [sub1 (rel Teq (var 0) (col 10)); sub1 (rel Teq (var 1) (col 20)); sub1 (rel Teq (var 0) (col 11))]),
    (GAnd (GEq (EVar 0) (EUser 1 0)) (GEq (EVar 1) (EUser 2 0))), (fun _ => VE 0).
  vm_compute. auto.
Qed.
(** (10 + 11, 20) is read as two tokens (10, 20). *)
Lemma tuple_sum : exists x m a b, inscription xp_tab xp_vars xp_color b x = Some m /\ m (VT [1; 0]) = 1%N /\
  parse_arc xp_tab xp_map xp_names None x [x] = Ok a /\ mval xp_tab xp_vars b a (VT [1; 0]) = 0%N /\ mval xp_tab xp_vars b a (VT [0; 0]) = 2%N.
Proof.
  exists (X Ttuple [sub1 (X Tadd [col 10; col 11]); col 20]). eexists. eexists. exists (fun _ => VE 0).
  split; [reflexivity|]. split; [vm_compute; reflexivity|]. split; [vm_compute; reflexivity|]. vm_compute. auto.
Qed.
(** All colours of a product sort: an access outside of a vector. *)
Lemma all_product : exists x m b, inscription xp_tab xp_vars xp_color b x = Some m /\ m (VT [2; 1]) = 1%N /\
  parse_arc xp_tab xp_map xp_names None x [x] = UB.
Proof.
  exists (X Tnumberof [num 1; sub1 (all_of 3)]). eexists. exists (fun _ => VE 0).
  split; [reflexivity|]. vm_compute. auto.
Qed.
(** A name declared in two types is read as a colour of the type that comes first in the hash
    map: here colour 0 of type 2 is read as colour 1 of type 1. *)
Lemma shared_name : exists tab cmap names name, has tab names 2 0 name /\
  parse_arc tab cmap names None (X Tnumberof [num 1; col name]) [] = Ok (ANum [EUser 1 1] 1).
Proof.
  exists [TEnum 1; TEnum 2; TEnum 2], [1; 2; 0], [[]; [5; 6]; [6; 7]], 6.
  split; [split; [eexists|]; reflexivity|]. vm_compute. reflexivity.
Qed.
