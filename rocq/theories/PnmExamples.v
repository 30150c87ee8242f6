(** Cases and findings for C43. *)
From Coq Require Import Ascii String.
From Verif Require Import Base BaseLemmas XqSpec XqModel XqWrite NetSpec NetModel BuilderModel BuilderSpec BuilderMain SearchExamples PnmModel PnmSpec PnmProofs PnmMain PnmWrite.
Local Open Scope string_scope.

(** A numbering of the strings *)
Fixpoint code (s : string) : nat := match s with EmptyString => 0 | String a s' => S (nat_of_ascii a + 256 * code s') end.
Lemma code_inj : forall a b, code a = code b -> a = b.
Proof.
  induction a as [|x a IH]; intros [|y b] H; cbn [code] in H; try discriminate; auto. pose proof (nat_ascii_bounded x). pose proof (nat_ascii_bounded y).
  assert (E : code a = code b /\ nat_of_ascii x = nat_of_ascii y) by lia. destruct E as (E1 & E2). apply IH in E1. apply (f_equal ascii_of_nat) in E2. rewrite !ascii_nat_embedding in E2. congruence.
Qed.

(** A file with a page in a page, weights in both places, and an inhibitor arc *)
Definition fx_a : xml := X "place" [("id", "a"); ("initialMarking", " 3")] "" [graphics].
Definition fx_b : xml := X "place" [("id", "b")] "" [text_in "name" "second"].
Definition fx_t : xml := X "transition" [("id", "t")] "" [X "player" [] "" [PnmModel.leaf "value" "1"]].
Definition fx_1 : xml := X "arc" [("source", "a"); ("target", "t")] "" [text_in "inscription" "2"].
Definition fx_2 : xml := X "outputArc" [("source", "t"); ("target", "b"); ("weight", "5")] "" [].
Definition fx_3 : xml := X "inhibitorArc" [("source", "b"); ("target", "t"); ("weight", "4")] "" [].
Definition fx_file : xml := X "pnml" [] "" [X "net" [("id", "n")] "" [X "page" [] "" [fx_a; fx_1; X "page" [] "" [fx_b; fx_3]; fx_t; fx_2]]].
Definition fx_items : list item := [IPlace "a" 3; IArc "a" "t" 2 false; IPlace "b" 0; IArc "b" "t" 4 true; ITrans "t" 1; IArc "t" "b" 5 false].
Ltac notag := let k := fresh in let H := fresh in intros k H; cbn [kids] in H; repeat (destruct H as [<-|H]; [discriminate|]); contradiction.
Lemma fx_num : forall l d n, blanks l -> natural d = Some (Z.of_N n) -> numeral (l ++ d ++ "") n.
Proof. intros l d n B H. apply nume; auto. constructor. Qed.
Lemma fx_describes : describes fx_file fx_items.
Proof.
  assert (Sp : forall a k v, ~ special (X "net" a v k) /\ ~ special (X "page" a v k)) by (intros; split; unfold special; cbn; intuition discriminate).
  split; [reflexivity|]. split; [notag|]. split; [eexists; split; [left; reflexivity|reflexivity]|]. split; [intros n [<-|[]] _; notag|].
  constructor. cbn [kids fx_file]. change fx_items with (fx_items ++ [])%list. apply hl_sub; [apply Sp| |constructor].
  constructor. cbn [kids]. change fx_items with (fx_items ++ [])%list. apply hl_sub; [apply Sp| |constructor].
  constructor. cbn [kids]. unfold fx_items.
  apply hl_item.
  { apply io_place; try reflexivity; try notag. apply (@pt_attr _ " 3"); [notag|reflexivity|]. apply (fx_num " " "3" 3); [repeat constructor|reflexivity]. }
  apply hl_item.
  { apply io_arc; try reflexivity; try discriminate; try notag; [left; reflexivity| |split; reflexivity]. apply (@aw_kid _ (text_in "inscription" "2") "2"); [reflexivity| |apply leaf_text; auto|apply (fx_num "" "2" 2); [constructor|reflexivity]].
    apply (@only _ "inscription" [] _ []); try reflexivity. intros y [[]|[]]. }
  change [IPlace "b" 0; IArc "b" "t" 4 true; ITrans "t" 1; IArc "t" "b" 5 false] with ([IPlace "b" 0; IArc "b" "t" 4 true] ++ [ITrans "t" 1; IArc "t" "b" 5 false])%list.
  apply hl_sub; [apply Sp| |].
  - constructor. cbn [kids]. apply hl_item; [apply io_place; try reflexivity; try notag; apply pt_none; [notag|reflexivity]|].
    apply hl_item; [|constructor]. apply io_inhib; try reflexivity; try notag; [right; split; [reflexivity|discriminate]| |split; reflexivity].
    apply (@aw_attr _ "4"); [reflexivity|apply (fx_num "" "4" 4); [constructor|reflexivity]].
  - apply hl_item.
    { change 1%Z with (Z.of_N 1). apply io_trans; try reflexivity; try notag. apply (@tp_kid _ (X "player" [] "" [PnmModel.leaf "value" "1"]) "1"); [|apply leaf_text; auto|apply (fx_num "" "1" 1); [constructor|reflexivity]].
      apply (@only _ "player" [] _ []); try reflexivity. intros y [[]|[]]. }
    apply hl_item; [|constructor]. apply io_arc; try reflexivity; try discriminate; try notag; [right; right; reflexivity| |split; reflexivity].
    apply (@aw_attr _ "5"); [reflexivity|apply (fx_num "" "5" 5); [constructor|reflexivity]].
Qed.
Lemma fx_ok : net_ok fx_items /\ exists p, is_pl fx_items p.
Proof.
  assert (A : is_pl fx_items "a") by (exists 3%N; cbn; auto). assert (B : is_pl fx_items "b") by (exists 0%N; cbn; auto). assert (T : is_tr fx_items "t") by (exists 1%Z; cbn; auto 10).
  split; [|eauto]. split; [|split].
  - cbn. repeat constructor; cbn; intuition discriminate.
  - intros s t w i H. cbn in H. repeat (destruct H as [H|H]; [try discriminate H; injection H as <- <- <- <-; auto|]). contradiction.
  - intros s t w1 w2 H1 H2. cbn in H1, H2. repeat (destruct H1 as [H1|H1]; [try discriminate H1; injection H1 as <- <- <-; repeat (destruct H2 as [H2|H2]; [discriminate H2|]); contradiction|]). contradiction.
Qed.
Definition fx_read : res (list marking) :=
  n <- read_net code fx_file false ;; Ok [cn_init n; map (fun a => N.of_nat (arc_place a)) (tr_pre (net_trans n 0)); map arc_weight (tr_pre (net_trans n 0)); map arc_weight (tr_post (net_trans n 0))].
Example fx_run : fx_read = Ok [[3; 0]; [0; 1]; [2; 4]; [5]]%N.
Proof. vm_compute. reflexivity. Qed.

(** ** Writing *)
Definition wx_p (i : nat) : string := String (ascii_of_nat (97 + i)) "".
Definition wx_t (i : nat) : string := String (ascii_of_nat (65 + i)) "".
Lemma wx_ok : layout sx_net /\ List.length (cn_init sx_net) = cn_places sx_net /\ 0 < cn_places sx_net /\
  (forall i j, i < cn_places sx_net -> j < cn_places sx_net -> wx_p i = wx_p j -> i = j) /\
  (forall i j, i < cn_ntrans sx_net -> j < cn_ntrans sx_net -> wx_t i = wx_t j -> i = j) /\
  (forall i j, i < cn_places sx_net -> j < cn_ntrans sx_net -> wx_p i <> wx_t j) /\
  (forall p, (tokens (cn_init sx_net) p < 2 ^ 32)%N) /\
  (forall t a, t < cn_ntrans sx_net -> In a (tr_pre (net_trans sx_net t)) \/ In a (tr_post (net_trans sx_net t)) -> (0 < arc_weight a < 2 ^ 31)%N).
Proof.
  split; [exact sx_layout|]. split; [reflexivity|]. assert (P : cn_places sx_net = 3) by reflexivity. assert (T : cn_ntrans sx_net < 10) by (vm_compute; repeat constructor).
  assert (G : forall a b i j, a + i < 256 -> b + j < 256 -> String (ascii_of_nat (a + i)) "" = String (ascii_of_nat (b + j)) "" -> a + i = b + j).
  { intros a b i j A B E. injection E as E. apply (f_equal nat_of_ascii) in E. rewrite !nat_ascii_embedding in E by auto. exact E. }
  split; [lia|]. split; [|split; [|split; [|split]]].
  - intros i j I J E. apply G in E; lia.
  - intros i j I J E. apply G in E; lia.
  - intros i j I J E. apply G in E; lia.
  - intros p. change (cn_init sx_net) with [2; 1; 0]%N. unfold tokens. destruct p as [|[|[|p]]]; try reflexivity. destruct p; reflexivity.
  - assert (C : forallb (fun t => forallb (fun a => (0 <? arc_weight a) && (arc_weight a <? 2 ^ 31))%N (tr_pre (net_trans sx_net t) ++ tr_post (net_trans sx_net t))) (seq 0 (cn_ntrans sx_net)) = true) by (vm_compute; reflexivity).
    intros t a Ht Ha. rewrite forallb_forall in C. specialize (C t). rewrite in_seq in C. specialize (C (conj (Nat.le_0_l t) Ht)). rewrite forallb_forall in C. specialize (C a). rewrite in_app_iff in C. specialize (C Ha).
    apply andb_true_iff in C. destruct C as (C1 & C2). apply N.ltb_lt in C1, C2. split; assumption.
Qed.

(** ** Findings *)
Definition gx (k : xml) : xml := X "pnml" [] "" [X "net" [] "" [fx_a; fx_b; fx_t; fx_1; k]].
Definition gx_arc (kind s t w : string) : xml := X kind [("source", s); ("target", t); ("weight", w)] "" [].
Lemma gx_negative : exists net, read_net code (gx (gx_arc "arc" "t" "b" "-1")) false = Ok net /\ tr_post (net_trans net 0) = [mkArc 1 4294967295 false].
Proof. eexists. split; [vm_compute; reflexivity|]. vm_compute. reflexivity. Qed.
Lemma gx_unknown : exists net, read_net code (gx (gx_arc "arc" "t" "c" "1")) false = Ok net /\ read_net code (gx (X "name" [] "" [])) false = Ok net.
Proof. eexists. split; vm_compute; reflexivity. Qed.
Lemma gx_inhibitor : exists net, read_net code (gx (gx_arc "inhibitorArc" "t" "b" "2")) false = Ok net /\ tr_post (net_trans net 0) = [mkArc 1 2 false].
Proof. eexists. split; [vm_compute; reflexivity|]. vm_compute. reflexivity. Qed.
Lemma gx_garbage : exists net, read_net code (gx (gx_arc "arc" "t" "b" "2x7")) false = Ok net /\ tr_post (net_trans net 0) = [mkArc 1 2 false].
Proof. eexists. split; [vm_compute; reflexivity|]. vm_compute. reflexivity. Qed.
Lemma gx_transport : read_net code (gx (X "transportArc" [("source", "a"); ("transition", "t"); ("target", "b")] "" [])) false = UB.
Proof. vm_compute. reflexivity. Qed.
Lemma gx_no_net : read_net code (X "pnml" [] "" []) false = UB.
Proof. vm_compute. reflexivity. Qed.
Lemma gx_zero : read_net code (gx (gx_arc "inhibitorArc" "b" "t" "0")) false = Throw.
Proof. vm_compute. reflexivity. Qed.

(** A weight of 2^31 is written and cannot be read back. *)
Definition hx_calls : list call := [CPlace 0 1; CTrans 1 0; CIn 0 1 false 2147483648]%N.
Definition hx_builder : builder := match do_calls b_empty hx_calls with Ok b => b | _ => b_empty end.
Definition hx_net : cnet := match make_net hx_builder false with Ok (n, _, _) => n | _ => mkCnet 0 0 [] [] [] [] [] end.
Lemma hx_layout : layout hx_net.
Proof.
  assert (W : weights_pos hx_calls) by (repeat constructor; lia).
  assert (P : exists p, is_place hx_calls p) by (exists 0; left; reflexivity).
  destruct (@builder_correct hx_calls hx_builder false W eq_refl P) as (net & ids & tids & pidx & tidx & Hm & L & _).
  unfold hx_net. rewrite Hm. exact L.
Qed.
Lemma hx_unread : read_net code (to_xml hx_net wx_p wx_t) false = UB.
Proof. vm_compute. reflexivity. Qed.
Lemma hx_ok : List.length (cn_init hx_net) = cn_places hx_net /\ cn_places hx_net = 1 /\ cn_ntrans hx_net = 1 /\ map arc_weight (tr_pre (net_trans hx_net 0)) = [2147483648%N].
Proof. vm_compute. auto. Qed.
