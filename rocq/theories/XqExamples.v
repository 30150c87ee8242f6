(** Cases and counterexamples (C38). *)
From Verif Require Import Base PqlSyntax XqSyntax XqSpec XqModel XqWrite.
Local Open Scope string_scope.

Definition el (t : tag) (ks : list xml) : xml := X t None "" ks.
Definition tx (t : tag) (s : string) : xml := X t None s [X Tdata None s []].

(** ** A file with queries *)
(** A G (p1 + 2 * (p2 - 3) <= p3  or  t1 or t2 can fire) *)
Definition q_ag : xml :=
  el Tall [el Tglobally [el Tdisjunction
    [el Tle [el Tsum [el Ttokens [tx Tplace " p1 "]; el Tproduct [tx Tconstant "2"; el Tdifference [el Ttokens [tx Tplace "p2"]; tx Tconstant "3"]]];
             el Ttokens [tx Tplace "p3"]];
     el Tfireable [tx Ttransition "t1"; tx Ttransition "t2"]]]].
(** E (not deadlock U p1 > -7) *)
Definition q_eu : xml :=
  el Texists [el Tuntil [el Tbefore [el Tnegation [el Tdeadlock []]];
                         el Treach [el Tgt [el Ttokens [tx Tplace "p1"]; tx Tconstant "-7"]]]].
Definition q_bound : xml := el Tbound [tx Tplace "p1"; tx Tplace "p2"].
Definition prop (id : string) (q : xml) : xml := el Tproperty [tx Tid id; tx Tother "text"; el Tformula [q]].
Definition file : xml := el Tset [prop "first" q_ag; prop "second" q_eu; prop "third" q_bound].
Definition c_ag : ncond :=
  N1 OA (N1 OG (NOr [NCmp OpLe (NPlus 0 [] [NId "p1"; NMul 2 [] [NSub [NId "p2"; NLit 3]]]) (NId "p3"); NFire "t1"; NFire "t2"])).
Definition c_eu : ncond := N1 OE (N2 OU (NNot NDead) (NCmp OpLt (NLit (-7)) (NId "p1"))).
Lemma file_case :
  good_query q_ag = true /\ good_query q_eu = true /\ good_query q_bound = true /\
  is_property (prop "first" q_ag) "first" q_ag /\
  read_queries [] file = Ok ([c_ag; c_eu; N1 OEF (NBounds ["p1"; "p2"])], ["first"; "second"; "third"]) /\
  read_queries [1; 2] file = Ok ([c_eu; N1 OEF (NBounds ["p1"; "p2"])], ["second"; "third"]).
Proof.
  split; [reflexivity|]. split; [reflexivity|]. split; [reflexivity|]. split; [|split; vm_compute; reflexivity].
  split; [reflexivity|]. split; [reflexivity|]. split; [discriminate|]. split; [eexists _, _; reflexivity|].
  intros k j K T. cbn in K. destruct K as [<-|[<-|[<-|[]]]]; discriminate T.
Qed.

(** ** Writing *)
Definition c_conj : ncond := NAnd [NConj true [("p1", 2, u32max); ("p2", 0, 5)]%N; N2 OEU (NBool true) (NFire "t"); NEx "a" (NSel "a" (NCmp OpEq (NPath "a" (NMinus (NId "p3"))) (NLit 12)))].
Lemma write_case :
  cond_ok c_ag = true /\ cond_ok c_conj = true /\
  written false [false; true; false] [2; 1; 0] = [2; 0] /\
  exists x, write_queries [c_ag; c_eu; c_conj] ["a"; "b"; "c"] [false; true; false] false [2; 1; 0] = Ok x /\
  exists c, read_queries [] x = Ok ([c; c_ag], ["c"; "a"]).
Proof.
  split; [reflexivity|]. split; [reflexivity|]. split; [reflexivity|]. eexists. split; [vm_compute; reflexivity|]. eexists. vm_compute. reflexivity.
Qed.

(** ** CTL *)
Lemma ctl_case :
  parse_formula (el Tformula [q_ag]) = Ok (Some c_ag) /\ path_formula c_ag = false /\ controls_states c_ag = true /\ state_formula c_ag = true /\
  is_ctl true c_ag = true /\
  as_ctl c_ag = Ok (N1 OAG (NOr [NCmp OpLe (NPlus 0 [] [NId "p1"; NMul 2 [] [NSub [NId "p2"; NLit 3]]]) (NId "p3"); NFire "t1"; NFire "t2"])) /\
  is_ctl false (N1 OA (N1 OG (N1 OF NDead))) = false /\
  as_ctl c_eu = Ok (N2 OEU (NNot NDead) (NCmp OpLt (NLit (-7)) (NId "p1"))).
Proof. repeat split; vm_compute; reflexivity. Qed.

(** ** What goes wrong *)
Lemma bad_numbers : exists s s',
  number s = None /\ parse_exp (tx Tconstant s) = Ok (Some (NLit 12)) /\
  number s' = None /\ parse_exp (tx Tconstant s') = UB.
Proof. exists "12abc", "abc". repeat split. Qed.
Lemma big_number : exists s, number s = Some 4000000000%Z /\ parse_exp (tx Tconstant s) = UB.
Proof. exists "4000000000". repeat split. Qed.
Lemma big_sum : exists x, wf_form x = true /\ parse_form x = UB.
Proof.
  exists (el Tle [el Tproduct [tx Tconstant "2147483647"; tx Tconstant "2147483647"; tx Tconstant "2147483647"]; tx Tconstant "0"]).
  split; vm_compute; reflexivity.
Qed.
Lemma bound_unreadable : exists q c t,
  good_query q = true /\ parse_formula (el Tformula [q]) = Ok (Some c) /\ print_cond c = Ok [t] /\ parse_formula (el Tformula [t]) = Throw.
Proof. exists q_bound, (N1 OEF (NBounds ["p1"; "p2"])). eexists. split; [reflexivity|]. split; [reflexivity|]. split; [vm_compute; reflexivity|vm_compute; reflexivity]. Qed.
Lemma limit_unreadable : exists cs t,
  Forall (fun c => name_ok (fst (fst c)) = true /\ (snd (fst c) <= snd c <= u32max)%N) cs /\
  print_cond (NConj false cs) = Ok [t] /\ parse_formula (el Tformula [t]) = UB.
Proof.
  exists [("p", 3000000000, u32max)%N]. eexists. split; [|split; [vm_compute; reflexivity|vm_compute; reflexivity]].
  constructor; [|constructor]. split; [reflexivity|]. unfold u32max. cbn [fst snd]. lia.
Qed.
Lemma empty_sum : exists t, print_cond (NCmp OpLe (NPlus 0 [] []) (NLit 1)) = Ok [t] /\ parse_formula (el Tformula [t]) = Ok None.
Proof. eexists. split; [vm_compute; reflexivity|vm_compute; reflexivity]. Qed.
Lemma spaces : exists p t c, print_cond (NCmp OpLe (NId p) (NLit 1)) = Ok [t] /\ parse_formula (el Tformula [t]) = Ok (Some c) /\
  c <> NCmp OpLe (NId p) (NLit 1) /\ ~ same (NCmp OpLe (NId p) (NLit 1)) c.
Proof.
  exists "a b". eexists _, _. split; [vm_compute; reflexivity|]. split; [vm_compute; reflexivity|]. split; [discriminate|].
  intros S. pose (F := @mkFrame unit unit (fun u => u) (fun _ _ => True) (fun _ r => Some r) (fun _ p => if String.eqb p "ab" then 2%N else 0%N)
                          (fun _ _ => False) (fun _ => False) (fun _ _ => False) [] []).
  assert (OK : frame_ok F) by (intros s R R' _ []). specialize (S F OK (fun _ => None) tt). destruct S as (S & _). assert (K : (2 <= 1)%Z) by (apply S; vm_compute; discriminate). lia.
Qed.
Lemma shifted : exists x cs names, read_queries [] x = Ok (cs, names) /\ names = ["first"; "second"] /\ cs = [NDead].
Proof.
  exists (el Tset [el Tproperty [tx Tid "first"; el Tformula [el Ttrue []; el Ttrue []]]; prop "second" (el Tdeadlock [])]). eexists _, _.
  split; [vm_compute; reflexivity|]. split; reflexivity.
Qed.
Lemma no_formula : exists x, tag_of x = Tset /\ read_queries [] x = UB.
Proof. exists (el Tset [el Tproperty [tx Tid "first"]]). split; vm_compute; reflexivity. Qed.
Lemma dropped : exists k1 k2, parse_form (el Tinvariant [k1; k2]) = parse_form (el Tinvariant [k1]) /\ parse_form k2 = Ok (Some (NBool false)) /\
  parse_form (el Tinvariant [k1]) = Ok (Some (NNot (N1 OEF (NNot (NBool true))))).
Proof. exists (el Ttrue []), (el Tfalse []). repeat split. Qed.
Lemma bare_path : exists q c, good_query q = true /\ parse_formula (el Tformula [q]) = Ok (Some c) /\ is_ctl false c = true /\ is_ctl true c = true /\ as_ctl c = UB.
Proof. exists (el Tfinally [el Tdeadlock []]). eexists. repeat split. Qed.
Lemma control_path : exists q c, good_query q = true /\ parse_formula (el Tformula [q]) = Ok (Some c) /\ path_formula c = false /\
  is_ctl false c = true /\ is_ctl true c = true /\ as_ctl c = UB.
Proof. exists (el Texists [el Tcontrol [el Tfinally [el Tdeadlock []]]]). eexists. repeat split. Qed.
