(** The split of a query over the engines keeps its meaning. *)
From Verif Require Import Base BaseLemmas NetSpec NetModel PqlSyntax PqlSpec PqlModel PqlProofs PqlRuns QuerySpec QueryModel QueryClass QueryProofs
  SearchModel CtlProofs CtlFrag CtlMain CmpModel CmpSpec CmpFrag.

Definition body (c : cond) : cond := match c with CEF b | CNot (CEF b) => b | c => c end.

Lemma nfrag_stf : forall c, nfrag c = true -> stf c = true.
Proof. intros c H. apply ctl_stf, nfrag_ctl, H. Qed.
Lemma reach_ops : forall c, nfrag c = true -> is_reachability c = true ->
  exists b, atomic b = true /\ (c = CEF b \/ c = CNot (CEF b)).
Proof.
  intros c Hf Hr. apply is_reachability_spec in Hr. destruct Hr as [b Hb|b Hb|b Hb|b Hb|c Hc]; cbn [nfrag] in Hf; try discriminate Hf.
  - exists b. auto.
  - apply andb_prop in Hf. destruct Hf as (Hn & Hf). destruct Hc as [b Hb|b Hb|b Hb|b Hb|c Hc]; cbn [nfrag is_not negb] in *; try discriminate. exists b. auto.
Qed.
Lemma reach_goals_ok : forall l, forallb nfrag l = true -> reach_goals l = Ok (map body (filter is_reachability l)).
Proof.
  induction l as [|c l IH]; intros H; [reflexivity|]. cbn [forallb] in H. apply andb_prop in H. destruct H as (Hc & Hl). cbn [reach_goals filter].
  destruct (is_reachability c) eqn:E; [|apply IH; exact Hl]. destruct (reach_ops c Hc E) as (b & _ & [-> | ->]); unfold goal, prepare_for_reachability; cbn [prepare bind]; rewrite IH by exact Hl; reflexivity.
Qed.
Lemma lstates_ok : forall l, lstates l = map CmpModel.is_not (filter is_reachability l).
Proof. induction l as [|c l IH]; [reflexivity|]. cbn [lstates filter]. destruct (is_reachability c); cbn [map]; rewrite IH; reflexivity. Qed.
Lemma collect_ok : forall conj l rs, length rs = length (filter is_reachability l) ->
  exists d, collect conj l rs = Ok d /\
  match d with
  | Some b => b = negb conj /\ exists i c, nth_error (filter is_reachability l) i = Some c /\ nth i rs Unknown <> Unknown /\ is_satisfied (nth i rs Unknown) = negb conj
  | None => forall i c, nth_error (filter is_reachability l) i = Some c -> nth i rs Unknown = Unknown \/ is_satisfied (nth i rs Unknown) = conj
  end.
Proof.
  intros conj. induction l as [|c l IH]; intros rs H; cbn [collect filter] in *; [exists None; split; [reflexivity|]; intros [|i] c Hn; discriminate Hn|].
  destruct (is_reachability c); [|apply IH; exact H]. destruct rs as [|r rs]; [discriminate H|]. cbn [length] in H. injection H as H.
  assert (K : (r = Unknown \/ is_satisfied r = conj) -> exists d, collect conj l rs = Ok d /\
    match d with
    | Some b => b = negb conj /\ exists i c', nth_error (c :: filter is_reachability l) i = Some c' /\ nth i (r :: rs) Unknown <> Unknown /\ is_satisfied (nth i (r :: rs) Unknown) = negb conj
    | None => forall i c', nth_error (c :: filter is_reachability l) i = Some c' -> nth i (r :: rs) Unknown = Unknown \/ is_satisfied (nth i (r :: rs) Unknown) = conj
    end).
  { intros Hr. destruct (IH rs H) as (d & E & D). exists d. split; [exact E|]. destruct d as [b|].
    - destruct D as (Eb & i & c' & A & B). split; [exact Eb|]. exists (S i), c'. auto.
    - intros [|i] c' Hc; [exact Hr|]. apply (D i c' Hc). }
  destruct (is_unknown r) eqn:U; [apply K; left; destruct r; try discriminate U; reflexivity|].
  destruct (xorb (is_satisfied r) conj) eqn:X.
  - exists (Some (negb conj)). split; [reflexivity|]. split; [reflexivity|]. exists 0, c. split; [reflexivity|]. cbn [nth].
    split; [intros ->; discriminate U|]. destruct (is_satisfied r), conj; try discriminate X; reflexivity.
  - apply K. right. destruct (is_satisfied r), conj; try discriminate X; reflexivity.
Qed.

Section Solve.
  Variable net : pnet.
  Variable m0 : marking.
  Hypothesis W : wf_pnet net.
  Variable G : cond -> Prop.
  Variable reach : list nat -> list cond -> (nat -> rslt -> rslt * bool) -> res (list rslt).
  Variable ltl single : list nat -> cond -> res bool.
  Hypothesis HR : search_right net m0 G reach.
  Notation slv := (solve reach ltl single).
  Notation ok c := (sat net m0 c).

  Lemma op_sat : forall b, atomic b = true -> (ok (CEF b) <-> attainable net m0 b) /\ (ok (CNot (CEF b)) <-> ~ attainable net m0 b).
  Proof.
    intros b Hb. assert (A : ok (CEF b) <-> attainable net m0 b) by (apply sat_EF; auto using atomic_stf).
    split; [exact A|]. rewrite sat_not; [rewrite A; tauto|exact W|cbn; auto using atomic_stf].
  Qed.

  Lemma others_ok : forall conj pos l i b, 
    (forall c pos b, In c l -> slv pos c = Ok b -> (b = true <-> ok c)) ->
    others slv conj pos i l = Ok b ->
    (b = negb conj /\ exists c, In c l /\ (negb conj = true <-> ok c)) \/
    (b = conj /\ forall c, In c l -> is_reachability c = false -> (conj = true <-> ok c)).
  Proof.
    intros conj pos. induction l as [|c l IH]; intros i b H E; cbn [others] in E; [injection E as <-; right; split; [reflexivity|intros c []]|].
    change ((fix go (i : nat) (l : list cond) {struct l} : res bool :=
       match l with
       | [] => Ok conj
       | c :: l' => if is_reachability c then go (S i) l' else b <- slv (pos ++ [i]) c ;; if xorb b conj then Ok (negb conj) else go (S i) l'
       end) (S i) l) with (others slv conj pos (S i) l) in E.
    assert (H' : forall c pos b, In c l -> slv pos c = Ok b -> (b = true <-> ok c)) by (intros x p y Hx; apply H; right; exact Hx).
    destruct (is_reachability c) eqn:R.
    - destruct (IH (S i) b H' E) as [(A & x & B & D)|(A & B)]; [left; split; [exact A|]; exists x; split; [right; exact B|exact D]|].
      right. split; [exact A|]. intros x [<-|Hx] Hn; [congruence|apply B; auto].
    - destruct (slv (pos ++ [i]) c) as [y| | |] eqn:Y; try discriminate E. cbn [bind] in E. assert (T := H c _ y (or_introl eq_refl) Y).
      destruct (xorb y conj) eqn:X.
      + injection E as <-. left. split; [reflexivity|]. exists c. split; [left; reflexivity|]. replace (negb conj) with y; [exact T|]. destruct y, conj; try discriminate X; reflexivity.
      + assert (y = conj) by (destruct y, conj; try discriminate X; reflexivity). subst y.
        destruct (IH (S i) b H' E) as [(A & x & B & D)|(A & B)]; [left; split; [exact A|]; exists x; split; [right; exact B|exact D]|].
        right. split; [exact A|]. intros x [<-|Hx] Hn; [exact T|apply B; auto].
  Qed.

  Lemma logical_ok : forall conj pos l b, forallb nfrag l = true ->
    (forall c g, In c l -> (c = CEF g \/ c = CNot (CEF g)) -> atomic g = true -> G g) ->
    (forall c pos b, In c l -> slv pos c = Ok b -> (b = true <-> ok c)) ->
    solve_logical reach slv conj pos l = Ok b ->
    (b = negb conj /\ exists c, In c l /\ (negb conj = true <-> ok c)) \/
    (b = conj /\ forall c, In c l -> (conj = true <-> ok c)).
  Proof.
    intros conj pos l b Hf Hg H E. unfold solve_logical in E. rewrite (reach_goals_ok l Hf) in E. cbn [bind] in E.
    destruct (reach pos (map body (filter is_reachability l)) (logical_handle conj (lstates l))) as [rs| | |] eqn:Er; try discriminate E. cbn [bind] in E.
    set (ops := filter is_reachability l) in *.
    assert (Hops : forall i c, nth_error ops i = Some c -> In c l /\ is_reachability c = true /\ nfrag c = true).
    { intros i c Hn. apply nth_error_In in Hn. apply filter_In in Hn. destruct Hn as (A & B). rewrite forallb_forall in Hf. auto. }
    assert (Hh : forall i r, r <> Unknown -> fst (logical_handle conj (lstates l) i r) <> Unknown).
    { intros i r Hr. unfold logical_handle. cbn [fst]. destruct r; try congruence; destruct (nth i (lstates l) false); discriminate. }
    destruct (HR pos (map body ops) (logical_handle conj (lstates l)) rs) as (R1 & R2 & R3); auto.
    { intros g Hin. apply in_map_iff in Hin. destruct Hin as (c & <- & Hc). apply filter_In in Hc. destruct Hc as (A & B).
      assert (F : nfrag c = true) by (rewrite forallb_forall in Hf; auto). destruct (reach_ops c F B) as (g & Ag & Eg). assert (Gg := Hg c g A Eg Ag). destruct Eg as [-> | ->]; cbn [body]; auto. }
    rewrite map_length in R1, R3.
    (* a known result is the value of the operand *)
    assert (V : forall i c, nth_error ops i = Some c -> nth i rs Unknown <> Unknown -> (is_satisfied (nth i rs Unknown) = true <-> ok c)).
    { intros i c Hn Hu. destruct (Hops i c Hn) as (A & B & F). destruct (reach_ops c F B) as (g & Ag & Eg). destruct (op_sat g Ag) as (S1 & S2).
      assert (Hl : nth i (lstates l) false = CmpModel.is_not c).
      { rewrite lstates_ok. fold ops. rewrite (nth_indep _ false (CmpModel.is_not c)) by (rewrite map_length; apply nth_error_Some; congruence). rewrite map_nth. f_equal. apply nth_error_nth. exact Hn. }
      assert (Hb : nth_error (map body ops) i = Some g) by (rewrite nth_error_map, Hn; destruct Eg as [-> | ->]; reflexivity).
      destruct (R2 i g Hb) as [X|[(X & Y)|(X & Y)]]; [contradiction| |]; rewrite Y; unfold logical_handle; cbn [fst]; rewrite Hl;
        destruct Eg as [-> | ->]; cbn [CmpModel.is_not is_satisfied]; rewrite ?S1, ?S2; split; intros Z; auto; try discriminate; tauto. }
    destruct (collect_ok conj l rs) as (d & Ed & D); [exact R1|]. rewrite Ed in E. cbn [bind] in E. fold ops in D. destruct d as [y|].
    - injection E as <-. destruct D as (-> & i & c & Hn & Hu & Hs). left. split; [reflexivity|]. exists c. split; [apply (Hops i c Hn)|]. rewrite <- Hs. apply V; auto.
    - assert (K : forall i c, nth_error ops i = Some c -> nth i rs Unknown <> Unknown).
      { intros i c Hn Hu. assert (Hi : i < length ops) by (apply nth_error_Some; congruence). destruct (R3 i Hi Hu) as (j & v & Hj & Ej & Uj & Tj).
        destruct (nth_error ops j) as [c'|] eqn:Ec; [|apply nth_error_None in Ec; lia]. destruct (D j c' Ec) as [X|X]; [contradiction|].
        rewrite Ej in X. revert X Tj. unfold logical_handle. cbn [fst snd].
        destruct (match v with Satisfied => if nth j (lstates l) false then NotSatisfied else Satisfied | NotSatisfied => if nth j (lstates l) false then Satisfied else NotSatisfied | r => r end); destruct conj; cbn [is_satisfied]; discriminate. }
      destruct (others_ok conj pos l 0 b H E) as [X|(X & Y)]; [left; exact X|]. right. split; [exact X|]. intros c Hc.
      destruct (is_reachability c) eqn:Er2; [|apply Y; auto]. assert (Hin : In c ops) by (apply filter_In; auto). apply In_nth_error in Hin. destruct Hin as (i & Hn).
      destruct (D i c Hn) as [Z|Z]; [exfalso; apply (K i c Hn Z)|]. rewrite <- Z. apply V; auto. apply (K i c Hn).
  Qed.

  Theorem solve_ok : forall c, nfrag c = true ->
    (forall g, occurs (CEF g) c -> atomic g = true -> G g) ->
    decides net m0 (fun x => occurs x c /\ ltl_shape x = true) ltl ->
    decides net m0 (fun x => occurs x c /\ frag x = true /\ forall d, x <> CNot d) single ->
    forall pos b, slv pos c = Ok b -> (b = true <-> ok c).
  Proof.
    assert (Leaf : forall c, nfrag c = true -> (forall d, c <> CNot d) ->
      (forall g, occurs (CEF g) c -> atomic g = true -> G g) ->
      decides net m0 (fun x => occurs x c /\ ltl_shape x = true) ltl ->
      decides net m0 (fun x => occurs x c /\ frag x = true /\ forall d, x <> CNot d) single ->
      forall pos b, (if is_reachability c then g <- goal c ;; rs <- reach pos [g] simple_handle ;; Ok (is_satisfied (last rs Unknown))
        else if negb (contains_next c) && ltl_shape c then ltl pos c else single pos c) = Ok b -> (b = true <-> ok c)).
    { intros c Hf Hn HG HL HS pos b E. destruct (is_reachability c) eqn:R.
      - destruct (reach_ops c Hf R) as (g & Ag & [-> | ->]); [|exfalso; eapply Hn; reflexivity]. unfold goal, prepare_for_reachability in E. cbn [prepare bind] in E.
        destruct (reach pos [g] simple_handle) as [rs| | |] eqn:Er; try discriminate E. cbn [bind] in E. injection E as <-.
        destruct (HR pos [g] simple_handle rs) as (R1 & R2 & R3); auto.
        { intros x [<-|[]]. split; [exact Ag|]. apply HG; [constructor|exact Ag]. }
        destruct rs as [|r [|r2 rs]]; try discriminate R1. cbn [last]. destruct (op_sat g Ag) as (S1 & _). rewrite S1.
        destruct (R2 0 g eq_refl) as [X|[(X & Y)|(X & Y)]]; cbn [nth] in *.
        + exfalso. destruct (R3 0 ltac:(cbn; lia) X) as (j & v & _ & _ & _ & T). discriminate T.
        + rewrite Y. cbn. tauto.
        + rewrite Y. cbn. split; [discriminate|tauto].
      - destruct (negb (contains_next c) && ltl_shape c) eqn:Q.
        + apply andb_prop in Q. apply (HL pos c b); [|exact E]. split; [constructor|apply Q].
        + apply (HS pos c b); [|exact E]. split; [constructor|]. split; [|exact Hn]. rewrite nfrag_split in Hf. apply andb_prop in Hf. apply Hf. }
    assert (Logic : forall conj l, Forall (fun c => nfrag c = true ->
        (forall g, occurs (CEF g) c -> atomic g = true -> G g) ->
        decides net m0 (fun x => occurs x c /\ ltl_shape x = true) ltl ->
        decides net m0 (fun x => occurs x c /\ frag x = true /\ forall d, x <> CNot d) single ->
        forall pos b, slv pos c = Ok b -> (b = true <-> ok c)) l ->
      forallb nfrag l = true ->
      (forall c, In c l -> forall g, occurs (CEF g) c -> atomic g = true -> G g) ->
      (forall c, In c l -> decides net m0 (fun x => occurs x c /\ ltl_shape x = true) ltl) ->
      (forall c, In c l -> decides net m0 (fun x => occurs x c /\ frag x = true /\ forall d, x <> CNot d) single) ->
      forall pos b, solve_logical reach slv conj pos l = Ok b ->
      (b = negb conj /\ exists c, In c l /\ (negb conj = true <-> ok c)) \/ (b = conj /\ forall c, In c l -> (conj = true <-> ok c))).
    { intros conj l HI Hf HG HL HS pos b E. apply (logical_ok conj pos l b Hf); [| |exact E].
      - intros c g Hc Eg Ag. apply (HG c Hc g); [|exact Ag]. destruct Eg as [-> | ->]; [constructor|]. eapply occurs_in; [left; reflexivity|constructor].
      - intros c p y Hc. rewrite Forall_forall in HI. rewrite forallb_forall in Hf. exact (HI c Hc (Hf c Hc) (HG c Hc) (HL c Hc) (HS c Hc) p y). }
    induction c using cond_ind'; intros Hf HG HL HS pos y E; try (apply (Leaf _ Hf) with (pos := pos) (b := y); [intros d; discriminate|exact HG|exact HL|exact HS|exact E]).
    - (* negation *) cbn [solve] in E. destruct (slv pos c) as [x| | |] eqn:X; try discriminate E. cbn [bind] in E. injection E as <-.
      cbn [nfrag] in Hf. apply andb_prop in Hf. destruct Hf as (_ & Hf). rewrite sat_not by auto using nfrag_stf.
      rewrite <- (IHc Hf) with (pos := pos) (b := x); [destruct x; cbn; split; congruence| | | |exact X].
      + intros g Hg. apply HG. eapply occurs_in; [left; reflexivity|exact Hg].
      + intros p x' b' (A & B). apply HL. split; [eapply occurs_in; [left; reflexivity|exact A]|exact B].
      + intros p x' b' (A & B). apply HS. split; [eapply occurs_in; [left; reflexivity|exact A]|exact B].
    - (* conjunction *) cbn [solve] in E. assert (Oc : forall c x, In c l -> occurs x c -> occurs x (CAnd l)) by (intros c x Hc Hx; eapply occurs_in; [exact Hc|exact Hx]).
      rewrite sat_and. destruct (Logic true l H Hf) with (pos := pos) (b := y) as [(-> & c & Hc & K)|(-> & K)]; [| | |exact E| |].
      + intros c Hc g Hg. apply HG. eauto.
      + intros c Hc p x b' (A & B). apply HL. eauto.
      + intros c Hc p x b' (A & B). apply HS. eauto.
      + split; [discriminate|]. intros A. exfalso. specialize (A c Hc). apply K in A. discriminate A.
      + split; [intros _ c Hc; apply (K c Hc); reflexivity|reflexivity].
    - (* disjunction *) cbn [solve] in E. assert (Oc : forall c x, In c l -> occurs x c -> occurs x (COr l)) by (intros c x Hc Hx; eapply occurs_in; [exact Hc|exact Hx]).
      rewrite sat_or; [|exact W|apply (nfrag_stf (COr l)); exact Hf]. destruct (Logic false l H Hf) with (pos := pos) (b := y) as [(-> & c & Hc & K)|(-> & K)]; [| | |exact E| |].
      + intros c Hc g Hg. apply HG. eauto.
      + intros c Hc p x b' (A & B). apply HL. eauto.
      + intros c Hc p x b' (A & B). apply HS. eauto.
      + split; [|reflexivity]. intros _. exists c. split; [exact Hc|]. apply K. reflexivity.
      + split; [discriminate|]. intros (c & Hc & A). apply (K c Hc) in A. discriminate A.
  Qed.
End Solve.
