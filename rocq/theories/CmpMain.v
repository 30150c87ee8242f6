(** The answers of the CTL engine. *)
From Verif Require Import Base BaseLemmas NetSpec NetModel NetProofs PqlSyntax PqlSpec PqlModel PqlProofs PqlRuns QuerySpec QueryModel QueryClass QueryProofs
  StoreProofs SearchModel SearchMain QueueModel StubSpec StubModel StubProofs StubMain LtlSpec LtlQuerySpec LtlQueryModel LtlQueryProofs CtlProofs CtlNet CtlFrag CtlMain
  TarModel TarSpec TarMain CmpModel CmpSpec CmpFrag CmpProofs CmpSearch.

Section Main.
  Variable net : cnet.
  Hypothesis L : layout net.
  Hypothesis Hpl : 0 < cn_places net.
  Hypothesis Hlen : length (cn_init net) = cn_places net.
  Hypothesis Hfit : fits32 (cn_init net).
  Hypothesis Hno : no_overflow net.
  Notation P := (to_pnet net).
  Notation init := (cn_init net).
  Notation open x := (evaluate (net_deadb net) init x = RUnknown \/ forall d, x <> CNot d).

  Theorem main_ok : forall reach ltl single G direct q b,
    frag q = true -> one_neg q = true ->
    search_right P init G reach -> (forall g, occurs (CEF g) q -> atomic g = true -> G g) ->
    decides P init (fun x => occurs x q /\ ltl_shape x = true) ltl ->
    decides P init (fun x => occurs x q /\ frag x = true /\ open x) single ->
    ctl_main reach ltl single net direct q = Ok b -> (b = true <-> sat P init q).
  Proof.
    intros reach ltl single G direct q b Hf Hn HR HG HL HS E. unfold ctl_main in E. assert (Hr : CtlMain.reach net init) by (exists []; constructor).
    assert (Hnf : nfrag q = true) by (rewrite nfrag_split, Hf, Hn; reflexivity).
    destruct (evaluate (net_deadb net) init q) eqn:Ev.
    - injection E as <-. rewrite (reach_sat L Hpl Hlen Hfit Hno _ Hf Hr). split; [intros _|reflexivity]. apply CtlProofs.ev_true; auto.
    - injection E as <-. rewrite (reach_sat L Hpl Hlen Hfit Hno _ Hf Hr). split; [discriminate|]. intros A. exfalso. revert A. apply CtlProofs.ev_false; auto.
    - destruct direct; [apply (HS [] q b); [split; [constructor|auto]|exact E]|].
      apply (solve_ok P init (layout_wf net L) G reach ltl single HR q Hnf HG HL) with (pos := []); [|exact E].
      intros pos x b' (A & B & D). apply HS. auto.
  Qed.

  (** The dependency graph engine. *)
  Lemma single_right : forall q addr choice fuel,
    decides P init (fun x => occurs x q /\ frag x = true /\ open x) (fun pos c => ctl_single_solve net c (addr pos) (choice pos) (fuel pos)).
  Proof.
    intros q addr choice fuel pos x b (_ & Hf & Ho) E. assert (T := @single_solve_ok net L Hpl Hlen Hfit Hno x (addr pos) (choice pos) (fuel pos) Hf Ho). rewrite E in T. exact T.
  Qed.

  (** The LTL engine. *)
  Lemma frag_ltl : forall a, frag a = true -> is_temporal a = false -> ltl a = true.
  Proof.
    induction a using cond_ind'; cbn [frag is_temporal ltl]; intros A B; auto; try discriminate.
    - rewrite Forall_forall in H. rewrite forallb_forall in *. intros x Hx. apply H; auto. destruct (is_temporal x) eqn:T; [|reflexivity]. rewrite <- B. symmetry. apply existsb_exists. eauto.
    - rewrite Forall_forall in H. rewrite forallb_forall in *. intros x Hx. apply H; auto. destruct (is_temporal x) eqn:T; [|reflexivity]. rewrite <- B. symmetry. apply existsb_exists. eauto.
  Qed.
  Lemma shape_ltl : forall x, frag x = true -> ltl_shape x = true -> ltl_query x = true.
  Proof.
    intros x Hf Hs. destruct x; cbn [ltl_shape] in Hs; try discriminate Hs; cbn [frag] in Hf; try discriminate Hf; cbn [ltl_query].
    - apply frag_ltl; [exact Hf|]. destruct (is_temporal x); [discriminate Hs|reflexivity].
    - apply andb_prop in Hf. apply andb_prop in Hs. destruct Hf as (A & B), Hs as (A' & B'). rewrite !frag_ltl; auto; [destruct (is_temporal x2); [discriminate B'|reflexivity]|destruct (is_temporal x1); [discriminate A'|reflexivity]].
    - apply andb_prop in Hf. apply andb_prop in Hs. destruct Hf as (A & B), Hs as (A' & B'). rewrite !frag_ltl; auto; [destruct (is_temporal x2); [discriminate B'|reflexivity]|destruct (is_temporal x1); [discriminate A'|reflexivity]].
  Qed.
  Lemma frag_child : forall c x, In x (children c) -> frag c = true -> frag x = true.
  Proof.
    intros c x Hc Hf. destruct c; cbn [children] in Hc; cbn [frag] in Hf; try discriminate Hf; repeat (destruct Hc as [<-|Hc] || contradiction); auto;
      try (rewrite forallb_forall in Hf; auto); apply andb_prop in Hf; destruct Hf; auto.
  Qed.
  Lemma frag_occurs : forall x c, occurs x c -> frag c = true -> frag x = true.
  Proof. intros x c H. induction H as [|c d Hd _ IH]; intros Hf; [exact Hf|]. apply IH. eapply frag_child; eauto. Qed.
  Lemma reach_facts : forall m, reachable P init m -> fits m /\ within 0 m /\ (net_deadb net m = true <-> dead P m).
  Proof.
    intros m R. split; [apply (reach_fits L Hpl Hlen Hfit Hno R)|]. split; [left; reflexivity|]. apply (reach_dead L Hpl Hlen Hfit Hno R).
  Qed.
  Lemma ltl_right : forall q comp big expand tr search, frag q = true ->
    (forall x, occurs x q -> ltl_shape x = true -> translates tr (SNot (fst (to_spot comp big expand (fst (to_ltl x)) [])))) ->
    (forall pos aut, answer_right P init aut 0 (search pos aut)) ->
    decides P init (fun x => occurs x q /\ ltl_shape x = true) (fun pos c => ltl_solve comp big expand tr (net_deadb net) (search pos) c).
  Proof.
    intros q comp big expand tr search Hf Ht Hs pos x b (Ho & Hx) E.
    eapply ltl_solve_checked; [exact (layout_wf net L)|exact reach_facts| |exact (Ht x Ho Hx)|exact (Hs pos)|exact E].
    apply shape_ltl; [eapply frag_occurs; eauto|exact Hx].
  Qed.
End Main.

(** ** Trace abstraction refinement as the search *)
Section TarSearch.
  Variable net : cnet.
  Hypothesis Pl : plain net.
  Hypothesis Hnz : forall m, reachable (to_pnet net) (cn_init net) m -> exists p, tokens m p <> 0%N.
  Notation P := (to_pnet net).
  Notation init := (cn_init net).
  Notation G := (fun g => separate g /\ forall p, In p (compared g) -> p < cn_places net).
  Variable handle : nat -> rslt -> rslt * bool.
  Hypothesis Hh : forall i r, r <> Unknown -> fst (handle i r) <> Unknown.

  (** the results [rs] for the goals from number [i] on *)
  Definition fair (i : nat) (goals : list cond) (rs : list rslt) : Prop :=
    length rs = length goals /\
    forall j g, nth_error goals j = Some g ->
       nth j rs Unknown = Unknown \/
       attainable P init g /\ nth j rs Unknown = fst (handle (i + j) Satisfied) \/
       ~ attainable P init g /\ nth j rs Unknown = fst (handle (i + j) NotSatisfied).
  Definition ended (i : nat) (goals : list cond) (rs : list rslt) : Prop :=
    exists j v, j < length goals /\ nth j rs Unknown = fst (handle (i + j) v) /\ nth j rs Unknown <> Unknown /\ snd (handle (i + j) v) = true.
  Definition known (rs : list rslt) : Prop := forall r, In r rs -> r <> Unknown.

  Lemma fair_cons : forall i g goals r rs,
    (r = Unknown \/ attainable P init g /\ r = fst (handle i Satisfied) \/ ~ attainable P init g /\ r = fst (handle i NotSatisfied)) ->
    fair (S i) goals rs -> fair i (g :: goals) (r :: rs).
  Proof.
    intros i g goals r rs Hr (A & B). split; [cbn; congruence|]. intros [|j] x Hx.
    - injection Hx as <-. rewrite Nat.add_0_r. exact Hr.
    - replace (i + S j) with (S i + j) by lia. apply (B j x Hx).
  Qed.
  Lemma ended_cons : forall i g goals r rs, ended (S i) goals rs -> ended i (g :: goals) (r :: rs).
  Proof. intros i g goals r rs (j & v & A & B). exists (S j), v. replace (i + S j) with (S i + j) by lia. split; [cbn; lia|exact B]. Qed.
  Lemma ended_here : forall i g goals rs v, v <> Unknown -> snd (handle i v) = true -> ended i (g :: goals) (fst (handle i v) :: rs).
  Proof. intros i g goals rs v Hv H. exists 0, v. rewrite Nat.add_0_r. cbn. split; [lia|]. split; [reflexivity|]. split; [apply Hh; exact Hv|exact H]. Qed.

  Lemma tar_start : forall goals i ad, (forall g, In g goals -> atomic g = true) ->
    (forall g, In g goals -> evaluate (net_deadb net) init g = RTrue -> sat P init g) ->
    let c := tar_check net handle goals i ad in
    fair i goals (fst c) /\ (snd c = true -> ended i goals (fst c) \/ known (fst c) /\ ad = true).
  Proof.
    assert (Un : forall i goals, fair i goals (map (fun _ => Unknown) goals)).
    { intros i goals. split; [apply map_length|]. intros j g _. left. clear. revert j. induction goals as [|x l IH]; intros [|j]; cbn; auto. }
    induction goals as [|g goals IH]; intros i ad Ha He; cbn [tar_check].
    - cbn. split; [split; [reflexivity|intros [|j] x X; discriminate X]|]. intros ->. right. split; [intros r []|reflexivity].
    - specialize (IH (S i)). assert (Ha' : forall x, In x goals -> atomic x = true) by (intros x Hx; apply Ha; right; exact Hx).
      assert (He' : forall x, In x goals -> evaluate (net_deadb net) init x = RTrue -> sat P init x) by (intros x Hx; apply He; right; exact Hx).
      assert (Oth : let c := tar_check net handle goals (S i) false in
        fair i (g :: goals) (Unknown :: fst c) /\ (snd c = true -> ended i (g :: goals) (Unknown :: fst c) \/ known (Unknown :: fst c) /\ ad = true)).
      { destruct (IH false Ha' He') as (A & B). split; [apply fair_cons; auto|]. intros T. destruct (B T) as [X|(_ & X)]; [|discriminate X]. left. apply ended_cons. exact X. }
      destruct (evaluate (net_deadb net) init g) eqn:E; [|exact Oth|exact Oth].
      assert (At : attainable P init g) by (exists init; split; [exists []; constructor|apply He; [left; reflexivity|exact E]]).
      destruct (snd (handle i Satisfied)) eqn:T; cbn zeta; cbn [fst snd].
      + split; [apply fair_cons; auto|]. intros _. left. apply ended_here; [discriminate|exact T].
      + destruct (IH ad Ha' He') as (A & B). split; [apply fair_cons; auto|]. intros X. destruct (B X) as [Y|(Y & Z)]; [left; apply ended_cons; exact Y|]. right. split; [|exact Z].
        intros r [<-|Hr]; [apply Hh; discriminate|apply Y; exact Hr].
  Qed.

  Lemma tar_rest : forall rnd fuel steps goals i rs rs', (forall g, In g goals -> G g) ->
    fair i goals rs -> tar_each handle (fun i g => tar net g (rnd i) fuel steps) goals i rs = Ok rs' ->
    fair i goals rs' /\ (ended i goals rs' \/ known rs').
  Proof.
    intros rnd fuel steps. induction goals as [|g goals IH]; intros i rs rs' HG F E; destruct rs as [|r rs]; try (destruct F as (F & _); discriminate F).
    - injection E as <-. split; [exact F|]. right. intros r [].
    - assert (HG' : forall x, In x goals -> G x) by (intros x Hx; apply HG; right; exact Hx). destruct (HG g (or_introl eq_refl)) as (Sg & Rg).
      assert (F' : fair (S i) goals rs).
      { destruct F as (A & B). split; [cbn in A; congruence|]. intros j x Hx. replace (S i + j) with (i + S j) by lia. apply (B (S j) x Hx). }
      assert (H0 : r = Unknown \/ attainable P init g /\ r = fst (handle i Satisfied) \/ ~ attainable P init g /\ r = fst (handle i NotSatisfied)).
      { destruct F as (A & B). specialize (B 0 g eq_refl). rewrite Nat.add_0_r in B. exact B. }
      cbn [tar_each] in E. destruct (is_unknown r) eqn:U.
      + destruct (tar net g (rnd i) fuel steps) as [y| | |] eqn:T; try discriminate E. cbn [bind] in E.
        assert (V : attainable P init g /\ y = true \/ ~ attainable P init g /\ y = false).
        { destruct y; [left; split; [|reflexivity]; eapply tar_satisfied; eauto|right; split; [|reflexivity]]. intros (m & Rm & Sm). eapply tar_not_satisfied; eauto. }
        destruct (y && snd (handle i (if y then Satisfied else NotSatisfied))) eqn:Q.
        * injection E as <-. apply andb_prop in Q. destruct Q as (-> & Q). split; [|left; apply ended_here; [discriminate|exact Q]].
          apply fair_cons; [|exact F']. destruct V as [(V & _)|(_ & V)]; [auto|discriminate V].
        * destruct (tar_each handle (fun i0 g0 => tar net g0 (rnd i0) fuel steps) goals (S i) rs) as [x| | |] eqn:X; try discriminate E. cbn [bind] in E. injection E as <-.
          destruct (IH (S i) rs x HG' F' X) as (A & B). split; [apply fair_cons; [|exact A]; destruct V as [(V & ->)|(V & ->)]; auto|].
          destruct B as [B|B]; [left; apply ended_cons; exact B|]. right. intros z [<-|Hz]; [apply Hh; destruct y; discriminate|apply B; exact Hz].
      + destruct (tar_each handle (fun i0 g0 => tar net g0 (rnd i0) fuel steps) goals (S i) rs) as [x| | |] eqn:X; try discriminate E. cbn [bind] in E. injection E as <-.
        destruct (IH (S i) rs x HG' F' X) as (A & B). split; [apply fair_cons; auto|].
        destruct B as [B|B]; [left; apply ended_cons; exact B|]. right. intros z [<-|Hz]; [intros ->; discriminate U|apply B; exact Hz].
  Qed.
End TarSearch.

Theorem tar_right : forall net rnd fuel steps, plain net ->
  (forall m, reachable (to_pnet net) (cn_init net) m -> exists p, tokens m p <> 0%N) ->
  search_right (to_pnet net) (cn_init net) (fun g => separate g /\ forall p, In p (compared g) -> p < cn_places net)
    (fun pos goals handle => tar_reach net handle (rnd pos) (fuel pos) (steps pos) goals).
Proof.
  intros net rnd fuel steps Pl Nz pos goals handle rs Hg Hh E. unfold tar_reach in E. destruct (has_inhib net); [discriminate E|].
  assert (Ev : forall g, In g goals -> evaluate (net_deadb net) (cn_init net) g = RTrue -> sat (to_pnet net) (cn_init net) g).
  { intros g Hin Et. destruct Pl as (L & P0 & D & So & Li & W & F). destruct (Hg g Hin) as (Ag & _).
    assert (Ff : fits (cn_init net)) by (intros p; apply F; exists []; constructor).
    destruct (@deadlocked_spec net (cn_init net) L P0 Li) as (b & Eb & Hb).
    apply (sat_hm (to_pnet net) (cn_init net) g (layout_wf net L) Ag). apply (@satisfied_hm net L (cn_init net) Ff (net_deadb net)); auto.
    - unfold net_deadb. rewrite Eb. exact Hb.
    - unfold satisfied. rewrite Et. reflexivity. }
  destruct (tar_start net handle Hh goals 0 true (fun g H => proj1 (Hg g H)) Ev) as (A & B).
  destruct (tar_check net handle goals 0 true) as [r0 b0]. cbn [fst snd] in *.
  assert (Fin : forall r, fair net handle 0 goals r -> ended handle 0 goals r \/ known r -> r = rs ->
    length rs = length goals /\
    (forall i g, nth_error goals i = Some g ->
       nth i rs Unknown = Unknown \/
       attainable (to_pnet net) (cn_init net) g /\ nth i rs Unknown = fst (handle i Satisfied) \/
       ~ attainable (to_pnet net) (cn_init net) g /\ nth i rs Unknown = fst (handle i NotSatisfied)) /\
    (forall i, i < length goals -> nth i rs Unknown = Unknown ->
       exists j v, j < length goals /\ nth j rs Unknown = fst (handle j v) /\ nth j rs Unknown <> Unknown /\ snd (handle j v) = true)).
  { intros r (F1 & F2) Hd ->. split; [exact F1|]. split; [exact F2|]. intros i Hi Hu. destruct Hd as [(j & v & D)|K]; [exists j, v; exact D|]. exfalso. apply (K (nth i rs Unknown)); [apply nth_In; lia|exact Hu]. }
  destruct b0; [injection E as E; apply (Fin r0); auto; destruct (B eq_refl) as [X|(X & _)]; auto|].
  destruct (tar_rest net Pl Nz handle Hh (rnd pos) (fuel pos) (steps pos) goals 0 r0 rs (fun g H => proj2 (Hg g H)) A E) as (F & D). apply (Fin rs); auto.
Qed.

(** ** Together *)
Lemma push_ok : forall net fuel0 c r, layout net -> 0 < cn_places net -> length (cn_init net) = cn_places net -> fits32 (cn_init net) -> no_overflow net ->
  ctl c = true -> in_range c = true -> push (net_deadb net) (cn_init net) true fuel0 false false c = Ok r ->
  frag r = true /\ one_neg r = true /\ (sat (to_pnet net) (cn_init net) r <-> sat (to_pnet net) (cn_init net) c).
Proof.
  intros net fuel0 c r L H1 H2 H3 H4 Hc Hr Hp. assert (N := push_nfrag _ _ _ _ _ _ _ Hc Hp). rewrite nfrag_split in N. apply andb_prop in N. destruct N as (A & B).
  split; [exact A|]. split; [exact B|]. exact (ctl_push_sat L H1 H2 H3 H4 c fuel0 Hc Hr Hp).
Qed.
Theorem any_answer_ok : forall net G reach comp big expand tr search addr choice fuels direct fuel0 c r b,
  layout net -> 0 < cn_places net -> length (cn_init net) = cn_places net -> fits32 (cn_init net) -> no_overflow net ->
  search_right (to_pnet net) (cn_init net) G reach ->
  ctl c = true -> in_range c = true ->
  push (net_deadb net) (cn_init net) true fuel0 false false c = Ok r ->
  (forall g, occurs (CEF g) r -> atomic g = true -> G g) ->
  (forall x, occurs x r -> ltl_shape x = true -> translates tr (SNot (fst (to_spot comp big expand (fst (to_ltl x)) [])))) ->
  (forall pos aut, answer_right (to_pnet net) (cn_init net) aut 0 (search pos aut)) ->
  ctl_main reach (fun pos x => ltl_solve comp big expand tr (net_deadb net) (search pos) x)
    (fun pos x => ctl_single_solve net x (addr pos) (choice pos) (fuels pos)) net direct r = Ok b ->
  (b = true <-> sat (to_pnet net) (cn_init net) c).
Proof.
  intros net G reach comp big expand tr search addr choice fuels direct fuel0 c r b L H1 H2 H3 H4 HR Hc Hr Hp HG Ht Hs E.
  destruct (push_ok net fuel0 c r L H1 H2 H3 H4 Hc Hr Hp) as (A & B & D). rewrite <- D.
  eapply (main_ok net L H1 H2 H3 H4); [exact A|exact B|exact HR|exact HG| | |exact E].
  - apply ltl_right; auto.
  - apply single_right; auto.
Qed.
Theorem answer_ok : forall net st dist rnd fuel comp big expand tr search addr choice fuels direct fuel0 c r b,
  searchable net 0 -> 0 < cn_places net -> no_overflow net -> strategy_ok st ->
  ctl c = true -> in_range c = true ->
  push (net_deadb net) (cn_init net) true fuel0 false false c = Ok r ->
  (forall x, occurs x r -> ltl_shape x = true -> translates tr (SNot (fst (to_spot comp big expand (fst (to_ltl x)) [])))) ->
  (forall pos aut, answer_right (to_pnet net) (cn_init net) aut 0 (search pos aut)) ->
  ctl_main (fun pos goals handle => search_reach net 0 false false st (dist pos) (rnd pos) (fuel pos) goals handle)
    (fun pos x => ltl_solve comp big expand tr (net_deadb net) (search pos) x)
    (fun pos x => ctl_single_solve net x (addr pos) (choice pos) (fuels pos)) net direct r = Ok b ->
  (b = true <-> sat (to_pnet net) (cn_init net) c).
Proof.
  intros net st dist rnd fuel comp big expand tr search addr choice fuels direct fuel0 c r b HS Hp Hno Hst Hc Hr Hpu Ht Hs E. pose proof HS as (L & _ & Hi & _). apply mark_ok_fits in Hi. destruct Hi as (A & B).
  eapply any_answer_ok; [exact L|exact Hp|exact A|exact B|exact Hno|exact (plain_right net HS Hp st Hst dist rnd fuel)|exact Hc|exact Hr|exact Hpu|intros g _ _; exact I|exact Ht|exact Hs|exact E].
Qed.
Theorem answer_stubborn_ok : forall net st mk dist rnd fuel comp big expand tr search addr choice fuels direct fuel0 c r b,
  searchable net 0 -> 0 < cn_places net -> no_overflow net -> strategy_ok st -> dirs_ok net ->
  ctl c = true -> in_range c = true ->
  push (net_deadb net) (cn_init net) true fuel0 false false c = Ok r ->
  (forall g, occurs (CEF g) r -> atomic g = true -> por_cond g = true /\ forall m, reachable (to_pnet net) (cn_init net) m -> small m g) ->
  (forall x, occurs x r -> ltl_shape x = true -> translates tr (SNot (fst (to_spot comp big expand (fst (to_ltl x)) [])))) ->
  (forall pos aut, answer_right (to_pnet net) (cn_init net) aut 0 (search pos aut)) ->
  ctl_main (fun pos goals handle => search_reach net 0 true mk st (dist pos) (rnd pos) (fuel pos) goals handle)
    (fun pos x => ltl_solve comp big expand tr (net_deadb net) (search pos) x)
    (fun pos x => ctl_single_solve net x (addr pos) (choice pos) (fuels pos)) net direct r = Ok b ->
  (b = true <-> sat (to_pnet net) (cn_init net) c).
Proof.
  intros net st mk dist rnd fuel comp big expand tr search addr choice fuels direct fuel0 c r b HS Hp Hno Hst D Hc Hr Hpu HG Ht Hs E. pose proof HS as (L & _ & Hi & _). apply mark_ok_fits in Hi. destruct Hi as (A & B).
  eapply any_answer_ok; [exact L|exact Hp|exact A|exact B|exact Hno|exact (stubborn_right net HS Hp st Hst mk dist rnd fuel D)|exact Hc|exact Hr|exact Hpu|exact HG|exact Ht|exact Hs|exact E].
Qed.
Theorem answer_tar_ok : forall net rnd fuel steps comp big expand tr search addr choice fuels direct fuel0 c r b,
  plain net -> fits32 (cn_init net) -> no_overflow net ->
  (forall m, reachable (to_pnet net) (cn_init net) m -> exists p, tokens m p <> 0%N) ->
  ctl c = true -> in_range c = true ->
  push (net_deadb net) (cn_init net) true fuel0 false false c = Ok r ->
  (forall g, occurs (CEF g) r -> atomic g = true -> separate g /\ forall p, In p (compared g) -> p < cn_places net) ->
  (forall x, occurs x r -> ltl_shape x = true -> translates tr (SNot (fst (to_spot comp big expand (fst (to_ltl x)) [])))) ->
  (forall pos aut, answer_right (to_pnet net) (cn_init net) aut 0 (search pos aut)) ->
  ctl_main (fun pos goals handle => tar_reach net handle (rnd pos) (fuel pos) (steps pos) goals)
    (fun pos x => ltl_solve comp big expand tr (net_deadb net) (search pos) x)
    (fun pos x => ctl_single_solve net x (addr pos) (choice pos) (fuels pos)) net direct r = Ok b ->
  (b = true <-> sat (to_pnet net) (cn_init net) c).
Proof.
  intros net rnd fuel steps comp big expand tr search addr choice fuels direct fuel0 c r b Pl B Hno Nz Hc Hr Hpu HG Ht Hs E. pose proof Pl as (L & Hp & _ & _ & A & _ & _).
  eapply any_answer_ok; [exact L|exact Hp|exact A|exact B|exact Hno|exact (tar_right net rnd fuel steps Pl Nz)|exact Hc|exact Hr|exact Hpu|exact HG|exact Ht|exact Hs|exact E].
Qed.
