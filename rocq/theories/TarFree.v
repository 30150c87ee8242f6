(** The interpolants of the forward approximation. *)
From Verif Require Import Base BaseLemmas NetSpec NetModel NetProofs PqlSyntax PqlSpec PqlModel PqlProofs RangeSpec RangeModel RangeProofs StubModel StubMain StubProofs
  QueryModel TarModel TarSpec TarVec TarSem TarRc TarAut TarHoare TarCheck.
From Coq Require Import Sorted.

Definition upok (r : range) (l : N) : Prop := snd r = rmax \/ (l <= snd r)%N.
Definition low (v : rvec) : Prop := forall p, snd (rg v p) = rmax.

Section Free.
  Variable net : cnet.
  Hypothesis L : layout net.
  Hypothesis P0 : 0 < cn_places net.
  Hypothesis NI : has_inhib net = false.
  Notation P := (to_pnet net).
  Notation np := (cn_places net).
  Notation nt := (cn_ntrans net).
  Notation pre := (in_slice net).
  Notation post := (out_slice net).
  Notation wi t p := (first_tokens (pre t) p).
  Notation wo t p := (first_tokens (post t) p).
  Hypothesis W32 : forall t iv, t < nt -> In iv (pre t) \/ In iv (post t) -> (iv_tokens iv <= u32max)%N.
  Variable query : cond.
  Variable inq : list bool.
  Notation X := (fun p => nth p inq false = true).

  (** ** The query on lower bounds *)
  Section Re.
    Variable rngs : rvec.
    Hypothesis Sr : sorted_vec rngs.
    Hypothesis Lr : low rngs.
    Definition goods (s : rvec) : Prop := okv np s /\ within s X /\ forall q, upok (rg s q) (fst (rg rngs q)).
    Definition re1 (c : cond) (s s' : rvec) : Prop := goods s' /\ (forall m, in_vec s' m -> in_vec s m) /\ forall q, ~ In q (compared c) -> rg s' q = rg s q.
    Definition freshs (c : cond) (s : rvec) : Prop := forall p, In p (compared c) -> rg s p = (0%N, rmax).
    Lemma and_ok : forall s p x, goods s -> p < np -> X p -> (snd x <= rmax)%N -> upok x (fst (rg rngs p)) ->
      goods (v_and_one s p x) /\ (forall m, in_vec (v_and_one s p x) m <-> in_vec s m /\ in_range x (m p)) /\ forall q, q <> p -> rg (v_and_one s p x) q = rg s q.
    Proof.
      intros s p x (O & W & U) Hp Hx Cx Ux. rewrite and_one_at by exact Cx. set (w := at_place s p (fun r => r_and r x)).
      assert (Rg : forall q, rg w q = if Nat.eqb q p then r_and (rg s p) x else rg s q) by (intros q; exact (rg_at s p (fun r => r_and r x) q (proj1 O))).
      assert (Ow : okv np w) by (apply okv_at; [exact O|exact Hp|intros H; unfold r_and; cbn [snd]; lia]).
      split; [|split].
      - split; [exact Ow|]. split; [apply within_at; assumption|]. intros q. rewrite Rg. destruct (Nat.eqb_spec q p) as [->|]; [|apply U]. specialize (U p). unfold upok, r_and in *. cbn [snd]. lia.
      - intros m. rewrite (in_vec_rg w m (proj1 Ow)), (in_vec_rg s m (proj1 O)). assert (Ei : infinite = rmax) by reflexivity. pose proof (proj2 (proj2 O) p) as Cp.
        assert (K : in_range (r_and (rg s p) x) (m p) <-> in_range (rg s p) (m p) /\ in_range x (m p)). { unfold in_range, r_and. rewrite Ei. cbn [fst snd]. lia. }
        split.
        + intros H. split; [|specialize (H p); rewrite Rg, Nat.eqb_refl in H; apply K in H; apply H]. intros q. specialize (H q). rewrite Rg in H. destruct (Nat.eqb_spec q p) as [Eq|]; [rewrite Eq in *; apply K in H; apply H|exact H].
        + intros (H & H') q. rewrite Rg. destruct (Nat.eqb_spec q p) as [Eq|]; [rewrite Eq; apply K; split; [apply H|exact H']|apply H].
      - intros q Nq. rewrite Rg. destruct (Nat.eqb_spec q p); [contradiction|reflexivity].
    Qed.
    Definition cons_known (cs : list cons) : Prop := forall c, In c cs -> c_place c < np /\ X (c_place c) /\ (c_lower c <= u32max)%N /\ (c_upper c <= u32max)%N.
    Lemma rg_some : forall v p r, lookup v p = Some r -> rg v p = r. Proof. intros v p r E. unfold rg. rewrite E. reflexivity. Qed.
    Lemma re_disj_ok : forall cs s b s', cons_known cs -> goods s -> re_disj rngs cs s = (b, s') ->
      goods s' /\ (forall m, in_vec s' m -> in_vec s m) /\ (forall q, ~ In q (map c_place cs) -> rg s' q = rg s q) /\ (b = false -> forall m, in_vec s' (tokens m) -> Forall (cons_holds m) cs).
    Proof.
      induction cs as [|c cs IH]; intros s b s' K G E; cbn [re_disj] in E; [injection E as <- <-; split; [exact G|]; split; [auto|]; split; [auto|]; intros; constructor|].
      destruct (K c (or_introl eq_refl)) as (K1 & K2 & K3 & K4).
      assert (Tr : (b, s') = (true, s) -> goods s' /\ (forall m, in_vec s' m -> in_vec s m) /\ (forall q, ~ In q (map c_place (c :: cs)) -> rg s' q = rg s q) /\ (b = false -> forall m, in_vec s' (tokens m) -> Forall (cons_holds m) (c :: cs))).
      { intros [= -> ->]. split; [exact G|]. split; [auto|]. split; [auto|discriminate]. }
      destruct (lookup rngs (c_place c)) as [r|] eqn:Er; [|apply Tr; congruence]. destruct ((snd r <? c_lower c)%N || (c_upper c <? fst r)%N) eqn:Eb; [apply Tr; congruence|].
      apply orb_false_iff in Eb. destruct Eb as (_ & Eb). apply N.ltb_ge in Eb. apply rg_some in Er.
      destruct (and_ok s (c_place c) (c_lower c, c_upper c) G K1 K2 K4) as (A1 & A2 & A3); [right; cbn [snd]; rewrite Er; exact Eb|]. set (s1 := v_and_one s (c_place c) (c_lower c, c_upper c)) in *.
      destruct (IH s1 b s' (fun x Hx => K x (or_intror Hx)) A1 E) as (B1 & B2 & B3 & B4). split; [exact B1|]. split; [intros m I; apply A2, B2, I|]. split.
      - intros q Nq. cbn [map In] in Nq. rewrite B3 by tauto. apply A3. intros ->. tauto.
      - intros Hb m I. constructor; [|apply B4; assumption]. pose proof (proj2 (proj1 (A2 (tokens m)) (B2 _ I))) as (I1 & I2). cbn [fst snd] in *. split; [exact I1|]. destruct I2; [left; assumption|right; assumption].
    Qed.
    Lemma re_conj_ok : forall cs0 cs s tmp b s', (forall c, In c cs -> In c cs0) -> cons_known cs0 -> goods s ->
      (match tmp with None => True | Some (p, r) => exists c, In c cs0 /\ p = c_place c /\ r = (c_upper c + 1, rmax)%N end) -> re_conj net inq rngs cs s tmp = (b, s') ->
      goods s' /\ (forall m, in_vec s' m -> in_vec s m) /\ (forall q, ~ In q (map c_place cs0) -> rg s' q = rg s q) /\
      ((forall c, In c cs0 -> rg s (c_place c) = (0%N, rmax)) -> b = false -> forall m, fits m -> in_vec s' (tokens m) -> exists c, In c cs0 /\ ~ cons_holds m c).
    Proof.
      intros cs0. induction cs as [|c cs IH]; intros s tmp b s' Sub K G Ht E; cbn [re_conj] in E.
      - destruct tmp as [(p, r)|]; injection E as <- <-; [|split; [exact G|]; split; [auto|]; split; [auto|]; discriminate].
        destruct Ht as (c & Ic & -> & ->). destruct (K c Ic) as (K1 & K2 & K3 & K4). destruct (and_ok s (c_place c) (c_upper c + 1, rmax)%N G K1 K2) as (A1 & A2 & A3); [cbn; lia|left; reflexivity|].
        split; [exact A1|]. split; [intros m I; apply A2, I|]. split; [intros q Nq; apply A3; intros ->; apply Nq, in_map, Ic|]. intros _ _ m F I. exists c. split; [exact Ic|]. intros (_ & Hu). apply A2 in I. destruct I as (_ & (I & _)). cbn [fst] in I.
        pose proof (F (c_place c)). unfold u32max in *. destruct Hu as [Hu|Hu]; lia.
      - assert (Ic : In c cs0) by (apply Sub; left; reflexivity). assert (Sub' : forall c, In c cs -> In c cs0) by (intros x Ix; apply Sub; right; exact Ix). destruct (K c Ic) as (K1 & K2 & K3 & K4).
        destruct (lookup rngs (c_place c)) as [r|] eqn:Er; [|apply (IH s tmp); assumption]. apply rg_some in Er. assert (Hr : snd r = rmax) by (rewrite <- Er; apply Lr).
        destruct ((fst r <=? c_upper c)%N && (c_lower c <=? snd r)%N) eqn:E1; [apply (IH s tmp); assumption|]. assert (E2 : (snd r <? c_lower c)%N = false) by (apply N.ltb_ge; rewrite Hr; change rmax with u32max; exact K3). rewrite E2 in E.
        destruct (c_lower c <? v_lower s (c_place c))%N eqn:E3.
        + injection E as <- <-. split; [exact G|]. split; [auto|]. split; [auto|]. intros Fs. exfalso. rewrite v_lower_rg, (Fs c Ic) in E3. cbn [fst] in E3. apply N.ltb_lt in E3. lia.
        + eapply (IH s); [exact Sub'|exact K|exact G| |exact E]. destruct tmp as [(q, x)|]; [|exists c; auto]. destruct ((_ <? _)%N || _); [exists c; auto|exact Ht].
    Qed.
    Lemma known_and : forall l c, known_places net inq (CAnd l) -> In c l -> known_places net inq c.
    Proof. intros. eapply known_sub; eauto. Qed.
    Lemma re_ok : forall c, separate c -> (forall p, In p (compared c) -> p < np /\ X p) -> forall s b s', goods s -> re net inq rngs c s = Ok (b, s') ->
      re1 c s s' /\ (freshs c s -> b = false -> forall m, fits m -> in_vec s' (tokens m) -> ~ hm P m c).
    Proof.
      assert (Rf : forall c s, goods s -> re1 c s s) by (intros c s G; split; [exact G|split; auto]).
      induction c as [| | |l Hl|l Hl| |n cs| | | | | | | | | | | | | |] using cond_ind'; intros Sc Kn s bb s' G E; cbn [separate] in Sc; try contradiction; rename bb into b; cbn [TarModel.re] in E.
      - injection E as <- <-. split; [apply Rf; exact G|discriminate].
      - destruct Sc as (Sl & Pl). rewrite fr_and in Sl. rewrite Forall_forall in Hl.
        assert (Kc : forall c, In c l -> forall p, In p (compared c) -> p < np /\ X p) by (intros c Ic p Ip; apply Kn; cbn [compared]; apply in_flat_map; exists c; auto).
        match type of E with (bind (?F l s None) _) = _ => set (loop := F) in E end.
        set (resb := fun best : option rvec => match best with None => True | Some x => re1 (CAnd l) s x /\ (freshs (CAnd l) s -> forall m, fits m -> in_vec x (tokens m) -> ~ hm P m (CAnd l)) end).
        assert (Tr : forall c x y, In c l -> re1 (CAnd l) s x -> re1 c x y -> re1 (CAnd l) s y).
        { intros c x y Ic (A1 & A2 & A3) (B1 & B2 & B3). split; [exact B1|]. split; [intros m I; apply A2, B2, I|]. intros q Nq. rewrite B3; [apply A3; exact Nq|]. intros I. apply Nq. cbn [compared]. apply in_flat_map. exists c. auto. }
        assert (Lp : forall k cur best r, (forall c, In c k -> In c l) -> ForallOrdPairs (fun a b => apart (compared a) (compared b)) k -> re1 (CAnd l) s cur -> (freshs (CAnd l) s -> forall c, In c k -> freshs c cur) -> resb best -> loop k cur best = Ok r -> resb r).
        { induction k as [|c k IHk]; intros cur best r Sub Po Hc Hf Hb El.
          - cbn in El. injection El as <-. exact Hb.
          - assert (Ic : In c l) by (apply Sub; left; reflexivity). assert (Sub' : forall c, In c k -> In c l) by (intros x Ix; apply Sub; right; exact Ix). inversion Po as [|? ? Pc Pk]; subst. rewrite Forall_forall in Pc.
            change (loop (c :: k) cur best) with (x <- re net inq rngs c cur ;; if fst x then loop k (snd x) best else y <- re net inq rngs c (snd x) ;; loop k s (match best with None => Some (snd y) | Some b => if length (snd y) <? length b then Some (snd y) else best end)) in El.
            destruct (re net inq rngs c cur) as [(d, x)| | |] eqn:Ex; cbn [bind] in El; try discriminate. cbn [fst snd] in El. destruct (Hl c Ic (Sl c Ic) (Kc c Ic) cur d x (proj1 Hc) Ex) as (B1 & B2). destruct d.
            + apply (IHk x best r Sub' Pk); auto; [apply (Tr c cur x Ic Hc B1)|]. intros Fs e Ie p Ip. destruct B1 as (_ & _ & B1). rewrite B1; [apply (Hf Fs e (or_intror Ie)); exact Ip|]. intros Ip'. exact (Pc e Ie p Ip' Ip).
            + destruct (re net inq rngs c x) as [(d2, y)| | |] eqn:Ey; cbn [bind] in El; try discriminate. cbn [fst snd] in El. destruct (Hl c Ic (Sl c Ic) (Kc c Ic) x d2 y (proj1 B1) Ey) as (C1 & _).
              assert (Gy : re1 (CAnd l) s y /\ (freshs (CAnd l) s -> forall m, fits m -> in_vec y (tokens m) -> ~ hm P m (CAnd l))).
              { split; [apply (Tr c x y Ic); [apply (Tr c cur x Ic Hc B1)|exact C1]|]. intros Fs m F I Hm. apply (B2 (Hf Fs c (or_introl eq_refl)) eq_refl m F); [apply C1; exact I|]. unfold hm in Hm |- *. cbn [holds] in Hm. rewrite fr_and in Hm. apply Hm. exact Ic. }
              eapply (IHk s _ r Sub' Pk); [apply Rf; exact G| | |exact El].
              * intros Fs e Ie p Ip. apply Fs. cbn [compared]. apply in_flat_map. exists e. auto.
              * destruct best as [bst|]; [|exact Gy]. destruct (length y <? length bst); [exact Gy|exact Hb]. }
        destruct (loop l s None) as [r| | |] eqn:El; cbn [bind] in E; try discriminate. specialize (Lp l s None r (fun _ H => H) Pl (Rf _ s G)). specialize (Lp (fun Fs e Ie p Ip => Fs p (proj2 (in_flat_map _ _ _) (ex_intro _ e (conj Ie Ip)))) I El).
        destruct r as [x|]; injection E as <- <-; [split; [apply Lp|intros Fs _; apply Lp; exact Fs]|]. split; [apply Rf; exact G|discriminate].
      - destruct Sc as (Sl & Pl). rewrite fr_and in Sl. rewrite Forall_forall in Hl.
        assert (Kc : forall c, In c l -> forall p, In p (compared c) -> p < np /\ X p) by (intros c Ic p Ip; apply Kn; cbn [compared]; apply in_flat_map; exists c; auto).
        match type of E with ?F l s = _ => set (loop := F) in E end.
        assert (Lp : forall k cur b r, (forall c, In c k -> In c l) -> ForallOrdPairs (fun a b => apart (compared a) (compared b) /\ (mentions_dead a -> compared b = [])) k -> re1 (COr l) s cur -> loop k cur = Ok (b, r) ->
          (b = true -> r = s) /\ (b = false -> re1 (COr l) s r /\ (forall m, in_vec r m -> in_vec cur m) /\ ((forall c, In c k -> freshs c cur) -> forall m, fits m -> in_vec r (tokens m) -> forall c, In c k -> ~ hm P m c))).
        { clear b E. induction k as [|c k IHk]; intros cur b r Sub Po Hc El.
          - cbn in El. injection El as <- <-. split; [discriminate|]. intros _. split; [exact Hc|]. split; [auto|]. intros _ m _ _ c [].
          - assert (Ic : In c l) by (apply Sub; left; reflexivity). assert (Sub' : forall c, In c k -> In c l) by (intros x Ix; apply Sub; right; exact Ix). inversion Po as [|? ? Pc Pk]; subst. rewrite Forall_forall in Pc.
            change (loop (c :: k) cur) with (x <- re net inq rngs c cur ;; if fst x then Ok (true, s) else loop k (snd x)) in El.
            destruct (re net inq rngs c cur) as [(d, x)| | |] eqn:Ex; cbn [bind] in El; try discriminate. cbn [fst snd] in El. destruct (Hl c Ic (Sl c Ic) (Kc c Ic) cur d x (proj1 Hc) Ex) as (B1 & B2). destruct d; [injection El as <- <-; split; [reflexivity|discriminate]|].
            destruct (IHk x b r Sub' Pk) as (C1 & C2); [|exact El|].
            { destruct Hc as (A1 & A2 & A3). destruct B1 as (D1 & D2 & D3). split; [exact D1|]. split; [intros m I; apply A2, D2, I|]. intros q Nq. rewrite D3; [apply A3; exact Nq|]. intros I. apply Nq. cbn [compared]. apply in_flat_map. exists c. auto. }
            split; [exact C1|]. intros Hb. destruct (C2 Hb) as (D1 & D2 & D3). split; [exact D1|]. split; [intros m I; apply B1, D2, I|]. intros Fs m F I e [<-|Ie].
            + apply (B2 (Fs c (or_introl eq_refl)) eq_refl m F). apply D2. exact I.
            + apply D3; auto. intros e' Ie' p Ip. destruct B1 as (_ & _ & B1). rewrite B1; [apply (Fs e' (or_intror Ie')); exact Ip|]. intros Ip'. exact (proj1 (Pc e' Ie') p Ip' Ip). }
        destruct (Lp l s b s' (fun _ H => H) Pl (Rf _ s G) E) as (C1 & C2). destruct b; [rewrite (C1 eq_refl); split; [apply Rf; exact G|discriminate]|]. destruct (C2 eq_refl) as (D1 & D2 & D3). split; [exact D1|].
        intros Fs _ m F I Hm. unfold hm in Hm. cbn [holds] in Hm. rewrite fr_or in Hm. destruct Hm as (c & Ic & Hc). refine (D3 _ m F I c Ic Hc). intros e Ie p Ip. apply Fs. cbn [compared]. apply in_flat_map. exists e. auto.
      - destruct Sc as (Nd & Bd). cbn [compared] in Kn. assert (Kc : cons_known cs). { intros c Ic. destruct (Kn (c_place c) (in_map _ _ _ Ic)). destruct (Bd c Ic). auto. } destruct n.
        + injection E as E. destruct (re_disj_ok cs s b s' Kc G E) as (A1 & A2 & A3 & A4). split; [split; [exact A1|split; [exact A2|exact A3]]|]. intros _ Hb m F I Hm. unfold hm in Hm. cbn [holds] in Hm. apply Hm. apply A4; assumption.
        + injection E as E. destruct (re_conj_ok cs cs s None b s' (fun _ H => H) Kc G I E) as (A1 & A2 & A3 & A4). split; [split; [exact A1|split; [exact A2|exact A3]]|]. intros Fs Hb m F I' Hm. unfold hm in Hm. cbn [holds] in Hm.
          destruct (A4 (fun c Ic => Fs _ (in_map _ _ _ Ic)) Hb m F I') as (c & Ic & Nc). apply Nc. rewrite Forall_forall in Hm. apply Hm. exact Ic.
    Qed.
  End Re.

  (** ** Chains of triples, the last first *)
  Fixpoint chainv (nxt : rvec) (inter : list (rvec * nat)) : Prop :=
    match inter with
    | [] => True
    | (v, e) :: l => okv np v /\ e <> 0 /\ e - 1 < nt /\ tri net v (e - 1) nxt /\ chainv v l
    end.
  Definition free_all (p : nat) (x : rvec * nat) : rvec * nat := (free_place p (fst x), snd x).
  Lemma free_rg : forall p v, okv np v -> low v -> p < np -> okv np (free_place p v) /\ low (free_place p v) /\ forall q, rg (free_place p v) q = if Nat.eqb q p then (0%N, rmax) else rg v q.
  Proof.
    intros p v O Lv Hp. unfold free_place. destruct (lookup v p) as [r|] eqn:E.
    - assert (Oa : okv np (at_place v p (fun r => (0%N, snd r)))) by (apply okv_at; auto). assert (Rg : forall q, rg (compact (at_place v p (fun r => (0%N, snd r)))) q = if Nat.eqb q p then (0%N, rmax) else rg v q).
      { intros q. rewrite rg_compact by apply Oa. rewrite (rg_at v p (fun r => (0%N, snd r)) q (proj1 O)). rewrite (Lv p). reflexivity. }
      split; [apply okv_compact; exact Oa|]. split; [|exact Rg]. intros q. rewrite Rg. destruct (Nat.eqb q p); [reflexivity|apply Lv].
    - split; [exact O|]. split; [exact Lv|]. intros q. destruct (Nat.eqb_spec q p) as [->|]; [unfold rg; rewrite E; reflexivity|reflexivity].
  Qed.
  Definition lows (inter : list (rvec * nat)) : Prop := Forall (fun x => low (fst x)) inter.
  Lemma free_chain : forall p inter nxt, p < np -> okv np nxt -> low nxt -> lows inter -> chainv nxt inter -> chainv (free_place p nxt) (map (free_all p) inter) /\ lows (map (free_all p) inter).
  Proof.
    intros p. induction inter as [|(v, e) l IH]; intros nxt Hp O Ln Ls C; [split; [exact I|constructor]|]. cbn [map chainv free_all fst snd]. destruct C as (C1 & C2 & C3 & C4 & C5). inversion Ls as [|? ? L1 L2]; subst. cbn [fst] in L1.
    destruct (free_rg p v C1 L1 Hp) as (A1 & A2 & A3). destruct (free_rg p nxt O Ln Hp) as (B1 & B2 & B3). destruct (IH v Hp C1 L1 L2 C5) as (D1 & D2).
    split; [|constructor; [exact A2|exact D2]]. repeat (split; [assumption|]). split; [|exact D1]. intros q x H1 H2 H3. rewrite A3, B3. destruct (Nat.eqb q p); [intros _; apply full_in|]. apply C4; assumption.
  Qed.
  (** the bounds that would be known without forgetting *)
  Fixpoint gch (l : nat -> N) (inter : list (rvec * nat)) : Prop :=
    match inter with
    | [] => True
    | (_, e) :: rest => exists l0, (forall q, X q -> l q = (l0 q - wi (e - 1) q + wo (e - 1) q)%N) /\ gch l0 rest
    end.
  Lemma gch_edges : forall inter inter' l, map snd inter = map snd inter' -> gch l inter -> gch l inter'.
  Proof.
    induction inter as [|(v, e) r IH]; intros [|(v', e') r'] l E G; try discriminate; [exact I|]. cbn [map snd] in E. injection E as -> E. destruct G as (l0 & A & B). exists l0. split; [exact A|]. apply IH; assumption.
  Qed.
  Lemma fwd_pre_ok : forall e l range b rest range' inter', NoDup (map iv_place l) -> (forall iv, In iv l -> iv_place iv < np) -> okv np range -> low range -> within range X -> okv np b -> low b -> lows rest -> chainv b rest ->
    (forall q, (fst (rg range q) <= fst (rg b q))%N) -> fwd_pre inq l range ((b, e) :: rest) = (range', inter') ->
    okv np range' /\ low range' /\ within range' X /\ exists b' rest', inter' = (b', e) :: rest' /\ okv np b' /\ low b' /\ lows rest' /\ chainv b' rest' /\ map snd rest' = map snd rest /\
    (forall q, ~ In q (map iv_place l) -> rg range' q = rg range q /\ rg b' q = rg b q) /\
    (forall q x, (first_tokens l q <= x)%N -> (fst (rg b' q) <= x)%N -> (fst (rg range' q) <= x - first_tokens l q)%N) /\
    (forall q, fst (rg range' q) = (fst (rg range q) - first_tokens l q)%N).
  Proof.
    intros e. induction l as [|iv l IH]; intros range b rest range' inter' Nd Hp O Lo W Ob Lb Lr C Le E; cbn [fwd_pre] in E.
    - injection E as <- <-. split; [exact O|]. split; [exact Lo|]. split; [exact W|]. exists b, rest. split; [reflexivity|]. repeat (split; [assumption|]). split; [reflexivity|]. split; [auto|]. split.
      + intros q x _ H. change (first_tokens [] q) with 0%N. specialize (Le q). lia.
      + intros q. change (first_tokens [] q) with 0%N. lia.
    - cbn [map] in Nd. inversion Nd as [|? ? N1 N2]; subst. set (p := iv_place iv) in *. assert (Hp0 : p < np) by (apply Hp; left; reflexivity). assert (Hp' : forall iv, In iv l -> iv_place iv < np) by (intros x Ix; apply Hp; right; exact Ix).
      assert (Go : forall range1 b1 rest1, okv np range1 -> low range1 -> within range1 X -> okv np b1 -> low b1 -> lows rest1 -> chainv b1 rest1 -> map snd rest1 = map snd rest ->
        (forall q, q <> p -> rg range1 q = rg range q /\ rg b1 q = rg b q) -> (fst (rg range1 p) <= fst (rg b1 p))%N -> fst (rg range1 p) = (fst (rg range p) - iv_tokens iv)%N ->
        (forall x, (iv_tokens iv <= x)%N -> (fst (rg b1 p) <= x)%N -> (fst (rg range1 p) <= x - iv_tokens iv)%N) -> fwd_pre inq l range1 ((b1, e) :: rest1) = (range', inter') ->
        okv np range' /\ low range' /\ within range' X /\ exists b' rest', inter' = (b', e) :: rest' /\ okv np b' /\ low b' /\ lows rest' /\ chainv b' rest' /\ map snd rest' = map snd rest /\
        (forall q, ~ In q (map iv_place (iv :: l)) -> rg range' q = rg range q /\ rg b' q = rg b q) /\
        (forall q x, (first_tokens (iv :: l) q <= x)%N -> (fst (rg b' q) <= x)%N -> (fst (rg range' q) <= x - first_tokens (iv :: l) q)%N) /\
        (forall q, fst (rg range' q) = (fst (rg range q) - first_tokens (iv :: l) q)%N)).
      { intros range1 b1 rest1 O1 L1 W1 Ob1 Lb1 Lr1 C1 Es1 Q1 Le1 F1 F2 E1.
        destruct (IH range1 b1 rest1 range' inter' N2 Hp' O1 L1 W1 Ob1 Lb1 Lr1 C1) as (A1 & A2 & A3 & b' & rest' & A4 & A5 & A6 & A7 & A8 & A9 & B1 & B2 & B3); [|exact E1|].
        { intros q. destruct (Nat.eq_dec q p) as [->|Nq]; [exact Le1|]. destruct (Q1 q Nq) as (-> & ->). apply Le. }
        split; [exact A1|]. split; [exact A2|]. split; [exact A3|]. exists b', rest'. repeat (split; [assumption|]). split; [congruence|]. split; [|split].
        - intros q Nq. cbn [map In] in Nq. fold p in Nq. destruct (B1 q ltac:(tauto)) as (-> & ->). apply Q1. intros ->. tauto.
        - intros q x H1 H2. rewrite ft_cons in H1 |- *. fold p in H1 |- *. destruct (Nat.eqb_spec p q) as [Ep|Nq]; [|apply B2; assumption]. subst q. destruct (B1 p N1) as (Y1 & Y2). rewrite Y1. rewrite Y2 in H2. apply F2; assumption.
        - intros q. rewrite B3, ft_cons. fold p. destruct (Nat.eqb_spec p q) as [Ep|Nq]; [subst q; rewrite (ft_out l p N1), F1; lia|]. destruct (Q1 q ltac:(congruence)) as (-> & _). reflexivity. }
      assert (Skip : rg range p = (0%N, rmax) -> fwd_pre inq l range ((b, e) :: rest) = (range', inter') -> _) by (intros Rz; apply (Go range b rest); auto; rewrite Rz; cbn [fst]; intros; lia).
      destruct (nth p inq false) eqn:Ep.
      + destruct (lookup range p) as [r|] eqn:El; [|apply Skip; [unfold rg; rewrite El; reflexivity|exact E]]. apply rg_some in El. destruct (fst r <=? iv_tokens iv)%N eqn:Ef.
        * apply N.leb_le in Ef. cbn [map fst snd] in E. destruct (free_rg p range O Lo Hp0) as (A1 & A2 & A3). destruct (free_rg p b Ob Lb Hp0) as (B1 & B2 & B3). destruct (free_chain p rest b Hp0 Ob Lb Lr C) as (C1 & C2).
          apply (Go (free_place p range) (free_place p b) (map (free_all p) rest)); auto.
          -- intros q y Iq. unfold free_place in Iq. destruct (lookup range p); [|exact (W q y Iq)]. revert q y Iq. apply within_compact, within_at; assumption.
          -- rewrite map_map. reflexivity.
          -- intros q Nq. rewrite A3, B3. destruct (Nat.eqb_spec q p); [contradiction|auto].
          -- rewrite A3, B3, Nat.eqb_refl. cbn. lia.
          -- rewrite A3, Nat.eqb_refl, El. cbn [fst]. lia.
          -- intros x _ _. rewrite A3, Nat.eqb_refl. cbn [fst]. lia.
        * apply N.leb_gt in Ef. assert (Rg : forall q, rg (at_place range p (fun r => (fst r - iv_tokens iv, snd r)%N)) q = if Nat.eqb q p then (fst (rg range p) - iv_tokens iv, snd (rg range p))%N else rg range q) by (intros q; exact (rg_at range p (fun r => (fst r - iv_tokens iv, snd r)%N) q (proj1 O))).
          apply (Go (at_place range p (fun r => (fst r - iv_tokens iv, snd r)%N)) b rest); auto.
          -- apply okv_at; auto.
          -- intros q. rewrite Rg. destruct (Nat.eqb q p); [cbn [snd]; apply Lo|apply Lo].
          -- apply within_at; assumption.
          -- intros q Nq. rewrite Rg. destruct (Nat.eqb_spec q p); [contradiction|auto].
          -- rewrite Rg, Nat.eqb_refl. cbn [fst]. specialize (Le p). lia.
          -- rewrite Rg, Nat.eqb_refl. reflexivity.
          -- intros x H1 H2. rewrite Rg, Nat.eqb_refl. cbn [fst]. specialize (Le p). lia.
      + apply Skip; [|exact E]. apply (within_out range X p); [apply O|exact W|]. rewrite Ep. discriminate.
  Qed.
  Lemma fwd_post_ok : forall l range, NoDup (map iv_place l) -> (forall iv, In iv l -> iv_place iv < np) -> okv np range -> low range -> within range X ->
    okv np (fwd_post inq l range) /\ low (fwd_post inq l range) /\ within (fwd_post inq l range) X /\
    forall q, fst (rg (fwd_post inq l range) q) = if nth q inq false then (fst (rg range q) + first_tokens l q)%N else fst (rg range q).
  Proof.
    induction l as [|iv l IH]; intros range Nd Hp O Lo W; unfold fwd_post; cbn [fold_left].
    - repeat (split; [assumption|]). intros q. change (first_tokens [] q) with 0%N. destruct (nth q inq false); lia.
    - cbn [map] in Nd. inversion Nd as [|? ? N1 N2]; subst. set (p := iv_place iv) in *. assert (Hp' : forall iv, In iv l -> iv_place iv < np) by (intros x Ix; apply Hp; right; exact Ix). destruct (nth p inq false) eqn:Ep.
      + assert (Rg : forall q, rg (at_place range p (fun r => (fst r + iv_tokens iv, snd r)%N)) q = if Nat.eqb q p then (fst (rg range p) + iv_tokens iv, snd (rg range p))%N else rg range q) by (intros q; exact (rg_at range p (fun r => (fst r + iv_tokens iv, snd r)%N) q (proj1 O))).
        set (range1 := at_place range p (fun r => (fst r + iv_tokens iv, snd r)%N)) in *. fold (fwd_post inq l range1). destruct (IH range1 N2 Hp') as (A1 & A2 & A3 & A4).
        { apply okv_at; [exact O|apply Hp; left; reflexivity|cbn [snd]; auto]. }
        { intros q. rewrite Rg. destruct (Nat.eqb q p); [cbn [snd]; apply Lo|apply Lo]. }
        { apply within_at; assumption. }
        repeat (split; [assumption|]). intros q. rewrite A4, Rg, ft_cons. fold p. destruct (Nat.eqb_spec q p) as [->|Nq].
        * rewrite Ep, Nat.eqb_refl, (ft_out l p N1). cbn [fst]. lia.
        * destruct (Nat.eqb_spec p q); [congruence|reflexivity].
      + fold (fwd_post inq l range). destruct (IH range N2 Hp' O Lo W) as (A1 & A2 & A3 & A4). repeat (split; [assumption|]). intros q. rewrite A4, ft_cons. fold p. destruct (Nat.eqb_spec p q) as [<-|]; [rewrite Ep; reflexivity|reflexivity].
  Qed.
  Lemma fwd_step : forall e back inter y, e <> 0 -> e - 1 < nt -> okv np back -> low back -> within back X -> lows inter -> chainv back inter -> gch (fun q => fst (rg back q)) inter ->
    fwd_pre inq (pre (e - 1)) back ((back, e) :: inter) = y -> let back' := compact (fwd_post inq (post (e - 1)) (fst y)) in
    okv np back' /\ low back' /\ within back' X /\ lows (snd y) /\ chainv back' (snd y) /\ gch (fun q => fst (rg back' q)) (snd y) /\ snd y <> [].
  Proof.
    intros e back inter (range', inter') Ne Ht O Lo W Ls C G E. set (t := e - 1) in *.
    destruct (fwd_pre_ok e (pre t) back back inter range' inter' (pre_nodup net L t Ht) (fun iv => pre_place net L t iv Ht) O Lo W O Lo Ls C (fun q => N.le_refl _) E) as (A1 & A2 & A3 & b' & rest' & -> & A5 & A6 & A7 & A8 & A9 & B1 & B2 & B3).
    cbn [fst snd]. destruct (fwd_post_ok (post t) range' (post_nodup net L t Ht) (fun iv => post_place net L t iv Ht) A1 A2 A3) as (D1 & D2 & D3 & D4). set (v := fwd_post inq (post t) range') in *.
    assert (Rc : forall q, rg (compact v) q = rg v q) by (intros q; apply rg_compact; apply D1).
    split; [apply okv_compact; exact D1|]. split; [intros q; rewrite Rc; apply D2|]. split; [apply within_compact; exact D3|]. split; [constructor; [exact A6|exact A7]|]. split; [|split; [|discriminate]].
    - cbn [chainv]. fold t. repeat (split; [assumption|]). split; [|exact A8]. intros q x H1 H2 H3 (I1 & _). rewrite Rc. split; [|left; exact (D2 q)]. rewrite D4. specialize (B2 q x H2 I1). destruct (nth q inq false); lia.
    - cbn [gch]. fold t. exists (fun q => fst (rg back q)). split; [|apply (gch_edges inter); [symmetry; exact A9|exact G]]. intros q Xq. rewrite Rc, D4, Xq, B3. reflexivity.
  Qed.

  (** ** Backwards *)
  Lemma upok_mono : forall r a b, (b <= a)%N -> upok r a -> upok r b. Proof. intros r a b H [U|U]; [left; exact U|right; lia]. Qed.
  Lemma back_refl : forall r, (snd r <= rmax)%N -> back 0 0 r r.
  Proof. intros r H. split; [exact H|]. split; intros x; [intros _ _ _|intros _]; replace (x - 0 + 0)%N with x by lia; auto. Qed.
  Lemma back_full : forall i o, back i o (0%N, rmax) (0%N, rmax).
  Proof. intros i o. split; [cbn; lia|]. split; intros; apply full_in. Qed.
  Lemma flush_post_ok : forall l v w, NoDup (map iv_place l) -> (forall iv, In iv l -> iv_place iv < np /\ (iv_tokens iv <= rmax)%N) -> okv np v -> within v X -> (forall iv, In iv l -> X (iv_place iv) -> upok (rg v (iv_place iv)) (iv_tokens iv)) ->
    flush_post l v = Ok w -> okv np w /\ within w X /\ forall q, back 0 (first_tokens l q) (rg v q) (rg w q) /\ forall k, upok (rg v q) k -> upok (rg w q) (k - first_tokens l q)%N.
  Proof.
    induction l as [|iv l IH]; intros v w Nd Hp O W U E; cbn [flush_post] in E.
    - injection E as <-. split; [exact O|]. split; [exact W|]. intros q. change (first_tokens [] q) with 0%N. split; [apply back_refl; apply O|]. intros k Uk. eapply upok_mono; [|exact Uk]. lia.
    - cbn [map] in Nd. inversion Nd as [|? ? N1 N2]; subst. set (p := iv_place iv) in *. destruct (Hp iv (or_introl eq_refl)) as (Hp0 & Hw). fold p in Hp0. assert (Hp' : forall iv, In iv l -> iv_place iv < np /\ (iv_tokens iv <= rmax)%N) by (intros x Ix; apply Hp; right; exact Ix).
      destruct (lookup v p) as [r|] eqn:El.
      + assert (Xp : X p) by (apply (W p r); apply (@lookup_ok v p (proj1 O) r); exact El). pose proof (U iv (or_introl eq_refl) Xp) as Up. fold p in Up. apply rg_some in El. rewrite El in Up.
        destruct (snd r <? iv_tokens iv)%N eqn:Es; [exfalso; apply N.ltb_lt in Es; destruct Up as [Up|Up]; lia|].
        destruct (v_mod v p (fun r => r_sub r (iv_tokens iv))) as [u| | |] eqn:Em; cbn [bind] in E; try discriminate. apply mod_inv in Em. destruct Em as (r' & Er & ->). rewrite El in Er.
        assert (Bk : back 0 (iv_tokens iv) r r') by (apply back_sub; [apply N.le_0_l|rewrite <- El; apply O|rewrite N.sub_0_r; exact Er]).
        assert (Ur : forall k, upok r k -> upok r' (k - iv_tokens iv)%N). { intros k. unfold r_sub in Er. unfold upok. destruct (snd r =? rmax)%N eqn:Ez; [apply N.eqb_eq in Ez; injection Er as <-; cbn [snd]; auto|]. apply N.eqb_neq in Ez. rewrite Es in Er. injection Er as <-. cbn [snd]. intros [K|K]; [congruence|right; lia]. }
        assert (Rg : forall q, rg (at_place v p (fun _ => r')) q = if Nat.eqb q p then r' else rg v q) by (intros q; exact (rg_at v p (fun _ => r') q (proj1 O))).
        destruct (IH (at_place v p (fun _ => r')) w N2 Hp') as (A1 & A2 & A3); [apply okv_at; [exact O|exact Hp0|intros _; apply Bk]|apply within_at; assumption| |exact E|].
        { intros x Ix Xx. rewrite Rg. destruct (Nat.eqb_spec (iv_place x) p) as [Ex|]; [exfalso; apply N1; fold p; rewrite <- Ex; apply in_map; exact Ix|]. apply U; [right; exact Ix|exact Xx]. }
        split; [exact A1|]. split; [exact A2|]. intros q. specialize (A3 q). rewrite Rg in A3. rewrite ft_cons. fold p. destruct (Nat.eqb_spec q p) as [Eq|Nq].
        * rewrite Eq in A3 |- *. rewrite Nat.eqb_refl, El. rewrite (ft_out l p N1) in A3. destruct A3 as ((B1 & B2 & B3) & B4). split.
          -- destruct Bk as (C1 & C2 & C3). split; [exact B1|]. split.
             ++ intros x H1 H2 H3 I1. apply C2; auto. specialize (B2 x H1 H2 ltac:(lia) I1). replace (x - 0 + 0)%N with x in B2 by lia. exact B2.
             ++ intros x H2 I1. apply B3; [exact H2|]. replace (x - 0 + 0)%N with x by lia. apply C3; auto.
          -- intros k Uk. apply Ur, B4 in Uk. eapply upok_mono; [|exact Uk]. lia.
        * destruct (Nat.eqb_spec p q); [congruence|exact A3].
      + assert (Rz : rg v p = (0%N, rmax)) by (unfold rg; rewrite El; reflexivity). destruct (IH v w N2 Hp' O W) as (A1 & A2 & A3); [intros x Ix Xx; apply U; [right; exact Ix|exact Xx]|exact E|].
        split; [exact A1|]. split; [exact A2|]. intros q. specialize (A3 q). rewrite ft_cons. fold p. destruct (Nat.eqb_spec p q) as [Eq|]; [|exact A3]. rewrite <- Eq in *. rewrite Rz in *. rewrite (ft_out l p N1) in A3. destruct A3 as ((B1 & B2 & B3) & B4).
        split; [split; [exact B1|split; [intros; apply full_in|intros x _ _; apply B3; [lia|apply full_in]]]|]. intros k Uk. specialize (B4 k Uk). eapply upok_mono; [|exact B4]. lia.
  Qed.
  Lemma flush_pre_ok : forall l v w, NoDup (map iv_place l) -> (forall iv, In iv l -> iv_place iv < np) -> okv np v -> within v X ->
    flush_pre l v = Ok w -> okv np w /\ within w X /\ forall q, back (first_tokens l q) 0 (rg v q) (rg w q) /\ forall k, upok (rg v q) k -> upok (rg w q) (k + first_tokens l q)%N.
  Proof.
    induction l as [|iv l IH]; intros v w Nd Hp O W E; cbn [flush_pre] in E.
    - injection E as <-. split; [exact O|]. split; [exact W|]. intros q. change (first_tokens [] q) with 0%N. split; [apply back_refl; apply O|]. intros k Uk. eapply upok_mono; [|exact Uk]. lia.
    - cbn [map] in Nd. inversion Nd as [|? ? N1 N2]; subst. set (p := iv_place iv) in *. pose proof (Hp iv (or_introl eq_refl)) as Hp0. fold p in Hp0. assert (Hp' : forall iv, In iv l -> iv_place iv < np) by (intros x Ix; apply Hp; right; exact Ix).
      destruct (lookup v p) as [r|] eqn:El.
      + assert (Xp : X p) by (apply (W p r); apply (@lookup_ok v p (proj1 O) r); exact El). apply rg_some in El. pose proof (proj2 (proj2 O) p) as Cr. rewrite El in Cr.
        destruct (v_mod v p (fun r => r_add r (iv_tokens iv))) as [u| | |] eqn:Em; cbn [bind] in E; try discriminate. apply mod_inv in Em. destruct Em as (r' & Er & ->). rewrite El in Er.
        assert (Bk : back (iv_tokens iv) 0 r r') by (apply back_add; [apply N.le_0_l|exact Cr|rewrite N.sub_0_r; exact Er]).
        assert (Ur : forall k, upok r k -> upok r' (k + iv_tokens iv)%N).
        { intros k. unfold r_add in Er. unfold upok. set (M := rmax) in *. clearbody M. destruct (fst r =? 0)%N; [|destruct (M - iv_tokens iv <=? fst r)%N; [discriminate|]];
            (destruct (M - iv_tokens iv <=? snd r)%N eqn:Ez; [apply N.leb_le in Ez|apply N.leb_gt in Ez]); injection Er as <-; cbn [snd]; lia. }
        assert (Rg : forall q, rg (at_place v p (fun _ => r')) q = if Nat.eqb q p then r' else rg v q) by (intros q; exact (rg_at v p (fun _ => r') q (proj1 O))).
        destruct (IH (at_place v p (fun _ => r')) w N2 Hp') as (A1 & A2 & A3); [apply okv_at; [exact O|exact Hp0|intros _; apply Bk]|apply within_at; assumption|exact E|].
        split; [exact A1|]. split; [exact A2|]. intros q. specialize (A3 q). rewrite Rg in A3. rewrite ft_cons. fold p. destruct (Nat.eqb_spec q p) as [Eq|Nq].
        * rewrite Eq in A3 |- *. rewrite Nat.eqb_refl, El. rewrite (ft_out l p N1) in A3. destruct A3 as ((B1 & B2 & B3) & B4). split.
          -- destruct Bk as (C1 & C2 & C3). split; [exact B1|]. split.
             ++ intros x H1 H2 H3 I1. apply C2; auto. specialize (B2 x H1 (N.le_0_l _) ltac:(lia) I1). replace (x - 0 + 0)%N with x in B2 by lia. exact B2.
             ++ intros x H2 I1. apply B3; [lia|]. replace (x - 0 + 0)%N with x by lia. apply C3; auto.
          -- intros k Uk. apply Ur, B4 in Uk. eapply upok_mono; [|exact Uk]. lia.
        * destruct (Nat.eqb_spec p q); [congruence|exact A3].
      + assert (Rz : rg v p = (0%N, rmax)) by (unfold rg; rewrite El; reflexivity). destruct (IH v w N2 Hp' O W E) as (A1 & A2 & A3).
        split; [exact A1|]. split; [exact A2|]. intros q. specialize (A3 q). rewrite ft_cons. fold p. destruct (Nat.eqb_spec p q) as [Eq|]; [|exact A3]. rewrite <- Eq in *. rewrite Rz in *. rewrite (ft_out l p N1) in A3. destruct A3 as ((B1 & B2 & B3) & B4).
        split; [split; [exact B1|split; [intros; apply full_in|intros x _ _; apply B3; [lia|apply full_in]]]|]. intros k Uk. specialize (B4 rmax (or_introl eq_refl)). rewrite N.add_0_r in B4. destruct B4 as [B4|B4]; left; [exact B4|]. lia.
  Qed.
  Lemma chain_top : forall inter v w, chainv v inter -> (forall p, rg w p = (0%N, rmax)) -> chainv w inter.
  Proof.
    intros [|(u, e) l] v w C H; [exact I|]. cbn [chainv] in *. destruct C as (C1 & C2 & C3 & _ & C5). repeat (split; [assumption|]). split; [|exact C5]. intros p x _ _ _ _. rewrite H. apply full_in.
  Qed.
  Lemma flush_ok : forall inter nxt w l r, okv np nxt -> within nxt X -> chainv w inter -> gch l inter -> (forall q, X q -> upok (rg nxt q) (l q)) -> flush net nxt inter = Ok r -> chainv nxt r.
  Proof.
    induction inter as [|(u, e) rest IH]; intros nxt w l r O W C G U E; cbn [flush] in E; [injection E as <-; exact I|].
    cbn [chainv] in C. destruct C as (C1 & C2 & C3 & C4 & C5). destruct G as (l0 & G1 & G2). set (t := e - 1) in *.
    destruct (flush_post (post t) nxt) as [v0| | |] eqn:E1; cbn [bind] in E; try discriminate.
    destruct (flush_post_ok (post t) nxt v0 (post_nodup net L t C3)) as (A1 & A2 & A3); auto.
    { intros iv I. split; [eapply post_place; eauto|apply (W32 t iv C3); auto]. }
    { intros iv I Xi. eapply upok_mono; [|apply U; exact Xi]. rewrite (G1 _ Xi), (ft_in _ _ (post_nodup net L t C3) I). lia. }
    set (v1 := compact v0) in *. assert (R1 : forall q, rg v1 q = rg v0 q) by (intros q; apply rg_compact; apply A1). assert (O1 : okv np v1) by (apply okv_compact; exact A1).
    assert (Cmp : forall v2, (forall q, back (wi t q) 0 (rg v1 q) (rg v2 q)) -> tri net v2 t nxt).
    { intros v2 B q x H1 H2 H3 I1. destruct (B q) as (_ & B2 & _). specialize (B2 x H1 H2 ltac:(lia) I1). rewrite R1 in B2. destruct (A3 q) as ((_ & A4 & _) & _). specialize (A4 (x - wi t q + 0)%N ltac:(lia) (N.le_0_l _) ltac:(lia) B2).
      replace (x - wi t q + 0 - 0 + wo t q)%N with (x - wi t q + wo t q)%N in A4 by lia. exact A4. }
    destruct (is_true v1) eqn:Et.
    - injection E as <-. cbn [chainv]. fold t. repeat (split; [assumption|]). split; [|apply (chain_top rest u); [exact C5|intros p; apply is_true_rg; exact Et]].
      apply Cmp. intros q. rewrite (is_true_rg v1 q Et). apply back_full.
    - destruct (flush_pre (pre t) v1) as [v2| | |] eqn:E2; cbn [bind] in E; try discriminate. destruct (flush_pre_ok (pre t) v1 v2 (pre_nodup net L t C3) (fun iv => pre_place net L t iv C3) O1 (within_compact v0 X A2) E2) as (B1 & B2 & B3).
      destruct (flush net v2 rest) as [r'| | |] eqn:E3; cbn [bind] in E; try discriminate. injection E as <-. cbn [chainv]. fold t. repeat (split; [assumption|]). split; [apply Cmp; intros q; apply B3|].
      apply (IH v2 u l0 r' B1 B2 C5 G2); [|exact E3]. intros q Xq. destruct (B3 q) as (_ & B4). destruct (A3 q) as (_ & A4). rewrite R1 in B4. specialize (B4 _ (A4 _ (U q Xq))). eapply upok_mono; [|exact B4]. rewrite (G1 q Xq). lia.
  Qed.

  (** ** The interpolants found *)
  Hypothesis Sq : separate query.
  Hypothesis Kq : forall p, In p (compared query) -> p < np /\ X p.
  Variable R : marking -> Prop.
  Hypothesis Rstep : forall m t m', R m -> step P m t m' -> R m'.
  Hypothesis Rlen : forall m, R m -> length m = np.
  Hypothesis Rfit : forall m, R m -> fits m.
  Notation Q := (fun m => hm P m query).
  Notation valid := (valid net R Q).
  Lemma valid_rev : forall inter nxt e acc, okv np nxt -> chainv nxt inter -> valid ((nxt, e) :: acc) -> valid (rev inter ++ (nxt, e) :: acc).
  Proof.
    induction inter as [|(v, f) l IH]; intros nxt e acc O C V; [exact V|]. cbn [rev]. rewrite <- app_assoc. cbn [app]. cbn [chainv] in C. destruct C as (C1 & C2 & C3 & C4 & C5). apply IH; [exact C1|exact C5|]. cbn [TarAut.valid]. split; [exact C1|]. split; [|exact V].
    replace f with (S (f - 1)) by lia. apply (tri_mid net L P0 NI R Rstep Rlen Rfit); assumption.
  Qed.
  Lemma free_from_ok : forall es back inter i, (forall e, In e es -> e <= nt) -> okv np back -> low back -> within back X -> lows inter -> chainv back inter -> gch (fun q => fst (rg back q)) inter ->
    free_from net query inq es back inter = Ok (Some i) -> valid i.
  Proof.
    induction es as [|e es IH]; intros back inter i He O Lo W Ls C G E; cbn [free_from] in E; [discriminate|]. destruct (Nat.eqb_spec e 0) as [->|Ne].
    - destruct (re net inq back query []) as [(b, s)| | |] eqn:Er; cbn [bind] in E; try discriminate. cbn [fst snd] in E.
      destruct (re_ok back Lo query Sq Kq [] b s) as (((A1 & A2 & A3) & A4 & A5) & B); [|exact Er|].
      { split; [apply okv_nil|]. split; [apply within_nil|]. intros q. left. reflexivity. }
      destruct (negb b && negb (is_false np s)) eqn:Eb; [|discriminate]. apply andb_true_iff in Eb. destruct Eb as (Eb & _). apply negb_true_iff in Eb. subst b.
      set (c := compact s) in *. destruct (flush net c inter) as [r| | |] eqn:Ef; cbn [bind] in E; try discriminate.
      assert (Oc : okv np c) by (apply okv_compact; exact A1). assert (Cr : chainv c r). { apply (flush_ok inter c back (fun q => fst (rg back q)) r); auto; [apply within_compact; exact A2|]. intros q _. unfold c. rewrite rg_compact by apply A1. apply A3. }
      assert (V : valid (rev ((c, 0) :: r))).
      { cbn [rev]. apply valid_rev; [exact Oc|exact Cr|]. cbn [TarAut.valid last_ok]. split; [exact Oc|]. split; [|exact I]. intros m Rm Im. apply (B (fun p _ => rg_nil p) eq_refl m (Rfit m Rm)). apply compact_ok. exact Im. }
      destruct (rev r) as [|(v, x) rr]; [discriminate|]. destruct (is_true v); [|discriminate]. injection E as <-. exact V.
    - assert (Ht : e - 1 < nt) by (specialize (He e (or_introl eq_refl)); lia). destruct (fwd_step e back inter _ Ne Ht O Lo W Ls C G eq_refl) as (A1 & A2 & A3 & A4 & A5 & A6 & _).
      apply (IH _ _ i (fun x Hx => He x (or_intror Hx)) A1 A2 A3 A4 A5 A6 E).
  Qed.
  Lemma free_start_ok : forall e, e <> 0 -> e - 1 < nt -> let b := free_start net inq e in okv np b /\ low b /\ within b X /\ chainv b [([], e)] /\ gch (fun q => fst (rg b q)) [([], e)].
  Proof.
    intros e Ne Ht. set (t := e - 1) in *. unfold free_start. fold t.
    assert (A : forall l v, NoDup (map iv_place l) -> (forall iv, In iv l -> iv_place iv < np) -> okv np v -> low v -> within v X -> (forall iv, In iv l -> fst (rg v (iv_place iv)) = 0%N) ->
      let w := fold_left (fun v iv => if nth (iv_place iv) inq false then at_place v (iv_place iv) (fun r => (iv_tokens iv, snd r)) else v) l v in
      okv np w /\ low w /\ within w X /\ forall q, fst (rg w q) = if nth q inq false then (fst (rg v q) + first_tokens l q)%N else fst (rg v q)).
    { induction l as [|iv l IH]; intros v Nd Hp O Lo W Z; cbv zeta; cbn [fold_left].
      - repeat (split; [assumption|]). intros q. change (first_tokens [] q) with 0%N. destruct (nth q inq false); lia.
      - cbn [map] in Nd. inversion Nd as [|? ? N1 N2]; subst. set (p := iv_place iv) in *. destruct (nth p inq false) eqn:Ep.
        + assert (Rg : forall q, rg (at_place v p (fun r => (iv_tokens iv, snd r))) q = if Nat.eqb q p then (iv_tokens iv, snd (rg v p)) else rg v q) by (intros q; exact (rg_at v p (fun r => (iv_tokens iv, snd r)) q (proj1 O))).
          set (v1 := at_place v p (fun r => (iv_tokens iv, snd r))) in *. destruct (IH v1 N2 (fun x Hx => Hp x (or_intror Hx))) as (A1 & A2 & A3 & A4).
          { apply okv_at; [exact O|apply Hp; left; reflexivity|cbn [snd]; auto]. }
          { intros q. rewrite Rg. destruct (Nat.eqb q p); [cbn [snd]; apply Lo|apply Lo]. }
          { apply within_at; assumption. }
          { intros x Ix. rewrite Rg. destruct (Nat.eqb_spec (iv_place x) p) as [Ex|]; [exfalso; apply N1; fold p; rewrite <- Ex; apply in_map; exact Ix|]. apply Z. right. exact Ix. }
          repeat (split; [assumption|]). intros q. rewrite A4, Rg, ft_cons. fold p. destruct (Nat.eqb_spec q p) as [->|Nq].
          * rewrite Ep, Nat.eqb_refl, (ft_out l p N1). pose proof (Z iv (or_introl eq_refl)) as Zp. fold p in Zp. rewrite Zp. cbn [fst]. lia.
          * destruct (Nat.eqb_spec p q); [congruence|reflexivity].
        + destruct (IH v N2 (fun x Hx => Hp x (or_intror Hx)) O Lo W (fun x Hx => Z x (or_intror Hx))) as (A1 & A2 & A3 & A4). repeat (split; [assumption|]). intros q. rewrite A4, ft_cons. fold p. destruct (Nat.eqb_spec p q) as [<-|]; [rewrite Ep; reflexivity|reflexivity]. }
    destruct (A (post t) [] (post_nodup net L t Ht) (fun iv => post_place net L t iv Ht) (okv_nil np) (fun _ => eq_refl) (within_nil _) (fun _ _ => eq_refl)) as (A1 & A2 & A3 & A4). match goal with |- context [compact ?x] => set (v := x) in * end.
    assert (Rc : forall q, rg (compact v) q = rg v q) by (intros q; apply rg_compact; apply A1). split; [apply okv_compact; exact A1|]. split; [intros q; rewrite Rc; apply A2|]. split; [apply within_compact; exact A3|]. split.
    - cbn [chainv]. fold t. split; [apply okv_nil|]. repeat (split; [assumption|]). split; [|exact I]. intros q x _ H2 _ _. rewrite Rc. split; [|left; exact (A2 q)]. rewrite A4, rg_nil. cbn [fst]. destruct (nth q inq false); lia.
    - exists (fun _ => 0%N). split; [|exact I]. intros q Xq. cbv beta. rewrite Rc, A4, Xq, rg_nil. fold t. cbn [fst]. lia.
  Qed.
  Lemma find_free_ok : forall tr i, trace_ok net tr -> find_free net query inq tr = Ok (Some i) -> valid i.
  Proof.
    intros tr i (Ht1 & Ht2). unfold find_free. assert (G : forall step, S step < length tr \/ step = 0 -> find_free_loop net query inq tr step = Ok (Some i) -> valid i).
    { induction step as [|k IH]; intros Hs E; cbn [find_free_loop] in E; [discriminate|]. destruct Hs as [Hs|Hs]; [|discriminate]. set (e := nth (S k) tr 0) in *. assert (Ne : e <> 0) by (apply Ht2; exact Hs).
      assert (He : e - 1 < nt). { assert (In e tr) by (apply nth_In; lia). specialize (Ht1 e H). lia. }
      assert (IH' : find_free_loop net query inq tr k = Ok (Some i) -> valid i) by (apply IH; left; lia).
      destruct (is_true (free_start net inq e)); [apply IH'; exact E|]. destruct (free_from net query inq (skipn (S (S k)) tr) (free_start net inq e) [([], e)]) as [r| | |] eqn:Er; cbn [bind] in E; try discriminate.
      destruct r as [x|]; [|apply IH'; exact E]. injection E as <-. destruct (free_start_ok e Ne He) as (A1 & A2 & A3 & A4 & A5). eapply free_from_ok; [| | | | | | |exact Er]; eauto.
      - intros y Iy. apply Ht1. rewrite <- (firstn_skipn (S (S k)) tr). apply in_or_app. right. exact Iy.
      - constructor; [|constructor]. intros p. reflexivity. }
    intros E. apply (G (length tr - 2)); [|exact E]. lia.
  Qed.
End Free.
