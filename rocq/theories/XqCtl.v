(** From CTL* to CTL (C38). *)
From Verif Require Import Base PqlSyntax XqSyntax XqSpec XqModel XqExp XqForm.
Local Open Scope string_scope.

(** ** What the reader gives: no empty conjunctions, no EU and AU *)
Fixpoint plain (c : ncond) : bool :=
  match c with
  | NNot c | N1 _ c | NEx _ c | NAll _ c | NSel _ c => plain c
  | NAnd l | NOr l => nonempty l && forallb plain l
  | N2 o a b => match o with OU => plain a && plain b | _ => false end
  | _ => true
  end.
Lemma flat_plain : forall o c, plain c = true -> flat o c <> [] /\ forallb plain (flat o c) = true.
Proof.
  intros o. induction c as [| | | |l IH|l IH| | | | | | | | | | | |] using ncond_ind'; intros H; cbn [flat]; try (split; [discriminate|cbn [forallb]; rewrite H; reflexivity]).
  all: cbn [plain] in H; apply andb_true_iff in H as (NE & H); destruct o; try (split; [discriminate|cbn [forallb plain]; rewrite NE, H; reflexivity]).
  all: destruct l as [|c l]; [discriminate NE|]; clear NE; split.
  all: try (inversion IH as [|? ? P ?]; subst; cbn [forallb] in H; apply andb_true_iff in H as (H1 & _); destruct (P H1) as (N & _); cbn [flat_map];
    match goal with |- (?a ++ _)%list <> _ => destruct a; [congruence|discriminate] end).
  all: rewrite forallb_forall in *; intros x X1; apply in_flat_map in X1 as (d & D & X1); rewrite Forall_forall in IH; destruct (IH d D (H d D)) as (_ & A);
    rewrite forallb_forall in A; auto.
Qed.
Lemma merge_plain : forall o l, l <> [] -> forallb plain l = true -> nonempty (post_merge (flat_map (flat o) l)) && forallb plain (post_merge (flat_map (flat o) l)) = true.
Proof.
  intros o l N H. apply andb_true_iff. rewrite forallb_forall in H. split.
  - destruct l as [|c l]; [congruence|]. destruct (flat_plain o c (H c (or_introl eq_refl))) as (A & _). destruct (flat o c) as [|d f] eqn:E; [congruence|].
    assert (I : In d (post_merge (flat_map (flat o) (c :: l)))) by (apply in_merge; cbn [flat_map]; rewrite E; left; auto).
    destruct (post_merge _); [destruct I|reflexivity].
  - apply forallb_forall. intros d D. apply in_merge, in_flat_map in D as (c & C & D). destruct (flat_plain o c (H c C)) as (_ & A). rewrite forallb_forall in A. auto.
Qed.
Lemma and_plain : forall l, l <> [] -> forallb plain l = true -> plain (mk_and l) = true.
Proof. intros l N H. exact (merge_plain false l N H). Qed.
Lemma or_plain : forall l, l <> [] -> forallb plain l = true -> plain (mk_or l) = true.
Proof. intros l N H. exact (merge_plain true l N H). Qed.

Lemma mapO_inv : forall A B (f : A -> res (option B)) (Q : B -> Prop) l bs,
  Forall (fun a => forall b, f a = Ok (Some b) -> Q b) l -> mapO f l = Ok (Some bs) -> Forall Q bs.
Proof.
  intros A B f Q l bs H. revert bs. induction H as [|a l P H IH]; intros bs E; cbn [mapO] in E; [injection E as <-; constructor|].
  destruct (f a) as [[b|]| | |] eqn:FA; try discriminate E. cbn [bind] in E. destruct (mapO f l) as [[bs'|]| | |]; try discriminate E.
  cbn [bind option_map] in E. injection E as <-. constructor; auto.
Qed.
Lemma wrap_inv : forall f r c, wrap f r = Ok (Some c) -> exists d, r = Ok (Some d) /\ c = f d.
Proof. intros f [[d|]| | |] c H; try discriminate H. cbn in H. injection H as <-. eauto. Qed.
Lemma both_inv : forall f r r' c, both f r r' = Ok (Some c) -> exists d d', r = Ok (Some d) /\ r' = Ok (Some d') /\ c = f d d'.
Proof. intros f [[d|]| | |] [[d'|]| | |] c H; try discriminate H. cbn in H. injection H as <-. eauto. Qed.
Lemma forall_plain : forall l, Forall (fun c => plain c = true) l -> forallb plain l = true.
Proof. intros l H. apply forallb_forall. rewrite Forall_forall in H. exact H. Qed.

Definition pp (x : xml) : Prop := forall c, parse_form x = Ok (Some c) -> plain c = true.
Lemma parse_plain2 : forall x, pp x /\ Forall pp (kids_of x).
Proof.
  induction x as [t a s ks IH] using xml_ind'. assert (K : Forall pp ks) by (eapply Forall_impl; [|exact IH]; intros k P; apply P).
  split; [|exact K]. intros c H.
  assert (ONE : forall k f, In k ks -> wrap f (parse_form k) = Ok (Some c) -> (forall d, plain d = true -> plain (f d) = true) -> plain c = true).
  { intros k f I E P. apply wrap_inv in E as (d & E & ->). apply P. rewrite Forall_forall in K. exact (K k I d E). }
  assert (TWO : forall k k' f, In k ks -> In k' ks -> both f (parse_form k) (parse_form k') = Ok (Some c) ->
            (forall d d', plain d = true -> plain d' = true -> plain (f d d') = true) -> plain c = true).
  { intros k k' f I I' E P. apply both_inv in E as (d & d' & E & E' & ->). rewrite Forall_forall in K. apply P; [exact (K k I d E)|exact (K k' I' d' E')]. }
  assert (MANY : forall cs, mapO parse_form ks = Ok (Some cs) -> forallb plain cs = true).
  { intros cs E. apply forall_plain. eapply mapO_inv; [|exact E]. exact K. }
  destruct t; cbn [parse_form] in H; try discriminate H;
    try (injection H as <-; reflexivity);
    try (destruct ks as [|k ks']; [discriminate H|]; apply (ONE k _ (or_introl eq_refl) H); intros d D; exact D);
    try (destruct ks as [|k [|]]; try discriminate H; apply (ONE k _ (or_introl eq_refl) H); intros d D; try destruct a; exact D);
    try (destruct (mapO parse_form ks) as [[[|c1 [|c2 cs]]|]| | |] eqn:E; try discriminate H; injection H as <-; specialize (MANY _ eq_refl);
         first [solve [apply and_plain; [discriminate|exact MANY]]|solve [apply or_plain; [discriminate|exact MANY]]|
                cbn [forallb] in MANY; rewrite andb_true_r in MANY; exact MANY]);
    try (destruct ks as [|k1 [|k2 [|]]]; try discriminate H;
         destruct (parse_exp k1) as [[e1|]| | |]; try discriminate H; destruct (parse_exp k2) as [[e2|]| | |]; try discriminate H;
         injection H as <-; reflexivity).
  - destruct ks as [|[tb ? ? kb] [|[tr ? ? kr] [|]]]; try discriminate H; destruct tb; try discriminate H;
    destruct kb as [|b [|]]; try discriminate H; destruct tr; try discriminate H; destruct kr as [|c' [|]]; try discriminate H.
    inversion IH as [|? ? (_ & KB) IH2]; subst. inversion IH2 as [|? ? (_ & KC) _]; subst. cbn [kids_of] in KB, KC.
    inversion KB as [|? ? PB _]; subst. inversion KC as [|? ? PC _]; subst.
    destruct (parse_form b) as [[f|]| | |] eqn:EB; try discriminate H. cbn [bind] in H. apply wrap_inv in H as (d & E & ->).
    cbn [plain]. rewrite (PB _ EB), (PC _ E). reflexivity.
  - destruct ks as [|k1 [|k2 [|]]]; try discriminate H. apply (TWO k1 k2 _ (or_introl eq_refl) (or_intror (or_introl eq_refl)) H).
    intros d d' D D'. apply or_plain; [discriminate|]. cbn [forallb]. rewrite !and_plain; try discriminate; auto; cbn [forallb plain]; rewrite D, D'; reflexivity.
  - destruct ks as [|k1 [|k2 [|]]]; try discriminate H. apply (TWO k1 k2 _ (or_introl eq_refl) (or_intror (or_introl eq_refl)) H).
    intros d d' D D'. apply or_plain; [discriminate|]. cbn [forallb plain]. rewrite D, D'. reflexivity.
  - destruct ks as [|k1 [|k2 [|]]]; try discriminate H. apply (TWO k1 k2 _ (or_introl eq_refl) (or_intror (or_introl eq_refl)) H).
    intros d d' D D'. apply or_plain; [discriminate|]. cbn [forallb]. rewrite !and_plain; try discriminate; auto; cbn [forallb plain]; rewrite D, D'; reflexivity.
  - destruct ks as [|k ks']; [discriminate H|]. remember (k :: ks') as l. destruct (mapO read_transition l) as [[cs|]| | |] eqn:E; try discriminate H.
    cbn [bind option_map] in H. injection H as <-. apply or_plain.
    + subst l. cbn [mapO] in E. intros ->. destruct (read_transition k) as [[]| | |]; try discriminate E. cbn [bind] in E. destruct (mapO read_transition ks') as [[]| | |]; discriminate E.
    + apply forall_plain. eapply mapO_inv; [|exact E]. apply Forall_forall. intros x _ b B. unfold read_transition in B. destruct (is_transition x); [|discriminate B]. injection B as <-. reflexivity.
  - destruct ks as [|k [|]]; try discriminate H. destruct a; [|discriminate H]. apply (ONE k _ (or_introl eq_refl) H). intros d D. exact D.
Qed.
Lemma parse_plain : forall x c, parse_formula x = Ok (Some c) -> plain c = true.
Proof.
  intros x c H. unfold parse_formula in H. destruct (kids_of x) as [|[t a s ks] [|]]; try discriminate H.
  assert (G : parse_form (X t a s ks) = Ok (Some c) -> plain c = true) by apply (proj1 (parse_plain2 _)).
  destruct t; try (apply G, H); try (injection H as <-; reflexivity).
  - destruct ks as [|k ks]; [discriminate H|]. destruct (parse_exp k) as [[e|]| | |]; try discriminate H; destruct ks; try discriminate H. injection H as <-. reflexivity.
  - destruct (mapO read_place ks) as [[ps|]| | |]; try discriminate H. injection H as <-. reflexivity.
Qed.

(** ** The check and the translation *)
Definition okc (c : ncond) : Prop := exists c', as_ctl c = Ok c' /\ ctl c' = true /\ same c c'.
Definition good (c : ncond) : Prop :=
  if path_formula c then
    match c with
    | N1 OX x | N1 OF x | N1 OG x => okc x
    | N2 OU x y => okc x /\ okc y
    | _ => False
    end
  else okc c.
Definition inv (c : ncond) : Prop := forall s, plain c = true -> controls_states c = true ->
  fst (is_ctl_visit c s) = true -> fst s = true /\ snd (is_ctl_visit c s) = path_formula c /\ good c.

Lemma need_fst : forall p s, fst (need p s) = true -> fst s = true /\ snd s = p.
Proof. intros p [b q] H. unfold need in H. cbn [fst snd] in *. destruct (Bool.eqb q p) eqn:E; [|discriminate H]. apply Bool.eqb_prop in E. auto. Qed.
Lemma same_refl : forall c, same c c. Proof. intros c F OK e r. tauto. Qed.
Lemma as_list : forall l, Forall okc l -> exists l', mapR as_ctl l = Ok l' /\ forallb ctl l' = true /\ Forall2 same l l'.
Proof.
  induction 1 as [|c l (c' & E & C & S) H (l' & EL & CL & SL)]; cbn [mapR]; [exists []; split; [|split]; constructor|].
  rewrite E. cbn [bind]. rewrite EL. cbn [bind]. exists (c' :: l'). split; [reflexivity|]. split; [cbn [forallb]; rewrite C, CL; reflexivity|]. constructor; auto.
Qed.
Lemma flat_ctl : forall o c, ctl c = true -> forallb ctl (flat o c) = true.
Proof.
  intros o. induction c as [| | | |l IH|l IH| | | | | | | | | | | |] using ncond_ind'; intros H; cbn [flat]; try (cbn [forallb]; rewrite H; reflexivity).
  all: cbn [ctl] in H; destruct o; try (cbn [forallb ctl]; rewrite H; reflexivity).
  all: rewrite forallb_forall in *; intros x X1; apply in_flat_map in X1 as (d & D & X1); rewrite Forall_forall in IH; specialize (IH d D (H d D)); rewrite forallb_forall in IH; auto.
Qed.
Lemma merge_ctl : forall o l, forallb ctl l = true -> forallb ctl (post_merge (flat_map (flat o) l)) = true.
Proof.
  intros o l H. rewrite forallb_forall in H. apply forallb_forall. intros d D. apply in_merge, in_flat_map in D as (c & C & D).
  pose proof (flat_ctl o c (H c C)) as A. rewrite forallb_forall in A. auto.
Qed.
Lemma same_in : forall l l' F (OK : frame_ok F) (e : env F) r, Forall2 same l l' ->
  ((forall c, In c l -> nsat c e r) <-> (forall c, In c l' -> nsat c e r)) /\
  ((exists c, In c l /\ nsat c e r) <-> (exists c, In c l' /\ nsat c e r)).
Proof.
  intros l l' F OK e r. induction 1 as [|c c' l l' S H (IA & IB)]; [split; reflexivity|]. specialize (S F OK e r). split.
  - split; intros K d [<-|D]; try (apply S, K; left; reflexivity).
    + revert d D. apply IA. intros d D. apply K. right. exact D.
    + revert d D. apply IA. intros d D. apply K. right. exact D.
  - split; intros (d & [<-|D] & K).
    + exists c'. split; [left; reflexivity|]. apply S, K.
    + destruct (proj1 IB (ex_intro _ d (conj D K))) as (d' & D' & K'). exists d'. split; [right|]; auto.
    + exists c. split; [left; reflexivity|]. apply S, K.
    + destruct (proj2 IB (ex_intro _ d (conj D K))) as (d' & D' & K'). exists d'. split; [right|]; auto.
Qed.
Lemma nand_in : forall F (e : env F) r l, nsat (NAnd l) e r <-> forall c, In c l -> nsat c e r.
Proof. intros. cbn [nsat]. unfold pall. split; [intros H c C; apply H, in_map, C|]. intros H p P. apply in_map_iff in P as (c & <- & C). auto. Qed.
Lemma nor_in : forall F (e : env F) r l, nsat (NOr l) e r <-> exists c, In c l /\ nsat c e r.
Proof.
  intros. cbn [nsat]. unfold pany. split.
  - intros (p & P & H). apply in_map_iff in P as (c & <- & C). eauto.
  - intros (c & C & H). exists (nsat c). split; auto. apply in_map, C.
Qed.
Lemma okc_and : forall l, Forall okc l -> okc (NAnd l).
Proof.
  intros l H. destruct (as_list l H) as (l' & E & C & S). exists (mk_and l'). cbn [as_ctl]. rewrite E. cbn [bind]. split; [reflexivity|].
  split; [apply merge_ctl, C|]. intros F OK e r. rewrite sat_and, nand_in. apply same_in; auto.
Qed.
Lemma okc_or : forall l, Forall okc l -> okc (NOr l).
Proof.
  intros l H. destruct (as_list l H) as (l' & E & C & S). exists (mk_or l'). cbn [as_ctl]. rewrite E. cbn [bind]. split; [reflexivity|].
  split; [apply merge_ctl, C|]. intros F OK e r. rewrite sat_or, nor_in. apply same_in; auto.
Qed.
Lemma ops_inv : forall l, Forall inv l -> forall s, forallb plain l = true -> forallb controls_states l = true ->
  fst (ctl_ops is_ctl_visit l s) = true -> fst s = true /\ (l <> [] -> snd (ctl_ops is_ctl_visit l s) = false) /\ Forall okc l.
Proof.
  induction 1 as [|c l P H IH]; intros s A B E; cbn [ctl_ops] in *; [split; [exact E|]; split; [congruence|constructor]|].
  cbn [forallb] in A, B. apply andb_true_iff in A as (A1 & A2). apply andb_true_iff in B as (B1 & B2).
  destruct (snd (is_ctl_visit c s)) eqn:SN; [discriminate E|].
  destruct (IH _ A2 B2 E) as (F1 & L1 & K1). destruct (P s A1 B1 F1) as (F0 & S0 & G0). rewrite SN in S0.
  split; [exact F0|]. split.
  - intros _. destruct l as [|d l]; [exact SN|]. apply L1. discriminate.
  - constructor; auto. unfold good in G0. rewrite <- S0 in G0. exact G0.
Qed.

Lemma same_peq : forall c c' F, frame_ok F -> same c c' -> peq F (nsat c) (nsat c').
Proof. intros c c' F OK S. exact (S F OK). Qed.

Lemma visit_inv : forall c, inv c.
Proof.
  induction c as [b| |t|c IH|l IH|l IH|o a b|neg cs|o c IH|o c1 c2 IH1 IH2|n c IH|n c IH|n c IH|k| | | |ps] using ncond_ind'; intros s A B E; cbn [is_ctl_visit] in *;
    try discriminate E;
    try (cbn [fst snd] in *; split; [exact E|]; split; [reflexivity|]; unfold good; cbn [path_formula]; eexists; split; [reflexivity|]; split; [reflexivity|apply same_refl]).
  - cbn [plain controls_states] in A, B. apply need_fst in E as (E & Z). destruct (IH s A B E) as (F0 & S0 & G0).
    split; [exact F0|]. split; [exact Z|]. rewrite Z in S0. unfold good in G0. rewrite <- S0 in G0. unfold good. cbn [path_formula].
    destruct G0 as (c' & EC & C & S). exists (NNot c'). cbn [as_ctl]. rewrite EC. split; [reflexivity|]. split; [exact C|].
    intros F OK. apply (peq_not F _ _ (S F OK)).
  - cbn [plain controls_states] in A, B. apply andb_true_iff in A as (NE & A). destruct (ops_inv l IH s A B E) as (F0 & S0 & G0).
    split; [exact F0|]. split; [apply S0; destruct l; [discriminate NE|discriminate]|]. apply okc_and, G0.
  - cbn [plain controls_states] in A, B. apply andb_true_iff in A as (NE & A). destruct (ops_inv l IH s A B E) as (F0 & S0 & G0).
    split; [exact F0|]. split; [apply S0; destruct l; [discriminate NE|discriminate]|]. apply okc_or, G0.
  - cbn [plain] in A.
    assert (ST : forall f, fst (need false (is_ctl_visit c s)) = true -> controls_states c = true ->
       (forall c', as_ctl c = Ok c' -> as_ctl (N1 o c) = Ok (N1 o c')) -> ctl (N1 o c) = ctl c -> (forall c', ctl (N1 o c') = ctl c') ->
       (forall d, path_formula (N1 o d) = false) -> (forall F d, nsat (F:=F) (N1 o d) = f F (nsat d)) ->
       (forall F p q, peq F p q -> peq F (f F p) (f F q)) ->
       fst s = true /\ snd (need false (is_ctl_visit c s)) = path_formula (N1 o c) /\ good (N1 o c)).
    { intros f E' B' AS _ CT PF NS PE. apply need_fst in E' as (E' & Z). destruct (IH s A B' E') as (F0 & S0 & G0). split; [exact F0|]. rewrite PF.
      split; [exact Z|]. rewrite Z in S0. unfold good in *. rewrite PF. rewrite <- S0 in G0. destruct G0 as (c' & EC & C & S).
      exists (N1 o c'). split; [apply AS, EC|]. split; [rewrite CT; exact C|]. intros F OK. rewrite !NS. exact (PE F _ _ (S F OK)). }
    assert (PT : fst (need false (is_ctl_visit c s)) = true -> controls_states c = true -> fst s = true /\ okc c).
    { intros E' B'. apply need_fst in E' as (E' & Z). destruct (IH s A B' E') as (F0 & S0 & G0). split; [exact F0|].
      rewrite Z in S0. unfold good in G0. rewrite <- S0 in G0. exact G0. }
    assert (QT : fst (need true (is_ctl_visit c s)) = true -> controls_states c = true -> fst s = true /\ path_formula c = true /\ good c).
    { intros E' B'. apply need_fst in E' as (E' & Z). destruct (IH s A B' E') as (F0 & S0 & G0). split; [exact F0|]. rewrite Z in S0. auto. }
    destruct o; cbn [controls_states] in B.
    + (* E *) cbn [fst] in E. destruct (QT E B) as (F0 & P & G). split; [exact F0|]. split; [reflexivity|]. clear - P G. unfold good in *. rewrite P in G. cbn [path_formula].
      destruct c as [| | | | | | | |[] c|[] c1 c2| | | | | | | |]; try discriminate P; try contradiction.
      1-3: destruct G as (c' & EC & C & S); unfold okc; cbn [as_ctl]; rewrite EC; eexists; (split; [reflexivity|]); (split; [exact C|]); intros F OK; apply (peq_ex F);
           first [apply peq_next|apply peq_fin|apply peq_glob]; exact (S F OK).
      destruct G as ((c' & EC & C & S) & (d' & ED & D & S')). unfold okc. cbn [as_ctl]. rewrite EC. cbn [bind]. rewrite ED. cbn [bind]. eexists. split; [reflexivity|].
      split; [cbn [ctl]; rewrite C, D; reflexivity|]. intros F OK. apply (peq_ex F), peq_until; [exact (S F OK)|exact (S' F OK)].
    + (* A *) cbn [fst] in E. destruct (QT E B) as (F0 & P & G). split; [exact F0|]. split; [reflexivity|]. clear - P G. unfold good in *. rewrite P in G. cbn [path_formula].
      destruct c as [| | | | | | | |[] c|[] c1 c2| | | | | | | |]; try discriminate P; try contradiction.
      1-3: destruct G as (c' & EC & C & S); unfold okc; cbn [as_ctl]; rewrite EC; eexists; (split; [reflexivity|]); (split; [exact C|]); intros F OK; apply (peq_all F);
           first [apply peq_next|apply peq_fin|apply peq_glob]; exact (S F OK).
      destruct G as ((c' & EC & C & S) & (d' & ED & D & S')). unfold okc. cbn [as_ctl]. rewrite EC. cbn [bind]. rewrite ED. cbn [bind]. eexists. split; [reflexivity|].
      split; [cbn [ctl]; rewrite C, D; reflexivity|]. intros F OK. apply (peq_all F), peq_until; [exact (S F OK)|exact (S' F OK)].
    + cbn [fst] in E. destruct (PT E B) as (F0 & G). split; [exact F0|]. split; [reflexivity|exact G].
    + cbn [fst] in E. destruct (PT E B) as (F0 & G). split; [exact F0|]. split; [reflexivity|exact G].
    + cbn [fst] in E. destruct (PT E B) as (F0 & G). split; [exact F0|]. split; [reflexivity|exact G].
    + apply (ST (fun F p => exists_path (next p)) E B); auto; try reflexivity; [intros c' EC; cbn [as_ctl]; rewrite EC; reflexivity|intros F p q Q; apply peq_ex, peq_next, Q].
    + apply (ST (fun F p => all_paths (next p)) E B); auto; try reflexivity; [intros c' EC; cbn [as_ctl]; rewrite EC; reflexivity|intros F p q Q; apply peq_all, peq_next, Q].
    + apply (ST (fun F p => exists_path (finally p)) E B); auto; try reflexivity; [intros c' EC; cbn [as_ctl]; rewrite EC; reflexivity|intros F p q Q; apply peq_ex, peq_fin, Q].
    + apply (ST (fun F p => all_paths (finally p)) E B); auto; try reflexivity; [intros c' EC; cbn [as_ctl]; rewrite EC; reflexivity|intros F p q Q; apply peq_all, peq_fin, Q].
    + apply (ST (fun F p => exists_path (globally p)) E B); auto; try reflexivity; [intros c' EC; cbn [as_ctl]; rewrite EC; reflexivity|intros F p q Q; apply peq_ex, peq_glob, Q].
    + apply (ST (fun F p => all_paths (globally p)) E B); auto; try reflexivity; [intros c' EC; cbn [as_ctl]; rewrite EC; reflexivity|intros F p q Q; apply peq_all, peq_glob, Q].
    + apply andb_true_iff in B as (NP & B). apply negb_true_iff in NP. destruct (IH s A B E) as (F0 & S0 & G0). split; [exact F0|]. cbn [path_formula]. split; [exact S0|].
      unfold good in *. cbn [path_formula]. rewrite NP in *. destruct G0 as (c' & EC & C & S). exists (N1 OControl c'). cbn [as_ctl]. rewrite EC. split; [reflexivity|]. split; [exact C|].
      intros F OK. apply (peq_control F OK _ _ (S F OK)).
  - cbn [plain] in A. destruct o; try discriminate A. apply andb_true_iff in A as (A1 & A2). cbn [controls_states] in B. apply andb_true_iff in B as (B1 & B2). cbn [fst] in E.
    apply need_fst in E as (E & Z). destruct (IH2 _ A2 B2 E) as (F1 & S1 & G1). apply need_fst in F1 as (F1 & Z1). destruct (IH1 s A1 B1 F1) as (F0 & S0 & G0).
    split; [exact F0|]. split; [reflexivity|]. rewrite Z in S1. rewrite Z1 in S0. unfold good in *. rewrite <- S1 in G1. rewrite <- S0 in G0. cbn [path_formula]. auto.
Qed.

Lemma as_ctl_ok : forall junk x c, parse_formula x = Ok (Some c) -> path_formula c = false -> controls_states c = true ->
  is_ctl junk c = true -> exists c', as_ctl c = Ok c' /\ ctl c' = true /\ same c c'.
Proof.
  intros junk x c P NP CS I. destruct (visit_inv c (true, junk) (parse_plain x c P) CS I) as (_ & _ & G). unfold good in G. rewrite NP in G. exact G.
Qed.

(** ** Formulas of CTL pass *)
Definition pass (c : ncond) : Prop := (state_formula c = true -> forall s, is_ctl_visit c s = (fst s, false)) /\
  match c with
  | N1 OX x | N1 OF x | N1 OG x => state_formula x = true -> forall s, is_ctl_visit c s = (fst s, true)
  | N2 OU x y => state_formula x && state_formula y = true -> forall s, is_ctl_visit c s = (fst s, true)
  | _ => True
  end.
Lemma ops_pass : forall l, Forall pass l -> nonempty l && forallb state_formula l = true -> forall s, ctl_ops is_ctl_visit l s = (fst s, false).
Proof.
  induction 1 as [|c l (P & _) H IH]; intros A s; [discriminate A|]. cbn [nonempty forallb andb] in A. apply andb_true_iff in A as (A1 & A2).
  cbn [ctl_ops]. rewrite (P A1 s). cbn [snd]. destruct l as [|d l]; [reflexivity|]. rewrite IH; [reflexivity|exact A2].
Qed.
Lemma visit_pass : forall c, pass c.
Proof.
  induction c as [b| |t|c IH|l IH|l IH|o a b|neg cs|o c IH|o c1 c2 IH1 IH2|n c IH|n c IH|n c IH|k| | | |ps] using ncond_ind'; (split; [intros A s; cbn [state_formula] in A; try discriminate A; cbn [is_ctl_visit]; try reflexivity|]); try exact I.
  - rewrite (proj1 IH A s). reflexivity.
  - apply ops_pass; auto.
  - apply ops_pass; auto.
  - destruct o; try discriminate A; try (rewrite (proj1 IH A s); reflexivity).
    all: assert (V : is_ctl_visit c s = (fst s, true)) by (destruct IH as (_ & IH); destruct c as [| | | | | | | |[] x|[] x y| | | | | | | |]; try discriminate A; apply IH, A).
    all: rewrite V; reflexivity.
  - destruct o; try exact I; intros A s; cbn [is_ctl_visit]; rewrite (proj1 IH A s); reflexivity.
  - destruct o; try exact I; intros A s; cbn [is_ctl_visit]; apply andb_true_iff in A as (A1 & A2); rewrite (proj1 IH1 A1 s); rewrite (proj1 IH2 A2); reflexivity.
Qed.
Lemma ctl_passes : forall junk c, state_formula c = true -> is_ctl junk c = true.
Proof. intros junk c H. unfold is_ctl. rewrite (proj1 (visit_pass c) H). reflexivity. Qed.
