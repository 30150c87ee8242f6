(** The interpolants of a refuted trace. *)
From Verif Require Import Base BaseLemmas NetSpec NetModel NetProofs PqlSyntax PqlSpec PqlModel PqlProofs RangeSpec RangeModel RangeProofs StubModel StubMain StubProofs
  QueryModel TarModel TarSpec TarVec TarSem TarRc TarAut.
From Coq Require Import Sorted.

(** ** One range backwards over a transition that takes [i] and gives [o] *)
Definition back (i o : N) (r r' : range) : Prop :=
  (snd r' <= rmax)%N /\
  (forall x, (x <= rmax)%N -> (i <= x)%N -> (x - i + o <= rmax)%N -> in_range r' x -> in_range r (x - i + o)%N) /\
  (forall x, (i <= x)%N -> in_range r (x - i + o)%N -> in_range r' x).
Lemma back_add : forall i o r r', (o <= i)%N -> (snd r <= rmax)%N -> r_add r (i - o) = Ok r' -> back i o r r'.
Proof.
  intros i o (a, b) r' H Hb E. unfold r_add in E. cbn [fst snd] in *. unfold back, in_range. assert (Ei : infinite = rmax) by reflexivity. rewrite Ei. set (M := rmax) in *. clearbody M.
  destruct (a =? 0)%N eqn:E1; [apply N.eqb_eq in E1|apply N.eqb_neq in E1; destruct (M - (i - o) <=? a)%N eqn:E3; [discriminate|apply N.leb_gt in E3]];
    (destruct (M - (i - o) <=? b)%N eqn:E2; [apply N.leb_le in E2|apply N.leb_gt in E2]); injection E as <-; cbn [fst snd]; (split; [lia|split; intros; lia]).
Qed.
Lemma back_sub : forall i o r r', (i <= o)%N -> (snd r <= rmax)%N -> r_sub r (o - i) = Ok r' -> back i o r r'.
Proof.
  intros i o (a, b) r' H Hb E. unfold r_sub in E. cbn [fst snd] in *. unfold back, in_range. assert (Ei : infinite = rmax) by reflexivity. rewrite Ei. set (M := rmax) in *. clearbody M.
  destruct (b =? M)%N eqn:E1; [apply N.eqb_eq in E1|apply N.eqb_neq in E1; destruct (b <? o - i)%N eqn:E3; [discriminate|apply N.ltb_ge in E3]];
    (destruct (a <? o - i)%N eqn:E2; [apply N.ltb_lt in E2|apply N.ltb_ge in E2]); injection E as <-; cbn [fst snd]; (split; [lia|split; intros; lia]).
Qed.
Lemma bound_false : forall v p, bound v p = false -> rg v p = (0%N, rmax).
Proof.
  intros v p H. unfold bound, rg in *. destruct (lookup v p) as [r|]; [|reflexivity]. apply negb_false_iff in H. apply unbound_spec in H. destruct H as (A & B). destruct r as (a, b). cbn in *. subst. reflexivity.
Qed.
Lemma bound_within : forall v p (Y : nat -> Prop), sorted_vec v -> within v Y -> bound v p = true -> Y p.
Proof.
  intros v p Y S W H. unfold bound in H. destruct (lookup v p) as [r|] eqn:E; [|discriminate]. apply (W p r). apply (@lookup_ok v p S r). exact E.
Qed.
Lemma ft_app_in : forall l k p, In p (map iv_place l) -> first_tokens (l ++ k) p = first_tokens l p.
Proof. induction l as [|a l IH]; intros k p I; [destruct I|]. cbn [app]. rewrite !ft_cons. destruct (Nat.eqb_spec (iv_place a) p); [reflexivity|]. apply IH. destruct I; [contradiction|assumption]. Qed.
Lemma ft_app_out : forall l k p, ~ In p (map iv_place l) -> first_tokens (l ++ k) p = first_tokens k p.
Proof. induction l as [|a l IH]; intros k p I; [reflexivity|]. cbn [app]. rewrite ft_cons. cbn in I. destruct (Nat.eqb_spec (iv_place a) p); [tauto|]. apply IH. tauto. Qed.
Lemma sorted_app : forall (l k : list nat), StronglySorted lt (l ++ k) -> StronglySorted lt l /\ StronglySorted lt k /\ forall x y, In x l -> In y k -> x < y.
Proof.
  induction l as [|a l IH]; intros k H; [split; [constructor|split; [exact H|intros x y []]]|]. cbn [app] in H. inversion H as [|? ? H1 H2]; subst. destruct (IH k H1) as (A & B & C). rewrite Forall_forall in H2.
  split; [constructor; [exact A|apply Forall_forall; intros x Ix; apply H2, in_or_app; auto]|]. split; [exact B|]. intros x y [->|Ix] Iy; [apply H2, in_or_app; auto|apply C; assumption].
Qed.
Notation places l := (map iv_place l).

Section Pass.
  Variable np : nat.
  Variable nxt : rvec.
  Variable Y : nat -> Prop.
  Hypothesis HY : forall p, bound nxt p = true -> Y p.
  Lemma mod_ok : forall v p f w, okv np v -> within v Y -> p < np -> bound nxt p = true -> (forall r', f (rg v p) = Ok r' -> (snd r' <= rmax)%N) -> v_mod v p f = Ok w ->
    exists r', f (rg v p) = Ok r' /\ okv np w /\ within w Y /\ forall q, rg w q = if Nat.eqb q p then r' else rg v q.
  Proof.
    intros v p f w O W Hp B Hf E. apply mod_inv in E. destruct E as (r' & E & ->). exists r'. split; [exact E|]. split; [apply okv_at; auto|]. split; [apply within_at; auto|]. intros q. exact (rg_at v p (fun _ => r') q (proj1 O)).
  Qed.
  Lemma hoare_pre_ok : forall stop l v w rest, StronglySorted lt (places l) -> (forall iv, In iv l -> iv_place iv < np) -> okv np v -> within v Y -> hoare_pre nxt stop l v = Ok (w, rest) ->
    okv np w /\ within w Y /\ exists dn, l = dn ++ rest /\ (forall q, stop = Some q -> (forall p, In p (places dn) -> p < q) /\ (forall p, In p (places rest) -> q <= p)) /\ (stop = None -> rest = []) /\
    forall q, if bound nxt q && existsb (Nat.eqb q) (places dn) then back (first_tokens dn q) 0 (rg v q) (rg w q) else rg w q = rg v q.
  Proof.
    intros stop. induction l as [|iv l IH]; intros v w rest S Hp O W E; cbn [hoare_pre] in E.
    - injection E as <- <-. split; [exact O|]. split; [exact W|]. exists []. split; [reflexivity|]. split; [intros; split; intros ? []|]. split; [reflexivity|]. intros q. rewrite andb_false_r. reflexivity.
    - cbn [map] in S. inversion S as [|? ? S1 S2]; subst. rewrite Forall_forall in S2. set (p := iv_place iv) in *.
      destruct (match stop with Some q => p <? q | None => true end) eqn:Es.
      + assert (Pq : forall q, stop = Some q -> p < q) by (intros q ->; apply Nat.ltb_lt; exact Es).
        assert (Go : forall u, okv np u -> within u Y -> (forall q, q <> p -> rg u q = rg v q) -> (bound nxt p = false -> rg u p = rg v p) -> (bound nxt p = true -> back (iv_tokens iv) 0 (rg v p) (rg u p)) -> hoare_pre nxt stop l u = Ok (w, rest) ->
          okv np w /\ within w Y /\ exists dn, iv :: l = dn ++ rest /\ (forall q, stop = Some q -> (forall p, In p (places dn) -> p < q) /\ (forall p, In p (places rest) -> q <= p)) /\ (stop = None -> rest = []) /\
          forall q, if bound nxt q && existsb (Nat.eqb q) (places dn) then back (first_tokens dn q) 0 (rg v q) (rg w q) else rg w q = rg v q).
        { intros u Ou Wu U1 U2 U3 Eu. destruct (IH u w rest S1 (fun x Hx => Hp x (or_intror Hx)) Ou Wu Eu) as (A1 & A2 & dn & A3 & A4 & A5 & A6). split; [exact A1|]. split; [exact A2|]. exists (iv :: dn).
          split; [cbn [app]; f_equal; exact A3|]. split; [|split; [exact A5|]].
          - intros q Hq. destruct (A4 q Hq) as (B1 & B2). split; [|exact B2]. intros x [<-|Ix]; [apply Pq; exact Hq|apply B1; exact Ix].
          - intros q. specialize (A6 q). cbn [map existsb]. fold p. rewrite ft_cons. fold p. destruct (Nat.eqb_spec q p) as [->|Nq].
            + rewrite Nat.eqb_refl. cbn [orb]. rewrite andb_true_r. assert (Nd : existsb (Nat.eqb p) (places dn) = false).
              { destruct (existsb _ _) eqn:Ex; [|reflexivity]. apply existsb_exists in Ex. destruct Ex as (x & Ix & Ex). apply Nat.eqb_eq in Ex. subst x. assert (p < p); [|lia]. apply S2. rewrite A3, map_app. apply in_or_app. left. exact Ix. }
              rewrite Nd, andb_false_r in A6. destruct (bound nxt p) eqn:Bp; rewrite A6; auto.
            + destruct (Nat.eqb_spec p q) as [Ep|]; [congruence|]. cbn [orb]. rewrite U1 in A6 by exact Nq. exact A6. }
        destruct (bound nxt p) eqn:Bp.
        * destruct (v_mod v p (fun r => r_add r (iv_tokens iv))) as [u| | |] eqn:Eu; cbn [bind] in E; try discriminate.
          assert (Hb : forall r', r_add (rg v p) (iv_tokens iv) = Ok r' -> back (iv_tokens iv) 0 (rg v p) r').
          { intros r' Er. apply back_add; [lia|apply O|]. rewrite N.sub_0_r. exact Er. }
          destruct (mod_ok v p _ u O W (Hp iv (or_introl eq_refl)) Bp (fun r' Er => proj1 (Hb r' Er)) Eu) as (r' & C1 & C2 & C3 & C4).
          apply (Go u C2 C3); [intros q Nq; rewrite C4; destruct (Nat.eqb_spec q p); [contradiction|reflexivity]|discriminate|intros _; rewrite C4, Nat.eqb_refl; apply Hb; exact C1|exact E].
        * apply (Go v O W); auto. discriminate.
      + injection E as <- <-. split; [exact O|]. split; [exact W|]. exists []. split; [reflexivity|]. destruct stop as [q|]; [|discriminate]. split; [|split; [discriminate|intros x; rewrite andb_false_r; reflexivity]].
        intros q' [= <-]. split; [intros ? []|]. apply Nat.ltb_ge in Es. intros x [<-|Ix]; [exact Es|]. pose proof (S2 x Ix). lia.
  Qed.
  Definition here (l ps : list invariant) (q : nat) : bool := bound nxt q && existsb (Nat.eqb q) (places l ++ places ps).
  Lemma here_out : forall l ps q, ~ In q (places l) -> ~ In q (places ps) -> here l ps q = false.
  Proof.
    intros l ps q A B. unfold here. destruct (existsb _ _) eqn:E; [|apply andb_false_r]. apply existsb_exists in E. destruct E as (x & Ix & Ex). apply Nat.eqb_eq in Ex. subst x. apply in_app_or in Ix. tauto.
  Qed.
  Lemma here_in : forall l ps q, In q (places l) \/ In q (places ps) -> here l ps q = bound nxt q.
  Proof. intros l ps q H. unfold here. replace (existsb _ _) with true; [apply andb_true_r|]. symmetry. apply existsb_exists. exists q. split; [apply in_or_app; exact H|apply Nat.eqb_refl]. Qed.
  Lemma in_dec_nat : forall (q : nat) l, In q l \/ ~ In q l.
  Proof. intros q l. destruct (in_dec Nat.eq_dec q l); auto. Qed.
  Lemma hoare_post_ok : forall l ps v o, StronglySorted lt (places l) -> StronglySorted lt (places ps) -> (forall iv, In iv l -> iv_place iv < np) -> (forall iv, In iv ps -> iv_place iv < np) ->
    (forall a b, In a l -> In b ps -> iv_place a = iv_place b -> iv_dir b = Z.sgn (Z.of_N (iv_tokens a) - Z.of_N (iv_tokens b))) ->
    okv np v -> within v Y -> hoare_post nxt l ps v = Ok o ->
    match o with
    | inr w => okv np w /\ within w Y /\ forall q, if here l ps q then back (first_tokens ps q) (first_tokens l q) (rg v q) (rg w q) else rg w q = rg v q
    | inl (w, p) => bound nxt p = true /\ (snd (rg v p) < first_tokens l p)%N
    end.
  Proof.
    induction l as [|a l IH]; intros ps v o Sl Sp Hl Hp D O W E; cbn [hoare_post] in E.
    - destruct (hoare_pre nxt None ps v) as [(w, rest)| | |] eqn:Eh; cbn [bind fst] in E; try discriminate. injection E as <-. destruct (hoare_pre_ok None ps v w rest Sp Hp O W Eh) as (A1 & A2 & dn & A3 & A4 & A5 & A6).
      split; [exact A1|]. split; [exact A2|]. intros q. specialize (A6 q). rewrite (A5 eq_refl), app_nil_r in A3. subst dn. exact A6.
    - cbn [map] in Sl. inversion Sl as [|? ? S1 S2]; subst. rewrite Forall_forall in S2. set (p := iv_place a) in *.
      assert (Hp0 : p < np) by (apply Hl; left; reflexivity).
      assert (Npl : ~ In p (places l)) by (intros I; pose proof (S2 p I); lia).
      destruct (bound nxt p) eqn:Bp.
      + destruct (hoare_pre nxt (Some p) ps v) as [(u, rest)| | |] eqn:Eh; cbn [bind fst snd] in E; try discriminate. destruct (hoare_pre_ok (Some p) ps v u rest Sp Hp O W Eh) as (A1 & A2 & dn & A3 & A4 & _ & A6).
        destruct (A4 p eq_refl) as (B1 & B2). clear A4. subst ps. rewrite map_app in Sp. apply sorted_app in Sp. destruct Sp as (Sd & Sr & Sdr).
        assert (Npd : ~ In p (places dn)) by (intros I; pose proof (B1 p I); lia).
        assert (Up : rg u p = rg v p). { specialize (A6 p). destruct (existsb (Nat.eqb p) (places dn)) eqn:Ex; [|rewrite andb_false_r in A6; exact A6]. apply existsb_exists in Ex. destruct Ex as (x & Ix & Ex). apply Nat.eqb_eq in Ex. subst x. contradiction. }
        (* how the rest is put together *)
        assert (Go : forall w ps', (forall x, In x ps' -> In x rest) -> StronglySorted lt (places ps') -> (forall x, In x (places ps') -> p < x) -> (forall q, q <> p -> first_tokens ps' q = first_tokens rest q /\ (In q (places rest) -> In q (places ps'))) ->
          okv np w -> within w Y -> (forall q, q <> p -> rg w q = rg u q) -> back (first_tokens rest p) (iv_tokens a) (rg v p) (rg w p) -> hoare_post nxt l ps' w = Ok o ->
          match o with
          | inr w => okv np w /\ within w Y /\ forall q, if here (a :: l) (dn ++ rest) q then back (first_tokens (dn ++ rest) q) (first_tokens (a :: l) q) (rg v q) (rg w q) else rg w q = rg v q
          | inl (w, x) => bound nxt x = true /\ (snd (rg v x) < first_tokens (a :: l) x)%N
          end).
        { intros w ps' Sub Sp' Gt Ft Ow Ww Wq Wp Eg. specialize (IH ps' w o S1 Sp' (fun x Hx => Hl x (or_intror Hx)) (fun x Hx => Hp x (in_or_app _ _ _ (or_intror (Sub x Hx)))) (fun x y Hx Hy => D x y (or_intror Hx) (in_or_app _ _ _ (or_intror (Sub y Hy)))) Ow Ww Eg).
          assert (Lp : forall x, In x (places ps') -> In x (places rest)) by (intros x Ix; apply in_map_iff in Ix; destruct Ix as (y & <- & Iy); apply in_map, Sub, Iy).
          destruct o as [(w', x)|w'].
          - destruct IH as (C1 & C2). split; [exact C1|]. destruct (ft_pos l x ltac:(lia)) as (y & Iy & Ey). assert (Ixl : In x (places l)) by (rewrite <- Ey; apply in_map; exact Iy). pose proof (S2 x Ixl) as Hx.
            rewrite ft_cons. fold p. destruct (Nat.eqb_spec p x); [lia|]. rewrite Wq in C2 by lia. specialize (A6 x). rewrite (proj2 (andb_false_iff _ _)) in A6; [rewrite A6 in C2; exact C2|].
            right. destruct (existsb _ _) eqn:Ex; [|reflexivity]. apply existsb_exists in Ex. destruct Ex as (z & Iz & Ez). apply Nat.eqb_eq in Ez. subst z. pose proof (B1 x Iz). lia.
          - destruct IH as (C1 & C2 & C3). split; [exact C1|]. split; [exact C2|]. intros q. specialize (C3 q). specialize (A6 q). destruct (Nat.eq_dec q p) as [->|Nq].
            + rewrite (here_in (a :: l)) by (left; left; reflexivity). rewrite Bp. rewrite (here_out l ps') in C3 by (auto; intros I; pose proof (Gt p I); lia). rewrite C3, ft_app_out by exact Npd. rewrite ft_cons. fold p. rewrite Nat.eqb_refl. exact Wp.
            + rewrite ft_cons. fold p. destruct (Nat.eqb_spec p q); [congruence|]. rewrite Wq in C3 by exact Nq. destruct (Ft q Nq) as (F1 & F2). destruct (in_dec_nat q (places dn)) as [Id|Nd].
              * assert (Nl : ~ In q (places l)) by (intros I; pose proof (S2 q I); pose proof (B1 q Id); lia). assert (Nr : ~ In q (places rest)) by (intros I; pose proof (Sdr q q Id I); lia).
                rewrite (here_out l ps') in C3 by auto. rewrite C3. rewrite here_in by (right; rewrite map_app; apply in_or_app; auto). replace (existsb (Nat.eqb q) (places dn)) with true in A6 by (symmetry; apply existsb_exists; exists q; split; [exact Id|apply Nat.eqb_refl]).
                rewrite andb_true_r in A6. rewrite ft_app_in by exact Id. rewrite (ft_out l q Nl). exact A6.
              * assert (Ru : rg u q = rg v q). { rewrite (proj2 (andb_false_iff _ _)) in A6; [exact A6|]. right. destruct (existsb _ _) eqn:Ex; [|reflexivity]. apply existsb_exists in Ex. destruct Ex as (z & Iz & Ez). apply Nat.eqb_eq in Ez. subst z. contradiction. }
                rewrite Ru in C3. rewrite ft_app_out by exact Nd. rewrite <- F1. destruct (in_dec_nat q (places l)) as [Il|Nl].
                -- rewrite here_in by (left; right; exact Il). rewrite here_in in C3 by (left; exact Il). exact C3.
                -- destruct (in_dec_nat q (places rest)) as [Ir|Nr].
                   ++ rewrite here_in by (right; rewrite map_app; apply in_or_app; auto). rewrite here_in in C3 by (right; apply F2, Ir). exact C3.
                   ++ rewrite here_out; [rewrite here_out in C3 by auto; exact C3| |rewrite map_app; intros I; apply in_app_or in I; tauto]. intros [I|I]; [fold p in I; congruence|contradiction]. }
        assert (Sub1 : forall k y w0, hoare_sub u p k = Ok y -> match y with inl (w1, x) => Ok (inl (w1, x)) | inr w1 => w0 w1 end = Ok o -> (k <= iv_tokens a)%N ->
          (exists w1, y = inr w1 /\ w0 w1 = Ok o /\ exists r', r_sub (rg v p) k = Ok r' /\ okv np w1 /\ within w1 Y /\ forall q, rg w1 q = if Nat.eqb q p then r' else rg u q) \/
          (exists w1, o = inl (w1, p) /\ (snd (rg v p) < iv_tokens a)%N)).
        { intros k y w0 Eh' Ey Hk. unfold hoare_sub in Eh'. rewrite v_upper_rg, Up in Eh'. destruct (snd (rg v p) <? k)%N eqn:Ek.
          - apply N.ltb_lt in Ek. injection Eh' as <-. injection Ey as <-. right. eexists. split; [reflexivity|lia].
          - destruct (v_mod u p (fun r => r_sub r k)) as [w1| | |] eqn:Em; cbn [bind] in Eh'; try discriminate. injection Eh' as <-. left. exists w1. split; [reflexivity|]. split; [exact Ey|].
            destruct (mod_ok u p (fun r => r_sub r k) w1 A1 A2 Hp0 Bp) as (r' & C1 & C2 & C3 & C4); [|exact Em|].
            + intros r' Er. rewrite Up in Er. replace k with (k - 0)%N in Er by lia. apply back_sub in Er; [apply Er|lia|apply O].
            + exists r'. rewrite <- Up. auto. }
        assert (Fp : bound nxt p = true /\ (snd (rg v p) < iv_tokens a)%N -> forall w1, o = inl (w1, p) -> match o with
          | inr w => okv np w /\ within w Y /\ forall q, if here (a :: l) (dn ++ rest) q then back (first_tokens (dn ++ rest) q) (first_tokens (a :: l) q) (rg v q) (rg w q) else rg w q = rg v q
          | inl (w, x) => bound nxt x = true /\ (snd (rg v x) < first_tokens (a :: l) x)%N
          end).
        { intros (H1 & H2) w1 ->. split; [exact H1|]. rewrite ft_cons. fold p. rewrite Nat.eqb_refl. exact H2. }
        destruct rest as [|b rest].
        * destruct (hoare_sub u p (iv_tokens a)) as [y| | |] eqn:Ey; cbn [bind] in E; try discriminate.
          destruct (Sub1 (iv_tokens a) y (hoare_post nxt l []) Ey) as [(w1 & -> & E1 & r' & C1 & C2 & C3 & C4)|(w1 & Eo & Lt)]; [destruct y as [(?, ?)|?]; exact E|lia| |apply (Fp (conj Bp Lt) w1 Eo)].
          apply (Go w1 []); auto; [intros x []|intros q Nq; rewrite C4; destruct (Nat.eqb_spec q p); [contradiction|reflexivity]|]. rewrite C4, Nat.eqb_refl. cbn [first_tokens]. apply back_sub; [apply N.le_0_l|apply O|]. rewrite N.sub_0_r. exact C1.
        * cbn [map] in Sr. inversion Sr as [|? ? Sr1 Sr2]; subst. rewrite Forall_forall in Sr2. destruct (Nat.eqb_spec (iv_place b) p) as [Eb|Nb].
          -- assert (Db : iv_dir b = Z.sgn (Z.of_N (iv_tokens a) - Z.of_N (iv_tokens b))) by (apply D; [left; reflexivity|apply in_or_app; right; left; reflexivity|symmetry; exact Eb]).
             assert (Ftb : forall q, q <> p -> first_tokens rest q = first_tokens (b :: rest) q /\ (In q (places (b :: rest)) -> In q (places rest))).
             { intros q Nq. rewrite ft_cons. destruct (Nat.eqb_spec (iv_place b) q); [congruence|]. split; [reflexivity|]. intros [I|I]; [congruence|exact I]. }
             assert (Gtb : forall x, In x (places rest) -> p < x) by (intros x Ix; pose proof (Sr2 x Ix); lia).
             assert (Fb : first_tokens (b :: rest) p = iv_tokens b) by (rewrite ft_cons, Eb, Nat.eqb_refl; reflexivity).
             destruct (iv_dir b <? 0)%Z eqn:Ed.
             ++ apply Z.ltb_lt in Ed. assert (Lt : (iv_tokens a < iv_tokens b)%N) by lia.
                destruct (v_mod u p (fun r => r_add r (iv_tokens b - iv_tokens a))) as [w1| | |] eqn:Em; cbn [bind] in E; try discriminate.
                assert (Hb : forall r', r_add (rg v p) (iv_tokens b - iv_tokens a) = Ok r' -> back (iv_tokens b) (iv_tokens a) (rg v p) r') by (intros r' Er; apply back_add; [lia|apply O|exact Er]).
                destruct (mod_ok u p (fun r => r_add r (iv_tokens b - iv_tokens a)) w1 A1 A2 Hp0 Bp) as (r' & C1 & C2 & C3 & C4); [intros r' Er; apply Hb; rewrite <- Up; exact Er|exact Em|]. rewrite Up in C1.
                apply (Go w1 rest); auto; [intros x Ix; right; exact Ix|intros q Nq; rewrite C4; destruct (Nat.eqb_spec q p); [contradiction|reflexivity]|]. rewrite C4, Nat.eqb_refl, Fb. apply Hb. exact C1.
             ++ apply Z.ltb_ge in Ed. assert (Lt : (iv_tokens b <= iv_tokens a)%N) by lia.
                destruct (hoare_sub u p (iv_tokens a - iv_tokens b)) as [y| | |] eqn:Ey; cbn [bind] in E; try discriminate.
                destruct (Sub1 (iv_tokens a - iv_tokens b)%N y (hoare_post nxt l rest) Ey) as [(w1 & -> & E1 & r' & C1 & C2 & C3 & C4)|(w1 & Eo & Lt')]; [destruct y as [(?, ?)|?]; exact E|lia| |apply (Fp (conj Bp Lt') w1 Eo)].
                apply (Go w1 rest); auto; [intros x Ix; right; exact Ix|intros q Nq; rewrite C4; destruct (Nat.eqb_spec q p); [contradiction|reflexivity]|]. rewrite C4, Nat.eqb_refl, Fb. apply back_sub; [exact Lt|apply O|exact C1].
          -- assert (Gtb : forall x, In x (places (b :: rest)) -> p < x). { pose proof (B2 (iv_place b) (or_introl eq_refl)). intros x [<-|Ix]; [lia|]. pose proof (Sr2 x Ix). lia. }
             destruct (hoare_sub u p (iv_tokens a)) as [y| | |] eqn:Ey; cbn [bind] in E; try discriminate.
             destruct (Sub1 (iv_tokens a) y (hoare_post nxt l (b :: rest)) Ey) as [(w1 & -> & E1 & r' & C1 & C2 & C3 & C4)|(w1 & Eo & Lt)]; [destruct y as [(?, ?)|?]; exact E|lia| |apply (Fp (conj Bp Lt) w1 Eo)].
             apply (Go w1 (b :: rest)); auto; [intros q Nq; rewrite C4; destruct (Nat.eqb_spec q p); [contradiction|reflexivity]|]. rewrite C4, Nat.eqb_refl. rewrite (ft_out (b :: rest) p) by (intros I; pose proof (Gtb p I); lia). apply back_sub; [apply N.le_0_l|apply O|]. rewrite N.sub_0_r. exact C1.
      + specialize (IH ps v o S1 Sp (fun x Hx => Hl x (or_intror Hx)) Hp (fun x y Hx Hy => D x y (or_intror Hx) Hy) O W E). destruct o as [(w, x)|w].
        * destruct IH as (C1 & C2). split; [exact C1|]. rewrite ft_cons. fold p. destruct (Nat.eqb_spec p x); [congruence|exact C2].
        * destruct IH as (C1 & C2 & C3). split; [exact C1|]. split; [exact C2|]. intros q. specialize (C3 q). destruct (Nat.eq_dec q p) as [->|Nq].
          -- unfold here in *. rewrite Bp in *. exact C3.
          -- rewrite ft_cons. fold p. destruct (Nat.eqb_spec p q); [congruence|]. replace (here (a :: l) ps q) with (here l ps q); [exact C3|]. unfold here. cbn [map app existsb]. fold p. destruct (Nat.eqb_spec q p); [contradiction|reflexivity].
  Qed.
End Pass.

Section Hoare.
  Variable net : cnet.
  Hypothesis L : layout net.
  Hypothesis P0 : 0 < cn_places net.
  Hypothesis D : dirs_ok net.
  Hypothesis So : sorted_arcs net.
  Hypothesis NI : has_inhib net = false.
  Notation P := (to_pnet net).
  Notation np := (cn_places net).
  Notation nt := (cn_ntrans net).
  Notation pre := (in_slice net).
  Notation post := (out_slice net).
  Notation wi t p := (first_tokens (pre t) p).
  Notation wo t p := (first_tokens (post t) p).
  Hypothesis W32 : forall t iv, t < nt -> In iv (pre t) \/ In iv (post t) -> (iv_tokens iv <= u32max)%N.

  Lemma hoare_step : forall t nxt (Y : nat -> Prop) o, t < nt -> okv np nxt -> within nxt Y -> hoare_post nxt (post t) (pre t) nxt = Ok o ->
    match o with
    | inr v => okv np v /\ within v Y /\ tri net v t nxt /\ forall p x, (wi t p <= x)%N -> in_range (rg nxt p) (x - wi t p + wo t p)%N -> in_range (rg v p) x
    | inl (_, p) => Y p /\ (snd (rg nxt p) < wo t p)%N
    end.
  Proof.
    intros t nxt Y o Ht O W E.
    assert (HY : forall p, bound nxt p = true -> Y p) by (intros p; apply bound_within; [apply O|exact W]).
    pose proof (hoare_post_ok np nxt Y HY (post t) (pre t) nxt o (post_sorted net L P0 So t Ht) (pre_sorted net L P0 So t Ht) (fun iv => post_place net L t iv Ht) (fun iv => pre_place net L t iv Ht)) as H.
    specialize (H (fun a b Ia Ib Eab => ltac:(rewrite (dir_ft net L P0 D NI t b Ht (or_introl Ib)), (ft_in _ _ (pre_nodup net L t Ht) Ib), <- Eab, (ft_in _ _ (post_nodup net L t Ht) Ia); reflexivity)) O W E).
    destruct o as [(v, p)|v]; [destruct H as (A & B); auto|]. destruct H as (A & B & C). split; [exact A|]. split; [exact B|].
    assert (Z0 : forall p, here nxt (post t) (pre t) p = false -> bound nxt p = false \/ (wi t p = 0 /\ wo t p = 0)%N).
    { intros p Hh. unfold here in Hh. apply andb_false_iff in Hh. destruct Hh as [Hh|Hh]; [left; exact Hh|right].
      assert (N0 : ~ In p (map iv_place (post t) ++ map iv_place (pre t))). { intros I. assert (Ex : existsb (Nat.eqb p) (map iv_place (post t) ++ map iv_place (pre t)) = true); [|congruence]. apply existsb_exists. exists p. split; [exact I|apply Nat.eqb_refl]. }
      split; apply ft_out; intros I; apply N0, in_or_app; auto. }
    split.
    - intros p x H1 H2 H3 I. specialize (C p). destruct (here nxt (post t) (pre t) p) eqn:Hh; [apply C; assumption|]. rewrite C in I. destruct (Z0 p Hh) as [Hb|(Zi & Zo)]; [rewrite bound_false by exact Hb; apply full_in|].
      rewrite Zi, Zo. replace (x - 0 + 0)%N with x by lia. exact I.
    - intros p x H2 I. specialize (C p). destruct (here nxt (post t) (pre t) p) eqn:Hh; [apply C; assumption|]. rewrite C. destruct (Z0 p Hh) as [Hb|(Zi & Zo)]; [rewrite bound_false by exact Hb; apply full_in|].
      rewrite Zi, Zo in I. replace (x - 0 + 0)%N with x in I by lia. exact I.
  Qed.

  (** ** Runs with integers *)
  Definition zrun (es : list nat) : list Z := fold_right (fun e m => zfire net (e - 1) m) (init_z net) es.
  Fixpoint zok (Y : nat -> Prop) (es : list nat) : Prop :=
    match es with
    | [] => True
    | e :: es' => (forall p, Y p -> (Z.of_N (wi (e - 1) p) <= zget (zrun es') p)%Z) /\ zok Y es'
    end.
  Hypothesis Li : length (cn_init net) = np.
  Lemma zadd_get : forall m p z q, p < length m -> zget (zadd m p z) q = (if Nat.eqb q p then zget m q + z else zget m q)%Z.
  Proof.
    intros m p z q H. unfold zadd, zget. destruct (Nat.eqb_spec q p) as [->|N]; [apply nth_upd_eq; exact H|apply nth_upd_neq; congruence].
  Qed.
  Lemma zadd_len : forall m p z, length (zadd m p z) = length m. Proof. intros. unfold zadd. apply upd_length. Qed.
  Lemma zfold : forall (s : Z) l m, NoDup (map iv_place l) -> (forall iv, In iv l -> iv_place iv < length m) ->
    length (fold_left (fun m iv => zadd m (iv_place iv) (s * Z.of_N (iv_tokens iv))) l m) = length m /\
    forall p, zget (fold_left (fun m iv => zadd m (iv_place iv) (s * Z.of_N (iv_tokens iv))) l m) p = (zget m p + s * Z.of_N (first_tokens l p))%Z.
  Proof.
    intros s. induction l as [|a l IH]; intros m Nd H; [split; [reflexivity|intros p; cbn [fold_left first_tokens find]; change (first_tokens [] p) with 0%N; lia]|]. cbn [fold_left]. cbn [map] in Nd. inversion Nd as [|? ? N1 N2]; subst.
    destruct (IH (zadd m (iv_place a) (s * Z.of_N (iv_tokens a))) N2) as (A & B); [intros iv I; rewrite zadd_len; apply H; right; exact I|]. split; [rewrite A; apply zadd_len|].
    intros p. rewrite B, zadd_get by (apply H; left; reflexivity). rewrite ft_cons. destruct (Nat.eqb_spec (iv_place a) p) as [E|E].
    - subst p. rewrite Nat.eqb_refl, (ft_out l _ N1). lia.
    - destruct (Nat.eqb_spec p (iv_place a)); [congruence|reflexivity].
  Qed.
  Lemma fold_ext : forall (A B : Type) (f g : A -> B -> A) l a, (forall a b, f a b = g a b) -> fold_left f l a = fold_left g l a.
  Proof. intros A B f g l. induction l as [|b l IH]; intros a H; [reflexivity|]. cbn [fold_left]. rewrite H. apply IH. exact H. Qed.
  Lemma zfire_get : forall t m, t < nt -> length m = np -> length (zfire net t m) = np /\ forall p, zget (zfire net t m) p = (zget m p - Z.of_N (wi t p) + Z.of_N (wo t p))%Z.
  Proof.
    intros t m Ht Hm. unfold zfire. destruct (zfold (-1) (pre t) m (pre_nodup net L t Ht)) as (A & B); [intros iv I; rewrite Hm; eapply pre_place; eauto|].
    rewrite (fold_ext _ _ (fun m iv => zadd m (iv_place iv) (- Z.of_N (iv_tokens iv))) (fun m iv => zadd m (iv_place iv) (-1 * Z.of_N (iv_tokens iv)))) by (intros; f_equal; lia).
    set (m1 := fold_left (fun m iv => zadd m (iv_place iv) (-1 * Z.of_N (iv_tokens iv))) (pre t) m) in *.
    rewrite (fold_ext _ _ (fun m iv => zadd m (iv_place iv) (Z.of_N (iv_tokens iv))) (fun m iv => zadd m (iv_place iv) (1 * Z.of_N (iv_tokens iv)))) by (intros; f_equal; lia).
    destruct (zfold 1 (post t) m1 (post_nodup net L t Ht)) as (A' & B'); [intros iv I; rewrite A, Hm; eapply post_place; eauto|]. split; [rewrite A', A; exact Hm|]. intros p. rewrite B', B. lia.
  Qed.
  Definition edges_ok (es : list nat) : Prop := forall e, In e es -> e <> 0 /\ e - 1 < nt.
  Lemma zrun_len : forall es, edges_ok es -> length (zrun es) = np.
  Proof.
    induction es as [|e es IH]; intros H; [cbn [zrun fold_right]; unfold init_z; rewrite map_length; exact Li|]. cbn [zrun fold_right]. fold (zrun es). apply zfire_get; [apply H; left; reflexivity|]. apply IH. intros x Ix. apply H. right. exact Ix.
  Qed.
  Lemma init_get : forall p, zget (init_z net) p = Z.of_N (tokens (cn_init net) p).
  Proof. intros p. unfold zget, init_z, tokens. change 0%Z with (Z.of_N 0). rewrite map_nth. reflexivity. Qed.
  Lemma zok_pos : forall (Y : nat -> Prop) es, edges_ok es -> zok Y es -> forall p, Y p -> (0 <= zget (zrun es) p)%Z.
  Proof.
    intros Y. induction es as [|e es IH]; intros H K p Yp; [cbn [zrun fold_right]; rewrite init_get; lia|]. cbn [zrun fold_right]. fold (zrun es). destruct K as (K1 & K2). assert (H' : edges_ok es) by (intros x Ix; apply H; right; exact Ix).
    rewrite (proj2 (zfire_get (e - 1) (zrun es) (proj2 (H e (or_introl eq_refl))) (zrun_len es H'))). specialize (K1 p Yp). lia.
  Qed.
  Lemma of_to : forall m, (forall p, (0 <= zget m p)%Z) -> map Z.of_N (map Z.to_N m) = m.
  Proof.
    intros m H. rewrite map_map. rewrite <- (map_id m) at 2. apply map_ext_in. intros z I. apply (In_nth _ _ 0%Z) in I. destruct I as (n & _ & E). specialize (H n). unfold zget in H. rewrite E in H. lia.
  Qed.
  Lemma to_get : forall m p, tokens (map Z.to_N m) p = Z.to_N (zget m p).
  Proof. intros m p. unfold tokens, zget. change 0%N with (Z.to_N 0). rewrite map_nth. reflexivity. Qed.
  Lemma run_snoc : forall N m w m1 t m2, run N m w m1 -> step N m1 t m2 -> run N m (w ++ [t]) m2.
  Proof. intros N m w m1 t m2 H. induction H; intros S'; cbn [app]; econstructor; eauto. constructor. Qed.
  Lemma zok_reach : forall es, edges_ok es -> zok (fun _ => True) es -> reachable P (cn_init net) (map Z.to_N (zrun es)).
  Proof.
    induction es as [|e es IH]; intros H K.
    - exists []. cbn [zrun fold_right]. unfold init_z. rewrite map_map. replace (map (fun x => Z.to_N (Z.of_N x)) (cn_init net)) with (cn_init net); [constructor|]. rewrite <- (map_id (cn_init net)) at 1. apply map_ext. intros. lia.
    - assert (H' : edges_ok es) by (intros x Ix; apply H; right; exact Ix). pose proof (proj1 K) as K1. pose proof (proj2 K) as K2. destruct (H e (or_introl eq_refl)) as (_ & Ht). destruct (IH H' K2) as (w & Rw). exists (w ++ [e - 1]).
      eapply run_snoc; [exact Rw|]. pose proof (zrun_len es H') as Lz. cbn [zrun fold_right]. fold (zrun es). destruct (zfire_get (e - 1) (zrun es) Ht Lz) as (A & B).
      apply (step_mk net L P0 NI); [exact Ht|rewrite map_length; exact Lz|rewrite map_length; exact A| |].
      + intros p. rewrite to_get. specialize (K1 p I). lia.
      + intros p. rewrite !to_get, B. specialize (K1 p I). lia.
  Qed.

  (** ** Backwards over a trace *)
  Variable R : marking -> Prop.
  Hypothesis Rstep : forall m t m', R m -> step P m t m' -> R m'.
  Hypothesis Rlen : forall m, R m -> length m = np.
  Hypothesis Rfit : forall m, R m -> fits m.
  Variable Q : marking -> Prop.
  Notation valid := (valid net R Q).
  Lemma tri_mid : forall v t w, okv np v -> okv np w -> tri net v t w -> mid_ok net R v (S t) w.
  Proof.
    intros v t w Ov Ow T m m' Rm I St. apply (tri_step net L P0 NI v t w m m'); auto; try (apply Ov || apply Ow); apply Rfit; eapply Rstep; eassumption.
  Qed.
  Lemma hoare_sound : forall es nxt e acc h ds, edges_ok es -> okv np nxt -> valid ((nxt, e) :: acc) -> hoare net es nxt ((nxt, e) :: acc) = Ok (h, ds, true) -> valid h.
  Proof.
    induction es as [|f es IH]; intros nxt e acc h ds H O V E; cbn [hoare] in E; [injection E as <- _; exact V|].
    destruct (hoare_post nxt (post (f - 1)) (pre (f - 1)) nxt) as [o| | |] eqn:Eo; cbn [bind] in E; try discriminate. destruct (H f (or_introl eq_refl)) as (Nz & Ht).
    pose proof (hoare_step (f - 1) nxt (fun _ => True) o Ht O (fun _ _ _ => I) Eo) as K. destruct o as [(v, p)|v]; [discriminate|]. destruct K as (A & _ & C & _).
    apply (IH v f ((nxt, e) :: acc) h ds); auto; [intros x Ix; apply H; right; exact Ix|]. cbn [TarAut.valid]. split; [exact A|]. split; [|exact V]. replace f with (S (f - 1)) at 1 by lia. apply tri_mid; assumption.
  Qed.
  Lemma hoare_complete : forall (Y : nat -> Prop) es nxt acc h ds b, edges_ok es -> okv np nxt -> within nxt Y -> zok Y es -> (forall p, Y p -> in_range (rg nxt p) (Z.to_N (zget (zrun es) p))) ->
    hoare net es nxt acc = Ok (h, ds, b) -> b = true.
  Proof.
    intros Y. induction es as [|f es IH]; intros nxt acc h ds b H O W K I E; cbn [hoare] in E; [injection E as _ _ <-; reflexivity|].
    destruct (hoare_post nxt (post (f - 1)) (pre (f - 1)) nxt) as [o| | |] eqn:Eo; cbn [bind] in E; try discriminate. destruct (H f (or_introl eq_refl)) as (Nz & Ht). assert (H' : edges_ok es) by (intros x Ix; apply H; right; exact Ix).
    pose proof (hoare_step (f - 1) nxt Y o Ht O W Eo) as S. destruct K as (K1 & K2). cbn [zrun fold_right] in I. fold (zrun es) in I. pose proof (zrun_len es H') as Lz. destruct (zfire_get (f - 1) (zrun es) Ht Lz) as (_ & Zg). destruct o as [(v, p)|v].
    - exfalso. destruct S as (Yp & Lt). specialize (I p Yp). rewrite Zg in I. specialize (K1 p Yp). destruct (ft_pos (post (f - 1)) p ltac:(lia)) as (iv & Iv & <-). pose proof (W32 (f - 1) iv Ht (or_intror Iv)) as Wv. rewrite (ft_in _ _ (post_nodup net L (f - 1) Ht) Iv) in *.
      destruct I as (_ & [I|I]); [rewrite I in Lt; change infinite with u32max in Lt; lia|lia].
    - destruct S as (A & B & _ & C). apply (IH v ((v, f) :: acc) h ds b H' A B K2); [|exact E]. intros p Yp. apply C.
      + specialize (K1 p Yp). lia.
      + specialize (I p Yp). rewrite Zg in I. specialize (K1 p Yp). replace (Z.to_N (zget (zrun es) p) - wi (f - 1) p + wo (f - 1) p)%N with (Z.to_N (zget (zrun es) p - Z.of_N (wi (f - 1) p) + Z.of_N (wo (f - 1) p))) by lia. exact I.
  Qed.
End Hoare.
