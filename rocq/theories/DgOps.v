(** The invariant under the elementary operations. *)
From Verif Require Import Base BaseLemmas DgSpec DgModel DgInv.
Set Implicit Arguments.

Lemma upd_upd : forall A (l : list A) i x y, upd (upd l i x) i y = upd l i y.
Proof. induction l as [|z l IH]; intros [|i] x y; cbn; auto. f_equal. apply IH. Qed.
Lemma incl_cons_r : forall A (x : A) l r, incl l r -> incl l (x :: r).
Proof. intros A x l r H y Hy. right. auto. Qed.

Section Ops.
  Variable conf : Type.
  Variable ceq : forall a b : conf, {a = b} + {a <> b}.
  Variable g : graph conf.
  Variable val : conf -> Prop.
  Variable depth : conf -> nat.
  Notation st := (st conf).
  Notation edge := (edge conf).
  Notation Sem := (Sem g val depth).

  Definition lists (s : st) (i : nat) : Prop := In i (s_W s) \/ In i (s_N s) \/ In i (s_D s).
  Definition Inv (own : conf -> list (option nat)) (H X : list nat) (s : st) : Prop :=
    (exists L, Refs L H s) /\ Sem own H X s.

  Lemma Refs_step : forall L H (s : st) L' H' (s' : st) i e', Refs L H s -> NoDup L' -> (forall c, ~ In c L' -> deps s' c = []) ->
    s_rec s' = s_rec s -> ~ In i (s_rec s) ->
    (forall j, j <> i -> tot L' H' s' j = tot L H s j) ->
    (forall j, j <> i -> ed s' j = ed s j) -> ed s' i = Some e' -> e_ref e' = Z.of_nat (tot L' H' s' i) ->
    (0 < e_status e' -> lists s' i) -> (forall j, j <> i -> lists s j -> lists s' j) -> Refs L' H' s'.
  Proof.
    intros L H s L' H' s' i e' R HL Hd Er Hi Ht Ee Ei Hr Hs Hl. split.
    - intros j Hj. destruct (Nat.eq_dec j i) as [->|Hn]; [exists e'; auto|]. rewrite (Ht j Hn) in *. rewrite (Ee j Hn). apply (r_occ R j Hj).
    - intros j Hj. rewrite Er in Hj. rewrite Ee by congruence. apply (r_rec R j Hj).
    - rewrite Er. apply (r_nodup R).
    - exact HL.
    - exact Hd.
    - intros j e Hj Hp. destruct (Nat.eq_dec j i) as [->|Hn]; [apply Hs; congruence|]. apply Hl; [exact Hn|]. rewrite (Ee j Hn) in Hj. apply (r_status R j Hj Hp).
  Qed.
  Lemma Refs_same : forall L H (s : st) L' H' (s' : st), Refs L H s -> NoDup L' -> (forall c, ~ In c L' -> deps s' c = []) ->
    s_rec s' = s_rec s -> (forall j, tot L' H' s' j = tot L H s j) -> (forall j, ed s' j = ed s j) ->
    (forall j, lists s j -> lists s' j) -> Refs L' H' s'.
  Proof.
    intros L H s L' H' s' R HL Hd Er Ht Ee Hl. split.
    - intros j Hj. rewrite Ht in *. rewrite Ee. apply (r_occ R j Hj).
    - intros j Hj. rewrite Er in Hj. rewrite Ee. apply (r_rec R j Hj).
    - rewrite Er. apply (r_nodup R).
    - exact HL.
    - exact Hd.
    - intros j e Hj Hp. apply Hl. rewrite Ee in Hj. apply (r_status R j Hj Hp).
  Qed.

  Lemma mem_ref : forall L H (s : st) i, Refs L H s -> mem H s i -> exists e, ed s i = Some e /\ e_ref e = Z.of_nat (tot L H s i) /\ 0 < tot L H s i.
  Proof. intros L H s i R M. apply (proj1 (mem_tot ceq i R)) in M. destruct (r_occ R i M) as (e & E1 & E2). exists e. auto. Qed.
  Lemma mem_rec : forall L H (s : st) i, Refs L H s -> mem H s i -> ~ In i (s_rec s).
  Proof.
    intros L H s i R M Hi. destruct (mem_ref R M) as (e & E1 & E2 & E3). destruct (r_rec R i Hi) as (e2 & E4 & E5 & _).
    rewrite E1 in E4. injection E4 as <-. lia.
  Qed.
  Lemma ref_nonneg_rec : forall L H (s : st) i e, Refs L H s -> ed s i = Some e -> (0 <= e_ref e)%Z -> ~ In i (s_rec s).
  Proof. intros L H s i e R E Hr Hi. destruct (r_rec R i Hi) as (e2 & E4 & E5 & _). rewrite E in E4. injection E4 as <-. lia. Qed.
  Lemma get_ok : forall own H X s i, Inv own H X s -> mem H s i ->
    exists e c, get s i = Ok (e, c) /\ ed s i = Some e /\ e_src e = Some c /\ (0 < e_ref e)%Z /\ asg_of s c <> Unknown /\
      (done (asg_of s c) = true \/ e_handled e = true \/ exists k, nth_error (own c) k = Some (Some i)).
  Proof.
    intros own H X s i ((L & R) & B) M. destruct (b_live B M) as (e & c & E1 & E2 & E3 & E4 & E5). exists e, c.
    destruct (mem_ref R M) as (e2 & E6 & E7 & E8). rewrite E1 in E6. injection E6 as <-.
    split; [|repeat split; auto; lia]. unfold get. rewrite (rd_ok _ _ E1). cbn [bind]. rewrite E2. destruct (Z.ltb_spec (e_ref e) 0); [lia|reflexivity].
  Qed.
  Lemma inv_mem_H : forall own H X s i, Inv own H X s -> In i H -> mem H s i.
  Proof. intros. right. right. right. left. assumption. Qed.
  (** an edge with one reference, held, is nowhere else *)
  Lemma only_held : forall own H X s i e, Inv own H X s -> In i H -> ed s i = Some e -> e_ref e = 1%Z ->
    ~ lists s i /\ (forall c, ~ In i (deps s c)) /\ occ H i = 1 /\ e_status e = 0.
  Proof.
    intros own H X s i e ((L & R) & B) Hi E Hr. assert (M : mem H s i) by (right; right; right; left; exact Hi).
    destruct (mem_ref R M) as (e2 & E6 & E7 & E8). rewrite E in E6. injection E6 as <-. assert (T : tot L H s i = 1) by lia.
    assert (Hi' := Hi). apply occ_in in Hi'. unfold tot in T.
    assert (NL : ~ lists s i).
    { intros [G|[G|G]]; apply occ_in in G; lia. }
    split; [exact NL|]. split; [|split; [lia|]].
    - intros c Hc. destruct (in_dec ceq c L) as [G|G]; [|rewrite (r_Ld R c G) in Hc; destruct Hc].
      assert (0 < depsum L s i) by (apply depsum_in with c; auto). lia.
    - destruct (e_status e) eqn:Es; [reflexivity|]. exfalso. apply NL. apply (r_status R i E). lia.
  Qed.

  Lemma unproc_frame : forall X X' (s s' : st), unproc X s -> (forall c, s_cfg s' c = s_cfg s c) ->
    s_W s' = s_W s -> s_N s' = s_N s -> s_D s' = s_D s -> incl X X' ->
    (forall j e', ed s' j = Some e' -> (0 <= e_ref e')%Z -> ~ In j X -> exists e, ed s j = Some e /\ (0 <= e_ref e)%Z /\ e_processed e' = e_processed e) ->
    unproc X' s'.
  Proof.
    intros X X' s s' U Ec EW EN ED HX He j e' E Hr Hp Hj. assert (Hj' : ~ In j X) by auto. destruct (He j e' E Hr Hj') as (e & E1 & E2 & E3).
    rewrite E3 in Hp. destruct (U j e E1 E2 Hp Hj') as (U1 & U2 & U3 & U4). rewrite EW, EN, ED. split; [exact U1|]. split; [exact U2|]. split; [|exact U4].
    intros c. unfold deps. rewrite Ec. apply U3.
  Qed.

  (** elements leave the exempt set *)
  Lemma Inv_X : forall own H X X' s, Inv own H X s -> incl X' X ->
    (forall i e, In i X -> ~ In i X' -> ed s i = Some e -> (forall c, e_src e = Some c -> e_handled e = false -> asg_of s c = Zero -> In i (s_W s) \/ In i (s_D s) \/
       (e_processed e = true /\ if e_neg e then In i (s_N s) /\ (forall t, In t (e_tgts e) -> asg_of s t <> Unknown)
        else (exists t, In t (e_tgts e) /\ asg_of s t = Zero) /\ (forall t, In t (e_tgts e) -> undone s t))) /\
      (e_processed e = true \/ (~ In i (s_N s) /\ ~ In i (s_D s) /\ (forall c, ~ In i (deps s c)) /\ occ (s_W s) i <= 1))) ->
    Inv own H X' s.
  Proof.
    intros own H X X' s ((L & R) & B) HX HW. split; [exists L; exact R|].
    split; try (solve [apply B]).
    - intros c k h i Hc Hh Hk. destruct (b_edge B c k Hc Hh Hk) as (e & E1 & E2 & E3). exists e. split; [exact E1|]. split; [exact E2|].
      destruct (in_dec Nat.eq_dec i X') as [Hi|Hi]; [left; exact Hi|]. right. destruct E3 as [E3|E3]; [|exact E3]. destruct E2 as (O1 & O2 & O3 & _).
      exact (proj1 (HW i e E3 Hi E1) c O1 O3 Hc).
    - intros x Hx. apply (b_X B). auto.
    - intros i e E Hr Hp Hi. destruct (in_dec Nat.eq_dec i X) as [Hi'|Hi'].
      + destruct (HW i e Hi' Hi E) as (_ & [G|G]); [congruence|exact G].
      + apply (b_un B i E Hr Hp Hi').
  Qed.

  (** the counter of an edge goes down; the edge is released if nothing is left *)
  Definition unref (s : st) (i : nat) (e : edge) : st := set_edge s i (set_ref e (e_ref e - 1)).
  Lemma ed_set : forall (s : st) i e e', ed s i = Some e -> ed (set_edge s i e') i = Some e'.
  Proof. intros s i e e' E. unfold ed, set_edge. cbn. eapply nth_upd_some. exact E. Qed.
  Lemma ed_set_ne : forall (s : st) i j e', j <> i -> ed (set_edge s i e') j = ed s j.
  Proof. intros s i j e' E. unfold ed, set_edge. cbn. apply nth_upd_ne. congruence. Qed.
  Lemma ed_lists : forall (s : st) W N D j, ed (set_lists s W N D) j = ed s j.
  Proof. reflexivity. Qed.

  Lemma unref_ok : forall own H H0 X s i e, Inv own H X s -> (forall j, occ H j = occ (i :: H0) j) -> incl X H0 -> ed s i = Some e ->
    Inv own H0 X (unref s i e).
  Proof.
    intros own H H0 X s i e ((L & R) & B) HH HX E. assert (Hi : In i H) by (apply occ_in; rewrite HH, occ_cons; destruct (Nat.eq_dec i i); lia).
    assert (M : mem H s i) by (right; right; right; left; exact Hi). destruct (mem_ref R M) as (e2 & E6 & E7 & E8). rewrite E in E6. injection E6 as <-.
    assert (Ei : ed (unref s i e) i = Some (set_ref e (e_ref e - 1))) by (eapply ed_set; exact E).
    assert (En : forall j, j <> i -> ed (unref s i e) j = ed s j) by (intros j Hj; apply ed_set_ne; exact Hj).
    assert (HI : incl H0 H).
    { intros x Hx. apply occ_in. rewrite HH, occ_cons. apply occ_in in Hx. lia. }
    split.
    - exists L. apply Refs_step with (L := L) (H := H) (s := s) (i := i) (e' := set_ref e (e_ref e - 1)); auto; try (solve [apply R]).
      + apply (mem_rec R M).
      + intros j Hj. unfold tot. cbn. fold (depsum L (unref s i e) j). rewrite HH, occ_cons. destruct (Nat.eq_dec i j); [congruence|]. reflexivity.
      + cbn [e_ref set_ref]. rewrite E7. assert (T : tot L H s i = S (tot L H0 (unref s i e) i)); [|lia].
        unfold tot. rewrite HH, occ_cons. destruct (Nat.eq_dec i i); [|congruence].
        change (depsum L (unref s i e) i) with (depsum L s i). cbn [unref set_edge s_W s_N s_D]. lia.
      + cbn. intros Hs. apply (r_status R i E Hs).
    - apply Sem_frame with (H := H) (X := X) (s := s); auto.
      + intros j [G|[G|[G|[G|G]]]]; unfold mem; auto 6.
      + intros j e2 Mj Ej. destruct (Nat.eq_dec j i) as [->|Hn].
        * rewrite E in Ej. injection Ej as <-. eexists. split; [exact Ei|]. split; [reflexivity|]. cbn. lia.
        * exists e2. rewrite (En j Hn). split; [exact Ej|]. split; [reflexivity|]. assert (Mj' : mem H s j) by (destruct Mj as [G|[G|[G|[G|G]]]]; unfold mem; auto 6).
          destruct (mem_ref R Mj') as (e3 & E3 & E4 & _). rewrite Ej in E3. injection E3 as <-. lia.
      + apply unproc_frame with (X := X) (s := s); auto; [apply B|apply incl_refl|].
        intros j e' Ej Hr Hj. destruct (Nat.eq_dec j i) as [->|Hn].
        * rewrite Ei in Ej. injection Ej as <-. exists e. cbn in *. repeat split; auto. lia.
        * rewrite (En j Hn) in Ej. exists e'. auto.
  Qed.
  Lemma release_ok : forall own H X s i e, Inv own H X s -> ed s i = Some e -> e_ref e = 0%Z ->
    exists s', release s i = Ok s' /\ Inv own H X s' /\ (forall c, s_cfg s' c = s_cfg s c) /\ s_W s' = s_W s /\ s_N s' = s_N s /\ s_D s' = s_D s /\
      s_rec s' = i :: s_rec s /\ (forall j, j <> i -> ed s' j = ed s j) /\ ~ mem H s' i.
  Proof.
    intros own H X s i e ((L & R) & B) E Hr. unfold release. rewrite (rd_ok _ _ E). cbn [bind]. rewrite Hr. cbn [Z.eqb negb].
    eexists. split; [reflexivity|].
    set (s' := mkSt (s_cfg s) (upd (s_edges s) i (mkEdge None [] false (e_status e) false false (-1))) (i :: s_rec s) (s_W s) (s_N s) (s_D s)).
    assert (T : tot L H s i = 0).
    { destruct (tot L H s i) eqn:T; [reflexivity|]. destruct (r_occ R i) as (e2 & E2 & E3); [lia|]. rewrite E in E2. injection E2 as <-. lia. }
    assert (Hrec : ~ In i (s_rec s)) by (eapply ref_nonneg_rec; [exact R|exact E|lia]).
    assert (Nm : ~ mem H s i) by (rewrite (mem_tot ceq i R); lia).
    assert (Ei : ed s' i = Some (mkEdge None [] false (e_status e) false false (-1))) by (eapply nth_upd_some; exact E).
    assert (En : forall j, j <> i -> ed s' j = ed s j) by (intros j Hj; apply nth_upd_ne; congruence).
    assert (Hst : e_status e = 0).
    { destruct (e_status e) eqn:Es; [reflexivity|]. exfalso. apply Nm. destruct (r_status R i E) as [G|[G|G]]; [lia| | |]; unfold mem; auto. }
    split; [split|].
    - exists L. split; try (solve [apply R]).
      + intros j Hj. change (tot L H s' j) with (tot L H s j) in *. rewrite En; [apply (r_occ R j Hj)|]. intros ->. lia.
      + intros j [<-|Hj]; [eexists; split; [exact Ei|]; auto|]. rewrite En by congruence. apply (r_rec R j Hj).
      + constructor; [exact Hrec|apply R].
      + intros j e2 Ej Hs. destruct (Nat.eq_dec j i) as [->|Hn]; [|rewrite (En j Hn) in Ej; apply (r_status R j Ej Hs)].
        rewrite Ei in Ej. injection Ej as <-. cbn in Hs. lia.
    - apply Sem_frame with (H := H) (X := X) (s := s); auto; try (solve [apply B]).
      + intros j e2 Mj Ej. change (mem H s j) in Mj. exists e2. rewrite En by (intros ->; contradiction). split; [exact Ej|]. split; [reflexivity|].
        destruct (mem_ref R Mj) as (e3 & E3 & E4 & _). rewrite Ej in E3. injection E3 as <-. lia.
      + apply unproc_frame with (X := X) (s := s); auto; [apply B|apply incl_refl|].
        intros j e' Ej Hr' Hj. destruct (Nat.eq_dec j i) as [->|Hn].
        * rewrite Ei in Ej. injection Ej as <-. cbn in Hr'. lia.
        * rewrite (En j Hn) in Ej. exists e'. auto.
    - repeat split; auto.
  Qed.
  Lemma drop_ok : forall own H H0 X s i, Inv own H X s -> (forall j, occ H j = occ (i :: H0) j) -> incl X H0 ->
    exists s', drop s i = Ok s' /\ Inv own H0 X s' /\ (forall c, s_cfg s' c = s_cfg s c) /\ s_W s' = s_W s /\ s_N s' = s_N s /\ s_D s' = s_D s /\
      incl (s_rec s) (s_rec s') /\ (forall j, j <> i -> ed s' j = ed s j) /\
      (mem H0 s' i -> forall e, ed s i = Some e -> exists e', ed s' i = Some e' /\ sem e' = sem e) /\
      (forall e, ed s i = Some e -> e_ref e = 1%Z -> In i (s_rec s')).
  Proof.
    intros own H H0 X s i I HH HX. assert (Hi : In i H) by (apply occ_in; rewrite HH, occ_cons; destruct (Nat.eq_dec i i); lia).
    assert (M : mem H s i) by (right; right; right; left; exact Hi). destruct (get_ok I M) as (e & c & G & E & Es & Hr & _).
    assert (J := unref_ok i I HH HX E). unfold drop. rewrite G. cbn [bind fst].
    fold (unref s i e). assert (Ei : ed (unref s i e) i = Some (set_ref e (e_ref e - 1))) by (eapply ed_set; exact E).
    cbn [e_ref set_ref]. destruct (Z.eqb_spec (e_ref e - 1) 0) as [Hz|Hz].
    - destruct (@release_ok own H0 X (unref s i e) i _ J Ei Hz) as (s' & D1 & D2 & D3 & D4 & D5 & D6 & D7 & D8 & D9). exists s'.
      split; [exact D1|]. split; [exact D2|]. split; [exact D3|]. split; [exact D4|]. split; [exact D5|]. split; [exact D6|]. split.
      + rewrite D7. apply incl_tl, incl_refl.
      + split; [intros j Hj; rewrite (D8 j Hj); apply ed_set_ne; exact Hj|]. split; [contradiction|]. intros e2 _ _. rewrite D7. left. reflexivity.
    - eexists. split; [reflexivity|]. split; [exact J|]. split; [reflexivity|]. split; [reflexivity|]. split; [reflexivity|]. split; [reflexivity|].
      split; [apply incl_refl|]. split; [intros j Hj; apply ed_set_ne; exact Hj|]. split.
      + intros _ e2 E2. rewrite E in E2. injection E2 as <-. eexists. split; [exact Ei|reflexivity].
      + intros e2 E2 Hr2. rewrite E in E2. injection E2 as <-. lia.
  Qed.
End Ops.
