(** Reading back what the binary query writer wrote. *)
From Verif Require Import Base BaseLemmas NetSpec PqlSyntax PqlSpec PqlModel PqlProofs BinSpec BinModel.
Set Implicit Arguments.

Lemma le_length : forall k n, length (le k n) = k.
Proof. induction k; intros n; cbn; auto. Qed.
Lemma unle_le : forall k n, (n < 256 ^ N.of_nat k)%N -> unle (le k n) = n.
Proof.
  induction k as [|k IH]; intros n H; [cbn in *; lia|]. cbn [le unle].
  rewrite IH; [symmetry; rewrite (N.div_mod n 256) at 1 by lia; lia|].
  replace (N.of_nat (S k)) with (N.succ (N.of_nat k)) in H by lia. rewrite N.pow_succ_r' in H. apply N.div_lt_upper_bound; lia.
Qed.
Lemma read_app : forall a r, read (length a) (a ++ r) = Ok (a, r).
Proof.
  intros a r. unfold read. replace (length (a ++ r) <? length a) with false; [|symmetry; apply Nat.ltb_ge; rewrite app_length; lia].
  rewrite firstn_app, Nat.sub_diag, firstn_all, firstn_O, app_nil_r, skipn_app, skipn_all, Nat.sub_diag. reflexivity.
Qed.
Lemma read_le : forall k n r, read k (le k n ++ r) = Ok (le k n, r).
Proof. intros k n r. rewrite <- (le_length k n) at 1. apply read_app. Qed.
Lemma r32_w32 : forall n r, (n < 2 ^ 32)%N -> r32 (w32 n ++ r) = Ok (n, r).
Proof. intros n r H. unfold r32, w32. rewrite read_le. cbn [bind fst snd]. rewrite unle_le; [reflexivity|exact H]. Qed.
Lemma ri32_wi32 : forall z r, int32 z = true -> ri32 (wi32 z ++ r) = Ok (z, r).
Proof.
  intros z r H. unfold int32 in H. apply andb_prop in H. destruct H as (H1 & H2). apply Z.leb_le in H1. apply Z.ltb_lt in H2.
  assert (M := Z.mod_pos_bound z (2 ^ 32) ltac:(lia)). unfold ri32, wi32.
  change (le 4 (Z.to_N (z mod 2 ^ 32))) with (w32 (Z.to_N (z mod 2 ^ 32))).
  rewrite r32_w32; [|lia]. cbn [bind fst snd]. f_equal. f_equal. unfold sign32.
  destruct (Z_lt_le_dec z 0) as [L|L].
  - assert (E : (z mod 2 ^ 32 = z + 2 ^ 32)%Z) by (rewrite <- (Z_mod_plus_full z 1 (2 ^ 32)), Z.mul_1_l; apply Z.mod_small; lia).
    replace (Z.to_N (z mod 2 ^ 32) <? 2 ^ 31)%N with false by (symmetry; apply N.ltb_ge; lia). rewrite Z2N.id by lia. lia.
  - assert (E : (z mod 2 ^ 32 = z)%Z) by (apply Z.mod_small; lia).
    replace (Z.to_N (z mod 2 ^ 32) <? 2 ^ 31)%N with true by (symmetry; apply N.ltb_lt; lia). rewrite Z2N.id by lia. lia.
Qed.
Lemma rbool_w : forall b r, rbool ([wbool b] ++ r) = Ok (b, r).
Proof. intros b r. unfold rbool. change 1 with (length [wbool b]). rewrite read_app. destruct b; reflexivity. Qed.
Lemma getline_app : forall s r, ~ In 0%N s -> getline (s ++ [0%N] ++ r) = (s, r).
Proof.
  induction s as [|b s IH]; intros r H; [reflexivity|]. cbn [app getline]. replace (b =? 0)%N with false.
  - change (s ++ 0%N :: r) with (s ++ [0%N] ++ r). rewrite IH; [reflexivity|]. intros K. apply H. right. exact K.
  - symmetry. apply N.eqb_neq. intros ->. apply H. left. reflexivity.
Qed.

Lemma times_spec : forall A B (pr : A -> list N) (f : list N -> res (B * list N)) (R : A -> B -> Prop) l r,
  (forall x, In x l -> forall r, exists y, f (pr x ++ r) = Ok (y, r) /\ R x y) ->
  exists l', times f (length l) (flat_map pr l ++ r) = Ok (l', r) /\ Forall2 R l l'.
Proof.
  intros A B pr f R l r. induction l as [|x l IH]; intros H; [exists []; split; [reflexivity|constructor]|].
  destruct (H x (or_introl eq_refl) (flat_map pr l ++ r)) as (y & Hy & Ry). destruct IH as (l' & E & F); [intros z Hz; apply H; right; exact Hz|].
  exists (y :: l'). cbn [length times flat_map]. rewrite <- app_assoc, Hy. cbn [bind fst snd]. rewrite E. cbn [bind fst snd]. split; [reflexivity|constructor; auto].
Qed.
Lemma flat_map_len : forall A (pr : A -> list N) l, (forall x, In x l -> 1 <= length (pr x)) -> length l <= length (flat_map pr l).
Proof.
  intros A pr l. induction l as [|x l IH]; intros H; [cbn; lia|]. cbn [length flat_map]. rewrite app_length.
  assert (H1 := H x (or_introl eq_refl)). assert (length l <= length (flat_map pr l)) by (apply IH; intros y Hy; apply H; right; exact Hy). lia.
Qed.
Lemma flat_map_in_len : forall A (pr : A -> list N) l x, In x l -> length (pr x) <= length (flat_map pr l).
Proof.
  intros A pr l x. induction l as [|y l IH]; intros H; [destruct H|]. cbn [flat_map]. rewrite app_length. destruct H as [->|H]; [lia|]. specialize (IH H). lia.
Qed.
Lemma times_n_spec : forall A B (pr : A -> list N) (f : list N -> res (B * list N)) (R : A -> B -> Prop) l r,
  (forall x, In x l -> 1 <= length (pr x)) ->
  (forall x, In x l -> forall r, exists y, f (pr x ++ r) = Ok (y, r) /\ R x y) ->
  exists l', times_n f (N.of_nat (length l)) (flat_map pr l ++ r) = Ok (l', r) /\ Forall2 R l l'.
Proof.
  intros A B pr f R l r Hn H. unfold times_n. replace (N.of_nat (length (flat_map pr l ++ r)) <? N.of_nat (length l))%N with false.
  - rewrite Nat2N.id. apply times_spec. exact H.
  - symmetry. apply N.ltb_ge. rewrite app_length. assert (K := flat_map_len pr l Hn). lia.
Qed.

Section Np.
  Variable np : nat.
  Lemma placeb_spec : forall p, placeb np p = true -> p < np /\ (N.of_nat p < 2 ^ 31)%N.
  Proof. intros p H. unfold placeb in H. apply andb_prop in H. destruct H as (H1 & H2). apply Nat.ltb_lt in H1. apply N.ltb_lt in H2. auto. Qed.
  Lemma place_ok : forall p, placeb np p = true -> place np (N.of_nat p) = Ok p.
  Proof.
    intros p H. apply placeb_spec in H. destruct H as (H1 & _). unfold place. replace (N.of_nat p <? N.of_nat np)%N with true by (symmetry; apply N.ltb_lt; lia).
    rewrite Nat2N.id. reflexivity.
  Qed.
  Lemma rplace_w : forall p r, placeb np p = true -> rplace np (w32 (N.of_nat p) ++ r) = Ok (p, r).
  Proof.
    intros p r H. unfold rplace. rewrite r32_w32; [|apply placeb_spec in H; lia]. cbn [bind fst snd]. rewrite (place_ok _ H). reflexivity.
  Qed.
  Lemma print_expr_len : forall e, 1 <= length (print_expr e).
  Proof. induction e; cbn [print_expr length]; lia. Qed.
  Lemma len32_spec : forall A (l : list A), len32 l = true -> (N.of_nat (length l) < 2 ^ 32)%N.
  Proof. intros A l H. apply N.ltb_lt. exact H. Qed.
  Lemma Forall2_eq : forall A (l l' : list A), Forall2 eq l l' -> l' = l.
  Proof. intros A l l' H. induction H; congruence. Qed.
  Definition veq (e e' : expr) : Prop := forall m, den m e' = den m e.
  Lemma veq_map : forall m es es', Forall2 veq es es' -> map (den m) es' = map (den m) es.
  Proof. intros m es es' H. induction H as [|e e' es es' He Hs IH]; [reflexivity|]. cbn [map]. rewrite IH, (He m). reflexivity. Qed.
  Lemma fold_add_app : forall a b, fold_right Z.add 0%Z (a ++ b) = (fold_right Z.add 0 a + fold_right Z.add 0 b)%Z.
  Proof. induction a as [|x a IH]; intros b; [reflexivity|]. cbn. rewrite IH. lia. Qed.
  Lemma fold_mul_app : forall a b, fold_right Z.mul 1%Z (a ++ b) = (fold_right Z.mul 1 a * fold_right Z.mul 1 b)%Z.
  Proof. induction a as [|x a IH]; intros b; cbn [app fold_right]; [lia|]. rewrite IH. ring. Qed.

  Lemma rd1 : forall c bs, read 1 (c :: bs) = Ok ([c], bs).
  Proof. intros c bs. apply (read_app [c] bs). Qed.

  Lemma parse_comm : forall (mul : bool) c ids es fuel r,
    int32 c = true -> forallb (placeb np) ids = true -> len32 ids = true -> len32 es = true ->
    (forall x, In x es -> forall r, exists y, parse_expr np fuel (print_expr x ++ r) = Ok (y, r) /\ veq x y) ->
    exists e', parse_expr np (S fuel) (((if mul then ch_mul else ch_plus) :: wi32 c ++ w32 (N.of_nat (length ids)) ++ w32 (N.of_nat (length es)) ++
                    flat_map (fun p => w32 (N.of_nat p)) ids ++ flat_map print_expr es) ++ r) = Ok (e', r) /\ veq (if mul then Mul c ids es else Plus c ids es) e'.
  Proof.
    intros mul c ids es fuel r Hc Hids Hl1 Hl2 He.
    destruct (@times_n_spec nat nat (fun p => w32 (N.of_nat p)) (rplace np) eq ids (flat_map print_expr es ++ r)) as (ids' & E1 & F1).
    { intros x _. unfold w32. rewrite le_length. lia. }
    { intros x Hx r'. exists x. split; [|reflexivity]. apply rplace_w. rewrite forallb_forall in Hids. apply Hids, Hx. }
    apply Forall2_eq in F1. subst ids'.
    destruct (@times_n_spec expr expr print_expr (parse_expr np fuel) veq es r) as (es' & E2 & F2); [intros x _; apply print_expr_len|exact He|].
    exists (if mul then mk_mul (Lit c :: map Pl ids ++ es') else mk_plus (Lit c :: map Pl ids ++ es')).
    cbn [parse_expr]. rewrite <- app_comm_cons, rd1. cbn [bind fst snd hd].
    replace ((if mul then ch_mul else ch_plus) =? ch_l)%N with false by (destruct mul; reflexivity).
    replace ((if mul then ch_mul else ch_plus) =? ch_i)%N with false by (destruct mul; reflexivity).
    replace ((if mul then ch_mul else ch_plus) =? ch_minus)%N with false by (destruct mul; reflexivity).
    replace (((if mul then ch_mul else ch_plus) =? ch_mul)%N || ((if mul then ch_mul else ch_plus) =? ch_plus)%N) with true by (destruct mul; reflexivity).
    rewrite <- !app_assoc. rewrite ri32_wi32 by exact Hc. cbn [bind fst snd]. rewrite r32_w32 by (apply len32_spec; exact Hl1). cbn [bind fst snd].
    rewrite r32_w32 by (apply len32_spec; exact Hl2). cbn [bind fst snd]. rewrite E1. cbn [bind fst snd]. rewrite E2. cbn [bind fst snd].
    split; [destruct mul; reflexivity|]. intros m. destruct mul.
    - rewrite mk_mul_den. cbn [map fold_right den]. rewrite map_app, map_map, fold_mul_app, (veq_map m F2). cbn [den]. ring.
    - rewrite mk_plus_den. cbn [map fold_right den]. rewrite map_app, map_map, fold_add_app, (veq_map m F2). cbn [den]. ring.
  Qed.

  Lemma parse_expr_ok : forall e, fite np e = true -> forall fuel r, length (print_expr e) <= fuel ->
    exists e', parse_expr np fuel (print_expr e ++ r) = Ok (e', r) /\ veq e e'.
  Proof.
    induction e using expr_ind'; cbn [fite]; intros Hf fuel r Hl; (destruct fuel as [|fuel]; [exfalso; match type of Hl with length (print_expr ?x) <= 0 => pose proof (print_expr_len x) end; lia|]).
    - exists (Lit z). cbn [parse_expr print_expr]. rewrite <- app_comm_cons, rd1. cbn [bind fst snd hd].
      change (ch_l =? ch_l)%N with true. cbn match. rewrite ri32_wi32 by exact Hf. split; [reflexivity|]. intros m. reflexivity.
    - exists (Pl p). cbn [parse_expr print_expr]. rewrite <- app_comm_cons, rd1. cbn [bind fst snd hd].
      change (ch_i =? ch_l)%N with false. change (ch_i =? ch_i)%N with true. cbn match.
      assert (Hp := placeb_spec _ Hf). rewrite ri32_wi32; [|unfold int32; apply andb_true_intro; split; [apply Z.leb_le|apply Z.ltb_lt]; lia].
      cbn [bind fst snd]. unfold placez. replace (0 <=? Z.of_nat p)%Z with true by (symmetry; apply Z.leb_le; lia).
      replace (Z.to_N (Z.of_nat p)) with (N.of_nat p) by lia. rewrite (place_ok _ Hf). split; [reflexivity|intros m; reflexivity].
    - destruct (IHe Hf (S fuel) r Hl) as (e' & E & V). exists e'. split; [exact E|exact V].
    - destruct (@times_n_spec expr expr print_expr (parse_expr np fuel) veq [Lit 0; e] r) as (es' & E2 & F2); [intros x _; apply print_expr_len| |].
      { intros x [<-|[<-|[]]] r'.
        - exists (Lit 0). split; [|intros m; reflexivity]. cbn [print_expr length] in Hl. destruct fuel as [|fuel]; [cbn in Hl; lia|]. cbn [parse_expr print_expr].
          rewrite <- app_comm_cons, rd1. cbn [bind fst snd hd]. change (ch_l =? ch_l)%N with true. cbn match. rewrite ri32_wi32 by reflexivity. reflexivity.
        - apply (IHe Hf). cbn [print_expr length] in Hl. rewrite !app_length in Hl. lia. }
      inversion F2 as [|? ? ? ? V1 F3]; subst. inversion F3 as [|? ? ? ? V2 F4]; subst. inversion F4; subst.
      exists (Sub y [y0]). cbn [parse_expr print_expr]. rewrite <- app_comm_cons, rd1. cbn [bind fst snd hd].
      change (ch_minus =? ch_l)%N with false. change (ch_minus =? ch_i)%N with false. change (ch_minus =? ch_minus)%N with true. cbn match.
      rewrite <- !app_assoc. rewrite r32_w32 by reflexivity. cbn [bind fst snd].
      change (flat_map print_expr [Lit 0; e]) with (print_expr (Lit 0) ++ print_expr e ++ []) in E2. rewrite app_nil_r, <- app_assoc in E2.
      change (N.of_nat (length [Lit 0; e])) with 2%N in E2. cbn [print_expr] in E2. rewrite E2. split; [reflexivity|].
      intros m. cbn [den map fold_right]. rewrite (V1 m), (V2 m). cbn [den]. lia.
    - apply andb_prop in Hf. destruct Hf as (Hf & Hn). apply andb_prop in Hf. destruct Hf as (Hf & Hfs). rewrite forallb_forall in Hfs. rewrite Forall_forall in H.
      cbn [print_expr length] in Hl. rewrite !app_length in Hl.
      destruct (@times_n_spec expr expr print_expr (parse_expr np fuel) veq (e :: es) r) as (es' & E2 & F2); [intros x _; apply print_expr_len| |].
      { intros x [<-|Hx] r'; [apply (IHe Hf); lia|]. apply (H x Hx (Hfs x Hx)). assert (K := flat_map_in_len print_expr es x Hx). lia. }
      inversion F2 as [|? ? ? ? V1 F3]; subst.
      exists (Sub y l'). cbn [parse_expr print_expr]. rewrite <- app_comm_cons, rd1. cbn [bind fst snd hd].
      change (ch_minus =? ch_l)%N with false. change (ch_minus =? ch_i)%N with false. change (ch_minus =? ch_minus)%N with true. cbn match.
      rewrite <- !app_assoc. rewrite r32_w32 by (apply N.ltb_lt in Hn; exact Hn). cbn [bind fst snd].
      cbn [flat_map length] in E2. rewrite <- app_assoc in E2. rewrite E2. split; [reflexivity|]. intros m. cbn [den]. rewrite (V1 m), (veq_map m F3). reflexivity.
    - do 4 (apply andb_prop in Hf; let K := fresh "K" in destruct Hf as (Hf & K)). rewrite forallb_forall in K1. rewrite Forall_forall in H.
      cbn [print_expr length] in Hl. rewrite !app_length in Hl. apply (@parse_comm false c ids es fuel r); auto.
      intros x Hx r'. apply (H x Hx (K1 x Hx)). assert (K' := flat_map_in_len print_expr es x Hx). lia.
    - do 4 (apply andb_prop in Hf; let K := fresh "K" in destruct Hf as (Hf & K)). rewrite forallb_forall in K1. rewrite Forall_forall in H.
      cbn [print_expr length] in Hl. rewrite !app_length in Hl. apply (@parse_comm true c ids es fuel r); auto.
      intros x Hx r'. apply (H x Hx (K1 x Hx)). assert (K' := flat_map_in_len print_expr es x Hx). lia.
  Qed.

  Lemma w2_length : forall p, length (w2 p) = 8.
  Proof. intros p. unfold w2, wi32. rewrite app_length, !le_length. reflexivity. Qed.
  Lemma print_len : forall f, 8 <= length (print f).
  Proof. intros f. destruct f; cbn [print]; rewrite ?app_length, w2_length; lia. Qed.

  Lemma rcons_w : forall c r, fitc np c = true -> rcons np ((w32 (N.of_nat (c_place c)) ++ w32 (c_lower c) ++ w32 (c_upper c)) ++ r) = Ok (c, r).
  Proof.
    intros c r H. unfold fitc in H. apply andb_prop in H. destruct H as (H & H3). apply andb_prop in H. destruct H as (H1 & H2). apply N.ltb_lt in H2, H3.
    unfold rcons. rewrite <- !app_assoc. rewrite r32_w32; [|apply placeb_spec in H1; lia]. cbn [bind fst snd]. rewrite r32_w32 by exact H2. cbn [bind fst snd].
    rewrite r32_w32 by exact H3. cbn [bind fst snd]. rewrite (place_ok _ H1). cbn [bind]. destruct c; reflexivity.
  Qed.
  Lemma fitd_len : forall d, fitd d = true -> length d = 8.
  Proof. intros d H. unfold fitd in H. apply andb_prop in H. apply Nat.eqb_eq. apply H. Qed.
  Lemma read8 : forall d r, fitd d = true -> read 8 (d ++ r) = Ok (d, r).
  Proof. intros d r H. rewrite <- (fitd_len _ H). apply read_app. Qed.
  Lemma rbound_w : forall q r, placeb np (fst q) && fitd (snd q) = true -> rbound np ((w32 (N.of_nat (fst q)) ++ snd q) ++ r) = Ok (q, r).
  Proof.
    intros q r H. apply andb_prop in H. destruct H as (H1 & H2). unfold rbound. rewrite <- app_assoc, rplace_w by exact H1. cbn [bind fst snd].
    rewrite read8 by exact H2. cbn [bind fst snd]. destruct q; reflexivity.
  Qed.

  (** the reader after the two codes *)
  Lemma parse_codes : forall fuel p q r (K : res (form * list N)), int32 p = true -> int32 q = true ->
    parse_form np (S fuel) (w2 (p, q) ++ r) =
    (let bs := r in
      if (p =? pError)%Z then
        if (q =? qNEG)%Z then c <- parse_form np fuel bs ;; Ok (F1 HNot (fst c), snd c)
        else if (q =? qDEADLOCK)%Z then Ok (FDead, bs)
        else if (q =? qPN_BOOLEAN)%Z then b <- rbool bs ;; Ok (FBool (fst b), snd b)
        else if (q =? qAND)%Z || (q =? qOR)%Z then
          n <- r32 bs ;;
          l <- times_n (parse_form np fuel) (fst n) (snd n) ;;
          Ok (if (q =? qAND)%Z then FAnd (fst l) else FOr (fst l), snd l)
        else if (q =? qCOMPCONJ)%Z then
          b <- rbool bs ;;
          n <- r32 (snd b) ;;
          l <- times_n (rcons np) (fst n) (snd n) ;;
          Ok (FConj (fst b) (fst l), snd l)
        else if (q =? qEMPTY)%Z then
          let s := getline bs in
          a <- parse_expr np fuel (snd s) ;;
          b <- parse_expr np fuel (snd a) ;;
          let a' := fst a in
          let b' := fst b in
          if eqs (fst s) [ch_lt] then Ok (FCmp OpLt a' b', snd b)
          else if eqs (fst s) [ch_lt; ch_eq] then Ok (FCmp OpLe a' b', snd b)
          else if eqs (fst s) [ch_gt; ch_eq] then Ok (FCmp OpLe b' a', snd b)
          else if eqs (fst s) [ch_gt] then Ok (FCmp OpLt b' a', snd b)
          else if eqs (fst s) [ch_eq; ch_eq] then Ok (FCmp OpEq a' b', snd b)
          else if eqs (fst s) [ch_bang; ch_eq] then Ok (FCmp OpNe a' b', snd b)
          else Throw
        else if (q =? qUPPERBOUNDS)%Z then
          n <- r32 bs ;;
          mx <- read 8 (snd n) ;;
          off <- read 8 (snd mx) ;;
          l <- times_n (rbound np) (fst n) (snd off) ;;
          Ok (FBounds (fst mx) (fst off) (fst l), snd l)
        else if (q =? qA)%Z || (q =? qE)%Z then
          c <- parse_form np fuel bs ;;
          Ok (F1 (if (q =? qA)%Z then HA else HE) (fst c), snd c)
        else Throw
      else
        c <- parse_form np fuel bs ;;
        if (p =? pX)%Z then Ok (F1 (if (q =? qEMPTY)%Z then HX else if (q =? qA)%Z then HAX else HEX) (fst c), snd c)
        else if (p =? pF)%Z then Ok (F1 (if (q =? qEMPTY)%Z then HF else if (q =? qA)%Z then HAF else HEF) (fst c), snd c)
        else if (p =? pG)%Z then Ok (F1 (if (q =? qEMPTY)%Z then HG else if (q =? qA)%Z then HAG else HEG) (fst c), snd c)
        else if (p =? pU)%Z then
          d <- parse_form np fuel (snd c) ;;
          Ok (F2 (if (q =? qEMPTY)%Z then HU else if (q =? qA)%Z then HAU else HEU) (fst c) (fst d), snd d)
        else if (p =? pPControl)%Z then Ok (F1 HControl (fst c), snd c)
        else Throw).
  Proof.
    intros fuel p q r _ Hp Hq. cbn [parse_form]. unfold w2. cbn [fst snd]. rewrite <- app_assoc.
    rewrite ri32_wi32 by exact Hp. cbn [bind fst snd]. rewrite ri32_wi32 by exact Hq. reflexivity.
  Qed.

  Lemma parse_form_ok : forall f, fit np f = true -> forall fuel r, length (print f) <= fuel ->
    exists f', parse_form np fuel (print f ++ r) = Ok (f', r) /\ same f f'.
  Proof.
    induction f using form_ind'; cbn [fit]; intros Hf fuel r Hl;
      (destruct fuel as [|fuel]; [exfalso; match type of Hl with length (print ?x) <= 0 => pose proof (print_len x) end; lia|]);
      cbn [print] in Hl |- *; rewrite ?app_length, ?w2_length in Hl; rewrite <- ?app_assoc.
    - exists (FBool b). split; [|constructor]. rewrite parse_codes by (exact Throw || reflexivity). cbn. destruct b; reflexivity.
    - exists FDead. split; [|constructor]. rewrite parse_codes by (exact Throw || reflexivity). reflexivity.
    - destruct (IHf Hf fuel r) as (f' & E & S); [lia|]. exists (F1 h f'). split; [|constructor; exact S].
      destruct h; cbn [code1]; rewrite parse_codes by (exact Throw || reflexivity); cbn -[parse_form print app]; rewrite E; reflexivity.
    - apply andb_prop in Hf. destruct Hf as (Hf & Hg). rewrite ?app_length in Hl. destruct (IHf1 Hf fuel (print f2 ++ r)) as (f' & E & S); [lia|].
      destruct (IHf2 Hg fuel r) as (g' & E' & S'); [lia|]. exists (F2 h f' g'). split; [|constructor; auto].
      destruct h; cbn [code2]; rewrite parse_codes by (exact Throw || reflexivity); cbn -[parse_form print app]; rewrite E; cbn [bind fst snd]; cbn -[parse_form print app]; rewrite E'; reflexivity.
    - apply andb_prop in Hf. destruct Hf as (Hf & Hn). rewrite forallb_forall in Hf. rewrite Forall_forall in H. rewrite ?app_length in Hl.
      destruct (@times_n_spec form form print (parse_form np fuel) same l r) as (l' & E & F); [intros x _; pose proof (print_len x); lia| |].
      { intros x Hx r'. apply (H x Hx (Hf x Hx)). assert (K := flat_map_in_len print l x Hx). lia. }
      exists (FAnd l'). split; [|constructor; exact F]. rewrite parse_codes by (exact Throw || reflexivity).
      cbn -[parse_form print app r32 times_n w32 N.of_nat]. rewrite r32_w32 by (apply len32_spec; exact Hn). cbn [bind fst snd]. rewrite E. reflexivity.
    - apply andb_prop in Hf. destruct Hf as (Hf & Hn). rewrite forallb_forall in Hf. rewrite Forall_forall in H. rewrite ?app_length in Hl.
      destruct (@times_n_spec form form print (parse_form np fuel) same l r) as (l' & E & F); [intros x _; pose proof (print_len x); lia| |].
      { intros x Hx r'. apply (H x Hx (Hf x Hx)). assert (K := flat_map_in_len print l x Hx). lia. }
      exists (FOr l'). split; [|constructor; exact F]. rewrite parse_codes by (exact Throw || reflexivity).
      cbn -[parse_form print app r32 times_n w32 N.of_nat]. rewrite r32_w32 by (apply len32_spec; exact Hn). cbn [bind fst snd]. rewrite E. reflexivity.
    - apply andb_prop in Hf. destruct Hf as (Ha & Hb). rewrite ?app_length in Hl.
      destruct (@parse_expr_ok a Ha fuel (print_expr b ++ r)) as (a' & E & V); [lia|]. destruct (@parse_expr_ok b Hb fuel r) as (b' & E' & V'); [lia|].
      exists (FCmp o a' b'). split; [|constructor; assumption]. rewrite parse_codes by (exact Throw || reflexivity).
      cbn -[parse_expr print_expr app getline opname eqs]. rewrite getline_app by (destruct o; cbn; intuition discriminate). cbn [fst snd].
      rewrite E. cbn [bind fst snd]. rewrite E'. cbn [bind fst snd]. destruct o; reflexivity.
    - apply andb_prop in Hf. destruct Hf as (Hf & Hn). rewrite forallb_forall in Hf.
      destruct (@times_n_spec cons cons (fun c => w32 (N.of_nat (c_place c)) ++ w32 (c_lower c) ++ w32 (c_upper c)) (rcons np) eq cs r) as (l' & E & F).
      { intros x _. rewrite app_length. unfold w32. rewrite le_length. lia. }
      { intros x Hx r'. exists x. split; [|reflexivity]. apply rcons_w. auto. }
      apply Forall2_eq in F. subst l'. exists (FConj n cs). split; [|constructor]. rewrite parse_codes by (exact Throw || reflexivity).
      cbn -[app rbool r32 times_n rcons w32 N.of_nat]. rewrite rbool_w. cbn [bind fst snd]. rewrite r32_w32 by (apply len32_spec; exact Hn). cbn [bind fst snd]. rewrite E. reflexivity.
    - apply andb_prop in Hf. destruct Hf as (Hf & Hn). apply andb_prop in Hf. destruct Hf as (Hf & Hp). apply andb_prop in Hf. destruct Hf as (Hm & Ho). rewrite forallb_forall in Hp.
      destruct (@times_n_spec (nat * dbl) (nat * dbl) (fun q => w32 (N.of_nat (fst q)) ++ snd q) (rbound np) eq ps r) as (l' & E & F).
      { intros x _. rewrite app_length. unfold w32. rewrite le_length. lia. }
      { intros x Hx r'. exists x. split; [|reflexivity]. apply rbound_w. auto. }
      apply Forall2_eq in F. subst l'. exists (FBounds mx off ps). split; [|constructor]. rewrite parse_codes by (exact Throw || reflexivity).
      cbn -[app r32 read times_n rbound w32 N.of_nat]. rewrite r32_w32 by (apply len32_spec; exact Hn). cbn [bind fst snd].
      rewrite read8 by exact Hm. cbn [bind fst snd]. rewrite read8 by exact Ho. cbn [bind fst snd]. unfold dbl in *. rewrite E. reflexivity.
  Qed.
  Theorem parse_query_ok : forall f r, fit np f = true -> exists f', parse_query np (print f ++ r) = Ok (f', r) /\ same f f'.
  Proof. intros f r Hf. apply parse_form_ok; [exact Hf|]. rewrite app_length. lia. Qed.
End Np.
