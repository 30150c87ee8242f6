(** Reading of the items of a PNML file (C43). *)
From Coq Require Import Ascii String.
From Verif Require Import Base NetSpec NetModel BuilderModel XqModel XqSpec XqExp PnmModel PnmSpec.
Local Open Scope string_scope.

(** ** Numbers *)
Lemma app_nil_s : forall s, s ++ "" = s.
Proof. induction s as [|a s IH]; cbn [append]; auto. rewrite IH. auto. Qed.
Lemma app_assoc_s : forall a b c, (a ++ b) ++ c = a ++ b ++ c.
Proof. induction a as [|x a IH]; intros b c; cbn [append]; auto. rewrite IH. auto. Qed.
Lemma skip_blanks : forall l s, blanks l -> skip_space (l ++ s) = skip_space s.
Proof. intros l s H. induction H as [|l H IH|l H IH]; cbn [append]; auto. Qed.
Lemma scan_blanks : forall r acc, blanks r -> scan_digits acc r = acc.
Proof. intros r acc H. destruct H; reflexivity. Qed.
Lemma digits_scan_app : forall s r acc z, blanks r -> digits_val acc s = Some z -> scan_digits (Some acc) (s ++ r) = Some z.
Proof.
  induction s as [|a s IH]; cbn [digits_val append]; intros r acc z B H.
  - rewrite scan_blanks; auto.
  - cbn [scan_digits]. unfold digit_val in H. destruct ((48 <=? nat_of_ascii a) && (nat_of_ascii a <=? 57))%nat; try discriminate H. apply IH; auto.
Qed.
Lemma natural_scan_app : forall s r z, blanks r -> natural s = Some z -> scan_digits None (s ++ r) = Some z.
Proof.
  intros [|a s] r z B H; [discriminate H|]. unfold natural in H. cbn [digits_val] in H. cbn [append scan_digits].
  unfold digit_val in H. destruct ((48 <=? nat_of_ascii a) && (nat_of_ascii a <=? 57))%nat; try discriminate H.
  apply digits_scan_app; auto.
Qed.
Lemma numeral_at : forall s n, numeral s n -> number_at s = Z.of_N n.
Proof.
  intros s n H. destruct H as [l d r n L D R]. unfold number_at, sscanf_d. rewrite (skip_blanks l (d ++ r) L).
  destruct d as [|a d]; [discriminate D|]. destruct (natural_head _ _ _ D) as (A & B & C). cbn [append skip_space]. rewrite A, B, C. cbn [orb].
  pose proof (natural_scan_app _ _ _ R D) as E. cbn [append] in E. rewrite E. reflexivity.
Qed.
Lemma all_app : forall f s r, all_chars f (s ++ r) = all_chars f s && all_chars f r.
Proof. induction s as [|a s IH]; intros r; cbn [append all_chars]; auto. rewrite IH. apply andb_assoc. Qed.
Lemma all_blanks : forall l, blanks l -> all_chars (fun a => is_digit a || is_blank a) l = true.
Proof. intros l H. induction H; auto. Qed.
Lemma all_digits : forall s acc z, digits_val acc s = Some z -> all_chars (fun a => is_digit a || is_blank a) s = true.
Proof.
  induction s as [|a s IH]; intros acc z H; auto. cbn [digits_val] in H. cbn [all_chars]. unfold digit_val in H. unfold is_digit.
  destruct ((48 <=? nat_of_ascii a) && (nat_of_ascii a <=? 57))%nat; try discriminate H. cbn [orb andb]. eapply IH; eauto.
Qed.
Lemma numeral_chars : forall s n, numeral s n -> all_chars (fun a => is_digit a || is_blank a) s = true.
Proof.
  intros s n H. destruct H as [l d r n L D R]. rewrite !all_app, all_blanks, (all_blanks r) by auto. destruct d as [|a d]; auto.
  unfold natural in D. rewrite (all_digits _ _ _ D). reflexivity.
Qed.
Lemma numeral_atoi : forall s n, numeral s n -> (n < 2 ^ 31)%N -> atoi s = Ok (Z.of_N n).
Proof.
  intros s n H B. unfold atoi. rewrite (numeral_at _ _ H). change (2 ^ 31)%N with 2147483648%N in B.
  replace (fits_int (Z.of_N n)) with true; auto. symmetry. unfold fits_int. apply andb_true_iff. split; lia.
Qed.
Lemma numeral_atoll : forall s n, numeral s n -> (n < 2 ^ 32)%N -> atoll s = Ok (Z.of_N n).
Proof.
  intros s n H B. unfold atoll. rewrite (numeral_at _ _ H). change (2 ^ 32)%N with 4294967296%N in B.
  replace (fits_long (Z.of_N n)) with true; auto. symmetry. unfold fits_long. apply andb_true_iff. split; lia.
Qed.

(** ** Texts *)
Fixpoint value_list (l : list xml) (text : string) : string :=
  match l with
  | [] => text
  | k :: l' => value_list l' (if is_tag "value" k || is_tag "text" k then value k else parse_value k text)
  end.
Lemma value_eq : forall x t, parse_value x t = value_list (kids x) t.
Proof. intros [n a v ks] t. reflexivity. Qed.
Lemma is_tag_true : forall t x, is_tag t x = true <-> tag x = t.
Proof. intros t x. apply String.eqb_eq. Qed.
Lemma is_tag_false : forall t x, is_tag t x = false <-> tag x <> t.
Proof. intros t x. apply String.eqb_neq. Qed.
Lemma text_tag_true : forall k, text_tag k -> is_tag "value" k || is_tag "text" k = true.
Proof. intros k [H|H]; apply orb_true_iff; [right|left]; apply is_tag_true; auto. Qed.
Lemma text_tag_false : forall k, ~ text_tag k -> is_tag "value" k || is_tag "text" k = false.
Proof. intros k H. apply orb_false_iff. split; apply is_tag_false; intros E; apply H; [right|left]; auto. Qed.
Lemma value_app : forall l1 l2 t, value_list (l1 ++ l2) t = value_list l2 (value_list l1 t).
Proof. induction l1 as [|k l1 IH]; intros l2 t; cbn [app value_list]; auto. Qed.
Lemma value_id : forall l, (forall k, In k l -> ~ text_tag k) -> (forall k t, In k l -> parse_value k t = t) -> forall t, value_list l t = t.
Proof.
  induction l as [|k l IH]; intros A B t; cbn [value_list]; auto. rewrite (text_tag_false k) by (apply A; left; auto). rewrite B by (left; auto).
  apply IH; intros; [apply A|apply B]; right; auto.
Qed.
Lemma no_text_value : forall x, no_text x -> forall t, parse_value x t = t.
Proof. intros x H. induction H as [x A B IH]. intros t. rewrite value_eq. apply value_id; auto. Qed.
Lemma text_value : forall x s, text_of x s -> parse_value x "" = s.
Proof.
  intros x s H. destruct H as [l k r E T O]. rewrite value_eq, E, value_app. cbn [value_list]. rewrite (text_tag_true k T).
  apply value_id; [intros y Hy; exact (proj1 (O y (or_intror Hy)))|intros y t Hy; apply no_text_value; exact (proj2 (O y (or_intror Hy)))].
Qed.

(** ** Children *)
Lemma no_kid_ex : forall x t, no_kid x t -> existsb (is_tag t) (kids x) = false.
Proof.
  intros x t H. destruct (existsb (is_tag t) (kids x)) eqn:E; auto. apply existsb_exists in E as (k & K & T). apply is_tag_true in T. exfalso. exact (H k K T).
Qed.
Lemma no_kid_find : forall x t, no_kid x t -> find (is_tag t) (kids x) = None.
Proof. intros x t H. destruct (find (is_tag t) (kids x)) eqn:E; auto. apply find_some in E as (K & T). apply is_tag_true in T. exfalso. exact (H _ K T). Qed.
Lemma find_skip : forall t l k r, (forall y, In y l -> tag y <> t) -> tag k = t -> find (is_tag t) (l ++ k :: r) = Some k.
Proof.
  induction l as [|y l IH]; intros k r A B; cbn [app find].
  - rewrite (proj2 (is_tag_true t k) B). auto.
  - rewrite (proj2 (is_tag_false t y)) by (apply A; left; auto). apply IH; auto. intros z Hz. apply A. right; auto.
Qed.
Lemma only_find : forall x t k, only_kid x t k -> find (is_tag t) (kids x) = Some k.
Proof. intros x t k H. destruct H as [l k r E T O]. rewrite E. apply find_skip; auto. Qed.

Lemma place_kids_none : forall l m, (forall k, In k l -> tag k <> "initialMarking" /\ tag k <> "hlinitialMarking" /\ tag k <> "type") -> place_kids l m = Ok m.
Proof.
  induction l as [|k l IH]; intros m H; cbn [place_kids]; auto. destruct (H k (or_introl eq_refl)) as (A & B & C).
  rewrite (proj2 (is_tag_false _ k) A), (proj2 (is_tag_false _ k) B), (proj2 (is_tag_false _ k) C). cbn [orb]. apply IH. intros y Hy. apply H. right; auto.
Qed.
Lemma place_kids_one : forall l k r m v, (forall y, In y l \/ In y r -> tag y <> "initialMarking" /\ tag y <> "hlinitialMarking" /\ tag y <> "type") ->
  tag k = "initialMarking" -> atoll (parse_value k "") = Ok v -> place_kids (l ++ k :: r) m = Ok v.
Proof.
  induction l as [|y l IH]; intros k r m v O T V; cbn [app place_kids].
  - rewrite (proj2 (is_tag_true _ k) T), V. cbn [bind]. apply place_kids_none. auto.
  - destruct (O y (or_introl (or_introl eq_refl))) as (A & B & C). rewrite (proj2 (is_tag_false _ y) A), (proj2 (is_tag_false _ y) B), (proj2 (is_tag_false _ y) C). cbn [orb].
    apply IH; auto. intros z [Hz|Hz]; apply O; [left; right|right]; auto.
Qed.
Lemma inscr_none : forall l f w, (forall k, In k l -> tag k <> "inscription") -> inscriptions l f w = Ok w.
Proof.
  induction l as [|k l IH]; intros f w H; cbn [inscriptions]; auto. rewrite (proj2 (is_tag_false _ k) (H k (or_introl eq_refl))). apply IH. intros y Hy. apply H. right; auto.
Qed.
Lemma inscr_one : forall l k r w n, (forall y, In y l \/ In y r -> tag y <> "inscription") -> tag k = "inscription" ->
  numeral (parse_value k "") n -> (n < 2 ^ 31)%N -> inscriptions (l ++ k :: r) true w = Ok (Z.of_N n).
Proof.
  induction l as [|y l IH]; intros k r w n O T V B; cbn [app inscriptions].
  - rewrite (proj2 (is_tag_true _ k) T), (numeral_atoi _ _ V B). cbn [bind]. rewrite (numeral_chars _ _ V). cbn [negb]. apply inscr_none. auto.
  - rewrite (proj2 (is_tag_false _ y) (O y (or_introl (or_introl eq_refl)))). apply IH; auto. intros z [Hz|Hz]; apply O; [left; right|right]; auto.
Qed.

(** ** Items *)
Definition put (s : pst) (i : item) : pst :=
  match i with
  | IPlace p n => mkP (p_places s ++ [(p, n)]) ((p, true) :: p_names s) (p_arcs s) (p_trans s)
  | ITrans t pl => mkP (p_places s) ((t, false) :: p_names s) (p_arcs s) (p_trans s ++ [mkXT t pl])
  | IArc a b w i => mkP (p_places s) (p_names s) (p_arcs s ++ [mkXA a b (Z.of_N w) (Some i)]) (p_trans s)
  end.
Lemma need_some : forall x a s, attr x a = Some s -> need x a = Ok s.
Proof. intros x a s H. unfold need. rewrite H. auto. Qed.
Lemma place_ok : forall x p n s, attr x "id" = Some p -> place_tokens x n -> (n < 2 ^ 32)%N -> no_kid x "hlinitialMarking" -> no_kid x "type" ->
  parse_place x s = Ok (put s (IPlace p n)).
Proof.
  intros x p n s I T B H1 H2. unfold parse_place. rewrite (need_some _ _ _ I). cbn [bind].
  assert (E : exists m0, match attr x "initialMarking" with Some t => atoll t | None => Ok 0%Z end = Ok m0 /\ place_kids (kids x) m0 = Ok (Z.of_N n)).
  { destruct T as [k t n K V U A|t n K V U|K V].
    - assert (Q : exists m0, match attr x "initialMarking" with Some t => atoll t | None => Ok 0%Z end = Ok m0).
      { destruct (attr x "initialMarking") as [a|]; [|eauto]. destruct (A a eq_refl) as (n' & N1 & N2). exists (Z.of_N n'). apply numeral_atoll; auto. }
      destruct Q as (m0 & Q). exists m0. split; auto. destruct K as [l k r E T O]. rewrite E. apply place_kids_one; auto.
      + intros y Hy. split; [apply O; auto|]. assert (In y (kids x)) by (rewrite E; apply in_or_app; destruct Hy; [left|right; right]; auto). split; [apply H1|apply H2]; auto.
      + rewrite (text_value _ _ V). apply numeral_atoll; auto.
    - rewrite V. exists (Z.of_N n). split; [apply numeral_atoll; auto|]. apply place_kids_none. intros k Hk. split; [apply K; auto|split; [apply H1|apply H2]; auto].
    - rewrite V. exists 0%Z. split; auto. apply place_kids_none. intros k Hk. split; [apply K; auto|split; [apply H1|apply H2]; auto]. }
  destruct E as (m0 & -> & E). cbn [bind]. rewrite E. cbn [bind]. change (2 ^ 32)%N with 4294967296%N in B.
  rewrite Z.mod_small by (change (2 ^ 64)%Z with 18446744073709551616%Z; lia). replace (4294967295 <? Z.of_N n)%Z with false by lia. rewrite N2Z.id. reflexivity.
Qed.
Lemma trans_ok : forall x t n s, attr x "id" = Some t -> trans_player x n -> (n < 2 ^ 31)%N -> no_kid x "condition" -> no_kid x "conditions" -> no_kid x "assignments" ->
  parse_transition x s = Ok (put s (ITrans t (Z.of_N n))).
Proof.
  intros x t n s I T B H1 H2 H3. unfold parse_transition. rewrite (need_some _ _ _ I). cbn [bind].
  replace (existsb (fun k => is_tag "condition" k || is_tag "conditions" k || is_tag "assignments" k) (kids x)) with false.
  2:{ symmetry. destruct (existsb _ (kids x)) eqn:E; auto. apply existsb_exists in E as (k & K & T'). exfalso.
      apply orb_true_iff in T' as [T'|T']; [apply orb_true_iff in T' as [T'|T']|]; apply is_tag_true in T'; [exact (H1 k K T')|exact (H2 k K T')|exact (H3 k K T')]. }
  destruct T as [k u n K V U|u n K V U|K V].
  - rewrite (only_find _ _ _ K), (text_value _ _ V), (numeral_atoi _ _ U B). reflexivity.
  - rewrite (no_kid_find _ _ K), V, (numeral_atoi _ _ U B). reflexivity.
  - rewrite (no_kid_find _ _ K), V. reflexivity.
Qed.
Lemma arc_ok_gen : forall x a b w s i j, attr x "source" = Some a -> attr x "target" = Some b -> attr x "type" <> Some "timed" ->
  j = (i || match attr x "type" with Some t => String.eqb t "inhibitor" | None => false end) ->
  weight_text x w -> (0 < w < 2 ^ 31)%N -> no_kid x "hlinscription" -> parse_arc x i s = Ok (put s (IArc a b w j)).
Proof.
  intros x a b w s i j A B T J W R H. unfold parse_arc. rewrite (need_some _ _ _ A), (need_some _ _ _ B). cbn [bind].
  assert (E1 : match attr x "type" with Some t => if String.eqb t "timed" then Throw else Ok (i || String.eqb t "inhibitor") | None => Ok i end = Ok j).
  { subst j. destruct (attr x "type") as [t|]; [|rewrite orb_false_r; auto]. destruct (String.eqb_spec t "timed") as [->|N1]; auto. exfalso. apply T. auto. }
  rewrite E1. cbn [bind].
  assert (E2 : match attr x "weight" with Some t => atoi t | None => inscriptions (kids x) true 1%Z end = Ok (Z.of_N w)).
  { destruct W as [t n V U|k t n V K X U|V K].
    - rewrite V. apply numeral_atoi; [auto|apply R].
    - rewrite V. destruct K as [l k r E T' O]. rewrite E. apply inscr_one; auto; [|apply R]. rewrite (text_value _ _ X). auto.
    - rewrite V. change (Z.of_N 1) with 1%Z. apply inscr_none. auto. }
  rewrite E2. cbn [bind]. rewrite (no_kid_ex _ _ H). replace (Z.of_N w =? 0)%Z with false by lia. reflexivity.
Qed.

Definition element_step (k : xml) (s : pst) : res pst :=
  if is_tag "place" k then parse_place k s
  else if is_tag "transition" k then parse_transition k s
  else if is_tag "arc" k || is_tag "inputArc" k || is_tag "outputArc" k then parse_arc k false s
  else if is_tag "transportArc" k then parse_transport k s
  else if is_tag "inhibitorArc" k then parse_arc k true s
  else if is_tag "variable" k then Throw
  else if is_tag "queries" k then parse_queries k s
  else if is_tag "k-bound" k then Throw
  else if is_tag "query" k then Throw
  else parse_element k s.
Fixpoint element_list (l : list xml) (s : pst) : res pst :=
  match l with [] => Ok s | k :: l' => s <- element_step k s ;; element_list l' s end.
Lemma element_eq : forall x s, parse_element x s = element_list (kids x) s.
Proof. intros [n a v ks] s. reflexivity. Qed.
Lemma step_item : forall k i s, item_of k i -> element_step k s = Ok (put s i).
Proof.
  intros k i s H. unfold element_step, is_tag. destruct H as [p n T I P B H1 H2|t n T I P B H1 H2 H3|a b w T A B T1 T2 W R H|a b w T A B W R H].
  - rewrite T. apply place_ok; auto.
  - rewrite T. apply trans_ok; auto.
  - assert (E : parse_arc k false s = Ok (put s (IArc a b w false))).
    { apply arc_ok_gen; auto. destruct (attr k "type") as [t|]; auto. cbn [orb]. destruct (String.eqb_spec t "inhibitor") as [->|]; auto. }
    destruct T as [T|[T|T]]; rewrite T; exact E.
  - destruct T as [(T & Y)|(T & Y)].
    + assert (E : parse_arc k false s = Ok (put s (IArc a b w true))).
      { apply arc_ok_gen; auto; rewrite Y; [discriminate|reflexivity]. }
      destruct T as [T|[T|T]]; rewrite T; exact E.
    + rewrite T. cbn [String.eqb]. apply arc_ok_gen; auto.
Qed.
Lemma step_other : forall k s, ~ special k -> element_step k s = parse_element k s.
Proof.
  intros k s H. unfold element_step.
  assert (D : forall t, In t ["place"; "transition"; "arc"; "inputArc"; "outputArc"; "transportArc"; "inhibitorArc"; "variable"; "queries"; "k-bound"; "query"] -> is_tag t k = false).
  { intros t Ht. apply is_tag_false. intros E. apply H. unfold special. rewrite E. exact Ht. }
  rewrite !D by (cbn [In]; tauto). reflexivity.
Qed.
Scheme has_mind := Minimality for has Sort Prop with has_list_mind := Minimality for has_list Sort Prop.
Lemma element_ok : forall x l, has x l -> forall s, parse_element x s = Ok (fold_left put l s).
Proof.
  refine (has_mind (fun x l => forall s, parse_element x s = Ok (fold_left put l s)) (fun ks l => forall s, element_list ks s = Ok (fold_left put l s)) _ _ _ _).
  - intros y l1 _ IH s. rewrite element_eq. apply IH.
  - intros s. reflexivity.
  - intros k ks i l1 I _ IH s. cbn [element_list fold_left]. rewrite (step_item _ _ _ I). cbn [bind]. apply IH.
  - intros k ks l1 l2 N1 _ IH1 _ IH2 s. cbn [element_list]. rewrite (step_other _ _ N1), IH1. cbn [bind]. rewrite fold_left_app. apply IH2.
Qed.
