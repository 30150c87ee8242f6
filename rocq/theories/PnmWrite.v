(** Nets that are written are read back as the same net (C43). *)
From Coq Require Import Ascii String.
From Verif Require Import Base BaseLemmas XqSpec XqModel XqWrite NetSpec NetModel BuilderModel BuilderSpec BuilderMain PnmModel PnmSpec PnmProofs PnmMain.
Local Open Scope string_scope.

Lemma show_numeral : forall n, numeral (show_N n) n.
Proof. intros n. pose proof (@nume "" (show_N n) "" n bl_nil (show_N_natural n) bl_nil) as H. cbn [append] in H. rewrite app_nil_s in H. exact H. Qed.
Lemma leaf_text : forall t s u, u = "text" \/ u = "value" -> PnmSpec.text_of (X t [] "" [PnmModel.leaf u s]) s.
Proof.
  intros t s u U. change s with (value (PnmModel.leaf u s)) at 2. apply (@txt (X t [] "" [PnmModel.leaf u s]) [] (PnmModel.leaf u s) []).
  - reflexivity.
  - destruct U as [->| ->]; [left|right]; reflexivity.
  - intros y [[]|[]].
Qed.

Section Write.
  Variable net : cnet.
  Variable pn tn : nat -> string.
  Hypothesis L : layout net.
  Hypothesis LI : List.length (cn_init net) = cn_places net.
  Hypothesis PI : forall i j, i < cn_places net -> j < cn_places net -> pn i = pn j -> i = j.
  Hypothesis TI : forall i j, i < cn_ntrans net -> j < cn_ntrans net -> tn i = tn j -> i = j.
  Hypothesis PT : forall i j, i < cn_places net -> j < cn_ntrans net -> pn i <> tn j.
  Hypothesis TK : forall p, (tokens (cn_init net) p < 2 ^ 32)%N.
  Hypothesis WT : forall t a, t < cn_ntrans net -> In a (tr_pre (net_trans net t)) \/ In a (tr_post (net_trans net t)) -> (0 < arc_weight a < 2 ^ 31)%N.

  Definition pl_item (i : nat) : item := IPlace (pn i) (nth i (cn_init net) 0%N).
  Definition tr_item (t : nat) : item := ITrans (tn t) (Z.of_N (if nth t (cn_ctrl net) false then 0 else 1)).
  Definition pre_item (t : nat) (a : arc) : item := IArc (pn (arc_place a)) (tn t) (arc_weight a) (arc_inhib a).
  Definition post_item (t : nat) (a : arc) : item := IArc (tn t) (pn (arc_place a)) (arc_weight a) false.
  Definition arc_items_of (t : nat) : list item :=
    (map (pre_item t) (tr_pre (net_trans net t)) ++ map (post_item t) (tr_post (net_trans net t)))%list.
  Definition items : list item :=
    (map pl_item (seq 0 (cn_places net)) ++ map tr_item (seq 0 (cn_ntrans net)) ++ flat_map arc_items_of (seq 0 (cn_ntrans net)))%list.

  Lemma kid_cases : forall x t ks, kids x = ks -> forallb (fun k => negb (is_tag t k)) ks = true -> no_kid x t.
  Proof.
    intros x t ks E H k K. rewrite E in K. rewrite forallb_forall in H. specialize (H k K). apply negb_true_iff in H. apply is_tag_false, H.
  Qed.
  Lemma place_item : forall i, item_of (place_xml (pn i) (nth i (cn_init net) 0%N)) (pl_item i).
  Proof.
    intros i. set (k := nth i (cn_init net) 0%N). assert (B : (k < 2 ^ 32)%N) by apply TK. unfold pl_item. fold k. clearbody k. apply io_place; try reflexivity; try exact B.
    - unfold place_xml. destruct (0 <? k)%N eqn:E.
      + apply (@pt_kid _ (text_in "initialMarking" (show_N k)) (show_N k) k).
        * apply (@only _ "initialMarking" [graphics; text_in "name" (pn i)] _ []); try reflexivity. intros y [[<-|[<-|[]]]|[]]; discriminate.
        * apply leaf_text. auto.
        * apply show_numeral.
        * intros a A. discriminate A.
      + replace k with 0%N by (apply N.ltb_ge in E; clear - E; lia). apply pt_none; [|reflexivity]. eapply kid_cases; reflexivity.
    - unfold place_xml. destruct (0 <? k)%N; eapply kid_cases; reflexivity.
    - unfold place_xml. destruct (0 <? k)%N; eapply kid_cases; reflexivity.
  Qed.
  Lemma trans_item : forall t, item_of (trans_xml (tn t) (nth t (cn_ctrl net) false)) (tr_item t).
  Proof.
    intros t. unfold tr_item. generalize (nth t (cn_ctrl net) false). intros c. apply io_trans; try reflexivity; try (eapply kid_cases; reflexivity).
    - apply (@tp_kid _ (X "player" [] "" [PnmModel.leaf "value" (if c then "0" else "1")]) (if c then "0" else "1") (if c then 0 else 1)%N).
      + apply (@only _ "player" [] _ [text_in "name" (tn t); graphics]); try reflexivity. intros y [[]|[<-|[<-|[]]]]; discriminate.
      + apply leaf_text. auto.
      + destruct c; [apply (show_numeral 0)|apply (show_numeral 1)].
    - destruct c; reflexivity.
  Qed.
  Lemma weight_kids : forall x a, attr x "weight" = None -> kids x = weight_xml (arc_weight a) -> (0 < arc_weight a)%N -> weight_text x (arc_weight a).
  Proof.
    intros x a A K B. unfold weight_xml in K. destruct (1 <? arc_weight a)%N eqn:E.
    - apply (@aw_kid x (text_in "inscription" (show_N (arc_weight a))) (show_N (arc_weight a)) (arc_weight a) A).
      + apply (@only x "inscription" [] _ []); [exact K|reflexivity|]. intros y [[]|[]].
      + apply leaf_text. auto.
      + apply show_numeral.
    - replace (arc_weight a) with 1%N by (apply N.ltb_ge in E; clear - E B; lia). apply aw_none; auto. eapply kid_cases; [exact K|reflexivity].
  Qed.
  Lemma no_hl : forall x w, kids x = weight_xml w -> no_kid x "hlinscription".
  Proof. intros x w K. unfold weight_xml in K. destruct (1 <? w)%N; eapply kid_cases; try exact K; reflexivity. Qed.
  Lemma pre_ok : forall id t a, t < cn_ntrans net -> In a (tr_pre (net_trans net t)) -> item_of (pre_xml id (pn (arc_place a)) (tn t) a) (pre_item t a).
  Proof.
    intros id t a T A. assert (W := WT t a T (or_introl A)). unfold pre_item, pre_xml. destruct (arc_inhib a).
    - apply io_inhib; try reflexivity; [left; split; [left|]; reflexivity| |exact W|]; [apply weight_kids; [reflexivity|reflexivity|lia]|eapply no_hl; reflexivity].
    - apply io_arc; try reflexivity; try discriminate; [left; reflexivity| |exact W|]; [apply weight_kids; [reflexivity|reflexivity|lia]|eapply no_hl; reflexivity].
  Qed.
  Lemma post_ok : forall id t a, t < cn_ntrans net -> In a (tr_post (net_trans net t)) -> item_of (post_xml id (tn t) (pn (arc_place a)) a) (post_item t a).
  Proof.
    intros id t a T A. assert (W := WT t a T (or_intror A)). unfold post_item, post_xml.
    apply io_arc; try reflexivity; try discriminate; [left; reflexivity| |exact W|]; [apply weight_kids; [reflexivity|reflexivity|lia]|eapply no_hl; reflexivity].
  Qed.
  Lemma has_app : forall l1 i1 l2 i2, has_list l1 i1 -> has_list l2 i2 -> has_list (l1 ++ l2) (i1 ++ i2).
  Proof.
    intros l1 i1 l2 i2 H H2. induction H as [|k ks i l I _ IH|k ks j1 j2 N1 K _ IH]; cbn [app]; auto.
    - apply hl_item; auto.
    - rewrite <- app_assoc. apply hl_sub; auto.
  Qed.
  Lemma has_map : forall (A : Type) (f : A -> xml) (g : A -> item) l, (forall x, In x l -> item_of (f x) (g x)) -> has_list (map f l) (map g l).
  Proof. intros A f g. induction l as [|x l IH]; intros H; cbn [map]; [constructor|]. apply hl_item; [apply H; left; auto|apply IH; intros; apply H; right; auto]. Qed.
  Lemma has_number : forall fs is, Forall2 (fun f i => forall id : N, item_of (f id) i) fs is -> forall id, has_list (number_from id fs) is.
  Proof. intros fs is H. induction H as [|f i fs is H _ IH]; intros id; cbn [number_from]; [constructor|]. apply hl_item; auto. Qed.
  Lemma plain_has : forall x, (forall k, In k (kids x) -> ~ special k /\ has k []) -> has x [].
  Proof.
    intros x H. apply has_kids. induction (kids x) as [|k ks IH]; [constructor|]. change (@nil item) with (@nil item ++ @nil item)%list.
    apply hl_sub; [apply H; left; auto|apply H; left; auto|apply IH; intros; apply H; right; auto].
  Qed.
  Lemma special_dec : forall x, existsb (fun t => String.eqb (tag x) t) ["place"; "transition"; "arc"; "inputArc"; "outputArc"; "transportArc"; "inhibitorArc"; "variable"; "queries"; "k-bound"; "query"] = false -> ~ special x.
  Proof.
    intros x H S. unfold special in S. assert (E : existsb (fun t => String.eqb (tag x) t) ["place"; "transition"; "arc"; "inputArc"; "outputArc"; "transportArc"; "inhibitorArc"; "variable"; "queries"; "k-bound"; "query"] = true).
    { apply existsb_exists. exists (tag x). split; auto. apply String.eqb_refl. }
    congruence.
  Qed.
  Lemma written : describes (to_xml net pn tn) items.
  Proof.
    unfold to_xml. split; [reflexivity|]. split; [intros k [<-|[]]; discriminate|]. split; [eexists; split; [left; reflexivity|reflexivity]|].
    split; [intros n [<-|[]] _ k [<-|[]]; discriminate|]. apply has_kids. cbn [kids]. rewrite <- (app_nil_r items).
    apply hl_sub; [apply special_dec; reflexivity| |constructor]. apply has_kids. cbn [kids]. rewrite <- (app_nil_r items). apply hl_sub; [apply special_dec; reflexivity| |constructor].
    apply has_kids. cbn [kids]. unfold items. change (map pl_item (seq 0 (cn_places net)) ++ ?r)%list with ([] ++ (map pl_item (seq 0 (cn_places net)) ++ r))%list.
    apply hl_sub.
    - apply special_dec. reflexivity.
    - apply plain_has. intros k [<-|[]]. split; [apply special_dec; reflexivity|]. apply plain_has. intros k [<-|[]]. split; [apply special_dec; reflexivity|]. apply plain_has. intros k [].
    - apply has_app; [apply has_map; intros; apply place_item|]. apply has_app; [apply has_map; intros; apply trans_item|]. apply has_number.
      assert (G : forall ts, (forall t, In t ts -> t < cn_ntrans net) -> Forall2 (fun f i => forall id : N, item_of (f id) i)
        (flat_map (fun t => map (fun a id => pre_xml id (pn (arc_place a)) (tn t) a) (tr_pre (net_trans net t)) ++
          map (fun a id => post_xml id (tn t) (pn (arc_place a)) a) (tr_post (net_trans net t)))%list ts) (flat_map arc_items_of ts)).
      { induction ts as [|t ts IH]; intros H; cbn [flat_map]; [constructor|]. apply Forall2_app; [|apply IH; intros; apply H; right; auto]. unfold arc_items_of. assert (T := H t (or_introl eq_refl)).
        apply Forall2_app.
        - assert (Q : forall as', (forall a, In a as' -> In a (tr_pre (net_trans net t))) -> Forall2 (fun f i => forall id : N, item_of (f id) i)
             (map (fun a id => pre_xml id (pn (arc_place a)) (tn t) a) as') (map (pre_item t) as')).
          { induction as' as [|a as' IHa]; intros I; cbn [map]; constructor; [intros id; apply pre_ok; auto; apply I; left; auto|apply IHa; intros; apply I; right; auto]. }
          apply Q. auto.
        - assert (Q : forall as', (forall a, In a as' -> In a (tr_post (net_trans net t))) -> Forall2 (fun f i => forall id : N, item_of (f id) i)
             (map (fun a id => post_xml id (tn t) (pn (arc_place a)) a) as') (map (post_item t) as')).
          { induction as' as [|a as' IHa]; intros I; cbn [map]; constructor; [intros id; apply post_ok; auto; apply I; left; auto|apply IHa; intros; apply I; right; auto]. }
          apply Q. auto. }
      apply G. intros t T. apply in_seq in T. lia.
  Qed.

  (** ** The items form the net *)
  Lemma wf_t : forall t, t < cn_ntrans net -> wf_trans (cn_places net) (net_trans net t).
  Proof. intros t T. apply (ly_wf L). unfold to_pnet. cbn [pn_trans]. apply in_map_iff. exists t. split; auto. apply in_seq. lia. Qed.
  Lemma ids_app : forall a b, ids (a ++ b) = (ids a ++ ids b)%list.
  Proof. intros a b. unfold ids. apply flat_map_app. Qed.
  Lemma ids_pl : forall l, ids (map pl_item l) = map pn l.
  Proof. induction l as [|x l IH]; auto. cbn [map]. rewrite <- IH. reflexivity. Qed.
  Lemma ids_tr : forall l, ids (map tr_item l) = map tn l.
  Proof. induction l as [|x l IH]; auto. cbn [map]. rewrite <- IH. reflexivity. Qed.
  Lemma ids_arcs : forall l, ids (flat_map arc_items_of l) = [].
  Proof.
    induction l as [|x l IH]; auto. cbn [flat_map]. rewrite ids_app, IH, app_nil_r. unfold arc_items_of. rewrite ids_app.
    induction (tr_pre (net_trans net x)) as [|a as' IHa]; cbn [map]; auto. induction (tr_post (net_trans net x)) as [|a as' IHa]; auto.
  Qed.
  Lemma in_items : forall i, In i items <->
    (exists p, p < cn_places net /\ i = pl_item p) \/ (exists t, t < cn_ntrans net /\ i = tr_item t) \/
    (exists t a, t < cn_ntrans net /\ (In a (tr_pre (net_trans net t)) /\ i = pre_item t a \/ In a (tr_post (net_trans net t)) /\ i = post_item t a)).
  Proof.
    intros i. unfold items. rewrite !in_app_iff, !in_map_iff, in_flat_map. split.
    - intros [(p & <- & P)|[(t & <- & T)|(t & T & H)]].
      + left. exists p. apply in_seq in P. split; [lia|auto].
      + right. left. exists t. apply in_seq in T. split; [lia|auto].
      + right. right. apply in_seq in T. unfold arc_items_of in H. rewrite in_app_iff, !in_map_iff in H. destruct H as [(a & <- & A)|(a & <- & A)]; exists t, a; (split; [lia|auto]).
    - intros [(p & P & ->)|[(t & T & ->)|(t & a & T & H)]].
      + left. exists p. split; auto. apply in_seq. lia.
      + right. left. exists t. split; auto. apply in_seq. lia.
      + right. right. exists t. split; [apply in_seq; lia|]. unfold arc_items_of. rewrite in_app_iff, !in_map_iff. destruct H as [(A & ->)|(A & ->)]; [left|right]; exists a; auto.
  Qed.
  Lemma pl_items : forall s, is_pl items s <-> exists p, p < cn_places net /\ s = pn p.
  Proof.
    intros s. split.
    - intros (n & H). apply in_items in H as [(p & P & E)|[(t & T & E)|(t & a & T & [(A & E)|(A & E)])]]; try discriminate E. injection E as -> _. eauto.
    - intros (p & P & ->). exists (nth p (cn_init net) 0%N). apply in_items. left. exists p. auto.
  Qed.
  Lemma tr_items : forall s, is_tr items s <-> exists t, t < cn_ntrans net /\ s = tn t.
  Proof.
    intros s. split.
    - intros (n & H). apply in_items in H as [(p & P & E)|[(t & T & E)|(t & a & T & [(A & E)|(A & E)])]]; try discriminate E. injection E as -> _. eauto.
    - intros (t & T & ->). exists (Z.of_N (if nth t (cn_ctrl net) false then 0 else 1)). apply in_items. right. left. exists t. auto.
  Qed.
  Lemma nodup_map : forall (f : nat -> string) n k, (forall i j, i < n -> j < n -> f i = f j -> i = j) -> forall s, s + k <= n -> NoDup (map f (seq s k)).
  Proof.
    intros f n. induction k as [|k IH]; intros H s B; cbn [seq map]; [constructor|]. constructor; [|apply IH; auto; lia].
    intros I. apply in_map_iff in I as (j & E & J). apply in_seq in J. apply H in E; lia.
  Qed.
  Lemma items_ok : net_ok items.
  Proof.
    split; [|split].
    - unfold items. rewrite !ids_app, ids_pl, ids_tr, ids_arcs, app_nil_r.
      assert (G : forall a b : list string, NoDup a -> NoDup b -> (forall x, In x a -> ~ In x b) -> NoDup (a ++ b)).
      { induction a as [|x a IH]; intros b A B D; auto. cbn [app]. inversion A; subst. constructor; [|apply IH; auto; intros y Y; apply D; right; auto].
        rewrite in_app_iff. intros [I|I]; [contradiction|exact (D x (or_introl eq_refl) I)]. }
      apply G; [apply (nodup_map pn (cn_places net)); auto|apply (nodup_map tn (cn_ntrans net)); auto|].
      intros x X Y. apply in_map_iff in X as (i & <- & I). apply in_map_iff in Y as (j & E & J). apply in_seq in I, J. symmetry in E. revert E. apply PT; lia.
    - intros s t w i H. apply in_items in H as [(p & P & E)|[(u & T & E)|(u & a & T & [(A & E)|(A & E)])]]; try discriminate E; injection E as -> -> -> ->.
      + left. split; [apply pl_items|apply tr_items]; eexists; (split; [|reflexivity]); auto. apply (proj1 (wf_t u T)), A.
      + right. split; [apply tr_items; eauto|]. split; auto. apply pl_items. eexists. split; [|reflexivity]. apply (proj1 (proj2 (wf_t u T))), A.
    - intros s t w1 w2 H1 H2. apply in_items in H1 as [(p & P & E)|[(u & T & E)|(u & a & T & [(A & E)|(A & E)])]]; try discriminate E. injection E as -> -> -> I1.
      apply in_items in H2 as [(p & P & E)|[(u2 & T2 & E)|(u2 & a2 & T2 & [(A2 & E)|(A2 & E)])]]; try discriminate E.
      + injection E as E1 E2 -> I2. apply TI in E2; auto. subst u2. apply PI in E1; [|apply (proj1 (wf_t u T)), A|apply (proj1 (wf_t u T)), A2].
        destruct (wf_t u T) as (_ & _ & ND & _). revert ND A A2 E1 I1 I2. generalize (tr_pre (net_trans net u)). intros l. induction l as [|b l IH]; intros ND A A2 E1 I1 I2; [contradiction|].
        cbn [map] in ND. inversion ND as [|? ? N1 N2]; subst. destruct A as [->|A], A2 as [->|A2].
        * congruence.
        * apply N1. rewrite E1. apply in_map, A2.
        * apply N1. rewrite <- E1. apply in_map, A.
        * exact (IH N2 A A2 E1 I1 I2).
      + injection E as E1 E2 _. revert E1. apply PT; auto. apply (proj1 (wf_t u T)), A.
  Qed.

  Lemma sum_if : forall (A : Type) (c : A -> bool) (f : A -> N) l, sumN (map (fun a => if c a then f a else 0%N) l) = sumN (map f (filter c l)).
  Proof. intros A c f. induction l as [|a l IH]; auto. cbn [map filter sumN]. rewrite IH. destruct (c a); cbn [map sumN]; lia. Qed.
  Lemma sum_zero : forall (A : Type) (f : A -> N) l, (forall a, In a l -> f a = 0%N) -> sumN (map f l) = 0%N.
  Proof. intros A f. induction l as [|a l IH]; intros H; auto. cbn [map sumN]. rewrite H, IH; auto; [intros; apply H; right; auto|left; auto]. Qed.
  Lemma sum_one : forall (f : item -> N) t v k s, s <= t < s + k -> (forall u, s <= u < s + k -> u <> t -> sumN (map f (arc_items_of u)) = 0%N) -> sumN (map f (arc_items_of t)) = v ->
    sumN (map f (flat_map arc_items_of (seq s k))) = v.
  Proof.
    intros f t v. induction k as [|k IH]; intros s R Z E; [lia|]. cbn [seq flat_map]. rewrite map_app, sum_app. destruct (Nat.eq_dec s t) as [->|D].
    - rewrite E. assert (Q : sumN (map f (flat_map arc_items_of (seq (S t) k))) = 0%N); [|lia].
      assert (G : forall k s', (forall u, s' <= u < s' + k -> sumN (map f (arc_items_of u)) = 0%N) -> sumN (map f (flat_map arc_items_of (seq s' k))) = 0%N).
      { clear. induction k as [|k IH]; intros s' H; auto. cbn [seq flat_map]. rewrite map_app, sum_app, H, IH by (first [lia|intros; apply H; lia]). reflexivity. }
      apply G. intros u U. apply Z; lia.
    - rewrite (Z s) by lia. rewrite (IH (S s)); [lia|lia| |exact E]. intros u U N1. apply Z; lia.
  Qed.
  Definition counts (s t : string) (i : item) : N := match i with IArc a b w false => if String.eqb a s && String.eqb b t then w else 0%N | _ => 0%N end.
  Lemma between : forall s t, arcs_between items s t = sumN (map (counts s t) (flat_map arc_items_of (seq 0 (cn_ntrans net)))).
  Proof.
    intros s t. unfold arcs_between. change (fun i => match i with IArc a b w false => if String.eqb a s && String.eqb b t then w else 0%N | _ => 0%N end) with (counts s t).
    unfold items. rewrite !map_app, !sum_app, !map_map. rewrite (sum_zero _ (fun x => counts s t (pl_item x))) by reflexivity. rewrite (sum_zero _ (fun x => counts s t (tr_item x))) by reflexivity. reflexivity.
  Qed.
  Lemma pn_eqb : forall i j, i < cn_places net -> j < cn_places net -> String.eqb (pn i) (pn j) = Nat.eqb i j.
  Proof. intros i j I J. destruct (Nat.eqb_spec i j) as [->|D]; [apply String.eqb_refl|]. apply String.eqb_neq. intros E. apply D, PI; auto. Qed.
  Lemma between_pre : forall p t, p < cn_places net -> t < cn_ntrans net -> arcs_between items (pn p) (tn t) = weight_at (tr_pre (net_trans net t)) p.
  Proof.
    intros p t P T. rewrite between. apply (sum_one _ t); [lia| |].
    - intros u U D. unfold arc_items_of. rewrite map_app, sum_app, !map_map. rewrite !sum_zero; auto.
      + intros a A. cbn [counts post_item]. destruct (String.eqb_spec (tn u) (pn p)) as [E|]; auto. exfalso. symmetry in E. revert E. apply PT; lia.
      + intros a A. cbn [counts pre_item]. destruct (arc_inhib a); auto. destruct (String.eqb_spec (tn u) (tn t)) as [E|]; [exfalso; apply D, TI; auto; lia|]. rewrite andb_false_r. auto.
    - unfold arc_items_of. rewrite map_app, sum_app, !map_map. rewrite (sum_zero _ (fun x => counts (pn p) (tn t) (post_item t x))).
      2:{ intros a A. cbn [counts post_item]. destruct (String.eqb_spec (tn t) (pn p)) as [E|]; auto. exfalso. symmetry in E. revert E. apply PT; auto. }
      rewrite N.add_0_r. unfold weight_at. rewrite <- sum_if. f_equal. apply map_ext_in. intros a A. cbn [counts pre_item]. rewrite String.eqb_refl, andb_true_r.
      rewrite pn_eqb by (first [exact P|apply (proj1 (wf_t t T)), A]). destruct (arc_inhib a); cbn [negb]; [rewrite andb_false_r; auto|rewrite andb_true_r; auto].
  Qed.
  Lemma between_post : forall p t, p < cn_places net -> t < cn_ntrans net -> arcs_between items (tn t) (pn p) = weight_at (tr_post (net_trans net t)) p.
  Proof.
    intros p t P T. rewrite between. apply (sum_one _ t); [lia| |].
    - intros u U D. unfold arc_items_of. rewrite map_app, sum_app, !map_map. rewrite !sum_zero; auto.
      + intros a A. cbn [counts post_item]. destruct (String.eqb_spec (tn u) (tn t)) as [E|]; auto. exfalso. apply D, TI; auto; lia.
      + intros a A. cbn [counts pre_item]. destruct (arc_inhib a); auto. destruct (String.eqb_spec (tn u) (pn p)) as [E|]; [exfalso; symmetry in E; revert E; apply PT; lia|]. rewrite andb_false_r. auto.
    - unfold arc_items_of. rewrite map_app, sum_app, !map_map. rewrite (sum_zero _ (fun x => counts (tn t) (pn p) (pre_item t x))).
      2:{ intros a A. cbn [counts pre_item]. destruct (arc_inhib a); auto. destruct (String.eqb_spec (tn t) (pn p)) as [E|]; [exfalso; symmetry in E; revert E; apply PT; auto|]. rewrite andb_false_r. auto. }
      rewrite N.add_0_l. unfold weight_at. rewrite <- sum_if. f_equal. apply map_ext_in. intros a A. cbn [counts post_item]. rewrite String.eqb_refl. cbn [andb].
      destruct (proj1 (proj2 (wf_t t T)) a A) as (B & I). rewrite pn_eqb by auto. rewrite I. cbn [negb]. rewrite andb_true_r. auto.
  Qed.
  Lemma le_sum : forall l a p, In a l -> arc_place a = p -> arc_inhib a = false -> (arc_weight a <= weight_at l p)%N.
  Proof.
    intros l a p A E I. unfold weight_at. assert (Q : In a (filter (fun a => Nat.eqb (arc_place a) p && negb (arc_inhib a)) l)).
    { apply filter_In. split; auto. rewrite E, Nat.eqb_refl, I. reflexivity. }
    revert Q. generalize (filter (fun a => Nat.eqb (arc_place a) p && negb (arc_inhib a)) l). intros l'. induction l' as [|b l' IH]; [intros []|]. intros [->|Q]; cbn [map sumN]; [lia|]. specialize (IH Q). lia.
  Qed.
  Lemma fires_items : forall t m m', t < cn_ntrans net -> List.length m = cn_places net -> List.length m' = cn_places net ->
    forall M M', (forall p, p < cn_places net -> M (pn p) = tokens m p) -> (forall p, p < cn_places net -> M' (pn p) = tokens m' p) ->
    (step (to_pnet net) m t m' <-> item_fires items (tn t) M M').
  Proof.
    intros t m m' T Lm Lm' M M' HM HM'.
    assert (NT : nth_error (pn_trans (to_pnet net)) t = Some (net_trans net t)).
    { unfold to_pnet. cbn [pn_trans]. rewrite nth_error_map, (nth_error_nth' (seq 0 (cn_ntrans net)) 0) by (rewrite seq_length; auto). rewrite seq_nth by auto. reflexivity. }
    split.
    - intros (tr & E & (EN & _ & F)). rewrite NT in E. injection E as <-. split.
      + intros s S. apply pl_items in S as (p & P & ->). rewrite between_pre, HM by auto. split; [apply F; lia|]. intros w W.
        apply in_items in W as [(q & Q & E)|[(u & U & E)|(u & a & U & [(A & E)|(A & E)])]]; try discriminate E. injection E as E1 E2 -> I.
        apply TI in E2; auto. subst u. apply PI in E1; auto; [|apply (proj1 (wf_t t T)), A]. specialize (EN a A). unfold arc_ok in EN. rewrite <- I in EN. rewrite E1. exact EN.
      + intros s S. apply pl_items in S as (p & P & ->). rewrite between_pre, between_post, HM, HM' by auto. apply F. lia.
    - intros (EN & F). exists (net_trans net t). split; auto. split; [|split; [lia|]].
      + intros a A. assert (P : arc_place a < cn_places net) by (apply (proj1 (wf_t t T)), A). destruct (EN (pn (arc_place a))) as (E1 & E2); [apply pl_items; eauto|].
        rewrite between_pre, HM in E1 by auto. unfold arc_ok. destruct (arc_inhib a) eqn:I.
        * rewrite <- HM by auto. apply E2. apply in_items. right. right. exists t, a. split; auto. left. split; auto. unfold pre_item. rewrite I. reflexivity.
        * pose proof (le_sum _ _ _ A eq_refl I). lia.
      + intros p P. rewrite Lm in P. destruct (EN (pn p)) as (E1 & _); [apply pl_items; eauto|]. rewrite between_pre, HM in E1 by auto. split; auto.
        rewrite <- HM' by auto. rewrite F by (apply pl_items; eauto). rewrite between_pre, between_post, HM by auto. reflexivity.
  Qed.
End Write.

Lemma bij_size : forall (P : string -> Prop) (f : nat -> string) n n' idx, (forall i j, i < n -> j < n -> f i = f j -> i = j) -> (forall s, P s <-> exists i, i < n /\ s = f i) ->
  numbered P n' idx -> n' = n /\ (forall i, i < n -> idx (f i) < n) /\ (forall i j, i < n -> j < n -> idx (f i) = idx (f j) -> i = j) /\ (forall k, k < n -> exists i, i < n /\ idx (f i) = k).
Proof.
  intros P f n n' idx I HP (A & B & C).
  assert (A' : forall i, i < n -> idx (f i) < n') by (intros i Hi; apply A, HP; eauto).
  assert (B' : forall i j, i < n -> j < n -> idx (f i) = idx (f j) -> i = j) by (intros i j Hi Hj E; apply I; auto; apply B; auto; apply HP; eauto).
  assert (C' : forall k, k < n' -> exists i, i < n /\ idx (f i) = k) by (intros k K; destruct (C k K) as (s & S & <-); apply HP in S as (i & Hi & ->); eauto).
  assert (N1 : NoDup (map (fun i => idx (f i)) (seq 0 n))).
  { assert (G : forall k s, s + k <= n -> NoDup (map (fun i => idx (f i)) (seq s k))).
    { induction k as [|k IH]; intros s R; cbn [seq map]; constructor; [|apply IH; lia]. intros X. apply in_map_iff in X as (j & E & J). apply in_seq in J. apply B' in E; lia. }
    apply G. lia. }
  assert (L1 : n <= n').
  { rewrite <- (seq_length n 0), <- (map_length (fun i => idx (f i))). rewrite <- (seq_length n' 0). apply NoDup_incl_length; auto.
    intros k K. apply in_map_iff in K as (i & <- & Hi). apply in_seq in Hi. apply in_seq. specialize (A' i). lia. }
  assert (L2 : n' <= n).
  { assert (Q : List.length (seq 0 n') <= List.length (map (fun i => idx (f i)) (seq 0 n))); [|rewrite map_length, !seq_length in Q; exact Q]. apply NoDup_incl_length; [apply seq_NoDup|].
    intros k K. apply in_seq in K. destruct (C' k ltac:(lia)) as (i & Hi & <-). apply in_map_iff. exists i. split; auto. apply in_seq. lia. }
  assert (E : n' = n) by lia. subst n'. auto.
Qed.

Theorem round_trip : forall nm net pn tn reorder, (forall a b, nm a = nm b -> a = b) ->
  layout net -> List.length (cn_init net) = cn_places net -> 0 < cn_places net ->
  (forall i j, i < cn_places net -> j < cn_places net -> pn i = pn j -> i = j) ->
  (forall i j, i < cn_ntrans net -> j < cn_ntrans net -> tn i = tn j -> i = j) ->
  (forall i j, i < cn_places net -> j < cn_ntrans net -> pn i <> tn j) ->
  (forall p, (tokens (cn_init net) p < 2 ^ 32)%N) ->
  (forall t a, t < cn_ntrans net -> In a (tr_pre (net_trans net t)) \/ In a (tr_post (net_trans net t)) -> (0 < arc_weight a < 2 ^ 31)%N) ->
  exists net' pi ti, read_net nm (to_xml net pn tn) reorder = Ok net' /\ layout net' /\
    cn_places net' = cn_places net /\ cn_ntrans net' = cn_ntrans net /\ permutes (cn_places net) pi /\ permutes (cn_ntrans net) ti /\
    moved (cn_places net) pi (cn_init net) (cn_init net') /\
    (forall t m m' n n', t < cn_ntrans net -> moved (cn_places net) pi m n -> moved (cn_places net) pi m' n' ->
       (step (to_pnet net) m t m' <-> step (to_pnet net') n (ti t) n')) /\
    (forall t p, t < cn_ntrans net -> p < cn_places net -> (0 < weight_at (tr_pre (net_trans net t)) p)%N ->
       nth_error (cn_ctrl net') (ti t) = Some (nth t (cn_ctrl net) false)).
Proof.
  intros nm net pn tn reorder Inj L LI P0 PI TI PT TK WT.
  pose proof (written net pn tn LI TK WT) as D. pose proof (items_ok net pn tn L LI PI TI PT) as OK.
  destruct (reading_ok nm Inj _ _ reorder D OK) as (net' & pidx & tidx & R & L' & PN & TN & LI' & IN & ST & CT).
  { exists (pn 0). apply (pl_items net pn tn LI). eauto. }
  destruct (bij_size _ pn _ _ _ PI (pl_items net pn tn LI) PN) as (EP & A1 & A2 & A3).
  destruct (bij_size _ tn _ _ _ TI (tr_items net pn tn LI) TN) as (ET & B1 & B2 & B3).
  exists net', (fun i => pidx (pn i)), (fun t => tidx (tn t)). split; auto. split; auto. split; auto. split; auto. split; [split; auto|]. split; [split; auto|]. split; [|split].
  - split; auto. split; [lia|]. intros p P. unfold tokens at 2. apply IN. apply (in_items net pn tn LI). left. exists p. auto.
  - intros t m m' n n' T (Lm & Ln & Hm) (Lm' & Ln' & Hm'). rewrite ST by (first [lia|apply (tr_items net pn tn LI); eauto]).
    rewrite (fires_items net pn tn L LI PI TI PT t m m' T Lm Lm' (fun p => tokens n (pidx p)) (fun p => tokens n' (pidx p)) Hm Hm'). split; [intros H; split; [lia|exact H]|intros (_ & H); exact H].
  - intros t p T P W. rewrite (CT (tn t) (Z.of_N (if nth t (cn_ctrl net) false then 0 else 1))).
    + destruct (nth t (cn_ctrl net) false); reflexivity.
    + apply (in_items net pn tn LI). right. left. exists t. auto.
    + exists (pn p). split; [apply (pl_items net pn tn LI); eauto|]. rewrite (between_pre net pn tn L LI PI TI PT p t P T). exact W.
Qed.
