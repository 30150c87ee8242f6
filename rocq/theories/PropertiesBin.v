(** Property theorems about binary query files: C16. *)
From Verif Require Import Base NetSpec PqlSyntax PqlSpec PqlModel BinSpec BinModel BinProofs BinFile.
From Coq Require Import Permutation.

(** C16.  The reader applied to what the writer wrote, followed by anything, returns the
    query and stops exactly behind it.  The query is the same up to the shape of arithmetic
    expressions ([same]); [fit] says that its numbers fit the fields of the format. *)
Theorem C16_query_round_trip : forall np f rest, fit np f = true ->
  exists f', parse_query np (print f ++ rest) = Ok (f', rest) /\ same f f'.
Proof. exact parse_query_ok. Qed.
Print Assumptions C16_query_round_trip.

(** The query that is read has the same meaning on every run of every net. *)
Theorem C16_meaning_kept : forall np c rest, fit np (of_cond c) = true ->
  exists c', parse_query np (print (of_cond c) ++ rest) = Ok (of_cond c', rest) /\
    forall net pi, holds net pi c <-> holds net pi c'.
Proof.
  intros np c rest H. destruct (parse_query_ok np (of_cond c) rest H) as (f' & E & S).
  destruct (same_holds c S) as (c' & -> & K). exists c'. split; [exact E|exact K].
Qed.
Print Assumptions C16_meaning_kept.

(** Whole files: the place names come back under their numbers, and the queries that were
    not dropped as solved come back with their names, in the order of writing. *)
Theorem C16_file_round_trip : forall names queries order keep,
  Permutation (map snd names) (seq 0 (length names)) -> (forall kv, In kv names -> ~ In 0%N (fst kv)) -> (N.of_nat (length names) < 2 ^ 31)%N ->
  Permutation order (seq 0 (length queries)) -> (N.of_nat (length queries) < 2 ^ 32)%N ->
  (forall q, In q queries -> ~ In 0%N (fst q) /\ fit (length names) (snd q) = true) ->
  exists bs tbl qs, write_file names queries order keep = Ok bs /\ read_file bs = Ok (tbl, qs) /\
    length tbl = length names /\ (forall kv, In kv names -> nth_error tbl (snd kv) = Some (fst kv)) /\
    Forall2 (fun q q' => fst q' = fst q /\ same (snd q) (snd q'))
      (filter (fun q => match snd q with FBool _ => keep | _ => true end) (map (fun i => nth i queries ([], FDead)) order)) qs.
Proof.
  intros names queries order keep H1 H2 H3 H4 H5 H6. destruct (file_round_trip names queries keep H1 H2 H3 H4 H5 H6) as (bs & tbl & qs & A & B & C & D & E).
  exists bs, tbl, qs. split; [exact A|]. split; [exact B|]. split; [exact C|]. split; [exact D|].
  replace (filter (fun q => match snd q with FBool _ => keep | _ => true end) (map (fun i => nth i queries ([], FDead)) order))
    with (filter (fun q => kept keep (snd q)) (map (fun i => nth i queries ([], FDead)) order)); [exact E|].
  apply filter_ext. intros [n f]. destruct f, keep; reflexivity.
Qed.
Print Assumptions C16_file_round_trip.

(** E (p0 - (-p1) < 3 * p2 * (p0 + 7)) U not (2 <= p1 <= 5), and a bound *)
Definition bx1 : cond := CEU (CCmp OpLt (Sub (Pl 0) [Minus (Pl 1)]) (Mul 3 [2] [Plus 7 [0] []])) (CConj true [mkCons 1 2 5]).
Definition bx2 : form := F1 HEF (FBounds [0;0;0;0;0;0;240;127]%N [0;0;0;0;0;0;0;0]%N [(2, [0;0;0;0;0;0;240;127]%N)]).
Definition bx_names : list (list N * nat) := [([98%N], 1); ([97%N], 0); ([99%N; 100%N], 2)].
Definition bx_queries : list named := [([81; 49], of_cond bx1); ([81; 50], FBool true); ([81; 51], bx2)]%N.
Example C16_case : fit 3 (of_cond bx1) = true /\ fit 3 bx2 = true /\
  parse_query 3 (print (of_cond bx1) ++ [7%N]) =
    Ok (F2 HEU (FCmp OpLt (Sub (Pl 0) [Sub (Lit 0) [Pl 1]]) (Mul 3 [2] [Plus 7 [0] []])) (FConj true [mkCons 1 2 5]), [7%N]) /\
  parse_query 3 (print bx2) = Ok (bx2, []).
Proof. vm_compute. repeat split. Qed.
Example C16_file_case :
  Permutation (map snd bx_names) (seq 0 (length bx_names)) /\ (forall kv, In kv bx_names -> ~ In 0%N (fst kv)) /\
  Permutation [2; 0; 1] (seq 0 (length bx_queries)) /\
  (forall q, In q bx_queries -> ~ In 0%N (fst q) /\ fit (length bx_names) (snd q) = true) /\
  (bs <- write_file bx_names bx_queries [2; 0; 1] false ;; r <- read_file bs ;; Ok (fst r, map fst (snd r))) =
    Ok ([[97]; [98]; [99; 100]], [[81; 51]; [81; 49]])%N.
Proof.
  split; [apply perm_swap|]. split; [intros kv [<-|[<-|[<-|[]]]]; cbn; intuition discriminate|].
  split; [apply (Permutation_cons_append [0; 1] 2)|].
  split; [intros q [<-|[<-|[<-|[]]]]; split; try reflexivity; cbn; intuition discriminate|]. vm_compute. reflexivity.
Qed.

(** Finding: the constant of a sum or product is written with 32 bits, although it is kept
    with 64.  2147483647 + 1 + p comes back as -2147483648 + p. *)
Theorem C16_constant_refuted : exists e e' m,
  e = mk_plus [Lit 2147483647; Lit 1; Pl 0] /\
  parse_query 1 (print (FCmp OpLt (Lit 0) e)) = Ok (FCmp OpLt (Lit 0) e', []) /\
  cmp_holds OpLt (den m (Lit 0)) (den m e) /\ ~ cmp_holds OpLt (den m (Lit 0)) (den m e').
Proof.
  exists (Plus 2147483648 [0] []), (Plus (-2147483648) [0] []), [5%N].
  split; [reflexivity|]. split; [vm_compute; reflexivity|]. cbn. unfold tokens. cbn. lia.
Qed.
Print Assumptions C16_constant_refuted.
