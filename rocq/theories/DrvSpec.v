(** What the verdicts of the tool have to say, and what its parts have to guarantee. *)
From Verif Require Import Base NetSpec NetModel PqlSyntax PqlSpec QueryModel SearchModel CmpSpec SynSpec SynModel DrvModel.
Set Implicit Arguments.

(** "control: AF g" and "control: AG g": the controller has a winning strategy. *)
Definition controls (net : cnet) (c : cond) : Prop :=
  let P := to_pnet net in
  match c with
  | CAF g => exists s, valid P (controllable net) s /\ wins_reach P (controllable net) s (fun m => sat P m g) 0 (cn_init net)
  | CAG g => exists s, valid P (controllable net) s /\ wins_safe P (controllable net) s (fun m => sat P m g) 0 (cn_init net)
  | _ => False
  end.
(** Truth of a query in the initial marking of a net. *)
Definition true_of (net : cnet) (q : dq) : Prop :=
  match q with QPlain c => sat (to_pnet net) (cn_init net) c | QControl c => controls net c end.

(** Every verdict among the lines is right, *)
Definition verdicts_right (net : cnet) (qs : list dq) (ls : list line) : Prop :=
  forall i b, In (LFormula i b) ls -> exists q, nth_error qs i = Some q /\ (b = true <-> true_of net q).
(** and these are the queries that get one. *)
Definition verdicts (ls : list line) : list nat := flat_map (fun l => match l with LFormula i _ => [i] | _ => [] end) ls.

(** The lists agree in length, and query by query in meaning, for the queries in [D]. *)
Definition same_truth (D : nat -> Prop) (net : cnet) (qs : list dq) (net' : cnet) (qs' : list dq) : Prop :=
  length qs' = length qs /\
  forall i q q', D i -> nth_error qs i = Some q -> nth_error qs' i = Some q' -> (true_of net q <-> true_of net' q').

(** An engine for single queries answers right on the queries it is given. *)
Definition engine_right (D : nat -> Prop) (truth : cond -> Prop) (qs : list dq) (f : nat -> cond -> res bool) : Prop :=
  forall i q b, D i -> nth_error qs i = Some q -> f i (body q) = Ok b -> (b = true <-> truth (body q)).

(** A search for goals reports only right results, each open goal at most once, and, if it ends
    without an exception, every open goal. *)
Definition calls_right (net : cnet) (goals : list cond) (opn : list bool) (r : list (nat * rslt) * res unit) : Prop :=
  (forall i v, In (i, v) (fst r) -> nth i opn false = true /\ exists g, nth_error goals i = Some g /\
     (v = Satisfied /\ attainable (to_pnet net) (cn_init net) g \/ v = NotSatisfied /\ ~ attainable (to_pnet net) (cn_init net) g)) /\
  NoDup (map fst (fst r)) /\
  (snd r = Ok tt -> forall i, nth i opn false = true -> In i (map fst (fst r))).
Definition reach_right (net : cnet) (G : cond -> Prop)
    (f : list cond -> list bool -> (nat -> rslt -> rslt * bool) -> list (nat * rslt) * res unit) : Prop :=
  forall goals opn handle,
    length opn = length goals ->
    (forall i g, nth_error goals i = Some g -> nth i opn false = true -> atomic g = true /\ G g) ->
    (forall i r, r <> Unknown -> fst (handle i r) <> Unknown) -> (forall i r, snd (handle i r) = false) ->
    calls_right net goals opn (f goals opn handle).

(** Queries that are left to the engines. *)
Definition pending (r : outc) : bool := match r with ORes Unknown | OCTL | OLTL | OSynth => true | _ => false end.
(** The reduction keeps the class of a query. *)
Definition same_shape (q q' : dq) : Prop :=
  match q, q' with
  | QPlain c, QPlain c' => is_reachability c' = is_reachability c
  | QControl _, QControl _ => True
  | _, _ => False
  end.

(** What the main function relies on: the simplification keeps the meaning of the queries, the
    reduction, which is not used with control queries, keeps the meaning and the class of those
    that are left to the engines, and each
    engine is right on the queries that it is given. *)
Section Parts.
  Variable o : dopts.
  Variable simplify : list dq -> list dq.
  Variable reduce : list dq -> list outc -> res (cnet * list dq).
  Variable ctl ltl synth : cnet -> nat -> cond -> res bool.
  Variable search tar : cnet -> list cond -> list bool -> (nat -> rslt -> rslt * bool) -> list (nat * rslt) * res unit.
  Definition parts_right (net : cnet) (qs : list dq) : Prop :=
    let qs1 := rewritten simplify net qs in
    let left p i := p (nth i (outcomes o simplify net qs) OSynth) = true in
    same_truth (fun _ => True) net (map (initial net) qs) net qs1 /\
    forall net2 qs2,
      (if o_reduce o : bool then (forall x, In x (outcomes o simplify net qs) -> is_synth x = false) /\ reduce qs1 (outcomes o simplify net qs) = Ok (net2, qs2)
       else net2 = net /\ qs2 = qs1) ->
      wf_pnet (to_pnet net2) /\
      same_truth (left pending) net qs1 net2 qs2 /\
      (forall i q q', left pending i -> nth_error qs1 i = Some q -> nth_error qs2 i = Some q' -> same_shape q q') /\
      engine_right (left is_ctl) (sat (to_pnet net2) (cn_init net2)) qs2 (ctl net2) /\
      engine_right (left is_ltl) (sat (to_pnet net2) (cn_init net2)) qs2 (ltl net2) /\
      engine_right (left is_synth) (controls net2) qs2 (synth net2) /\
      exists G : cond -> Prop,
        (forall i c g inv, left is_open i -> nth_error qs2 i = Some (QPlain c) -> prepare_for_reachability c = Ok (Some (g, inv)) -> G g) /\
        (o_tar o && (0 <? cn_places net2) = true -> reach_right net2 G (tar net2)) /\
        (o_tar o && (0 <? cn_places net2) = false -> reach_right net2 G (search net2)).
End Parts.

(** A net as the builder makes it. *)
Definition start_ok (net : cnet) : Prop :=
  layout net /\ 0 < cn_places net /\ length (cn_init net) = cn_places net /\ (forall p, tokens (cn_init net) p < 2 ^ 32)%N.
Definition is_control (q : dq) : bool := match q with QControl _ => true | _ => false end.
