(** Model of SimpleSynthesis (C35) and of GameSuccessorGenerator. *)
From Verif Require Import Base NetSpec NetModel.
Set Implicit Arguments.

(** ** GameSuccessorGenerator *)

(** SuccessorGenerator.h:84-90: the inner loop of _next with a predicate. *)
Fixpoint next_trans_p (net : cnet) (ok : nat -> bool) (m : list N) (t k : nat) : res (option nat) :=
  match k with
  | O => Ok None
  | S k' =>
    b <- check_preset net m t ;;
    if b && ok t then Ok (Some t) else next_trans_p net ok m (S t) k'
  end.

(** SuccessorGenerator.h:76-96 (see NetModel.next_place). *)
Fixpoint next_place_p (net : cnet) (ok : nat -> bool) (m : list N) (p : nat) (tc : option nat) (k : nat)
  : res (option (nat * list N) * gen) :=
  match k with
  | O => Ok (None, mkGen p tc)
  | S k' =>
    go <- (if Nat.eqb p 0 then Ok true
           else v <- rd m p ;; Ok (0 <? v)%N) ;;
    if go then
      t0 <- (match tc with
             | None => rd (cn_ptrs net) p
             | Some t => Ok t
             end) ;;
      last <- rd (cn_ptrs net) (S p) ;;
      if last <? t0 then UB
      else
        f <- next_trans_p net ok m t0 (last - t0) ;;
        match f with
        | Some t =>
          m' <- fire net m t ;;
          Ok (Some (t, m'), mkGen p (Some (S t)))
        | None => next_place_p net ok m (S p) None k'
        end
    else next_place_p net ok m (S p) None k'
  end.

(** PetriNet.h:83-86 controllable. *)
Definition controllable (net : cnet) (t : nat) : bool := nth t (cn_ctrl net) true.

(** GameSuccessorGenerator.h:47-61 next_ctrl and next_env, called until they return false
    after prepare() or after the other one ended (which resets the counters): the moves that
    are delivered, and how the enumeration ends (it can throw). *)
Fixpoint game_stream (fuel : nat) (net : cnet) (ok : nat -> bool) (m : list N) (g : gen)
  : list (nat * list N) * res unit :=
  match fuel with
  | O => ([], NoFuel)
  | S f =>
    match next_place_p net ok m (g_p g) (g_t g) (cn_places net - g_p g) with
    | Ok (None, _) => ([], Ok tt)
    | Ok (Some x, g') => let r := game_stream f net ok m g' in (x :: fst r, snd r)
    | Throw => ([], Throw)
    | UB => ([], UB)
    | NoFuel => ([], NoFuel)
    end
  end.
Definition ctrl_stream (net : cnet) (m : list N) : list (nat * list N) * res unit :=
  game_stream (S (cn_ntrans net)) net (controllable net) m gen_prepare.
Definition env_stream (net : cnet) (m : list N) : list (nat * list N) * res unit :=
  game_stream (S (cn_ntrans net)) net (fun t => negb (controllable net t)) m gen_prepare.

(** ** SimpleSynthesis *)

(** SynthConfig.h:33-38; the flag PRINTED is only used when the strategy is printed. *)
Inductive cstate := UNKNOWN | PROCESSED | MAYBE | LOSING | WINNING.
Definition det (c : cstate) : bool := match c with WINNING | LOSING => true | _ => false end.
Definition is_losing (c : cstate) : bool := match c with LOSING => true | _ => false end.
Definition is_winning (c : cstate) : bool := match c with WINNING => true | _ => false end.
Definition is_maybe (c : cstate) : bool := match c with MAYBE => true | _ => false end.

(** SynthConfig.h:28-82; pointers to configurations are their identifiers. *)
Record conf := mkCf { c_st : cstate; c_wait : nat; c_cc : N; c_ec : N; c_dep : list (bool * nat) }.

(** The state set (exact by C05: identifiers in the order of insertion), the waiting list and
    the stack of determined configurations (the head is the top). *)
Record syn := mkSyn { y_tab : list (list N * conf); y_queue : list nat; y_back : list nat }.

Definition set_tab (s : syn) (t : list (list N * conf)) : syn := mkSyn t (y_queue s) (y_back s).
Definition cf (s : syn) (i : nat) : conf := snd (nth i (y_tab s) ([], mkCf UNKNOWN 0 0 0 [])).
Definition mk (s : syn) (i : nat) : list N := fst (nth i (y_tab s) ([], mkCf UNKNOWN 0 0 0 [])).
Definition set_cf (s : syn) (i : nat) (c : conf) : syn := set_tab s (upd (y_tab s) i (mk s i, c)).
Definition set_st (s : syn) (i : nat) (x : cstate) : syn :=
  let c := cf s i in set_cf s i (mkCf x (c_wait c) (c_cc c) (c_ec c) (c_dep c)).
Definition push_back (s : syn) (i : nat) : syn := mkSyn (y_tab s) (y_queue s) (i :: y_back s).

(** Index of a marking in the state set. *)
Fixpoint idx (m : list N) (l : list (list N * conf)) : option nat :=
  match l with
  | [] => None
  | (m', _) :: l' => if list_eq_dec N.eq_dec m' m then Some 0 else option_map S (idx m l')
  end.

(** ancestor->_ctrl_children -= 1 on a uint32_t. *)
Definition dec32 (x : N) : N := ((x + (2 ^ 32 - 1)) mod 2 ^ 32)%N.

Section Synthesis.
Variable safety : bool.             (* _is_safety *)
Variable pred : list N -> bool.     (* eval(_predicate, marking) *)
Variable kbound : N.
Variable envs ctrls : list N -> list (nat * list N) * res unit.
(* the position the waiting list is popped at in the i-th turn (make_queue, 432-446) *)
Variable pick : nat -> list nat -> nat.

(** SimpleSynthesis.cpp:186-196 check_bound. *)
Definition check_bound (m : list N) : bool := if (0 <? kbound)%N then negb (kbound <? sumN m)%N else true.

(** SimpleSynthesis.cpp:204-240 get_config. *)
Definition new_state (m : list N) : cstate :=
  if negb (check_bound m) then LOSING
  else if safety then (if negb (pred m) then LOSING else UNKNOWN)
  else (if pred m then WINNING else UNKNOWN).
Definition get_config (s : syn) (m : list N) : syn * nat :=
  match idx m (y_tab s) with
  | Some i => (s, i)
  | None => (set_tab s (y_tab s ++ [(m, mkCf (new_state m) 0 0 0 [])]), length (y_tab s))
  end.

(** SimpleSynthesis.cpp:501-532 get_env_successors; result: some_env and env_buffer. *)
Fixpoint env_loop (l : list (nat * list N)) (e : res unit) (x : nat) (s : syn) (some : bool) (buf : list nat)
  : res (syn * (bool * list nat)) :=
  match l with
  | [] => _ <- e ;; Ok (s, (some, buf))
  | (_, m) :: l' =>
    let (s1, c) := get_config s m in
    if is_losing (c_st (cf s1 c)) then Ok (set_st s1 x LOSING, (true, buf))
    else if is_winning (c_st (cf s1 c)) then env_loop l' e x s1 true buf
    else if Nat.eqb c x then
      if safety then env_loop l' e x s1 true buf
      else Ok (set_st s1 x LOSING, (true, buf))
    else env_loop l' e x s1 true (buf ++ [c])
  end.

(** SimpleSynthesis.cpp:448-499 get_ctrl_successors with permissive = false, which is what
    main.cpp:465 passes; result: some, some_winning and ctrl_buffer. *)
Fixpoint ctrl_loop (l : list (nat * list N)) (e : res unit) (x : nat) (env_empty : bool) (s : syn)
    (some : bool) (buf : list nat) : res (syn * (bool * bool * list nat)) :=
  match l with
  | [] => _ <- e ;; Ok (s, (some, false, buf))
  | (_, m) :: l' =>
    let (s1, c) := get_config s m in
    if Nat.eqb c x then
      if safety then
        Ok (set_st s1 x (if env_empty then WINNING else MAYBE), (true, false, []))
      else ctrl_loop l' e x env_empty s1 true buf
    else if is_losing (c_st (cf s1 c)) then ctrl_loop l' e x env_empty s1 true buf
    else if is_winning (c_st (cf s1 c)) then
      Ok (set_st s1 x (if env_empty then WINNING else MAYBE), (true, true, []))
    else ctrl_loop l' e x env_empty s1 true (buf ++ [c])
  end.

(** SimpleSynthesis.cpp:534-560 fix_assignment. *)
Definition fix_assignment (st : cstate) (some_ctrl some_winning ctrl_empty some_env env_empty : bool) : cstate :=
  if det st then st
  else if some_ctrl && negb some_winning && ctrl_empty then LOSING
  else if negb some_ctrl && negb some_env then (if safety then WINNING else LOSING)
  else if env_empty && some_winning then WINNING
  else if negb some_ctrl && some_env && env_empty then WINNING
  else if negb some_ctrl && negb env_empty then MAYBE
  else st.

(** SimpleSynthesis.cpp:562-571 to_queue. *)
Fixpoint to_queue (succs : list nat) (is_ctrl : bool) (x : nat) (s : syn) : syn :=
  match succs with
  | [] => s
  | c :: succs' =>
    let cc := cf s c in
    let s1 := if Nat.eqb (c_wait cc) 0 then
                mkSyn (y_tab (set_cf s c (mkCf (c_st cc) 1 (c_cc cc) (c_ec cc) (c_dep cc)))) (y_queue s ++ [c]) (y_back s)
              else s in
    let c1 := cf s1 c in
    to_queue succs' is_ctrl x (set_cf s1 c (mkCf (c_st c1) (c_wait c1) (c_cc c1) (c_ec c1) ((is_ctrl, x) :: c_dep c1)))
  end.

(** SimpleSynthesis.cpp:127-181: one depender of [next], whose state is [st]. *)
Definition update (st : cstate) (is_ctrl : bool) (a : conf) : conf :=
  let a1 :=
    if is_ctrl then
      let cc := dec32 (c_cc a) in
      let st1 := if is_winning st then (if N.eqb (c_ec a) 0 then WINNING else MAYBE) else c_st a in
      let st2 := if N.eqb cc 0 && negb (is_maybe st1 || is_winning st1) then LOSING else st1 in
      mkCf st2 (c_wait a) cc (c_ec a) (c_dep a)
    else
      let ec := dec32 (c_ec a) in
      let st1 := if is_losing st then LOSING
                 else if is_winning st && N.eqb ec 0 && is_maybe (c_st a) then WINNING
                 else c_st a in
      mkCf st1 (c_wait a) (c_cc a) ec (c_dep a) in
  if N.eqb (c_ec a1) 0 && N.eqb (c_cc a1) 0 && is_maybe (c_st a1)
  then mkCf WINNING (c_wait a1) (c_cc a1) (c_ec a1) (c_dep a1) else a1.
Definition depender (st : cstate) (d : bool * nat) (s : syn) : syn :=
  let a := cf s (snd d) in
  if det (c_st a) then s
  else
    let a1 := update st (fst d) a in
    if det (c_st a1) then
      let s1 := set_cf s (snd d) (mkCf (c_st a1) 2 (c_cc a1) (c_ec a1) (c_dep a1)) in
      if c_wait a1 <? 2 then push_back s1 (snd d) else s1
    else set_cf s (snd d) a1.

(** SimpleSynthesis.cpp:123-184 dependers_to_waiting; [next] is determined, so it does not
    change in the loop. *)
Definition dependers_to_waiting (next : nat) (s : syn) : syn :=
  let s1 := fold_left (fun s d => depender (c_st (cf s next)) d s) (c_dep (cf s next)) s in
  let c := cf s1 next in set_cf s1 next (mkCf (c_st c) (c_wait c) (c_cc c) (c_ec c) []).

(** SimpleSynthesis.cpp:606-610. *)
Fixpoint drain (fuel : nat) (s : syn) : res syn :=
  match fuel with
  | O => NoFuel
  | S f =>
    match y_back s with
    | [] => Ok s
    | next :: back => drain f (dependers_to_waiting next (mkSyn (y_tab s) (y_queue s) back))
    end
  end.

(** SimpleSynthesis.cpp:637-673: processing configuration [x]; the assertion of line 640 is
    modelled. *)
Definition expand (x : nat) (s : syn) : res syn :=
  if negb (Nat.eqb (c_wait (cf s x)) 1) then UB
  else
    let s0 := set_st s x PROCESSED in
    r <- env_loop (fst (envs (mk s x))) (snd (envs (mk s x))) x s0 false [] ;;
    let '(s1, (some_env, env_buf)) := r in
    let env_empty := match env_buf with [] => true | _ => false end in
    r2 <- (if det (c_st (cf s1 x)) then Ok (s1, (false, false, []))
           else ctrl_loop (fst (ctrls (mk s x))) (snd (ctrls (mk s x))) x env_empty s1 false []) ;;
    let '(s2, (some_ctrl, some_winning, ctrl_buf)) := r2 in
    let ctrl_empty := match ctrl_buf with [] => true | _ => false end in
    let s3 := set_st s2 x (fix_assignment (c_st (cf s2 x)) some_ctrl some_winning ctrl_empty some_env env_empty) in
    if det (c_st (cf s3 x)) then Ok (push_back s3 x)
    else
      let s4 := to_queue env_buf false x (to_queue ctrl_buf true x s3) in
      let c := cf s4 x in
      Ok (set_cf s4 x (mkCf (c_st c) (c_wait c) (N.of_nat (length ctrl_buf) mod 2 ^ 32)%N
                         (N.of_nat (length env_buf) mod 2 ^ 32)%N (c_dep c))).

Definition remove_at (i : nat) (l : list nat) : list nat := firstn i l ++ skipn (S i) l.

(** SimpleSynthesis.cpp:605-674: the main loop; [meta] is configuration 0. *)
Fixpoint main_loop (fuel turn : nat) (s : syn) : res syn :=
  match fuel with
  | O => NoFuel
  | S f =>
    if det (c_st (cf s 0)) then Ok s
    else
      s1 <- drain fuel s ;;
      match y_queue s1 with
      | [] => Ok s1
      | q =>
        let i := pick turn q mod length q in
        let x := nth i q 0 in
        let s2 := mkSyn (y_tab s1) (remove_at i q) (y_back s1) in
        let c := cf s2 x in
        if det (c_st c) then main_loop f (S turn) s2
        else if forallb (fun d => det (c_st (cf s2 (snd d)))) (c_dep c) && negb (Nat.eqb x 0) then
          main_loop f (S turn) (set_cf s2 x (mkCf (c_st c) 0 (c_cc c) (c_ec c) []))
        else s3 <- expand x s2 ;; main_loop f (S turn) s3
      end
  end.

(** SimpleSynthesis.cpp:581-682 run: the final configurations and the result. *)
Definition run_synthesis (fuel : nat) (init : list N) : res (syn * bool) :=
  let (s, i) := get_config (mkSyn [] [] []) init in
  let c := cf s i in
  let s1 := set_cf s i (mkCf (c_st c) 1 (c_cc c) (c_ec c) (c_dep c)) in
  s2 <- main_loop fuel 0 (mkSyn (y_tab s1) [i] []) ;;
  Ok (s2, if safety then negb (is_losing (c_st (cf s2 0))) else is_winning (c_st (cf s2 0))).
End Synthesis.

(** The engine on a compiled net, without partial-order reduction. *)
Definition synthesize (net : cnet) (safety : bool) (pred : list N -> bool) (kbound : N)
    (pick : nat -> list nat -> nat) (fuel : nat) : res (syn * bool) :=
  run_synthesis safety pred kbound (env_stream net) (ctrl_stream net) pick fuel (cn_init net).
