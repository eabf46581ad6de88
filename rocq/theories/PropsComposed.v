(** The properties of lazy functions as composed by the code, objects, lifetimes and
    all (C45 - C47, C52, C53).  Statements only. *)
From Coq Require Import List Bool Arith.
From Verif Require Import Value Machine MachineSpec MachineLib Composed MachineSpec2 MachineThms
  Programs ProgramThms MachineExamples.
Import ListNotations.

(** C45 is false: a [void] function without dependencies, called twice through a lazy
    function, runs twice. *)
Theorem C45_remembers_refuted :
  exists (U : muser nat nat mf nat) (f : mf), void_fun U f /\
  forall n,
  let (os, st) := run_prog full std U (20 + n) [] [MNew f None []; MCallVar 0; MCallVar 0] (start []) in
  os = [None; Some (Done None); Some (Done None)] /\ trace st <> [MCall f []] /\ mworld st <> 1.
Proof. exact ex_C45. Qed.
Print Assumptions C45_remembers_refuted.

(** C46 is false: a function that returns a value, without dependencies. *)
Theorem C46_defined_refuted :
  exists (U : muser nat nat mf nat) (f : mf) (v : val nat) (st : mstate nat nat mf nat),
  fst (fst (eval_prog U [] [MNew f None []; MCallVar 0] 0)) = [None; Some (Done (Some v))] /\
  forall n, fst (run_prog full std U (20 + n) [] [MNew f None []; MCallVar 0] st) = [None; Some (Err Undefined)].
Proof. exact ex_C46. Qed.
Print Assumptions C46_defined_refuted.

(** C47: a call that is not undefined, by the standard's rules ([b = true]) or if dead
    objects keep their contents ([b = false]), leaves every object as it was; what it
    returns and does is an evaluation of the whole tree from scratch. *)
Theorem C47_calls_change_nothing :
  forall (A W F S : Type) (ve : val A -> bool) (U : muser A W F S) b e m st r o st',
  8 + fuel_for e <= m -> holds (store st) r (lazy_obj U e) ->
  invoke ve (mkCfg b false) U m r [] st = (o, st') -> o <> Err Undefined ->
  exists cells v w' l,
    ecall U e (mworld st) = (v, w', l) /\ o = returned v /\
    st' = mkSt (store st ++ map (@dead A F S) cells) w' (trace st ++ l).
Proof. exact @defined_call. Qed.
Print Assumptions C47_calls_change_nothing.

(** Hence whole programs that create, copy and call lazy functions behave as if every
    call evaluated everything from scratch. *)
Theorem C47_programs_from_scratch :
  forall (A W F S : Type) (ve : val A -> bool) (U : muser A W F S) p,
  prog_ok 0 p ->
  exists m0, forall m st, m0 <= m ->
  let '(os, w', l) := eval_prog U [] p (mworld st) in
  exists cells,
    run_prog ve (mkCfg false false) U m [] p st = (os, mkSt (store st ++ cells) w' (trace st ++ l)).
Proof. exact @programs_from_scratch. Qed.
Print Assumptions C47_programs_from_scratch.

Example C47_case :
  prog_ok 0 ex_prog /\
  eval_prog exU [] ex_prog 0
  = ([None; None; Some (Done None); None; Some (Done None); None; Some (d_ 14); Some (d_ 14)], 2,
     [MCall FHello []; MCall FHello [];
      MCall FNow []; MCall FAdd [VAtom 2; VAtom 5]; MCall FNow []; MCall FAdd [VAtom 2; VAtom 5];
      MCall FTick [VAtom 7; VAtom 7];
      MCall FNow []; MCall FAdd [VAtom 2; VAtom 5]; MCall FNow []; MCall FAdd [VAtom 2; VAtom 5];
      MCall FTick [VAtom 7; VAtom 7]]) /\
  (let (os, st) := run_prog full (mkCfg false false) exU 40 [] ex_prog (start []) in
   (os, mworld st, trace st) = eval_prog exU [] ex_prog 0).
Proof. split; [exact ex_prog_ok|]. split; [exact ex_C47|exact ex_C47_run]. Qed.

(** C52: by the standard's rules, the first call in a program that should return a
    value of a non-empty class is undefined, unless one before was. *)
Theorem C52_values_undefined :
  forall (A W F S : Type) (ve : val A -> bool) (U : muser A W F S) p,
  prog_ok 0 p ->
  exists m0, forall m st, m0 <= m ->
  agree_until_undefined ve (fst (fst (eval_prog U [] p (mworld st))))
    (fst (run_prog ve (mkCfg true false) U m [] p st)).
Proof. exact @programs_undefined. Qed.
Print Assumptions C52_values_undefined.

(** And exactly when: [std_prog] evaluates from scratch and is undefined where a value
    of non-empty class is read through a [LazyResult] ([b = true]); the outcome, the
    actions before and the outside world are as there. *)
Theorem C52_exactly_when :
  forall (A W F S : Type) (ve : val A -> bool) (U : muser A W F S) b p,
  prog_ok 0 p ->
  exists m0, forall m st, m0 <= m ->
  let '(os, w', l) := std_prog U (fun v => negb b || data_empty ve v) [] p (mworld st) in
  exists cells,
    run_prog ve (mkCfg b false) U m [] p st = (os, mkSt (store st ++ cells) w' (trace st ++ l)).
Proof. exact @programs_exact. Qed.
Print Assumptions C52_exactly_when.

Example C52_case :
  prog_ok 0 ex_prog /\
  fst (run_prog full std exU 40 [] ex_prog (start []))
  = [None; None; Some (Done None); None; Some (Done None); None; Some (Err Undefined); Some (Err Undefined)] /\
  std_prog exU (fun v => negb true || data_empty full v) [] ex_prog 0
  = ([None; None; Some (Done None); None; Some (Done None); None; Some (Err Undefined); Some (Err Undefined)], 2,
     [MCall FHello []; MCall FHello []]).
Proof. split; [exact ex_prog_ok|]. split; [exact ex_C52|exact ex_C52_std]. Qed.

(** C53: lazy functions that wrap [void] functions and depend on such ones only: all
    calls are defined ([b = true] and [b = false]), and each evaluates the whole tree. *)
Theorem C53_void_calls :
  forall (A W F S : Type) (ve : val A -> bool) (U : muser A W F S) b m es rs st,
  Forall (void_tree U) es ->
  Forall (fun e => 8 + fuel_for e <= m) es ->
  Forall2 (fun r e => holds (store st) r (lazy_obj U e)) rs es ->
  let '(os, w', l) := eval_all U es (mworld st) in
  exists cells, call_all (fun r => invoke ve (mkCfg b false) U m r []) rs st
    = (map returned os, mkSt (store st ++ map (@dead A F S) cells) w' (trace st ++ l)).
Proof. exact @void_calls. Qed.
Print Assumptions C53_void_calls.

Example C53_case :
  void_tree exU ex_void /\
  holds (store (start [lazy_obj exU ex_void])) (0, []) (lazy_obj exU ex_void) /\
  let (os, st) := call_all (fun r => invoke full std exU 40 r []) [(0, []); (0, [])] (start [lazy_obj exU ex_void]) in
  os = [Done RVoid; Done RVoid] /\ mworld st = 6 /\
  trace st = [MCall FHello []; MCall FHello []; MCall FHello [VVoid; VVoid];
              MCall FHello []; MCall FHello []; MCall FHello [VVoid; VVoid]].
Proof. exact ex_C53. Qed.
