(** The properties of tuples, bound functions and void adapters as objects (C35, C38 -
    C43), and creation of lazy functions (C04).  Statements only. *)
From Coq Require Import List Bool Arith.
From Verif Require Import Value Machine MachineSpec MachineLib MachineSpec2 MachineThms BindSpec BindFull
  TupleOps TupleOpsProofs RegularVoid RegularVoidProofs MachineExamples.
Import ListNotations.

(** C04: creating a lazy function and copying an object, as the code does it, runs no
    user code and changes nothing that existed. *)
Theorem C04_creation_as_composed :
  forall (A W F S : Type) (ve : val A -> bool) (C : config) (U : muser A W F S) f deps,
  grows (pigro_lazy ve C U f deps).
Proof. exact @grows_pigro_lazy. Qed.
Print Assumptions C04_creation_as_composed.

Theorem C04_copy_as_composed :
  forall (A W F S : Type) (ve : val A -> bool) (C : config) (a : arg),
  grows (W := W) (by_value (F := F) (S := S) ve C a).
Proof. exact @grows_by_value. Qed.
Print Assumptions C04_copy_as_composed.

(** C35: any history of creating and copying tuples and reading and writing elements
    and variables shows what it shows on plain values, where an element is a value of
    its own or, if declared a reference, a variable. *)
Theorem C35_tuple_histories :
  forall (A W F S : Type) (ve : val A -> bool) (C : config) ops (st : mstate A W F S),
  ops_ok ve (mkEnv [] []) ops ->
  exists sto', mach_run ve C [] [] ops st =
    (Done (snd (env_run (mkEnv [] []) ops)), mkSt sto' (mworld st) (trace st)).
Proof. exact @tuple_histories. Qed.
Print Assumptions C35_tuple_histories.

Example C35_case :
  ops_ok full (mkEnv [] []) ex_history /\
  fst (mach_run full std [] [] ex_history (start []))
  = Done [None; None; None; None; None; n_ 1; n_ 20; None; None; None; n_ 10; n_ 21; n_ 11; None; n_ 3; n_ 3].
Proof. exact ex_C35. Qed.

(** C38: calls of [bind_back(f, b1..bm)], interleaved with assignments to the objects
    given for the [b]s, are calls of [f] with the arguments followed by the current
    values of the [b]s. *)
Theorem C38_bind_back :
  forall (A W F S : Type) (ve : val A -> bool) (C : config) (U : muser A W F S)
         n st fa f s bs bvs,
  holds (store st) (aref fa) (fun_obj f s) ->
  Forall2 (fun b v => holds (store st) (aref b) (data v)) bs bvs ->
  NoDup (map aref bs) ->
  exists r st1,
    bind (bind_back ve C fa bs) alloc st = (Done r, st1) /\
    mworld st1 = mworld st /\ trace st1 = trace st /\
    forall steps, in_range (length bvs) steps ->
    let '(os, s2, bvs2, w2, l2) := direct false true U f s bvs steps (mworld st) in
    exists sto2,
      run_steps ve C U (2 + n) r (homes r 1 bs) steps st1 = (os, mkSt sto2 w2 (trace st ++ l2)) /\
      holds sto2 (home r 0 fa) (fun_obj f s2) /\
      Forall2 (fun q v => holds sto2 q (data v)) (homes r 1 bs) bvs2.
Proof. exact @bind_back_run. Qed.
Print Assumptions C38_bind_back.

Example C38_case :
  holds (store ex_bound) (aref (mkArg (0, []) LV)) (fun_obj FTick (Some 1)) /\
  Forall2 (fun b v => holds (store ex_bound) (aref b) (data v)) bound_args [VAtom 10; VAtom 20] /\
  NoDup (map aref bound_args) /\ in_range 2 ex_steps /\
  and_run (bind (bind_back full std (mkArg (0, []) LV) bound_args) alloc)
    (fun r st1 =>
       let (os, st2) := run_steps full std exU 2 r (homes r 1 bound_args) ex_steps st1 in
       (os, trace st2, firstn 3 (store st2)))
    ([], [], []) ex_bound
  = ([d_ 31; d_ 32; d_ 31],
     [MCall FTick [VAtom 1; VAtom 10; VAtom 20]; MCall FTick [VAtom 11; VAtom 21];
      MCall FTick [VAtom 1; VAtom 2; VAtom 5; VAtom 23]],
     [(true, fun_obj FTick (Some 4)); (true, num_obj 8); (true, num_obj 20)]).
Proof. exact ex_C38. Qed.

(** C39: the same for [t >> f], with the elements of [t] before the arguments.  C41:
    the state of [f] and of the elements is kept. *)
Theorem C39_shift_right :
  forall (A W F S : Type) (ve : val A -> bool) (C : config) (U : muser A W F S)
         n st ta fa f s k ss tvs,
  k = KCT \/ k = KTuple -> well_typed ve U f ->
  holds (store st) (aref fa) (fun_obj f s) -> holds (store st) (aref ta) (Node k ss) ->
  Forall2 (slot_holds (store st)) ss (map data tvs) -> NoDup (places (aref ta) 0 ss) ->
  exists r st1,
    bind (shift_right ve C ta fa) alloc st = (Done r, st1) /\
    mworld st1 = mworld st /\ trace st1 = trace st /\
    let es := places (op_home ve r 1 ta (Node k ss)) 0 ss in
    forall steps, in_range (length tvs) steps ->
    let '(os, s2, tvs2, w2, l2) := direct true true U f s tvs steps (mworld st) in
    exists sto2,
      run_steps ve C U (3 + n) r es steps st1 = (os, mkSt sto2 w2 (trace st ++ l2)) /\
      holds sto2 (op_home ve r 0 fa (fun_obj f s)) (fun_obj f s2) /\
      Forall2 (fun q v => holds sto2 q (data v)) es tvs2.
Proof. exact @shift_right_run. Qed.
Print Assumptions C39_shift_right.

(** C40: the same for [t << f], with the elements of [t] after the arguments; but here
    every call is made to a copy of [f], whose state is forgotten. *)
Theorem C40_shift_left :
  forall (A W F S : Type) (ve : val A -> bool) (C : config) (U : muser A W F S)
         n st ta fa f s k ss tvs,
  byref C = false -> k = KCT \/ k = KTuple -> well_typed ve U f -> by_value_fun U f ->
  holds (store st) (aref fa) (fun_obj f s) -> holds (store st) (aref ta) (Node k ss) ->
  Forall2 (slot_holds (store st)) ss (map data tvs) -> NoDup (places (aref ta) 0 ss) ->
  exists r st1,
    bind (shift_left ve C ta fa) alloc st = (Done r, st1) /\
    mworld st1 = mworld st /\ trace st1 = trace st /\
    let es := places (op_home ve r 1 ta (Node k ss)) 0 ss in
    forall steps, in_range (length tvs) steps ->
    let '(os, s2, tvs2, w2, l2) := direct false false U f s tvs steps (mworld st) in
    exists sto2,
      run_steps ve C U (3 + n) r es steps st1 = (os, mkSt sto2 w2 (trace st ++ l2)) /\
      holds sto2 (op_home ve r 0 fa (fun_obj f s)) (fun_obj f s) /\
      Forall2 (fun q v => holds sto2 q (data v)) es tvs2.
Proof. exact @shift_left_run. Qed.
Print Assumptions C40_shift_left.

Example C39_case :
  (holds (store ex_tuple) (aref op_f) (fun_obj FTick (Some 1)) /\
   holds (store ex_tuple) (aref op_t) ex_pair /\
   Forall2 (slot_holds (store ex_tuple)) (members ex_pair) (map data [VAtom 10; VAtom 20]) /\
   NoDup (places (aref op_t) 0 (members ex_pair)) /\ in_range 2 ex_steps) /\
  well_typed full exU FTick /\
  ex_shift (shift_right full std)
  = ([d_ 31; d_ 32; d_ 31],
     [MCall FTick [VAtom 10; VAtom 20; VAtom 1]; MCall FTick [VAtom 11; VAtom 21];
      MCall FTick [VAtom 5; VAtom 23; VAtom 1; VAtom 2]],
     [(true, fun_obj FTick (Some 4)); (true, Node KCT [SVal (num_obj 8); SRef (2, [])]); (true, num_obj 26)]).
Proof. exact (conj ex_tuple_ok (conj (ex_well_typed FTick) ex_C39)). Qed.

Example C40_case :
  by_value_fun exU FTick /\
  ex_shift (shift_left full std)
  = ([d_ 31; d_ 32; d_ 30],
     [MCall FTick [VAtom 1; VAtom 10; VAtom 20]; MCall FTick [VAtom 11; VAtom 21];
      MCall FTick [VAtom 1; VAtom 2; VAtom 5; VAtom 22]],
     [(true, fun_obj FTick (Some 1)); (true, Node KCT [SVal (num_obj 6); SRef (2, [])]); (true, num_obj 23)]).
Proof. exact (conj ex_by_value ex_C40). Qed.

(** C41: for [>>] this is [C39_shift_right]; for [<<] it is false, of the results and
    of the state that [f] is left in ([direct false true] keeps the state). *)
Theorem C41_left_state_refuted :
  exists (st : mstate nat nat mf nat) (ta fa : arg) (f : mf) (s : option nat) ss tvs,
    by_value_fun exU f /\ well_typed full exU f /\
    holds (store st) (aref fa) (fun_obj f s) /\ holds (store st) (aref ta) (Node KCT ss) /\
    Forall2 (slot_holds (store st)) ss (map data tvs) /\ NoDup (places (aref ta) 0 ss) /\
    exists r st1,
      bind (shift_left full std ta fa) alloc st = (Done r, st1) /\
      exists steps, in_range (length tvs) steps /\
      forall n,
      let '(os, s2, _, _, _) := direct false true exU f s tvs steps (mworld st) in
      let (os', st2) := run_steps full std exU (3 + n) r (places (op_home full r 1 ta (Node KCT ss)) 0 ss) steps st1 in
      os' <> os /\ ~ holds (store st2) (op_home full r 0 fa (fun_obj f s)) (fun_obj f s2).
Proof. exact ex_C41_left. Qed.
Print Assumptions C41_left_state_refuted.

(** C42: which objects must be alive.  After the death of any objects [ls] (not of the
    bound function itself) a call is undefined if an lvalue that was given is among
    them, unless it is an argument of empty class; if none is, nothing has changed. *)
Theorem C42_lifetimes :
  forall (A W F S : Type) (ve : val A -> bool) (C : config) (U : muser A W F S)
         n st fa f s bs bvs,
  holds (store st) (aref fa) (fun_obj f s) ->
  Forall2 (fun b v => holds (store st) (aref b) (data v)) bs bvs ->
  NoDup (map aref bs) ->
  exists r st1,
    bind (bind_back ve C fa bs) alloc st = (Done r, st1) /\
    forall ls, ~ In (fst r) ls ->
    let st2 := mkSt (die ls (store st1)) (mworld st1) (trace st1) in
    (strict C = true ->
     (referred_dead ls fa \/
      exists i b v, nth_error bs i = Some b /\ nth_error bvs i = Some v /\ referred_dead ls b /\ data_empty ve v = false) ->
     forall avs, exists sto', call_with ve C U (2 + n) r avs st2 = (Err Undefined, mkSt sto' (mworld st) (trace st))) /\
    (~ referred_dead ls fa -> Forall (fun b => ~ referred_dead ls b) bs ->
     forall steps, in_range (length bvs) steps ->
     let '(os, s2, bvs2, w2, l2) := direct false true U f s bvs steps (mworld st) in
     exists sto2,
       run_steps ve C U (2 + n) r (homes r 1 bs) steps st2 = (os, mkSt sto2 w2 (trace st ++ l2)) /\
       holds sto2 (home r 0 fa) (fun_obj f s2) /\
       Forall2 (fun q v => holds sto2 q (data v)) (homes r 1 bs) bvs2).
Proof. exact @bind_back_lifetimes. Qed.
Print Assumptions C42_lifetimes.

Example C42_case :
  referred_dead [1; 2] (mkArg (1, []) LV) /\
  and_run (bind (bind_back full std (mkArg (0, []) LV) bound_args) alloc)
    (fun r st1 =>
       (fst (call_with full std exU 2 r [] (mkSt (die [1; 2] (store st1)) (mworld st1) (trace st1))),
        fst (call_with full std exU 2 r [] (mkSt (die [2] (store st1)) (mworld st1) (trace st1)))))
    (Err NoFuel, Err NoFuel) ex_bound
  = (Err Undefined, d_ 30).
Proof. exact ex_C42. Qed.

(** C43: calls of [regularized_void(f)] are calls of [f] whose [void] is a value. *)
Theorem C43_regularized :
  forall (A W F S : Type) (ve : val A -> bool) (C : config) (U : muser A W F S),
  byref C = false -> forall n st fa f s,
  holds (store st) (aref fa) (fun_obj f s) ->
  exists r st1,
    bind (regularized_void ve C fa) alloc st = (Done r, st1) /\
    (exists cells, st1 = mkSt (store st ++ cells) (mworld st) (trace st)) /\
    forall vss,
    let '(us, w2, l2) := ucall_each U f s vss (mworld st) in
    exists cells,
      call_each ve C U (4 + n) r vss st1 = (map regular us, mkSt (store st1 ++ map (@dead A F S) cells) w2 (trace st ++ l2)).
Proof. exact @regularized_run. Qed.
Print Assumptions C43_regularized.

(** [unregularized_void] undoes it. *)
Theorem C43_round_trip :
  forall (A W F S : Type) (ve : val A -> bool) (C : config) (U : muser A W F S),
  byref C = false -> forall n st fa f s,
  holds (store st) (aref fa) (fun_obj f s) ->
  exists r st1,
    bind (regularized_void ve C fa) (fun o => bind (temp o) (fun a => bind (unregularized_void ve C a) alloc)) st = (Done r, st1) /\
    (exists cells, st1 = mkSt (store st ++ cells) (mworld st) (trace st)) /\
    forall vss,
    let '(us, w2, l2) := ucall_each U f s vss (mworld st) in
    exists cells,
      call_each ve C U (7 + n) r vss st1 = (map unregular us, mkSt (store st1 ++ map (@dead A F S) cells) w2 (trace st ++ l2)).
Proof. exact @round_trip_run. Qed.
Print Assumptions C43_round_trip.

(** [unregularized_void(f)] on its own: a [regular_void] becomes [void], everything
    else, [void] included, is what [f] returns. *)
Theorem C43_unregularized :
  forall (A W F S : Type) (ve : val A -> bool) (C : config) (U : muser A W F S),
  byref C = false -> forall n st fa f s,
  no_void_ref U f s -> holds (store st) (aref fa) (fun_obj f s) ->
  exists r st1,
    bind (unregularized_void ve C fa) alloc st = (Done r, st1) /\
    (exists cells, st1 = mkSt (store st ++ cells) (mworld st) (trace st)) /\
    forall vss,
    let '(us, w2, l2) := ucall_each U f s vss (mworld st) in
    exists cells,
      call_each ve C U (4 + n) r vss st1 = (map unregular us, mkSt (store st1 ++ map (@dead A F S) cells) w2 (trace st ++ l2)).
Proof. exact @unregularized_run. Qed.
Print Assumptions C43_unregularized.

Example C43_unregularized_case :
  no_void_ref exU FHello None /\ no_void_ref exU FAdd None /\
  and_run (bind (unregularized_void full std (mkArg (0, []) LV)) alloc)
    (fun r st1 => let (os, st2) := call_each full std exU 4 r [[VAtom 1]; []] st1 in (os, mworld st2, trace st2))
    ([], 0, []) (start [fun_obj FHello None])
  = ([Done None; Done None], 2, [MCall FHello [VAtom 1]; MCall FHello []]).
Proof. exact ex_C43_unregularized. Qed.

(** [optional<regular_void>] shows what an ordinary optional of a one-value type shows. *)
Theorem C43_optional_void :
  forall ops, deref_engaged (None, None) ops -> run_opt_void ops = run_optional ops.
Proof. exact optional_void. Qed.
Print Assumptions C43_optional_void.

Example C43_case :
  and_run (bind (regularized_void full std (mkArg (0, []) LV)) alloc)
    (fun r st1 => let (os, st2) := call_each full std exU 4 r [[VAtom 1]; []] st1 in (os, mworld st2, trace st2))
    ([], 0, []) (start [fun_obj FHello None])
  = ([Done (Some VVoid); Done (Some VVoid)], 2, [MCall FHello [VAtom 1]; MCall FHello []]) /\
  and_run (bind (regularized_void full std (mkArg (0, []) LV))
             (fun o => bind (temp o) (fun a => bind (unregularized_void full std a) alloc)))
    (fun r st1 => let (os, st2) := call_each full std exU 7 r [[VAtom 1]; []] st1 in (os, mworld st2, trace st2))
    ([], 0, []) (start [fun_obj FHello None])
  = ([Done None; Done None], 2, [MCall FHello [VAtom 1]; MCall FHello []]).
Proof. exact ex_C43. Qed.

Example C43_optional_case :
  deref_engaged (None, None) [Make true; Deref true; TestEq; CopyTo false; TestEq; EqValue false; ToNone true; TestNeq; TestBool true] /\
  run_opt_void [Make true; Deref true; TestEq; CopyTo false; TestEq; EqValue false; ToNone true; TestNeq; TestBool true]
  = [ObsNone; ObsValue (Some tt); ObsBool false; ObsNone; ObsBool true; ObsBool true; ObsNone; ObsBool true; ObsBool false].
Proof. exact ex_C43_optional. Qed.
