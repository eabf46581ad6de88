(** The first designs of the walkthrough (C69).  Statements only. *)
From Coq Require Import List Bool Arith.
From Verif Require Import Value LazyModel OnceModel OnceThms.
Import ListNotations.

(** C69 (1): the design of call_once.md is the algorithm, for functions of type [void]
    without dependencies: in every program, also with functions that throw or do
    anything to the outside world, the same results, actions and final world. *)
Theorem C69_call_once :
  forall (A W fid did : Type) (U : user A W fid did) p w,
  (forall f w0 o, fst (sem U f [] w0) = FRet o -> o = None) ->
  Forall (fun o => match o with New _ ss => ss = [] | _ => True end) p ->
  once_run U p [] w = option_map (fun so => (world (fst so), snd so)) (run U p (mkState [] w)).
Proof. exact @once_design. Qed.
Print Assumptions C69_call_once.

Example C69_case_call_once :
  (forall f w0 o, fst (sem just_void f [] w0) = FRet o -> o = None) /\
  Forall (fun o => match o with New _ ss => ss = [] | _ => True end) once_prog /\
  exists outs, once_run just_void once_prog [] 0 = Some (9, outs) /\
    map fst outs = [None; Some Exc; None; Some Exc; Some (Ok None); Some (Ok None); None; Some (Ok None); None;
                    Some (Ok None); Some (Ok None); Some (Ok None)].
Proof. exact ex_once. Qed.

(** C69 (2): so is the design of caching.md for the others. *)
Theorem C69_caching :
  forall (A W fid did : Type) (U : user A W fid did) p w,
  (forall f w0 o, fst (sem U f [] w0) = FRet o -> exists v, o = Some v /\ v <> VVoid) ->
  Forall (fun o => match o with New _ ss => ss = [] | _ => True end) p ->
  cached_run U p [] w = option_map (fun so => (world (fst so), snd so)) (run U p (mkState [] w)).
Proof. exact @cached_design. Qed.
Print Assumptions C69_caching.

Example C69_case_caching :
  (forall f w0 o, fst (sem just_values f [] w0) = FRet o -> exists v, o = Some v /\ v <> VVoid) /\
  Forall (fun o => match o with New _ ss => ss = [] | _ => True end) once_prog /\
  exists outs, cached_run just_values once_prog [] 0 = Some (9, outs) /\
    map fst outs = [None; Some Exc; None; Some Exc; Some (Ok (Some (VAtom 2))); Some (Ok (Some (VAtom 2))); None;
                    Some (Ok (Some (VAtom 3))); None; Some (Ok (Some (VAtom 3))); Some (Ok (Some (VAtom 2)));
                    Some (Ok (Some (VAtom 100)))].
Proof. exact ex_cached. Qed.

(** C69 (3): the example of call_once.md.  With lazy functions both systems are
    initialised exactly once, before the first use, whatever is drawn in which order ... *)
Theorem C69_lazy_places :
  forall ps, exists s outs,
  run initializes (lazy_places ps) (mkState [] []) = Some (s, outs) /\ world s = in_order ps.
Proof. exact lazy_in_order. Qed.
Print Assumptions C69_lazy_places.

(** ... as with the flags that were meant ... *)
Theorem C69_flags :
  forall ps, places by_hand_right ps (false, false) = in_order ps.
Proof. exact right_in_order. Qed.
Print Assumptions C69_flags.

(** ... but not with the flags as printed: OpenCL is initialised again each time, until the
    first place is reached; OpenGL is not. *)
Theorem C69_flags_printed :
  forall n rest,
  (rest = [] \/ exists r, rest = Something :: r) ->
  initializations OpenGL (places by_hand (repeat SomethingElse n ++ rest) (false, false)) =
    match n, rest with 0, [] => 0 | _, _ => 1 end /\
  initializations OpenCL (places by_hand (repeat SomethingElse n ++ rest) (false, false)) =
    n + match rest with [] => 0 | _ => 1 end.
Proof. exact by_hand_count. Qed.
Print Assumptions C69_flags_printed.

Example C69_case_flags :
  places by_hand [SomethingElse; SomethingElse; Something; SomethingElse] (false, false) =
    [Initialize OpenGL; Initialize OpenCL; Draw SomethingElse; Initialize OpenCL; Draw SomethingElse;
     Initialize OpenCL; Draw Something; Draw SomethingElse] /\
  places by_hand_right [SomethingElse; SomethingElse; Something; SomethingElse] (false, false) =
    [Initialize OpenGL; Initialize OpenCL; Draw SomethingElse; Draw SomethingElse; Draw Something; Draw SomethingElse].
Proof. split; reflexivity. Qed.
