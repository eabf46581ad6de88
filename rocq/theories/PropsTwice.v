(** A lazy function passed more than once by [std::ref] to the same function (C68).
    Statements only. *)
From Coq Require Import List Bool Arith.
From Verif Require Import Value LazyModel SharedModel TwiceThms.
From Verif Require Import Machine MachineSpec MachineLib Programs RewiredSpec RefPrograms RewiredRefSpec MachineExamples
  RewiredRefExamples.
Import ListNotations.

(** C68: two parameters that were given as [std::ref] of the same lazy function have the
    same value in every call, whatever happens in between: functions may be impure, throw,
    and the graph of references is arbitrary.  ([VVoid] is what a lazy function of type
    [void] passes on.) *)
Theorem C68_same_value :
  forall (A W fid did : Type) (U : user A W fid did) (f : fid) (i j x : nat) p1 ss p2 w s outs,
  Forall (fun o => match o with SNew f' _ => f' <> f | _ => True end) (p1 ++ p2) ->
  nth_error ss i = Some (SDRef x) -> nth_error ss j = Some (SDRef x) ->
  srun U (p1 ++ SNew f ss :: p2) (mkSState [] w) = Some (s, outs) ->
  forall r lg args a b, In (r, lg) outs -> In (EvCall f args) lg ->
  nth_error args i = Some a -> nth_error args j = Some b ->
  a = b \/ a = VVoid \/ b = VVoid.
Proof. exact @same_value. Qed.
Print Assumptions C68_same_value.

(** The same of the composed library with parameters by reference. *)
Theorem C68_composed :
  forall (A W F S : Type) (ve : val A -> bool) (c : bool) (U : muser A W F S) (f : F) (i j x : nat) p1 s ss p2,
  prog_ok 0 (by_values (p1 ++ RNew f s ss :: p2)) -> Forall (rop_steady U) (p1 ++ RNew f s ss :: p2) ->
  Forall (fun o => match o with RNew f' _ _ => f' <> f | _ => True end) (p1 ++ p2) ->
  nth_error ss i = Some (RRef x) -> nth_error ss j = Some (RRef x) ->
  exists m0, forall m st, m0 <= m -> exists acts,
    trace (snd (run_refs ve (mkCfg c true) U m [] (p1 ++ RNew f s ss :: p2) st)) = trace st ++ acts /\
    forall args a b, In (MCall f args) acts -> nth_error args i = Some a -> nth_error args j = Some b ->
      a = b \/ a = VVoid \/ b = VVoid.
Proof. exact @same_argument_rewired. Qed.
Print Assumptions C68_composed.

(** A function that gets variable 0 twice; in between its copy of variable 1 changes the
    outside world, which variable 0 reads.  By value, the two
    arguments differ. *)
Example C68_case :
  (prog_ok 0 (by_values twice_prog) /\ Forall (rop_steady exU) twice_prog) /\
  Forall (fun o => match o with RNew f' _ _ => f' <> FAdd | _ => True end) (twice_before ++ twice_after) /\
  twice_prog = twice_before ++ RNew FAdd None twice_deps :: twice_after /\
  nth_error twice_deps 0 = Some (RRef 0) /\ nth_error twice_deps 2 = Some (RRef 0) /\
  adds (trace (snd (run_refs full (mkCfg true true) exU 200 [] twice_prog (start [])))) =
    [[VAtom 1; VVoid; VAtom 1]; [VAtom 5; VVoid; VAtom 5]; [VAtom 6; VVoid; VAtom 6]] /\
  adds (trace (snd (run_prog full (mkCfg true true) exU 200 [] (by_values twice_prog) (start [])))) =
    [[VAtom 0; VVoid; VAtom 1]; [VAtom 4; VVoid; VAtom 5]; [VAtom 5; VVoid; VAtom 6]].
Proof. exact ex_twice. Qed.
