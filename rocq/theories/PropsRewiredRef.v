(** Lazy functions passed by [std::ref], if the closures took bound objects by reference
    (C67).  Statements only. *)
From Coq Require Import List Bool Arith.
From Verif Require Import Value Machine MachineSpec MachineLib Programs RewiredSpec RefPrograms RewiredRefSpec
  RewiredRefThms MachineExamples RewiredRefExamples.
From Verif Require LazyModel SharedModel.
Import ListNotations.

(** C67: with the one change that bound functions, dependencies and values are handed on
    by reference ([mkCfg b true]), programs that pass lazy functions by [std::ref] show
    the results, perform the actions and change the outside world exactly as the heap
    model ([SharedModel]) says, however the lazy functions share each other. *)
Theorem C67_sharing :
  forall (A W F S : Type) (ve : val A -> bool) (b : bool) (U : muser A W F S) p,
  prog_ok 0 (by_values p) -> Forall (rop_steady U) p ->
  exists m0, forall m st, m0 <= m -> exists s' outs cells,
    SharedModel.srun (kept_user U) (map kept_rop p) (SharedModel.mkSState [] (mworld st)) = Some (s', outs) /\
    run_refs ve (mkCfg b true) U m [] p st =
      (map kept_shows outs, mkSt (store st ++ cells) (SharedModel.sworld s') (trace st ++ kept_actions outs)).
Proof. exact @rewired_refs_run. Qed.
Print Assumptions C67_sharing.

(** By the standard's rules no call is undefined; the only thing that can go wrong is that
    a function throws. *)
Theorem C67_defined :
  forall (A W F S : Type) (ve : val A -> bool) (U : muser A W F S) p,
  prog_ok 0 (by_values p) -> Forall (rop_steady U) p ->
  exists m0, forall m st e, m0 <= m ->
    In (Some (Err e)) (fst (run_refs ve (mkCfg true true) U m [] p st)) -> e = Throw.
Proof. exact @rewired_refs_defined. Qed.
Print Assumptions C67_defined.

Example C67_case :
  (prog_ok 0 (by_values alias_prog) /\ Forall (rop_steady exU) alias_prog) /\
  (let (os, st) := run_refs full (mkCfg true true) exU 200 [] alias_prog (start []) in
   (os, mworld st, firstn 9 (trace st), length (trace st))) = (alias_shown, 9, alias_first, 93).
Proof. split; [exact ex_alias|exact (proj1 ex_alias_run)]. Qed.

(** If every lazy function has a single user, passing it by [std::ref] or by value makes no
    difference to results and actions. *)
Theorem C67_single_user :
  forall (A W F S : Type) (ve : val A -> bool) (b : bool) (U : muser A W F S) p,
  prog_ok 0 (by_values p) -> Forall (rop_steady U) p ->
  SharedModel.single_user (map kept_rop p) 0 [] [] ->
  exists m0, forall m st, m0 <= m ->
    fst (run_refs ve (mkCfg b true) U m [] p st) = fst (run_prog ve (mkCfg b true) U m [] (by_values p) st) /\
    trace (snd (run_refs ve (mkCfg b true) U m [] p st)) =
      trace (snd (run_prog ve (mkCfg b true) U m [] (by_values p) st)).
Proof. exact @rewired_refs_single. Qed.
Print Assumptions C67_single_user.

Example C67_single_user_case :
  (prog_ok 0 (by_values lent_prog) /\ Forall (rop_steady exU) lent_prog /\
   SharedModel.single_user (map (@kept_rop nat nat mf nat) lent_prog) 0 [] []) /\
  fst (run_refs full (mkCfg true true) exU 200 [] lent_prog (start [])) =
    [None; None; None; None; Some (d_ 5); None; Some (d_ 13); Some (d_ 15)].
Proof. split; [exact ex_lent|exact ex_lent_run]. Qed.
