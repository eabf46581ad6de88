(** Lazy functions if the closures took bound objects by reference (C54).  Statements
    only. *)
From Coq Require Import List Bool Arith.
From Verif Require Import Value Machine MachineSpec MachineLib Programs RewiredSpec RewiredThms
  MachineExamples RewiredExamples.
From Verif Require LazyModel.
Import ListNotations.

(** C54: with the one change that bound functions, dependencies and values are handed on
    by reference ([mkCfg b true]), a program over functions that calls do not change
    shows the results, performs the actions and changes the outside world exactly as the
    algorithm with kept state ([LazyModel]) says; nothing that existed before changes.
    [b] tells whether dead objects keep their contents: it makes no difference. *)
Theorem C54_algorithm :
  forall (A W F S : Type) (ve : val A -> bool) (b : bool) (U : muser A W F S) p,
  prog_ok 0 p -> Forall (op_steady U) p ->
  exists m0, forall m st, m0 <= m -> exists s' outs cells,
    LazyModel.run (kept_user U) (map kept_op p) (LazyModel.mkState [] (mworld st)) = Some (s', outs) /\
    run_prog ve (mkCfg b true) U m [] p st =
      (map kept_shows outs, mkSt (store st ++ cells) (LazyModel.world s') (trace st ++ kept_actions outs)).
Proof. exact @rewired_run. Qed.
Print Assumptions C54_algorithm.

(** In particular, by the standard's rules no call is undefined; the only thing that can
    go wrong is that a function throws. *)
Theorem C54_defined :
  forall (A W F S : Type) (ve : val A -> bool) (U : muser A W F S) p,
  prog_ok 0 p -> Forall (op_steady U) p ->
  exists m0, forall m st e, m0 <= m ->
    In (Some (Err e)) (fst (run_prog ve (mkCfg true true) U m [] p st)) -> e = Throw.
Proof. exact @rewired_defined. Qed.
Print Assumptions C54_defined.

Example C54_case :
  (prog_ok 0 kept_prog /\ Forall (op_steady exU) kept_prog) /\
  (let (os, st) := run_prog full (mkCfg true true) exU 200 [] kept_prog (start []) in (os, mworld st, trace st))
  = (kept_shown, 4, kept_trace) /\
  match LazyModel.run (kept_user exU) (map (@kept_op nat nat mf nat) kept_prog) (LazyModel.mkState [] 0) with
  | Some (s, outs) => (map (@kept_shows nat mf nat) outs, LazyModel.world s, kept_actions outs)
                      = (kept_shown, 4, kept_trace)
  | None => False
  end.
Proof. split; [exact ex_steady|]. split; [exact ex_C54_run|exact ex_C54_kept]. Qed.
