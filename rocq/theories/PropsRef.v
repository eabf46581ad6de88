(** Lazy functions passed by [std::ref], as composed (C66).  Statements only. *)
From Coq Require Import List Bool Arith.
From Verif Require Import Value Machine MachineSpec MachineLib BindSpec Programs RefPrograms RefThms MachineExamples RefExamples.
Import ListNotations.

(** C66: whether dependencies are handed to [pigro::lazy] by [std::ref] or by value makes
    no difference: every call shows the same, in the same world, after the same actions.
    [b]: by the standard's rules, or if dead objects keep their contents. *)
Theorem C66_refs_are_values :
  forall (A W F S : Type) (ve : val A -> bool) (b : bool) (U : muser A W F S) p,
  prog_ok 0 (by_values p) ->
  exists m0, forall m st, m0 <= m ->
  let '(os, st1) := run_refs ve (mkCfg b false) U m [] p st in
  let '(os', st2) := run_prog ve (mkCfg b false) U m [] (by_values p) st in
  os = os' /\ mworld st1 = mworld st2 /\ trace st1 = trace st2.
Proof. exact @refs_are_values. Qed.
Print Assumptions C66_refs_are_values.

(** Exactly: every call evaluates the whole tree of copies and references from scratch, up
    to the first value it may not read from a dead object; and no object that existed before
    has changed, the variables referred to included. *)
Theorem C66_refs_exact :
  forall (A W F S : Type) (ve : val A -> bool) (b : bool) (U : muser A W F S) p,
  prog_ok 0 (by_values p) ->
  exists m0, forall m st, m0 <= m ->
  let '(os, w', l) := std_prog U (fun v => negb b || data_empty ve v) [] (by_values p) (mworld st) in
  exists cells,
    run_refs ve (mkCfg b false) U m [] p st = (os, mkSt (store st ++ cells) w' (trace st ++ l)).
Proof. exact @refs_exact. Qed.
Print Assumptions C66_refs_exact.

Example C66_case :
  prog_ok 0 (by_values ref_prog) /\
  ((let (os, st) := run_refs full (mkCfg false false) exU 60 [] ref_prog (start []) in (os, mworld st, trace st))
   = (ref_shown, 5, ref_trace) /\
   (let (os, st) := run_prog full (mkCfg false false) exU 60 [] (by_values ref_prog) (start []) in (os, mworld st, trace st))
   = (ref_shown, 5, ref_trace)) /\
  fst (run_refs full std exU 60 [] ref_prog (start [])) = fst (run_prog full std exU 60 [] (by_values ref_prog) (start [])) /\
  nth 4 (fst (run_refs full std exU 60 [] ref_prog (start []))) None = Some (Err Undefined).
Proof. split; [exact ref_prog_ok|]. split; [exact ex_C66|exact ex_C66_std]. Qed.
