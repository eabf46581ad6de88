(** Function objects with state (C74).  Statements only. *)
From Coq Require Import List Bool Arith.
From Verif Require Import Value LazyModel StateModel StateSpec StateThms.
From Verif Require Import Machine MachineSpec Programs RewiredSpec RewiredStateSpec RewiredStateThms
  MachineExamples StateExamples.
Import ListNotations.

(** C74: a function object lives in the lazy function that was made from it.  A call of
    the lazy function finds every object in the state in which the last call of it, made
    by this lazy function, has left it, be it that that call returned or threw, and leaves
    it in the state after its own last call. *)
Theorem C74_state_kept :
  forall (A W F T : Type) (U : suser A W F T) x hs vs w vs' w' outs l,
  nth_error vs x = Some l -> NoDup (map fst (objects l)) ->
  srun U (again x hs) vs w = Some (vs', w', outs) ->
  exists l', nth_error vs' x = Some l' /\
    forall f t, In (f, t) (objects l) -> exists t', In (f, t') (objects l') /\ linked f t (sactions outs) t'.
Proof. exact @state_kept. Qed.
Print Assumptions C74_state_kept.

Example C74_state_kept_case :
  NoDup (map fst (objects three)) /\
  match srun (state_user sfU) (again 0 [S; S; S; S]) [three] 0 with
  | Some ([l], _, _) => objects l = [(Sum, Some 26); (Count, Some 4); (Plus, None)]
  | _ => False
  end.
Proof. exact ex_C74_three. Qed.

(** A copy and the original, and any two lazy functions, go their own ways. *)
Theorem C74_others_untouched :
  forall (A W F T : Type) (U : suser A W F T) y xs vs w vs' w' outs,
  ~ In y xs -> srun U (map Call xs) vs w = Some (vs', w', outs) -> nth_error vs' y = nth_error vs y.
Proof. exact @others_untouched. Qed.
Print Assumptions C74_others_untouched.

Example C74_others_untouched_case :
  match srun (state_user sfU) [Call 0; Call 0] [three; three] 0 with
  | Some ([l; l'], _, _) => objects l = [(Sum, Some 19); (Count, Some 2); (Plus, None)] /\ l' = three
  | _ => False
  end.
Proof. vm_compute. split; reflexivity. Qed.

(** Over wrapped functions without state, and plain functions that may do anything but
    throw, a program returns what evaluation from scratch returns, every call calling
    every plain function object below once, from left to right; and it leaves the same
    world. *)
Theorem C74_eager :
  forall (A W F T : Type) (U : suser A W F T) pf,
  pure_wrapped U pf -> returning U -> same_if_equal U ->
  forall p w w' vals, xrun U pf p [] w = Some (w', vals) ->
  exists vs outs, srun U p [] w = Some (vs, w', outs) /\ sresults outs = map Ok vals.
Proof. exact @eager_with_state. Qed.
Print Assumptions C74_eager.

Example C74_eager_case :
  (pure_wrapped tally tally_pf /\ returning tally /\ same_if_equal tally) /\
  xrun tally tally_pf tally_prog [] 0 = Some (66, map (fun n => Some (VAtom n)) [7; 10; 13; 120; 10; 126]).
Proof. split; [exact ex_tally|exact ex_C74_tally]. Qed.

(** Over functions whose calls do not change them, this is the algorithm of LazyModel.v. *)
Theorem C74_without_state :
  forall (A W F T : Type) (U : suser A W F T), constant_state U ->
  forall p w,
  match srun U p [] w with
  | Some (_, w', outs) => exists s, run (forget_user U) p (mkState [] w) = Some (s, map forget_output outs) /\ world s = w'
  | None => run (forget_user U) p (mkState [] w) = None
  end.
Proof. exact @without_state. Qed.
Print Assumptions C74_without_state.

Example C74_without_state_case :
  constant_state constant /\
  match srun constant constant_prog [] 5 with
  | Some (_, _, outs) => sresults outs = [Ok (Some (VAtom 9)); Ok (Some (VAtom 10)); Ok (Some (VAtom 10)); Exc]
  | None => False
  end.
Proof. split; [exact ex_constant|exact ex_C74_constant]. Qed.

(** With bound functions, dependencies and values handed on by reference ([mkCfg b true],
    NOT the code), programs run on the machine exactly like that: results, actions, the
    outside world. *)
Theorem C74_composition :
  forall (A W F S : Type) (ve : val A -> bool) (b : bool) (U : muser A W F S) p,
  prog_ok 0 p -> Forall (op_defined U) p ->
  exists m0, forall m st, m0 <= m -> exists vs w' outs cells,
    srun (state_user U) (map kept_op p) [] (mworld st) = Some (vs, w', outs) /\
    run_prog ve (mkCfg b true) U m [] p st =
      (map state_shows outs, mkSt (store st ++ cells) w' (trace st ++ state_actions outs)).
Proof. exact @rewired_state_run. Qed.
Print Assumptions C74_composition.

(** The program as the code is written, for comparison: the counter always says 0. *)
Example C74_composition_case :
  (prog_ok 0 state_prog /\ Forall (op_defined sfU) state_prog) /\
  (let (os, st) := run_prog full (mkCfg true true) sfU 200 [] state_prog (mkSt [] 0 []) in (os, mworld st, trace st))
  = (state_shown, 1, state_trace) /\
  fst (run_prog full (mkCfg false false) sfU 200 [] state_prog (mkSt [] 0 []))
  = [None; None; Some (d_ 15); Some (d_ 15); None; Some (d_ 15); Some (d_ 15); Some (d_ 15); Some (d_ 15)].
Proof. split; [exact ex_defined|]. split; [exact ex_C74_machine|exact ex_C74_written]. Qed.
