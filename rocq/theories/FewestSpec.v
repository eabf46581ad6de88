(** Vocabulary of C90: other ways to find the results of a program. *)
From Coq Require Import List Bool Arith.
From Verif Require Import Value LazyModel LazySpec.
Import ListNotations.

Section Spec.
Context {A W fid did : Type}.

(** A strategy calls functions, one after the other, and then returns the results of all calls of
    a program.  Which function it calls next with which arguments, and what it returns at the end,
    may depend on what was returned so far.  [Read d w] calls the plain function [d] when the
    outside world is [w]. *)
Inductive strategy :=
| Done (vals : list (option (val A)))
| Ask (f : fid) (args : list (val A)) (next : option (val A) -> strategy)
| Read (d : did) (w : W) (next : val A -> strategy).

(** What it returns, the calls of wrapped functions and those of plain functions it makes. *)
Fixpoint follow (pf : fid -> list (val A) -> option (val A)) (rd : did -> W -> val A) (s : strategy)
    : list (option (val A)) * list (fid * list (val A)) * list (did * W) :=
  match s with
  | Done vals => (vals, [], [])
  | Ask f args next => let '(vals, asks, reads) := follow pf rd (next (pf f args)) in (vals, (f, args) :: asks, reads)
  | Read d w next => let '(vals, asks, reads) := follow pf rd (next (rd d w)) in (vals, asks, (d, w) :: reads)
  end.
Definition found pf rd s := fst (fst (follow pf rd s)).
Definition asked pf rd s := snd (fst (follow pf rd s)).
Definition read pf rd s := snd (follow pf rd s).

(** Functions that return values of one type (no tuple, pair or optional, and not [void]). *)
Definition plain_results (pf : fid -> list (val A) -> option (val A)) : Prop := forall f xs, exists a, pf f xs = Some (VAtom a).
Definition plain_inputs (rd : did -> W -> val A) : Prop := forall d w, exists a, rd d w = VAtom a.

(** It is correct for given plain functions (which it may know in advance) if it returns the
    results of eager evaluation whatever the wrapped functions are; and correct if it does so whatever
    the plain functions are. *)
Definition correct_for (rd : did -> W -> val A) (p : list (op A W fid did)) (w : W) (s : strategy) : Prop :=
  forall pf es vals, plain_results pf -> eager pf rd p [] w = Some (es, vals) -> found pf rd s = vals.
Definition correct (p : list (op A W fid did)) (w : W) (s : strategy) : Prop :=
  forall rd, plain_inputs rd -> correct_for rd p w s.

(** The function calls among the actions of a program. *)
Definition calls_in (lg : list (event A fid did)) : list (fid * list (val A)) :=
  flat_map (fun e => match e with EvCall f args => [(f, args)] | _ => [] end) lg.
Definition all_calls (outs : list (output A fid did)) : list (fid * list (val A)) := flat_map (fun o => calls_in (snd o)) outs.

(** The outside world before each operation (of pure functions). *)
Fixpoint worlds_of (p : list (op A W fid did)) (w : W) : list W :=
  match p with
  | [] => []
  | o :: p' => w :: worlds_of p' (match o with Env h => h w | _ => w end)
  end.

End Spec.
Arguments strategy : clear implicits.
