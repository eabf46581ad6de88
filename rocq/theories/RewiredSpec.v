(** The composition with one thing changed: bound functions, dependencies and values
    are handed on by reference ([byref]) instead of by copy.  That is NOT the code.
    Under it the objects keep their state, and [LazyModel.v] describes the calls; the
    definitions here say how the two worlds correspond. *)
From Coq Require Import List Bool Arith.
From Verif Require Import Value Machine MachineSpec Programs.
From Verif Require LazyModel.
Import ListNotations.

Section Rewired.
Context {A W F S : Type}.
Notation value := (val A).
Notation fn := (F * option S)%type.
Variable U : muser A W F S.

(** The user's functions in the terms of [LazyModel]: a function object with its state
    is one function. *)
Definition kept_user : LazyModel.user A W fn fn :=
  LazyModel.mkUser
    (fun p args w =>
       let '(r, w', _) := ucall U (fst p) (snd p) args w in
       (match r with Done o => LazyModel.FRet o | Err _ => LazyModel.FThrow end, w'))
    (fun p w =>
       let '(r, w', _) := dcall U (fst p) (snd p) w in
       (match r with Done v => LazyModel.VRet v | Err _ => LazyModel.VThrow end, w'))
    (ueq U) (uint0 U).

(** A function object that calls do not change (without captures, or with a const call
    operator) and that, if it returns one of its parameters, has that parameter. *)
Definition steady (f : F) (s : option S) : Prop :=
  forall vs w, new_state s (fst (fst (fst (usem U f s vs w)))) = s.
Definition wrapped_ok (f : F) (s : option S) : Prop :=
  steady f s /\ forall vs w e, fst (fst (ucall U f s vs w)) = Err e -> e = Throw.
(** A plain function dependency does not return [void]. *)
Definition plain_ok (g : F) (t : option S) : Prop :=
  steady g t /\ forall w e, fst (fst (dcall U g t w)) = Err e -> e = Throw.

(** Programs over such functions. *)
Definition source_steady (d : source A F S) : Prop :=
  match d with SrcFun g t => plain_ok g t | _ => True end.
Definition op_steady (o : mop A W F S) : Prop :=
  match o with
  | MNew f s deps => wrapped_ok f s /\ Forall source_steady deps
  | _ => True
  end.

(** The same program, actions and results there. *)
Definition kept_source (d : source A F S) : LazyModel.depspec A fn :=
  match d with
  | SrcLazy x => LazyModel.DVar x
  | SrcFun g t => LazyModel.DFun (g, t)
  | SrcValue v => LazyModel.DConst v
  end.
Definition kept_op (o : mop A W F S) : LazyModel.op A W fn fn :=
  match o with
  | MNew f s deps => LazyModel.New (f, s) (map kept_source deps)
  | MCopy x => LazyModel.Copy x
  | MCallVar x => LazyModel.Call x
  | MEnv h => LazyModel.Env h
  end.
Definition kept_event (e : LazyModel.event A fn fn) : mevent A F :=
  match e with
  | LazyModel.EvCall p args => MCall (fst p) args
  | LazyModel.EvSample p => MCall (fst p) []
  | LazyModel.EvCmp a b => MCmp a b
  end.
Definition kept_result (r : LazyModel.res (option value)) : outcome (option value) :=
  match r with
  | LazyModel.Ok o => Done o
  | LazyModel.Exc => Err Throw
  | LazyModel.UB => Err Undefined
  end.
Definition kept_shows (o : LazyModel.output A fn fn) : shows A := option_map kept_result (fst o).
Definition kept_actions (outs : list (LazyModel.output A fn fn)) : list (mevent A F) :=
  flat_map (fun o => map kept_event (snd o)) outs.

(** The objects: a lazy function of [LazyModel] as an object of the machine. *)
Fixpoint kept_obj (l : LazyModel.lz A fn fn) : obj A F S :=
  match l with
  | LazyModel.LValue v ch => lazy_value_obj v ch
  | LazyModel.LCore (LazyModel.FnUser p) c ds =>
      wrap_obj (node_obj c (reg_obj (fun_obj (fst p) (snd p))) (map kept_obj ds))
  | LazyModel.LCore (LazyModel.FnSample p) c ds =>
      node_obj c (sample_fn (fun_obj (fst p) (snd p))) (map kept_obj ds)
  end.

End Rewired.
