(** The composition with bound functions, dependencies and values handed on by reference
    ([byref], NOT the code, see RewiredSpec.v), for function objects that calls may change:
    how it corresponds to StateModel.v. *)
From Coq Require Import List Bool Arith.
From Verif Require Import Value Machine MachineSpec Programs StateModel.
From Verif Require LazyModel RewiredSpec.
Import ListNotations.

Section RewiredState.
Context {A W F S : Type}.
Notation value := (val A).
Notation fn := (F * option S)%type.
Variable U : muser A W F S.

(** The user's functions in the terms of [StateModel]. *)
Definition state_user : suser A W F (option S) :=
  mkSUser
    (fun f t args w =>
       let '(r, w', _) := ucall U f t args w in
       (new_state t (fst (fst (fst (usem U f t args w)))),
        match r with Done o => LazyModel.FRet o | Err _ => LazyModel.FThrow end, w'))
    (fun f t w =>
       let '(r, w', _) := dcall U f t w in
       (new_state t (fst (fst (fst (usem U f t [] w)))),
        match r with Done v => LazyModel.VRet v | Err _ => LazyModel.VThrow end, w'))
    (ueq U) (uint0 U).

(** Functions that fail only by throwing: what they return exists, and plain functions
    do not return [void]. *)
Definition wrapped_defined (f : F) : Prop :=
  forall t vs w e, fst (fst (ucall U f t vs w)) = Err e -> e = Throw.
Definition plain_defined (f : F) : Prop :=
  forall t w e, fst (fst (dcall U f t w)) = Err e -> e = Throw.
Definition op_defined (o : mop A W F S) : Prop :=
  match o with
  | MNew f _ deps =>
      wrapped_defined f /\ Forall (fun d => match d with SrcFun g _ => plain_defined g | _ => True end) deps
  | _ => True
  end.

(** Actions and results. *)
Definition state_event (e : sevent A F (option S)) : mevent A F :=
  match e with
  | SCall f _ args _ => MCall f args
  | SSample f _ _ => MCall f []
  | SCmp a b => MCmp a b
  end.
Definition state_shows (o : soutput A F (option S)) : shows A := option_map RewiredSpec.kept_result (fst o).
Definition state_actions (outs : list (soutput A F (option S))) : list (mevent A F) :=
  flat_map (fun o => map state_event (snd o)) outs.

(** The objects. *)
Fixpoint state_obj (l : slz A F (option S)) : obj A F S :=
  match l with
  | SValue v ch => lazy_value_obj v ch
  | SUser f t c ds => wrap_obj (node_obj c (reg_obj (fun_obj f t)) (map state_obj ds))
  | SPlain f t c => node_obj c (sample_fn (fun_obj f t)) [lazy_value_obj (VAtom (uint0 U)) true]
  end.

End RewiredState.
