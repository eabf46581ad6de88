(** Vocabulary of C87: two users of the library whose values, functions and worlds correspond. *)
From Coq Require Import List Bool Arith.
From Verif Require Import Value LazyModel SharedModel.
Import ListNotations.

Section Spec.
Context {A1 W1 F1 D1 A2 W2 F2 D2 : Type}.
(** Which atoms, worlds, wrapped functions and plain functions correspond. *)
Variable RA : A1 -> A2 -> Prop.
Variable RW : W1 -> W2 -> Prop.
Variable RF : F1 -> F2 -> Prop.
Variable RD : D1 -> D2 -> Prop.

(** Values correspond if they have the same structure and their atoms correspond. *)
Inductive vrel : val A1 -> val A2 -> Prop :=
| vrel_atom a b : RA a b -> vrel (VAtom a) (VAtom b)
| vrel_void : vrel VVoid VVoid
| vrel_tuple l m : Forall2 vrel l m -> vrel (VTuple l) (VTuple m)
| vrel_pair x x' y y' : vrel x x' -> vrel y y' -> vrel (VPair x y) (VPair x' y')
| vrel_null : vrel (VOpt None) (VOpt None)
| vrel_opt x x' : vrel x x' -> vrel (VOpt (Some x)) (VOpt (Some x')).

Definition both {X Y} (R : X -> Y -> Prop) (o : option X) (o' : option Y) : Prop :=
  match o, o' with Some x, Some y => R x y | None, None => True | _, _ => False end.

Definition fres_rel (r : fres A1) (r' : fres A2) : Prop :=
  match r, r' with FRet o, FRet o' => both vrel o o' | FThrow, FThrow => True | _, _ => False end.
Definition vres_rel (r : vres A1) (r' : vres A2) : Prop :=
  match r, r' with VRet v, VRet v' => vrel v v' | VThrow, VThrow => True | _, _ => False end.
Definition res_rel {X Y} (R : X -> Y -> Prop) (r : res X) (r' : res Y) : Prop :=
  match r, r' with Ok x, Ok y => R x y | Exc, Exc => True | UB, UB => True | _, _ => False end.

(** The functions do corresponding things, and [operator==] gives the same answers.  Nothing is
    asked of [int0]. *)
Record related (U1 : user A1 W1 F1 D1) (U2 : user A2 W2 F2 D2) : Prop := {
  rel_sem : forall f f' xs xs' w w', RF f f' -> Forall2 vrel xs xs' -> RW w w' ->
    fres_rel (fst (sem U1 f xs w)) (fst (sem U2 f' xs' w')) /\ RW (snd (sem U1 f xs w)) (snd (sem U2 f' xs' w'));
  rel_dsem : forall d d' w w', RD d d' -> RW w w' ->
    vres_rel (fst (dsem U1 d w)) (fst (dsem U2 d' w')) /\ RW (snd (dsem U1 d w)) (snd (dsem U2 d' w'));
  rel_eq : forall a a' b b', RA a a' -> RA b b' -> aeq U1 a b = aeq U2 a' b' }.

(** Corresponding programs. *)
Inductive depspec_rel : depspec A1 D1 -> depspec A2 D2 -> Prop :=
| depspec_var x : depspec_rel (DVar x) (DVar x)
| depspec_fun d d' : RD d d' -> depspec_rel (DFun d) (DFun d')
| depspec_const v v' : vrel v v' -> depspec_rel (DConst v) (DConst v').
Inductive sdep_rel : sdep A1 D1 -> sdep A2 D2 -> Prop :=
| sdep_ref x : sdep_rel (SDRef x) (SDRef x)
| sdep_other s s' : depspec_rel s s' -> sdep_rel (SDep s) (SDep s').

Inductive op_rel : op A1 W1 F1 D1 -> op A2 W2 F2 D2 -> Prop :=
| op_new f f' ss ss' : RF f f' -> Forall2 depspec_rel ss ss' -> op_rel (New f ss) (New f' ss')
| op_copy x : op_rel (Copy x) (Copy x)
| op_call x : op_rel (Call x) (Call x)
| op_env h h' : (forall w w', RW w w' -> RW (h w) (h' w')) -> op_rel (Env h) (Env h').
Inductive sop_rel : sop A1 W1 F1 D1 -> sop A2 W2 F2 D2 -> Prop :=
| sop_new f f' ss ss' : RF f f' -> Forall2 sdep_rel ss ss' -> sop_rel (SNew f ss) (SNew f' ss')
| sop_copy x : sop_rel (SCopy x) (SCopy x)
| sop_call x : sop_rel (SCall x) (SCall x)
| sop_env h h' : (forall w w', RW w w' -> RW (h w) (h' w')) -> sop_rel (SEnv h) (SEnv h').

(** Corresponding observations: results, and what is called with what and compared, in order. *)
Inductive event_rel : event A1 F1 D1 -> event A2 F2 D2 -> Prop :=
| event_call f f' xs xs' : RF f f' -> Forall2 vrel xs xs' -> event_rel (EvCall f xs) (EvCall f' xs')
| event_sample d d' : RD d d' -> event_rel (EvSample d) (EvSample d')
| event_cmp x x' y y' : vrel x x' -> vrel y y' -> event_rel (EvCmp x y) (EvCmp x' y').
Definition out_rel (o : output A1 F1 D1) (o' : output A2 F2 D2) : Prop :=
  both (res_rel (both vrel)) (fst o) (fst o') /\ Forall2 event_rel (snd o) (snd o').

End Spec.
