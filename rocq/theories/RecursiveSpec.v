(** Recursion in other words: functions that satisfy an equation, and procedures with
    variables. *)
From Coq Require Import List Bool.
From Verif Require Import Recursive.
Import ListNotations.

Section Spec.
Context {X R S : Type}.
Notation body := (body X R S).

(** A body that does not assign its captured variables. *)
Inductive readonly : body -> Prop :=
| readonly_return r : readonly (Return r)
| readonly_raise : readonly Raise
| readonly_load k : (forall s, readonly (k s)) -> readonly (Load k)
| readonly_self x k : (forall o, readonly (k o)) -> readonly (CallSelf x k).

(** The equation of a recursive function: what [b] yields if [self(x)] is [g x] and the
    captured variables are [s]. *)
Fixpoint denotes (g : X -> option R) (b : body) (s : S) : option R :=
  match b with
  | Return r => Some r
  | Raise => None
  | Load k => denotes g (k s) s
  | Store s' k => denotes g k s'
  | CallSelf x k => denotes g (k (g x)) s
  end.

(** All calls of [self] in [b] are with smaller arguments. *)
Inductive smaller (lt : X -> X -> Prop) (x : X) : body -> Prop :=
| smaller_return r : smaller lt x (Return r)
| smaller_raise : smaller lt x Raise
| smaller_load k : (forall s, smaller lt x (k s)) -> smaller lt x (Load k)
| smaller_store s k : smaller lt x k -> smaller lt x (Store s k)
| smaller_self y k : lt y x -> (forall o, smaller lt x (k o)) -> smaller lt x (CallSelf y k).

(** A recursive procedure with a global variable: [runs F b s o s'], from [s] the
    statements [b] have the outcome [o] and leave [s']. *)
Inductive runs (F : X -> body) : body -> S -> option R -> S -> Prop :=
| runs_return r s : runs F (Return r) s (Some r) s
| runs_raise s : runs F Raise s None s
| runs_load k s o s' : runs F (k s) s o s' -> runs F (Load k) s o s'
| runs_store s1 k s o s' : runs F k s1 o s' -> runs F (Store s1 k) s o s'
| runs_self x k s o1 s1 o s' :
    runs F (F x) s o1 s1 -> runs F (k o1) s1 o s' -> runs F (CallSelf x k) s o s'.

(** A recursive procedure with a parameter passed by value and result, called with a
    local variable that is initialised with it: [proc(inout s, x) { auto c = s; ... proc(c, y); ... }].
    [runs_local F b s c o s']. *)
Inductive runs_local (F : X -> body) : body -> S -> S -> option R -> S -> Prop :=
| local_return r s c : runs_local F (Return r) s c (Some r) s
| local_raise s c : runs_local F Raise s c None s
| local_load k s c o s' : runs_local F (k s) s c o s' -> runs_local F (Load k) s c o s'
| local_store s1 k s c o s' : runs_local F k s1 c o s' -> runs_local F (Store s1 k) s c o s'
| local_self x k s c o1 c1 o s' :
    runs_local F (F x) c c o1 c1 -> runs_local F (k o1) s c1 o s' -> runs_local F (CallSelf x k) s c o s'.

(** The body alone, the outcomes of its calls of [self] being given: the outcome and the
    captured variables. *)
Fixpoint own (b : body) (answers : list (option R)) (s : S) : option (option R * S) :=
  match b with
  | Return r => match answers with [] => Some (Some r, s) | _ => None end
  | Raise => match answers with [] => Some (None, s) | _ => None end
  | Load k => own (k s) answers s
  | Store s' k => own k answers s'
  | CallSelf x k =>
      match answers with
      | [] => None
      | o :: answers' => own (k o) answers' s
      end
  end.
End Spec.
