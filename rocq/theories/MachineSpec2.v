(** Vocabulary for statements about the machine: what exists, what a piece of code
    leaves alone, sequences of calls, and evaluation from scratch of a sequence. *)
From Coq Require Import List Bool Arith.
From Verif Require Import Value Machine MachineSpec MachineLib.
Import ListNotations.

Section Spec.
Context {A W F S : Type}.
Notation value := (val A).
Notation obj := (obj A F S).
Notation mstate := (mstate A W F S).
Notation mevent := (mevent A F).
Notation M := (M A W F S).

(** [m] creates objects, at most: everything that existed is as before, the outside
    world too, and no user code ran (no call, no comparison). *)
Definition grows {X} (m : M X) : Prop :=
  forall st, exists cells, snd (m st) = mkSt (store st ++ cells) (mworld st) (trace st).

(** The caller's objects that are handed to [pigro::lazy]: the class of a
    dependency's type, and the object. *)
Definition given (U : muser A W F S) (sto : list (bool * obj)) (x : dep_class * arg) (d : ldep A F S) : Prop :=
  match d with
  | DepLazy e => fst x = CLazy /\ holds sto (aref (snd x)) (lazy_obj U e)
  | DepFun g t => fst x = CInvocable /\ holds sto (aref (snd x)) (fun_obj g t)
  | DepValue v => fst x = COther /\ holds sto (aref (snd x)) (data v)
  end.

(** Call the objects [rs] one after the other, going on after an exception. *)
Fixpoint call_all (call : ref -> M (result A F S)) (rs : list ref) (st : mstate)
    : list (outcome (result A F S)) * mstate :=
  match rs with
  | [] => ([], st)
  | r :: rs' =>
      let (o, st1) := call r st in
      let (os, st2) := call_all call rs' st1 in (o :: os, st2)
  end.

(** The same calls as evaluations from scratch. *)
Fixpoint eval_all (U : muser A W F S) (es : list (lexp A F S)) (w : W)
    : list (outcome value) * W * list mevent :=
  match es with
  | [] => ([], w, [])
  | e :: es' =>
      let '(o, w1, l1) := ecall U e w in
      let '(os, w2, l2) := eval_all U es' w1 in (o :: os, w2, l1 ++ l2)
  end.

(** What the caller sees of a value. *)
Definition returned (o : outcome value) : outcome (result A F S) :=
  match o with
  | Done VVoid => Done RVoid
  | Done v => Done (RVal (data v))
  | Err e => Err e
  end.

(** A function that returns [void] (or throws). *)
Definition void_fun (U : muser A W F S) (f : F) : Prop :=
  forall s vs w, snd (fst (usem U f s vs w)) = UVoid \/ snd (fst (usem U f s vs w)) = UThrow.

(** A tree of [void] functions. *)
Fixpoint void_tree (U : muser A W F S) (e : lexp A F S) : Prop :=
  match e with
  | LExp f s deps =>
      void_fun U f /\
      (fix go (ds : list (ldep A F S)) : Prop :=
         match ds with
         | [] => True
         | d :: ds' => match d with DepLazy e' => void_tree U e' | _ => False end /\ go ds'
         end) deps
  end.

(** The calls of a wrapped function in a trace. *)
Definition calls_of (same : F -> F -> bool) (f : F) (l : list mevent) : nat :=
  length (filter (fun ev => match ev with MCall g _ => same f g | _ => false end) l).

End Spec.
