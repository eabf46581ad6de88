(** Vocabulary for bound functions: captures, and sequences of calls of a function
    with remembered arguments. *)
From Coq Require Import List Bool Arith.
From Verif Require Import Value Machine MachineSpec MachineLib.
Import ListNotations.

(** Pointwise relation of three lists. *)
Inductive Forall3 {X Y Z : Type} (R : X -> Y -> Z -> Prop) : list X -> list Y -> list Z -> Prop :=
| Forall3_nil : Forall3 R [] [] []
| Forall3_cons x y z xs ys zs : R x y z -> Forall3 R xs ys zs -> Forall3 R (x :: xs) (y :: ys) (z :: zs).

Lemma Forall3_impl {X Y Z} (R Q : X -> Y -> Z -> Prop) xs ys zs :
  (forall x y z, R x y z -> Q x y z) -> Forall3 R xs ys zs -> Forall3 Q xs ys zs.
Proof. intros H. induction 1; constructor; auto. Qed.

Section Spec.
Context {A W F S : Type}.
Notation value := (val A).
Notation obj := (obj A F S).
Notation slot := (slot A F S).
Notation mstate := (mstate A W F S).
Notation mevent := (mevent A F).
Notation M := (M A W F S).
Notation data := (@Machine.data A F S).

(** The object designated by member [i] of the object at [r]: the member itself, or
    what it refers to. *)
Definition place (r : ref) (i : nat) (c : slot) : ref :=
  match c with SVal _ => at_ r i | SRef r' => r' end.
Fixpoint places (r : ref) (i : nat) (cs : list slot) : list ref :=
  match cs with
  | [] => []
  | c :: cs' => place r i c :: places r (Datatypes.S i) cs'
  end.

(** How an argument holding [o] is captured: an rvalue by value, an lvalue by
    reference. *)
Definition captured (a : arg) (o : obj) : slot :=
  match acat a with RV => SVal o | _ => SRef (aref a) end.
Fixpoint captures (args : list arg) (os : list obj) : list slot :=
  match args, os with
  | a :: args', o :: os' => captured a o :: captures args' os'
  | _, _ => []
  end.

(** The object that stands for an argument [a] captured as member [i] of [r]: the
    caller's object for an lvalue, the member for an rvalue. *)
Definition home (r : ref) (i : nat) (a : arg) : ref :=
  match acat a with RV => at_ r i | _ => aref a end.
Fixpoint homes (r : ref) (i : nat) (args : list arg) : list ref :=
  match args with
  | [] => []
  | a :: args' => home r i a :: homes r (Datatypes.S i) args'
  end.
(** The same for the operands of [>>] and [<<], where objects of an empty class are
    members in any case. *)
Definition op_home (ve : value -> bool) (r : ref) (i : nat) (a : arg) (o : obj) : ref :=
  if obj_empty ve o then at_ r i else home r i a.

(** ** Sequences of calls *)

(** What the caller does: assign to the object given as the [i]-th bound argument, or
    call the bound function with these values. *)
Inductive step := Assign (i : nat) (v : value) | CallWith (vs : list value).

(** The same done by a function [f] called directly, by someone who remembers the
    bound values [bvs] and passes them as lvalues: before the arguments of the call
    if [front], else after; [keep]: always the same function object is called, else
    a copy of the original one. *)
Fixpoint direct (front keep : bool) (U : muser A W F S) (f : F) (s : option S) (bvs : list value)
    (steps : list step) (w : W)
    : list (outcome (option value)) * option S * list value * W * list mevent :=
  match steps with
  | [] => ([], s, bvs, w, [])
  | Assign i v :: steps' => direct front keep U f s (update i v bvs) steps' w
  | CallWith avs :: steps' =>
      let vs := if front then bvs ++ avs else avs ++ bvs in
      let '(s', vs', _, w') := usem U f s vs w in
      let '(o, _, l) := ucall U f s vs w in
      let bvs' := if front then firstn (length bvs) (overwrite vs vs') else skipn (length avs) (overwrite vs vs') in
      let '(os, s2, bvs2, w2, l2) := direct front keep U f (if keep then new_state s s' else s) bvs' steps' w' in
      (o :: os, s2, bvs2, w2, l ++ l2)
  end.

(** The machine's side.  The caller keeps the arguments in local variables and looks
    at the result. *)
Definition observe (ve : value -> bool) (C : config) (x : result A F S) : M (option value) :=
  match x with
  | RVoid => ret None
  | _ => (o <- to_obj ve C x ;; v <- value_of o ;; ret (Some v))%machine
  end.

Definition call_with (ve : value -> bool) (C : config) (U : muser A W F S) (n : nat) (r : ref)
    (vs : list value) : M (option value) :=
  scoped (ps <- mapM alloc (map data vs) ;;
          x <- invoke ve C U n r (LVs ps) ;; observe ve C x)%machine.

Fixpoint run_steps (ve : value -> bool) (C : config) (U : muser A W F S) (n : nat) (r : ref) (ps : list ref)
    (steps : list step) (st : mstate) : list (outcome (option value)) * mstate :=
  match steps with
  | [] => ([], st)
  | Assign i v :: steps' =>
      run_steps ve C U n r ps steps' (snd (write C (nth i ps (0, [])) (data v) st))
  | CallWith vs :: steps' =>
      let (o, st1) := call_with ve C U n r vs st in
      let (os, st2) := run_steps ve C U n r ps steps' st1 in (o :: os, st2)
  end.

(** The objects at the locations [ls] have died. *)
Definition die (ls : list nat) (sto : list (bool * obj)) : list (bool * obj) :=
  map (fun p => (fst (snd p) && negb (existsb (Nat.eqb (fst p)) ls), snd (snd p)))
      (combine (seq 0 (length sto)) sto).

(** An argument that was captured by reference to one of them. *)
Definition referred_dead (ls : list nat) (a : arg) : Prop := acat a <> RV /\ In (fst (aref a)) ls.

(** Assignments are to existing bound arguments. *)
Definition in_range (n : nat) (steps : list step) : Prop :=
  Forall (fun x => match x with Assign i _ => i < n | CallWith _ => True end) steps.

(** Values of an empty class stay what they are, others stay non-empty. *)
Definition same_class (ve : value -> bool) (v v' : value) : Prop :=
  data_empty ve v = data_empty ve v' /\ (data_empty ve v = true -> v = v').
Definition well_typed (ve : value -> bool) (U : muser A W F S) (f : F) : Prop :=
  forall s vs w, let '(_, vs', _, _) := usem U f s vs w in Forall2 (same_class ve) vs (overwrite vs vs').

(** A function that returns by value. *)
Definition by_value_fun (U : muser A W F S) (f : F) : Prop :=
  forall s vs w i, snd (fst (usem U f s vs w)) <> URefArg i.

End Spec.
Arguments step : clear implicits.
