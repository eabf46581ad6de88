(** regular_void.h: [std::optional<regular_void>], and vocabulary for calls of
    [regularized_void(f)] and [unregularized_void(f)] (their models are in
    [Machine.v]). *)
From Coq Require Import List Bool Arith.
From Verif Require Import Value Machine MachineSpec MachineLib BindSpec.
Import ListNotations.

(** ** src/pigro/regular_void.h:11-13 [regular_void]

    No members; the defaulted comparison compares nothing: any two are equal. *)
Definition regular_void_eq (a b : unit) : bool := true.

(** ** src/pigro/regular_void.h:45-75 [std::optional<regular_void>] *)
Record opt_void := mkOptVoid { ov_engaged : bool }.
(** :50 *)
Definition ov_none : opt_void := mkOptVoid false.
(** :51 *)
Definition ov_some (x : unit) : opt_void := mkOptVoid true.
(** :53-56; the result is the object itself *)
Definition ov_assign (o : opt_void) (x : unit) : opt_void := mkOptVoid true.
(** :58 *)
Definition ov_bool (o : opt_void) : bool := ov_engaged o.
(** :59; does not look at [engaged] *)
Definition ov_deref (o : opt_void) : unit := tt.
(** :61-65 *)
Definition ov_eq (a b : opt_void) : bool := Bool.eqb (ov_engaged a) (ov_engaged b).
(** :67-71 *)
Definition ov_neq (a b : opt_void) : bool := negb (Bool.eqb (ov_engaged a) (ov_engaged b)).

(** ** An ordinary [std::optional<T>]: [std::nullopt] or a value; [operator*] of an
    empty one is undefined ([None]).  Comparison: [optional.relops]. *)
Section Optional.
Context {T : Type}.
Variable eq : T -> T -> bool.
Definition opt_assign (o : option T) (x : T) : option T := Some x.
Definition opt_bool (o : option T) : bool := match o with Some _ => true | None => false end.
Definition opt_deref (o : option T) : option T := o.
Definition opt_eq (a b : option T) : bool :=
  match a, b with
  | Some x, Some y => eq x y
  | None, None => true
  | _, _ => false
  end.
Definition opt_neq (a b : option T) : bool := negb (opt_eq a b).
End Optional.

(** Programs over two variables of optional type: what they observe.  [Lhs]/[Rhs]
    choose the variable. *)
Inductive opt_op := ToNone (left : bool) | Make (left : bool) | Assign1 (left : bool) | CopyTo (left : bool)
  | TestBool (left : bool) | Deref (left : bool) | TestEq | TestNeq | EqValue (left : bool) | NeqValue (left : bool).

(** What is observed: a truth value, or a value of the one-value type (as [None] if
    there is none: undefined behaviour). *)
Inductive opt_obs := ObsBool (b : bool) | ObsValue (x : option unit) | ObsNone.

Section Programs.
Context {O : Type}.
Variables (none : O) (some : unit -> O) (assign : O -> unit -> O) (test : O -> bool)
          (deref : O -> option unit) (eq neq : O -> O -> bool).
Definition opt_step (s : O * O) (op : opt_op) : (O * O) * opt_obs :=
  let sel (b : bool) := if b then fst s else snd s in
  let set (b : bool) (o : O) := if b then (o, snd s) else (fst s, o) in
  match op with
  | ToNone b => (set b none, ObsNone)
  | Make b => (set b (some tt), ObsNone)
  | Assign1 b => (set b (assign (sel b) tt), ObsNone)
  | CopyTo b => (set b (sel (negb b)), ObsNone)
  | TestBool b => (s, ObsBool (test (sel b)))
  | Deref b => (s, ObsValue (deref (sel b)))
  | TestEq => (s, ObsBool (eq (fst s) (snd s)))
  | TestNeq => (s, ObsBool (neq (fst s) (snd s)))
  | EqValue b => (s, ObsBool (eq (sel b) (some tt)))
  | NeqValue b => (s, ObsBool (neq (sel b) (some tt)))
  end.
Fixpoint opt_run (s : O * O) (ops : list opt_op) : list opt_obs :=
  match ops with
  | [] => []
  | op :: ops' => let (s', o) := opt_step s op in o :: opt_run s' ops'
  end.
End Programs.

(** Programs that dereference only engaged optionals. *)
Fixpoint deref_engaged (s : option unit * option unit) (ops : list opt_op) : Prop :=
  match ops with
  | [] => True
  | op :: ops' =>
      match op with Deref b => (if b then fst s else snd s) <> None | _ => True end /\
      deref_engaged (fst (opt_step None Some opt_assign opt_bool opt_deref
                            (opt_eq regular_void_eq) (opt_neq regular_void_eq) s op)) ops'
  end.

Definition run_opt_void : list opt_op -> list opt_obs :=
  opt_run ov_none ov_some ov_assign ov_bool (fun o => Some (ov_deref o)) ov_eq ov_neq (ov_none, ov_none).
Definition run_optional : list opt_op -> list opt_obs :=
  opt_run None Some opt_assign opt_bool opt_deref (opt_eq regular_void_eq) (opt_neq regular_void_eq) (None, None).

(** ** Calls *)
Section Calls.
Context {A W F S : Type}.
Notation value := (val A).
Notation mstate := (mstate A W F S).
Notation mevent := (mevent A F).

(** Repeated calls with these arguments, on the machine and directly. *)
Fixpoint call_each (ve : value -> bool) (C : config) (U : muser A W F S) (n : nat) (r : ref)
    (vss : list (list value)) (st : mstate) : list (outcome (option value)) * mstate :=
  match vss with
  | [] => ([], st)
  | vs :: vss' =>
      let (o, st1) := call_with ve C U n r vs st in
      let (os, st2) := call_each ve C U n r vss' st1 in (o :: os, st2)
  end.

Fixpoint ucall_each (U : muser A W F S) (f : F) (s : option S) (vss : list (list value)) (w : W)
    : list (outcome (option value)) * W * list mevent :=
  match vss with
  | [] => ([], w, [])
  | vs :: vss' =>
      let '(o, w1, l1) := ucall U f s vs w in
      let '(os, w2, l2) := ucall_each U f s vss' w1 in (o :: os, w2, l1 ++ l2)
  end.

(** [void] as a value, and back. *)
Definition regular (o : outcome (option value)) : outcome (option value) :=
  match o with Done None => Done (Some VVoid) | _ => o end.
Definition unregular (o : outcome (option value)) : outcome (option value) :=
  match o with Done (Some VVoid) => Done None | _ => o end.

(** [f] returns no [regular_void] by reference ([unregularized_void] looks for the
    type [regular_void], not for a reference to it). *)
Definition no_void_ref (U : muser A W F S) (f : F) (s : option S) : Prop :=
  forall vs w,
  let '(s', vs', u, w') := usem U f s vs w in
  match u with
  | URefArg i => nth_error (overwrite vs vs') i <> Some VVoid
  | _ => True
  end.

End Calls.
