(** src/pigro/recursive.h at run time: [recursive{ F }(args...)] calls [F] with the
    object itself as first argument.  (Which overload is chosen, and how the object is
    qualified, is in [CppTypes.v].)

    [X] is the type of the remaining arguments, [R] that of results, [S] that of
    [F]'s captured variables. *)
From Coq Require Import List Bool.
Import ListNotations.

Section Recursive.
Context {X R S : Type}.

(** What the body of [F]'s call operator may do: return, throw, read and assign its own
    captured variables, and call [self(x)].  The outcome of such a call is a result, or
    an exception ([None]), which the body may catch: one that does not goes on with
    [Raise]. *)
Inductive body :=
| Return (r : R)
| Raise
| Load (k : S -> body)
| Store (s : S) (k : body)
| CallSelf (x : X) (k : option R -> body).

(** The callable: its body for every argument. *)
Variable F : X -> body.

(** How [F] declares its parameter [self]: [auto self], or [auto &self] and
    [auto &&self]. *)
Inductive self_param := ByValue | ByRef.
Variable p : self_param.

(** [F]'s body on an object whose captured variables are [this]; [copy] are those of
    [self] if that is an object of its own (else not used).  [call s x] is
    [self(x)] on an object [s].  The outcome, the variables afterwards, and those of
    [self]. *)
Fixpoint exec (call : S -> X -> option (option R * S)) (b : body) (this copy : S)
    : option (option R * S) :=
  match b with
  | Return r => Some (Some r, this)
  | Raise => Some (None, this)
  | Load k => exec call (k this) this copy
  | Store s k => exec call k s copy
  | CallSelf x k =>
      match p with
      | ByRef =>
          match call this x with
          | Some (o, this') => exec call (k o) this' copy
          | None => None
          end
      | ByValue =>
          match call copy x with
          | Some (o, copy') => exec call (k o) this copy'
          | None => None
          end
      end
  end.

(** recursive.h:15-18, the call of an lvalue: [F] is invoked on [*this], with [*this] as
    [self]; by value this is a copy, made before the body runs.  [fuel] bounds the depth
    of the recursion; [None] if it does not suffice. *)
Fixpoint call (fuel : nat) (this : S) (x : X) : option (option R * S) :=
  match fuel with
  | 0 => None
  | Datatypes.S n => exec (call n) (F x) this this
  end.

(** recursive.h:20-23, the call of an rvalue: [std::move( *this )] is passed as [self].  A
    reference to it refers to the object; a parameter by value is move-constructed from
    it before the body runs, which leaves [moved this] behind.  Inside, [self] is an
    lvalue. *)
Definition call_rvalue (moved : S -> S) (fuel : nat) (this : S) (x : X) : option (option R * S) :=
  match fuel with
  | 0 => None
  | Datatypes.S n =>
      exec (call n) (F x) (match p with ByValue => moved this | ByRef => this end) this
  end.

End Recursive.
Arguments body : clear implicits.
