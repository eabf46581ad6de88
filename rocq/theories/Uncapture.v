(** Model of src/pigro/uncapture.h.

    [template<empty T, size_t tag>] at uncapture.h:20 names a concept that is not
    visible there; it is read as [concepts::empty].

    [S] is the state of the wrapped function object, [V] the sum of all
    argument types, [R] the results.  A function takes its arguments by
    reference: a call yields the new state, what the arguments are afterwards,
    and the result. *)
From Coq Require Import List Bool Arith.
Import ListNotations.

Section Uncapture.
Context {S V R : Type}.
Variable fn : S -> list V -> S * list V * R.

(** The objects in play: a function object, or a [CompressedInvocable<U, F, tag>]
    (uncapture.h:27-41) whose base [U] is [Uncaptured<T, tag>] holding a value. *)
Inductive invocable :=
| Plain (s : S)
| Compressed (u : V) (tag : nat) (f : invocable).

(** uncapture.h:43-52 [unique_tag_v<F>]. *)
Definition unique_tag (f : invocable) : nat :=
  match f with
  | Plain _ => 0
  | Compressed _ tag _ => tag
  end.

(** uncapture.h:54-58 [operator>>(Uncaptured<T> u, F f)]. *)
Definition uncapture1 (u : V) (f : invocable) : invocable :=
  let tag := unique_tag f + 1 in
  Compressed u tag f.

(** uncapture.h:65-71 [operator>>(mytuple<T> values_, F f)]: the fold
    [(values >> ... >> f)], i.e. [v1 >> (v2 >> ( ... >> f))]. *)
Fixpoint uncapture (values : list V) (f : invocable) : invocable :=
  match values with
  | [] => f
  | v :: vs => uncapture1 v (uncapture vs f)
  end.

(** uncapture.h:32-38 [CompressedInvocable::operator()] (non-const):
    [F::operator()(args..., U::get_value())].  The value is passed as an lvalue
    (for an empty class as a fresh object, which has no state to lose). *)
Fixpoint call (o : invocable) (args : list V) : invocable * list V * R :=
  match o with
  | Plain s =>
      let '(s', args', r) := fn s args in (Plain s', args', r)
  | Compressed u tag f =>
      let '(f', args', r) := call f (args ++ [u]) in
      (Compressed (last args' u) tag f', removelast args', r)
  end.

(** The tags of the classes [Uncaptured<T, tag>] among the bases of an object. *)
Fixpoint tags (o : invocable) : list nat :=
  match o with
  | Plain _ => []
  | Compressed _ tag f => tag :: tags f
  end.

(** A sequence of calls on the same object; the results. *)
Fixpoint calls (o : invocable) (argss : list (list V)) : invocable * list (list V * R) :=
  match argss with
  | [] => (o, [])
  | args :: rest =>
      let '(o1, args', r) := call o args in
      let '(o2, rs) := calls o1 rest in
      (o2, (args', r) :: rs)
  end.

(** What is expected: the function [fn] called with the arguments followed by the
    values, its state and the values kept from call to call. *)
Fixpoint expected_calls (s : S) (vs : list V) (argss : list (list V))
    : S * list V * list (list V * R) :=
  match argss with
  | [] => (s, vs, [])
  | args :: rest =>
      let '(s1, out, r) := fn s (args ++ vs) in
      let '(s2, vs2, rs) := expected_calls s1 (skipn (length args) out) rest in
      (s2, vs2, (firstn (length args) out, r) :: rs)
  end.

End Uncapture.
Arguments invocable : clear implicits.
