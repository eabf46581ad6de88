(** Model of src/pigro/tuple_algorithms.h, src/pigro/apply.h and
    src/pigro/pack_algorithms.h.

    A C++ tuple is a list (its elements may have different types; [X] is the
    sum of them).  User callables may have side effects: they are functions
    that take and return an arbitrary world [S]. *)
From Coq Require Import List Bool Arith.
From Verif Require Import Value.
Import ListNotations.

Section Effects.
Context {S X Y : Type}.

(** [p(x1), ..., p(xn)] inside a braced initialiser list: evaluated left to
    right ([dcl.init.list]).  Used by tuple_algorithms.h:10. *)
Fixpoint map_eff (p : X -> S -> Y * S) (l : list X) (s : S) : list Y * S :=
  match l with
  | [] => ([], s)
  | x :: xs =>
      let '(y, s1) := p x s in
      let '(ys, s2) := map_eff p xs s1 in
      (y :: ys, s2)
  end.

(** src/pigro/tuple_algorithms.h:8-13 [transform]:
    [std::apply([=](const auto &...args) { return std::tuple{ projection(args)... }; }, data)]. *)
Definition transform (look : Y -> option (list Y)) (data : list X)
    (projection : X -> S -> Y * S) (s : S) : list Y * S :=
  let '(ys, s') := map_eff projection data s in
  (ctad_tuple look ys, s').

(** src/pigro/tuple_algorithms.h:15-21 [any]:
    [(predicate(args) || ...)], a right fold of the built-in short-circuiting
    [||]; over an empty pack it is [false]. *)
Fixpoint any (data : list X) (predicate : X -> S -> bool * S) (s : S) : bool * S :=
  match data with
  | [] => (false, s)
  | x :: xs =>
      let '(b, s1) := predicate x s in
      if b then (true, s1) else any xs predicate s1
  end.

End Effects.

Section Apply.
Context {S X R : Type}.

(** [get<idx>(t)] of a tuple-like object; an index outside the tuple does not
    compile ([None]). *)
Definition tuple_get (t : list X) (i : nat) : option X := nth_error t i.

(** The pack [get<idx>(t)...] for an index pack. *)
Fixpoint get_pack (t : list X) (idx : list nat) : option (list X) :=
  match idx with
  | [] => Some []
  | i :: is =>
      match tuple_get t i, get_pack t is with
      | Some x, Some xs => Some (x :: xs)
      | _, _ => None
      end
  end.

(** [std::make_index_sequence<n>]. *)
Definition make_index_sequence (n : nat) : list nat := seq 0 n.

(** src/pigro/apply.h:8-11 [apply_impl]: one call of [f] with the pack. *)
Definition apply_impl (f : list X -> S -> R * S) (t : list X) (idx : list nat) (s : S)
    : option (R * S) :=
  match get_pack t idx with
  | Some args => Some (f args s)
  | None => None
  end.

(** src/pigro/apply.h:13-17 [apply]. *)
Definition apply (f : list X -> S -> R * S) (t : list X) (s : S) : option (R * S) :=
  apply_impl f t (make_index_sequence (length t)) s.

End Apply.

Section Pack.
Context {S X R : Type}.

(** src/pigro/pack_algorithms.h:7-13 [Item]: an element and its static index. *)
Record Item := mkItem { index : nat; value : X }.

(** The pack [Item<idx, ...>(std::get<idx>(t))...] of pack_algorithms.h:18-22. *)
Fixpoint items_of (t : list X) (idx : list nat) : option (list Item) :=
  match idx with
  | [] => Some []
  | i :: is =>
      match tuple_get t i, items_of t is with
      | Some x, Some xs => Some (mkItem i x :: xs)
      | _, _ => None
      end
  end.

(** src/pigro/pack_algorithms.h:15-25 [enumerate_pack].  The tuple is built
    with explicit element types ([std::tuple<decltype(pack)...>]), so no
    deduction takes place and [t] is the pack itself.  The items are function
    arguments: their construction only moves references, so its order is not
    observable. *)
Definition enumerate_pack (f : list Item -> S -> R * S) (pack : list X) (s : S)
    : option (R * S) :=
  match items_of pack (make_index_sequence (length pack)) with
  | Some items => Some (f items s)
  | None => None
  end.

End Pack.
Arguments Item : clear implicits.

(** src/pigro/pack_algorithms.h:27-33 [enumerate_n]: enumerates the pack of
    the indices themselves. *)
Definition enumerate_n {S R : Type} (n : nat) (f : list (Item nat) -> S -> R * S) (s : S)
    : option (R * S) :=
  enumerate_pack f (make_index_sequence n) s.

(** Side-effect-free callables as effectful ones. *)
Definition pure1 {X Y : Type} (f : X -> Y) : X -> unit -> Y * unit := fun x s => (f x, s).
