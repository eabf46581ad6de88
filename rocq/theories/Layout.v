(** Size and emptiness of the classes built by src/pigro/compressed_tuple.h,
    src/pigro/bind_tuple.h, src/pigro/regular_void.h, src/pigro/lazy.h and
    src/pigro/uncapture.h.

    The layout rules are those of the common C++ ABIs, simplified to what these
    classes use: no virtual functions, no bit-fields, at most one subobject of
    each empty class (every lambda has a class of its own, and
    compressed_tuple_element makes new lambdas for every tag). *)
From Coq Require Import List Bool Arith.
From Verif Require Import Partition.
Import ListNotations.

(** What matters about a type: [std::is_empty], the size without tail padding,
    [alignof] and [sizeof]. *)
Record lay := mkLay { lempty : bool; ldsize : nat; lalign : nat; lsize : nat }.

(** A scalar, reference or other non-empty type of given size and alignment. *)
Definition prim (size align : nat) : lay := mkLay false size align size.

(** The least multiple of [a] that is at least [n]. *)
Definition align_up (n a : nat) : nat := (n + a - 1) / a * a.

(** Two families of ABIs: [reuse_tail] (Itanium) places a base class subobject
    into the tail padding of the one before; MSVC does not. *)
Section Abi.
Variable reuse_tail : bool.
(** Does [overload] sort its bases (overload.h:11-33, MSVC) or not (overload.h:35-38)? *)
Variable sorts : bool.

Definition base_offset (off : nat) (b : lay) : nat :=
  if lempty b then off
  else align_up off (lalign b) + (if reuse_tail then ldsize b else lsize b).

Definition member_offset (off : nat) (m : lay) : nat := align_up off (lalign m) + lsize m.

(** A class with the given bases and data members. *)
Definition class_lay (bases members : list lay) : lay :=
  let off := fold_left member_offset members (fold_left base_offset bases 0) in
  let al := fold_right Nat.max 1 (map lalign (bases ++ members)) in
  mkLay (forallb lempty bases && match members with [] => true | _ => false end)
        off al (align_up (Nat.max 1 off) al).

(** The closure class of a lambda with the given captures. *)
Definition closure (captures : list lay) : lay := class_lay [] captures.

(** overload.h:11-38: bases in the given order, or (MSVC) [overload_impl] with the
    empty ones first. *)
Definition overload_lay (fs : list lay) : lay :=
  if sorts then class_lay [class_lay (partition_t lempty fs) []] []
  else class_lay fs [].

(** recursive.h:10-34: one base, no members. *)
Definition recursive_lay (f : lay) : lay := class_lay [f] [].

(** [std::tuple<T>] with a non-empty [T] holds just the [T]. *)
Definition std_tuple1 (t : lay) : lay := class_lay [] [t].

(** compressed_tuple.h:18-35: a captureless lambda for an empty class; otherwise an
    overload of a captureless lambda and one capturing a [std::tuple<T>]. *)
Definition element_lay (t : lay) : lay :=
  if lempty t then closure []
  else overload_lay [closure []; closure [std_tuple1 t]].

(** compressed_tuple.h:37-61: derives from [recursive{overload{ elements... }}]. *)
Definition compressed_tuple_lay (ts : list lay) : lay :=
  class_lay [recursive_lay (overload_lay (map element_lay ts))] [].

(** bind_tuple.h:20-50 [bind_front_tuple], [bind_back_tuple]: two elements (the
    function and the tuple, as stored) and a captureless lambda. *)
Definition bind_tuple_lay (f t : lay) : lay :=
  recursive_lay (overload_lay [element_lay f; element_lay t; closure []]).

(** regular_void.h:15-39 [regularized_void(f)], [unregularized_void(f)]:
    [compressed_tuple{ f } >> [](...) mutable { ... }]. *)
Definition void_adapter_lay (f : lay) : lay :=
  bind_tuple_lay (closure []) (compressed_tuple_lay [f]).

(** lazy.h:46-67 [detail::lazy(f, deps...)]: [compressed_tuple{ f, deps... } << [=]...]
    with a lambda capturing [cache]. *)
Definition lazy_core_lay (cache f : lay) (deps : list lay) : lay :=
  bind_tuple_lay (closure [cache]) (compressed_tuple_lay (f :: deps)).

(** lazy.h:35-44 [unwrap_value(f)]. *)
Definition unwrap_lay (f : lay) : lay :=
  recursive_lay
    (overload_lay [bind_tuple_lay (closure []) (compressed_tuple_lay [f]); closure []]).

(** lazy.h:96-103 [pigro::lazy(f, deps...)]; [deps] are the dependencies after
    ensure_lazy, [cache] is [std::optional<result_t>]. *)
Definition lazy_lay (cache f : lay) (deps : list lay) : lay :=
  void_adapter_lay (unwrap_lay (lazy_core_lay cache (void_adapter_lay f) deps)).

(** The cache (lazy.h:49) of a function returning a [t]: [std::optional<t>], that is a
    [t] and a flag; for [void], regular_void.h:45-47, just the flag. *)
Definition optional_lay (t : lay) : lay := class_lay [] [t; prim 1 1].
Definition optional_void_lay : lay := class_lay [] [prim 1 1].

(** lazy.h:69-76 [lazy_value(value, changed)]: the flag is a [std::true_type] or
    [std::false_type], both empty. *)
Definition lazy_value_lay (v : lay) : lay :=
  bind_tuple_lay (closure []) (compressed_tuple_lay [v; closure []]).

(** What a dependency can be, told apart by the overloads of ensure_lazy
    (lazy.h:78-90): a lazy function, a plain function [g] whose result is cached in
    [cache], or a value. *)
Inductive dep_lay :=
| DepLazy (l : lay)
| DepPlain (cache g : lay)
| DepValue (v : lay).

(** lazy.h:78-90; [int] is the type of the literal in line 85. *)
Definition ensure_lazy_lay (int : lay) (d : dep_lay) : lay :=
  match d with
  | DepLazy l => l
  | DepPlain cache g =>
      lazy_core_lay cache (bind_tuple_lay (closure []) (compressed_tuple_lay [g]))
                    [lazy_value_lay int]
  | DepValue v => lazy_value_lay v
  end.

(** lazy.h:96-103 with the dependencies as the user gives them. *)
Definition user_lazy_lay (int cache f : lay) (deps : list dep_lay) : lay :=
  lazy_lay cache f (map (ensure_lazy_lay int) deps).

(** uncapture.h:12-25 [Uncaptured<T, tag>]: a member of type [T], or nothing if [T]
    is empty. *)
Definition uncaptured_lay (t : lay) : lay :=
  if lempty t then class_lay [] [] else class_lay [] [t].

(** uncapture.h:27-41 [CompressedInvocable]: the bases [U] and [F]. *)
Definition invocable_lay (u f : lay) : lay := class_lay [u; f] [].

(** uncapture.h:54-71: [(values >> ... >> f)]. *)
Fixpoint uncaptured_chain_lay (ts : list lay) (f : lay) : lay :=
  match ts with
  | [] => f
  | t :: ts' => invocable_lay (uncaptured_lay t) (uncaptured_chain_lay ts' f)
  end.

(** The yardstick: a plain struct with the given members. *)
Definition plain_struct (ts : list lay) : lay := class_lay [] ts.

End Abi.

(** A type as C++ has them: positive size and alignment, size a multiple of the
    alignment; [ldsize] at most [lsize]. *)
Definition proper_lay (l : lay) : Prop :=
  0 < lsize l /\ 0 < lalign l /\ Nat.divide (lalign l) (lsize l) /\ ldsize l <= lsize l.
