(** Model of src/pigro/partition.h and src/pigro/overload.h.

    Types are the elements of an arbitrary type [T] with decidable equality,
    a [typelist<...>] is a list of them, a unary type trait is a function to
    [bool].  All of partition.h runs at compile time on values of empty class
    types, so it is modelled by pure functions. *)
From Coq Require Import List Bool.
Import ListNotations.

Section Partition.
Context {T : Type}.

(** src/pigro/partition.h:13-18 [typelist]. *)
Definition typelist := list T.

(** partition.h:20-27 [operator+]: appends two packs. *)
Definition plus (ts us : typelist) : typelist := ts ++ us.

(** partition.h:29-32 [concat]: [(typelists + ... + typelist<>{})], the binary
    right fold [t1 + (t2 + ( ... + typelist<>{}))]. *)
Fixpoint concat (typelists : list typelist) : typelist :=
  match typelists with
  | [] => []
  | t :: ts => plus t (concat ts)
  end.

(** partition.h:68-82 [Predicate<Trait, is_negated>]. *)
Record Predicate := mkPredicate { trait : T -> bool; is_negated : bool }.

(** partition.h:73-77 [operator()(type_<T>)]. *)
Definition call_predicate (p : Predicate) (t : T) : bool :=
  if is_negated p then negb (trait p t) else trait p t.

(** partition.h:79-81 [operator!]. *)
Definition negate (p : Predicate) : Predicate := mkPredicate (trait p) (negb (is_negated p)).

(** partition.h:84-85 [predicate<Trait>]. *)
Definition predicate (tr : T -> bool) : Predicate := mkPredicate tr false.

(** partition.h:34-45 [filter_if] on a one-element list. *)
Definition filter_if1 (t : T) (p : Predicate) : typelist :=
  if call_predicate p t then [t] else [].

(** partition.h:47-55 [filter_if] on a pack; a one-element list picks the more
    specialised overload above. *)
Definition filter_if (l : typelist) (p : Predicate) : typelist :=
  match l with
  | [t] => filter_if1 t p
  | _ => concat (map (fun t => filter_if1 t p) l)
  end.

(** partition.h:57-66 [partition]. *)
Definition partition (l : typelist) (p : Predicate) : typelist :=
  concat (map (fun t => filter_if1 t p) l ++ map (fun t => filter_if1 t (negate p)) l).

(** partition.h:87-88 [partition_t]. *)
Definition partition_t (tr : T -> bool) (l : typelist) : typelist := partition l (predicate tr).

End Partition.
Arguments typelist : clear implicits.
Arguments Predicate : clear implicits.

Section Overload.
Context {T V : Type} (teq : forall x y : T, {x = y} + {x <> y}).

(** A functor: its (closure) type and its value. *)
Definition functor := (T * V)%type.

(** [std::get<G>(args)] on a [std::tuple]: ill-formed ([None]) unless exactly
    one element has type [G] ([tuple.elem]/4). *)
Definition get_by_type (g : T) (args : list functor) : option V :=
  match filter (fun a => if teq (fst a) g then true else false) args with
  | [a] => Some (snd a)
  | _ => None
  end.

(** The pack [std::get<Gs>(args)...] initialising the bases [Gs...]
    (overload.h:28-29). *)
Fixpoint init_bases (gs : list T) (args : list functor) : option (list functor) :=
  match gs with
  | [] => Some []
  | g :: gs' =>
      match get_by_type g args, init_bases gs' args with
      | Some v, Some bs => Some ((g, v) :: bs)
      | _, _ => None
      end
  end.

(** The MSVC version, overload.h:20-33: the bases of the object built by
    [overload{ fs... }], in declaration order, with their values.  [overload<>]
    has no base (line 33).  [std::tuple{ fs... }] in line 26 is read as the tuple of
    the functors: a functor that is itself a [std::tuple] is not callable and
    rejected by [using Fs::operator()...] anyway. *)
Definition overload_msvc (is_empty : T -> bool) (fs : list functor) : option (list functor) :=
  match fs with
  | [] => Some []
  | _ => init_bases (partition_t is_empty (map fst fs)) fs
  end.

(** A class may name each direct base only once ([class.mi]/3). *)
Fixpoint distinct_types (ts : list T) : bool :=
  match ts with
  | [] => true
  | t :: ts' => (if in_dec teq t ts' then false else true) && distinct_types ts'
  end.

(** The version for the other compilers, overload.h:35-38: an aggregate with
    the functors as bases in the given order. *)
Definition overload_std (fs : list functor) : option (list functor) :=
  if distinct_types (map fst fs) then Some fs else None.

(** Calling an overload object.  [using Fs::operator()...] (overload.h:17,37) makes
    the call operators of all bases candidates of one overload set.  Which one
    is called is decided by C++'s overload resolution: of the candidates viable
    for the arguments, the one that is better than every other one; the call is
    ill-formed ([None]) if there is none ([over.match.best]).  [viable] and
    [better] stand for the argument list at hand. *)
Definition best_of (viable : T -> bool) (better : T -> T -> bool) (bases : list functor)
    : option functor :=
  let vs := filter (fun b => viable (fst b)) bases in
  find (fun b => forallb (fun c => if teq (fst b) (fst c) then true
                                   else better (fst b) (fst c)) vs) vs.

End Overload.
