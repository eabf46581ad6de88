(** The classes that src/pigro/bind_tuple.h, src/pigro/regular_void.h and src/pigro/lazy.h
    build, with their identities; layouts as in [ClassLayout.v].

    A lambda is a class of its own for every instantiation of the function template it is
    in.  Here instantiations are told apart by the types of the arguments without
    references and [const]: classes that differ only in that are taken to be the same, so
    that there are more conflicts here than in C++, never fewer. *)
From Coq Require Import List Bool Arith.
From Verif Require Import Layout ClassLayout.
Import ListNotations.

(** The lambdas, by their places: *)
Definition front_lambda : kind := KLambda 0.        (* bind_tuple.h:26-32 *)
Definition back_lambda : kind := KLambda 1.         (* bind_tuple.h:42-48 *)
Definition regularized_lambda : kind := KLambda 2.  (* regular_void.h:16-25 *)
Definition unregularized_lambda : kind := KLambda 3. (* regular_void.h:29-38 *)
Definition lazy_lambda : kind := KLambda 4.         (* lazy.h:50-66 *)
Definition nullptr_lambda : kind := KLambda 5.      (* lazy.h:38 *)
Definition unwrap_lambda : kind := KLambda 6.       (* lazy.h:39-41 *)
Definition value_lambda : kind := KLambda 7.        (* lazy.h:70-75 *)
Definition sample_lambda : kind := KLambda 8.       (* lazy.h:84 *)

(** bind_tuple.h:20-50 *)
Definition bind_cls (k : kind) (f t : cls) : cls :=
  recursive_cls (overload_cls [element_cls 0 f; element_cls 1 t; Class k [f; t] [] []]).

(** regular_void.h:15-39: [compressed_tuple{ f } >> lambda]. *)
Definition void_adapter_cls (k : kind) (f : cls) : cls :=
  bind_cls front_lambda (Class k [f] [] []) (compressed_cls [f]).

(** lazy.h:46-67: [compressed_tuple{ f, deps... } << lambda]; the lambda captures [cache]. *)
Definition lazy_core_cls (cache f : cls) (deps : list cls) : cls :=
  bind_cls back_lambda (Class lazy_lambda (f :: deps) [] [cache]) (compressed_cls (f :: deps)).

(** lazy.h:35-44 *)
Definition unwrap_cls (f : cls) : cls :=
  recursive_cls (overload_cls
    [bind_cls back_lambda (Class nullptr_lambda [f] [] []) (compressed_cls [f]); Class unwrap_lambda [f] [] []]).

(** lazy.h:69-76 *)
Definition lazy_value_cls (v changed : cls) : cls :=
  bind_cls back_lambda (Class value_lambda [v; changed] [] []) (compressed_cls [v; changed]).
Definition true_type : cls := Class (KStd 0) [] [] [].
Definition false_type : cls := Class (KStd 1) [] [] [].

(** lazy.h:82-86; [cache] is [std::optional] of what [g] returns, [int] the type of the
    literal. *)
Definition sampled_cls (int cache g : cls) : cls :=
  lazy_core_cls cache (bind_cls back_lambda (Class sample_lambda [g] [] []) (compressed_cls [g]))
    [lazy_value_cls int true_type].

(** lazy.h:96-103; the dependencies after [ensure_lazy]. *)
Definition lazy_cls (cache f : cls) (deps : list cls) : cls :=
  void_adapter_cls unregularized_lambda
    (unwrap_cls (lazy_core_cls cache (void_adapter_cls regularized_lambda f) deps)).

(** The types of lazy functions and their dependencies: a lazy function with its cache, its
    wrapped function and its dependencies, a plain function with its cache, a value. *)
Inductive lazy_type :=
| TLazy (cache f : cls) (deps : list lazy_type)
| TPlain (cache g : cls)
| TValue (v : cls).

(** lazy.h:78-90 *)
Fixpoint type_cls (int : cls) (t : lazy_type) : cls :=
  match t with
  | TLazy cache f deps => lazy_cls cache f (map (type_cls int) deps)
  | TPlain cache g => sampled_cls int cache g
  | TValue v => lazy_value_cls v false_type
  end.
