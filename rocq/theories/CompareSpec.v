(** Vocabulary of C93: counting dependencies and stored values. *)
From Coq Require Import List Arith.
From Verif Require Import Value LazyModel LazySpec DocModel.
Import ListNotations.

Section Spec.
Context {A fid did : Type}.
Notation expr := (expr A fid did).

(** All dependencies of a lazy function, direct and indirect, each counted as often as it is
    passed to a [pigro::lazy] on the way. *)
Fixpoint dependencies (e : expr) : nat :=
  match e with
  | EConst _ | EFun _ => 0
  | EApp _ es => length es + list_sum (map dependencies es)
  end.
(** Those that are not plain functions: values, and lazy functions. *)
Fixpoint values_and_lazies (e : expr) : nat :=
  match e with
  | EConst _ | EFun _ => 0
  | EApp _ es => list_sum (map (fun e => (match e with EFun _ => 0 | _ => 1 end) + values_and_lazies e) es)
  end.
(** The lazy functions themselves. *)
Fixpoint lazies (e : expr) : nat :=
  match e with
  | EConst _ | EFun _ => 0
  | EApp _ es => 1 + list_sum (map lazies es)
  end.

(** Values held by the optionals inside a lazy function: of the library, *)
Fixpoint stored (l : lz A fid did) : nat :=
  match l with
  | LValue _ _ => 0
  | LCore _ cache ds => (match cache with Some _ => 1 | None => 0 end) + list_sum (map stored ds)
  end.
(** and of the design of dependencies.md. *)
Fixpoint wstored (l : wz A fid did) : nat :=
  match l with
  | WConst _ | WFun _ => 0
  | WNode _ cache args ds =>
      (match cache with Some _ => 1 | None => 0 end) + (match args with Some vs => length vs | None => 0 end) + list_sum (map wstored ds)
  end.
End Spec.
