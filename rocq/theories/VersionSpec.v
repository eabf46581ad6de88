(** Vocabulary of C95 to C97. *)
From Coq Require Import List Arith.
From Verif Require Import LazyModel SharedModel.
Import ListNotations.

Section Spec.
Context {A W fid did : Type}.

(** For each variable those that it refers to by [std::ref], directly or indirectly. *)
Definition dep_refers (us : list (list nat)) (s : sdep A did) : list nat :=
  match s with
  | SDRef x => x :: nth x us []
  | SDep (DVar x) => nth x us []
  | SDep _ => []
  end.
Fixpoint referred (p : list (sop A W fid did)) (us : list (list nat)) : list (list nat) :=
  match p with
  | [] => us
  | SNew _ ss :: p' => referred p' (us ++ [flat_map (dep_refers us) ss])
  | SCopy x :: p' => referred p' (us ++ [nth x us []])
  | _ :: p' => referred p' us
  end.
End Spec.
