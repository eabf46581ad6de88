(** Vocabulary of C88: two equalities. *)
From Coq Require Import List Bool Arith.
From Verif Require Import Value LazyModel LazySpec LazySpec2 RelateSpec.
Import ListNotations.

(** What [e1] calls equal, [e2] calls equal. *)
Definition finer {A} (e1 e2 : A -> A -> bool) : Prop := forall a b, e1 a b = true -> e2 a b = true.

(** No function returns a [std::optional] of a [std::optional]. *)
Definition flat {A W fid did} (pf : fid -> list (val A) -> option (val A)) (rd : did -> W -> val A) : Prop :=
  (forall f xs v, pf f xs = Some v -> nested_opt v = false) /\ (forall d w, nested_opt (rd d w) = false).

(** Of two outputs of the same operation: results that are equal by [e], and some of the
    evaluations left out. *)
Definition fewer {A fid did} (e : A -> A -> bool) (o1 o2 : output A fid did) : Prop :=
  both (fun r1 r2 => exists v1 v2, r1 = Ok v1 /\ r2 = Ok v2 /\ both (fun x y => veq e x y = true) v1 v2) (fst o1) (fst o2) /\
  subseq (evaluations (snd o2)) (evaluations (snd o1)).
