(** Vocabulary of C84: expressions with dependencies in another order, left out or repeated. *)
From Coq Require Import List Bool Arith Permutation.
From Verif Require Import Value LazyModel LazySpec LazySpec2.
Import ListNotations.

Section Spec.
Context {A W fid did : Type}.
Notation value := (val A).
Variable pf : fid -> list value -> option value.

(** The elements of [l] number [is]. *)
Definition selected {X} (is : list nat) (l sel : list X) : Prop :=
  Forall2 (fun i x => nth_error l i = Some x) is sel.

(** [g] is [f], a function of [n] arguments, getting its arguments number [is] only, in this
    order. *)
Definition arranges (f : fid) (n : nat) (is : list nat) (g : fid) : Prop :=
  Forall (fun i => i < n) is /\
  forall vs sel, length vs = n -> selected is vs sel -> pf g sel = pf f vs.

(** The same expression, but in some places [g] with the dependencies number [is] instead of
    [f] with all of them.  [ok] restricts what [is] may be for [n] dependencies. *)
Variable ok : nat -> list nat -> Prop.

Inductive arranged : expr A fid did -> expr A fid did -> Prop :=
| arranged_const v : arranged (EConst v) (EConst v)
| arranged_fun d : arranged (EFun d) (EFun d)
| arranged_same f es es' : Forall2 arranged es es' -> arranged (EApp f es) (EApp f es')
| arranged_app f g is es sel sel' : arranges f (length es) is g -> ok (length es) is ->
    selected is es sel -> Forall2 arranged sel sel' ->
    arranged (EApp f es) (EApp g sel').

(** The same function, or one with its arguments arranged. *)
Definition counterpart (x y : fid + did) : Prop :=
  x = y \/ exists f g n is, x = inl f /\ y = inl g /\ arranges f n is g.

(** A program creates [l] and does not call anything; written out, [l] is [e]. *)
Definition created (U : user A W fid did) (e : expr A fid did) (l : lz A fid did) : Prop :=
  exists p w s outs es x, no_call p /\ run U p (mkState [] w) = Some (s, outs) /\
    shapes p [] = Some es /\ nth_error es x = Some e /\ nth_error (vars s) x = Some l.

End Spec.

(** Any number of times, in any order; not more than once; exactly once. *)
Definition anyhow (n : nat) (is : list nat) : Prop := True.
Definition left_out (n : nat) (is : list nat) : Prop := NoDup is.
Definition reordered (n : nat) (is : list nat) : Prop := Permutation is (seq 0 n).
