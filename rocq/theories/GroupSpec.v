(** Vocabulary of C86: parts of a program with references. *)
From Coq Require Import List Bool Arith.
From Verif Require Import Value LazyModel SharedModel.
Import ListNotations.

Section Spec.
Context {A W fid did : Type}.
Notation sop := (sop A W fid did).
Notation sdep := (sdep A did).

(** Of each variable: its name in the part, if it is there; and whether it is self-contained, that
    is, neither it nor anything it was created from by value got a [std::ref]. *)
Definition marks := list (option nat * bool).
Definition named (m : marks) (x y : nat) : Prop := exists b, nth_error m x = Some (Some y, b).
Definition outside (m : marks) (x : nat) : Prop := exists b, nth_error m x = Some (None, b).
Definition contained (m : marks) (x : nat) : bool := match nth_error m x with Some (_, b) => b | None => false end.

Inductive srenamed (m : marks) : sdep -> sdep -> Prop :=
| srenamed_ref x y : named m x y -> srenamed m (SDRef x) (SDRef y)
| srenamed_var x y : named m x y -> srenamed m (SDep (DVar x)) (SDep (DVar y))
| srenamed_fun d : srenamed m (SDep (DFun d)) (SDep (DFun d))
| srenamed_const v : srenamed m (SDep (DConst v)) (SDep (DConst v)).

Definition contained_dep (m : marks) (s : sdep) : bool :=
  match s with SDRef _ => false | SDep (DVar x) => contained m x | _ => true end.

(** What something outside may be created from without getting hold of the part. *)
Definition apart (m : marks) (s : sdep) : Prop :=
  match s with
  | SDRef x => outside m x
  | SDep (DVar x) => outside m x \/ contained m x = true
  | _ => True
  end.

(** [group m n p ks q]: as [part] (SliceSpec.v).  If calls are left out, then what is called has
    no references to the part. *)
Variable calls : Prop.
Inductive group : marks -> nat -> list sop -> list bool -> list sop -> Prop :=
| group_end m n : group m n [] [] []
| group_new m n f ss ss' p ks q : Forall2 (srenamed m) ss ss' ->
    group (m ++ [(Some n, forallb (contained_dep m) ss)]) (S n) p ks q ->
    group m n (SNew f ss :: p) (true :: ks) (SNew f ss' :: q)
| group_copy m n x y p ks q : named m x y -> group (m ++ [(Some n, contained m x)]) (S n) p ks q ->
    group m n (SCopy x :: p) (true :: ks) (SCopy y :: q)
| group_call m n x y p ks q : named m x y -> group m n p ks q ->
    group m n (SCall x :: p) (true :: ks) (SCall y :: q)
| group_env m n h p ks q : group m n p ks q ->
    group m n (SEnv h :: p) (true :: ks) (SEnv h :: q)
| omit_new m n f ss p ks q : (calls -> Forall (apart m) ss) ->
    group (m ++ [(None, forallb (contained_dep m) ss)]) n p ks q ->
    group m n (SNew f ss :: p) (false :: ks) q
| omit_copy m n x p ks q : (calls -> apart m (SDep (DVar x))) ->
    group (m ++ [(None, contained m x)]) n p ks q ->
    group m n (SCopy x :: p) (false :: ks) q
| omit_call m n x p ks q : calls -> outside m x -> group m n p ks q ->
    group m n (SCall x :: p) (false :: ks) q.

(** The variables that each variable of a program refers to. *)
Definition dep_refs (rs : list (list nat)) (s : sdep) : list nat :=
  match s with SDRef x => [x] | SDep (DVar x) => nth x rs [] | _ => [] end.
Fixpoint refers (p : list sop) (rs : list (list nat)) : list (list nat) :=
  match p with
  | [] => rs
  | SNew _ ss :: p' => refers p' (rs ++ [flat_map (dep_refs rs) ss])
  | SCopy x :: p' => refers p' (rs ++ [nth x rs []])
  | _ :: p' => refers p' rs
  end.

(** Calling [x] may call [y]. *)
Inductive touches (rs : list (list nat)) : nat -> nat -> Prop :=
| touches_self x : touches rs x x
| touches_next x y z : In y (nth x rs []) -> touches rs y z -> touches rs x z.

End Spec.
