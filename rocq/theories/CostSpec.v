(** What a call costs when lazy functions share others by reference (C78). *)
From Coq Require Import List Bool Arith.
From Verif Require Import Value LazyModel LazySpec SharedModel.
Import ListNotations.

Section Spec.
Context {A W fid did : Type}.
Notation value := (val A).
Notation event := (event A fid did).
Notation sop := (sop A W fid did).

(** How many functions among [q] were called. *)
Definition times (q : fid -> bool) (lg : list event) : nat :=
  length (filter q (flat_map (fun ev => match ev with EvCall f _ => [f] | _ => [] end) lg)).

(** For each variable of a program, how many of the functions [q] it owns: those it was
    created with and those of the lazy functions that were copied into it, but not those
    behind a [std::ref].  [ns] are the counts of the variables so far. *)
Fixpoint owned (q : fid -> bool) (p : list sop) (ns : list nat) : list nat :=
  match p with
  | [] => ns
  | SNew f ss :: p' =>
      let copies := map (fun s => match s with SDep (DVar x) => nth x ns 0 | _ => 0 end) ss in
      owned q p' (ns ++ [(if q f then 1 else 0) + list_sum copies])
  | SCopy x :: p' => owned q p' (ns ++ [nth x ns 0])
  | SCall _ :: p' | SEnv _ :: p' => owned q p' ns
  end.

(** [n + 1] lazy functions, the first [f] of the plain function [d], each other one [g] of
    the one before, twice. *)
Definition ladder (f g : fid) (d : did) (n : nat) : list sop :=
  SNew f [SDep (DFun d)] :: map (fun k => SNew g [SDRef k; SDRef k]) (seq 0 n).

(** What the last one stands for. *)
Fixpoint ladder_expr (f g : fid) (d : did) (n : nat) : expr A fid did :=
  match n with
  | 0 => EApp f [EFun d]
  | S k => EApp g [ladder_expr f g d k; ladder_expr f g d k]
  end.
End Spec.
