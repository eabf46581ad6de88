(** Reading the outputs of DocModel.v. *)
From Coq Require Import List.
From Verif Require Import Value LazyModel LazySpec.
Import ListNotations.

Section DocSpec.
Context {A W fid did : Type}.
Notation value := (val A).
Notation event := (event A fid did).
Notation op := (op A W fid did).

(** A log without the comparisons. *)
Definition without_comparisons (lg : list event) : list event :=
  filter (fun e => match e with EvCmp _ _ => false | _ => true end) lg.

(** The calls of wrapped functions in a log. *)
Definition function_calls (lg : list event) : list (fid * list value) :=
  flat_map (fun e => match e with EvCall f args => [(f, args)] | _ => [] end) lg.

(** [n + 1] lazy functions, each but the first depending on the one before, the first
    on a plain function. *)
Definition chain (f : fid) (d : did) (n : nat) : list op :=
  New f [DFun d] :: map (fun i => New f [DVar i]) (seq 0 n).

(** The value of the [k]-th function of a chain, counting the plain one as the first,
    when the plain function reads from [w]. *)
Fixpoint chain_value (pf : fid -> list value -> option value) (rd : did -> W -> value)
    (f : fid) (d : did) (w : W) (k : nat) : value :=
  match k with
  | O => rd d w
  | S k' => fval pf f [chain_value pf rd f d w k']
  end.

End DocSpec.
