(** Vocabulary of C85: parts of a program. *)
From Coq Require Import List Bool Arith.
From Verif Require Import Value LazyModel.
Import ListNotations.

Section Spec.
Context {A W fid did : Type}.
Notation op := (op A W fid did).
Notation depspec := (depspec A did).

(** Which name the variables of a program have in a part of it, if they are there. *)
Definition names := list (option nat).
Definition name (m : names) (x y : nat) : Prop := nth_error m x = Some (Some y).
Definition absent (m : names) (x : nat) : Prop := nth_error m x = Some None.

Inductive renamed (m : names) : depspec -> depspec -> Prop :=
| renamed_var x y : name m x y -> renamed m (DVar x) (DVar y)
| renamed_fun d : renamed m (DFun d) (DFun d)
| renamed_const v : renamed m (DConst v) (DConst v).

(** [part m n p ks q]: [q] consists of the operations of [p] marked [true] in [ks].  Left out are
    creations and copies of lazy functions that no other part of [q] uses, and calls of them, if
    [calls].  [m] are the names of the variables so far, [n] is how many of them are in [q]. *)
Variable calls : Prop.
Inductive part : names -> nat -> list op -> list bool -> list op -> Prop :=
| part_end m n : part m n [] [] []
| part_new m n f ss ss' p ks q : Forall2 (renamed m) ss ss' -> part (m ++ [Some n]) (S n) p ks q ->
    part m n (New f ss :: p) (true :: ks) (New f ss' :: q)
| part_copy m n x y p ks q : name m x y -> part (m ++ [Some n]) (S n) p ks q ->
    part m n (Copy x :: p) (true :: ks) (Copy y :: q)
| part_call m n x y p ks q : name m x y -> part m n p ks q ->
    part m n (Call x :: p) (true :: ks) (Call y :: q)
| part_env m n h p ks q : part m n p ks q ->
    part m n (Env h :: p) (true :: ks) (Env h :: q)
| skip_new m n f ss p ks q : part (m ++ [None]) n p ks q ->
    part m n (New f ss :: p) (false :: ks) q
| skip_copy m n x p ks q : part (m ++ [None]) n p ks q ->
    part m n (Copy x :: p) (false :: ks) q
| skip_call m n x p ks q : calls -> absent m x -> part m n p ks q ->
    part m n (Call x :: p) (false :: ks) q.

(** The marked elements. *)
Definition marked {X} (ks : list bool) (l : list X) : list X :=
  map snd (filter fst (combine ks l)).

End Spec.
