(** Vocabulary of C80: the types of the user, and the layouts of Layout.v. *)
From Coq Require Import List Bool Arith.
From Verif Require Import Layout ClassLayout ClassLayoutSpec ClassLazy.
Import ListNotations.

(** A type of the user: nothing that pigro makes is inside. *)
Definition user_type (t : cls) : Prop :=
  real t /\ Forall (fun c => match c with Class (KUser _) _ _ _ => True | _ => False end) (empties t).

(** A cache is a [std::optional], which is not empty. *)
Fixpoint user_types (t : lazy_type) : Prop :=
  match t with
  | TLazy cache f deps =>
      user_type cache /\ is_empty cache = false /\ user_type f /\
      (fix all (l : list lazy_type) : Prop := match l with [] => True | x :: l' => user_types x /\ all l' end) deps
  | TPlain cache g => user_type cache /\ is_empty cache = false /\ user_type g
  | TValue v => user_type v
  end.

(** The same as [Layout.v] has it, where types have no names. *)
Fixpoint type_lay (int : cls) (t : lazy_type) : dep_lay :=
  match t with
  | TLazy cache f deps =>
      DepLazy (user_lazy_lay true false (summary (layout int)) (summary (layout cache)) (summary (layout f))
                 (map (type_lay int) deps))
  | TPlain cache g => DepPlain (summary (layout cache)) (summary (layout g))
  | TValue v => DepValue (summary (layout v))
  end.

(** What the user gave, and the caches: everything that has to be kept for such a lazy
    function and its dependencies. *)
Fixpoint kept (int : cls) (t : lazy_type) : list cls :=
  match t with
  | TLazy cache f deps => cache :: f :: flat_map (kept int) deps
  | TPlain cache g => [cache; g; int]
  | TValue v => [v]
  end.

(** The bytes that a type takes: none if it is an empty class. *)
Definition space (t : cls) : nat := if is_empty t then 0 else fsize (layout t).
