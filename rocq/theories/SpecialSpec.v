(** Vocabulary of C83. *)
From Coq Require Import List Bool Arith.
From Verif Require Import Layout ClassLayout ClassLazy Special.
Import ListNotations.

(** Copying and moving, against assigning. *)
Definition constructs (p : trait) : bool := match p with CopyC | MoveC | TrivialC => true | _ => false end.
Definition assigns (p : trait) : bool := match p with CopyA | MoveA => true | _ => false end.

(** What is stored of type [c] has [p]: nothing is, if it is an empty class. *)
Definition ok (user_has : trait -> cls -> bool) (p : trait) (c : cls) : bool := is_empty c || has user_has p c.

(** Caches ([std::optional]s) are not empty classes. *)
Fixpoint caches_ok (t : lazy_type) : Prop :=
  match t with
  | TLazy cache f deps => is_empty cache = false /\
      (fix all (l : list lazy_type) : Prop := match l with [] => True | x :: l' => caches_ok x /\ all l' end) deps
  | TPlain cache g => is_empty cache = false
  | TValue v => True
  end.
