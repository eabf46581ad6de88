(** Vocabulary of C81. *)
From Coq Require Import List Bool Arith.
From Verif Require Import Layout ClassLayout ClassLayoutSpec.
Import ListNotations.

(** All base subobjects of an object, with itself. *)
Fixpoint all_bases (c : cls) : list cls :=
  match c with
  | Scalar _ _ => [c]
  | Class _ _ bs _ => c :: flat_map all_bases bs
  end.

(** Can the base [b] of [c] be named (as in [U::get_value()], uncapture.h:34, 38, or
    [F::operator()])?  Only if there is one such subobject ([class.member.lookup],
    [conv.ptr]). *)
Definition can_name (c b : cls) : Prop :=
  exists l1 l2, all_bases c = l1 ++ b :: l2 /\ ~ In b l1 /\ ~ In b l2.

(** Made by uncapture.h? *)
Definition uncapture_class (c : cls) : Prop :=
  match c with Class (KUncaptured _) _ _ _ | Class (KInvocable _) _ _ _ => True | _ => False end.

(** A lambda of the user: no bases. *)
Definition user_lambda (f : cls) : Prop :=
  match f with Class (KUser _) _ [] _ => True | _ => False end.
