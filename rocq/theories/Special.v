(** Which special member functions the classes of pigro have: whether objects can be created by
    default, copied, moved and assigned, and whether copying is trivial.  Classes as in
    [ClassLayout.v], [ClassLazy.v] and [ClassUncapture.v].

    A closure type has a default constructor and assignment operators exactly if its
    lambda-expression has no capture ([expr.prim.lambda.closure]); everything else follows from
    the bases and members ([class.default.ctor], [class.copy.ctor], [class.copy.assign]). *)
From Coq Require Import List Bool Arith.
From Verif Require Import Layout ClassLayout ClassLazy ClassUncapture.
Import ListNotations.

(** [std::is_default_constructible], [is_copy_constructible], [is_move_constructible],
    [is_copy_assignable], [is_move_assignable], [is_trivially_copy_constructible]. *)
Inductive trait := DefaultC | CopyC | MoveC | CopyA | MoveA | TrivialC.

(** Lambdas with a capture: compressed_tuple.h:31 and lazy.h:50 ([[=]]). *)
Definition captures (k : kind) : bool :=
  match k with
  | KHolder _ => true
  | KLambda n => match lazy_lambda with KLambda m => Nat.eqb n m | _ => false end
  | _ => false
  end.

Section Special.
(** What types of the user and of the standard library have; a copyable type can be moved. *)
Variable user_has : trait -> cls -> bool.

Fixpoint has (p : trait) (c : cls) : bool :=
  match c with
  | Scalar _ _ => user_has p c
  | Class k args bs ms =>
      let parts := forallb (has p) bs && forallb (has p) ms in
      match k with
      | KUser _ | KStd _ => user_has p c
      | KElem _ | KSelf _ | KHolder _ | KLambda _ =>
          if captures k then match p with DefaultC | CopyA | MoveA => false | _ => parts end
          else parts
      | KTuple | KOverload | KRecursive | KT1 | KT2 => parts
      | KCompressed =>                (* compressed_tuple.h:53-61: constructors of its own *)
          match p with DefaultC => forallb (has p) args | _ => parts end
      | KUncaptured _ =>              (* uncapture.h:20-25: a constructor, if empty *)
          match p, ms with DefaultC, [] => false | _, _ => parts end
      | KInvocable _ =>               (* uncapture.h:40: a constructor *)
          match p with DefaultC => false | _ => parts end
      end
  end.
End Special.

(** ** The constructors of [compressed_tuple], given another one *)

(** An expression whose type is the class itself: [const], and an rvalue? *)
Record source := mkSource { s_const : bool; s_rvalue : bool }.

(** The implicit ones, and the template of compressed_tuple.h:56-61, which takes one argument if
    there is one element.  It is explicit, so only considered if [direct] ([T b(a)], not
    [T b = a]). *)
Inductive ctor := FromConst | FromRvalue | FromElements.

Definition viable (n : nat) (direct : bool) (a : source) (c : ctor) : bool :=
  match c with
  | FromConst => true
  | FromRvalue => s_rvalue a && negb (s_const a)
  | FromElements => direct && Nat.eqb n 1
  end.

(** The reference that a constructor takes: to const? an rvalue reference? *)
Definition param (a : source) (c : ctor) : bool * bool :=
  match c with
  | FromConst => (true, false)
  | FromRvalue => (false, true)
  | FromElements => (s_const a, s_rvalue a)
  end.

(** [over.ics.rank] 3.2.3 and 3.2.6 *)
Definition closer (a : source) (p q : bool * bool) : bool :=
  (s_rvalue a && snd p && negb (snd q)) || (negb (fst p) && fst q).

Definition is_template (c : ctor) : bool := match c with FromElements => true | _ => false end.

(** [over.match.best] *)
Definition better (a : source) (c d : ctor) : bool :=
  closer a (param a c) (param a d) ||
  (negb (closer a (param a d) (param a c)) && negb (is_template c) && is_template d).

Definition ctor_eqb (c d : ctor) : bool :=
  match c, d with
  | FromConst, FromConst | FromRvalue, FromRvalue | FromElements, FromElements => true
  | _, _ => false
  end.
Definition chosen (n : nat) (direct : bool) (a : source) : option ctor :=
  let cs := filter (viable n direct a) [FromConst; FromRvalue; FromElements] in
  find (fun c => forallb (fun d => ctor_eqb c d || better a c d) cs) cs.
