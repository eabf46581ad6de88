(** Values that flow through pigro, user-defined equality, and the two places
    where C++ looks inside a value: class template argument deduction of
    [std::tuple{ ... }], and [!=] between a [std::optional] and a value.

    Values are C++ values of arbitrary types.  [A] is the type of everything
    that is neither [void]-like, nor a [std::tuple], a [std::pair] or a
    [std::optional]; its [operator==] is the arbitrary function [aeq]. *)
From Coq Require Import List Bool.
Import ListNotations.

Section Values.
Context {A : Type}.

(** A C++ value.
    - [VVoid] is the only value of [pigro::regular_void] (src/pigro/regular_void.h:11-13);
    - [VTuple]/[VPair] are values of [std::tuple]/[std::pair];
    - [VOpt] is a value of some [std::optional], [VOpt None] being an empty one;
    - [VAtom] is any other value. *)
Inductive val : Type :=
| VAtom (a : A)
| VVoid
| VTuple (l : list val)
| VPair (x y : val)
| VOpt (o : option val).

Section Induction.
  Variable P : val -> Prop.
  Hypothesis Hatom : forall a, P (VAtom a).
  Hypothesis Hvoid : P VVoid.
  Hypothesis Htuple : forall l, Forall P l -> P (VTuple l).
  Hypothesis Hpair : forall x y, P x -> P y -> P (VPair x y).
  Hypothesis Hnull : P (VOpt None).
  Hypothesis Hopt : forall x, P x -> P (VOpt (Some x)).
  Fixpoint val_ind' (v : val) : P v :=
    match v with
    | VAtom a => Hatom a
    | VVoid => Hvoid
    | VTuple l =>
        Htuple l ((fix go (l : list val) : Forall P l :=
                     match l with
                     | [] => Forall_nil P
                     | x :: xs => Forall_cons x (val_ind' x) (go xs)
                     end) l)
    | VPair x y => Hpair x y (val_ind' x) (val_ind' y)
    | VOpt None => Hnull
    | VOpt (Some x) => Hopt x (val_ind' x)
    end.
End Induction.

(** [operator==] on values, given [operator==] on atoms.  [regular_void]'s
    defaulted comparison (regular_void.h:12) makes all its values equal;
    [std::tuple] and [std::pair] compare element-wise, [std::optional]s are equal
    if both are empty or both hold equal values.  Comparing values of
    different shapes does not compile in C++; it is [false] here. *)
Fixpoint veq (aeq : A -> A -> bool) (x y : val) {struct x} : bool :=
  match x, y with
  | VAtom a, VAtom b => aeq a b
  | VVoid, VVoid => true
  | VTuple l, VTuple m =>
      (fix go (l m : list val) : bool :=
         match l, m with
         | [], [] => true
         | a :: l', b :: m' => veq aeq a b && go l' m'
         | _, _ => false
         end) l m
  | VPair a b, VPair c d => veq aeq a c && veq aeq b d
  | VOpt None, VOpt None => true
  | VOpt (Some a), VOpt (Some b) => veq aeq a b
  | _, _ => false
  end.

(** [x != y] for an [x] of type [std::optional<T>] and a [y] of type [T].

    If [T] is no [std::optional], the overload comparing an optional with a value
    is chosen: an empty optional differs from everything, otherwise the held
    value is compared.  If [T] is itself some [std::optional<T'>], the overload
    comparing two optionals, [optional<T>] and [optional<T'>], is more
    specialised and therefore chosen ([optional.relops], C++20): if not both hold
    something they differ iff one of them does; otherwise the held objects, of
    types [T] and [T'], are compared, again with an [x] that is an
    [std::optional<T'>].  So [y]'s emptiness is taken for [x]'s. *)
Fixpoint opt_ne (aeq : A -> A -> bool) (x : option val) (y : val) {struct y} : bool :=
  match y with
  | VOpt None => match x with None => false | Some _ => true end
  | VOpt (Some y') =>
      match x with
      | None => true
      | Some (VOpt x') => opt_ne aeq x' y'
      | Some _ => true
      end
  | _ => match x with None => true | Some c => negb (veq aeq c y) end
  end.

(** What [std::tuple]'s deduction guides see in a single initialiser: a
    [std::tuple] is copied (copy deduction candidate, preferred by
    [over.match.class.deduct]) and a [std::pair] is converted
    (guide [tuple(pair<A, B>) -> tuple<A, B>]). *)
Definition as_tuple (v : val) : option (list val) :=
  match v with
  | VTuple l => Some l
  | VPair x y => Some [x; y]
  | _ => None
  end.

(** An empty [std::optional], or one holding an empty one, and so on. *)
Fixpoint has_nullopt (v : val) : bool :=
  match v with
  | VOpt None => true
  | VOpt (Some x) => has_nullopt x
  | _ => false
  end.

(** A [std::optional] holding a [std::optional]. *)
Definition nested_opt (v : val) : bool :=
  match v with
  | VOpt (Some (VOpt _)) => true
  | _ => false
  end.

End Values.
Arguments val : clear implicits.

(** [std::tuple{ x1, ..., xn }] (used at tuple_algorithms.h:10 and lazy.h:51):
    the elements of the tuple that is built.  [look] tells whether an
    initialiser is itself a tuple (or pair) and with which elements. *)
Definition ctad_tuple {X : Type} (look : X -> option (list X)) (l : list X) : list X :=
  match l with
  | [x] => match look x with Some inner => inner | None => [x] end
  | _ => l
  end.
