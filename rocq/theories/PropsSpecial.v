(** The property about copying, moving and assigning the objects of pigro (C83).  Statements only:
    each is closed by a lemma proved elsewhere.  After the theorems an example shows concrete
    cases.  [user_has] says what the types of the user have; it is arbitrary. *)
From Coq Require Import List Bool Arith.
From Verif Require Import Layout ClassLayout ClassLazy ClassLazySpec ClassUncapture Special SpecialSpec SpecialThms.
Import ListNotations.

(** C83 (1): a lazy function can be copied (moved, copied trivially) exactly if all that the user
    gave, and the caches, can be, where empty classes do not count. *)
Theorem C83_copy : forall user_has p int t, constructs p = true -> caches_ok t ->
  has user_has p (type_cls int t) = forallb (ok user_has p) (kept int t).
Proof. exact type_copy. Qed.
Print Assumptions C83_copy.

(** C83 (2): it can never be assigned, nor created by default, whatever the types are.  (Nor can
    what is made of a dependency that is a value, unless that is of an empty class.) *)
Theorem C83_assign : forall user_has p int t, assigns p = true \/ p = DefaultC ->
  has user_has p (type_cls int t) = match t with TValue v => is_empty v | _ => false end.
Proof. exact type_assign. Qed.
Print Assumptions C83_assign.

(** C83 (3): a [compressed_tuple] can be created by default if all elements can, it can be copied
    and moved if all elements can (empty classes do not count), and it can be assigned only if
    all elements are empty classes. *)
Theorem C83_tuple : forall user_has p ts,
  has user_has p (compressed_cls ts) =
  match p with
  | DefaultC => forallb (has user_has DefaultC) ts
  | _ => if constructs p then forallb (ok user_has p) ts else forallb is_empty ts
  end.
Proof. exact has_compressed. Qed.
Print Assumptions C83_tuple.

(** So, unlike a [std::tuple], it is not assignable when its elements are. *)
Theorem C83_tuple_assign_refuted : exists user_has ts, forallb (has user_has CopyA) ts = true /\
  has user_has CopyA (compressed_cls ts) = false.
Proof. exact tuple_not_assignable. Qed.
Print Assumptions C83_tuple_assign_refuted.

(** C83 (4): the same for [t >> f] and [t << f], with no default constructor either. *)
Theorem C83_bound : forall user_has p k f t, k = front_lambda \/ k = back_lambda ->
  has user_has p (bind_cls k f t) =
  if constructs p then ok user_has p f && ok user_has p t else is_empty f && is_empty t.
Proof. exact bound_has. Qed.
Print Assumptions C83_bound.

(** C83 (5): but [uncaptured(ts...) >> f] has all that its values and [f] have, except for a
    default constructor. *)
Theorem C83_uncaptured : forall user_has p ts f, p <> DefaultC ->
  has user_has p (chain_cls ts f) = forallb (ok user_has p) ts && has user_has p f.
Proof. exact chain_has. Qed.
Print Assumptions C83_uncaptured.
Theorem C83_uncaptured_default : forall user_has t ts f, has user_has DefaultC (chain_cls (t :: ts) f) = false.
Proof. exact chain_default. Qed.
Print Assumptions C83_uncaptured_default.

(** C83 (6): creating a [compressed_tuple] with [n] elements from another one of the same type
    copies or moves it; except that [compressed_tuple<T> b(a)], with a single element, where [a]
    is an lvalue that is not const (or a const rvalue), takes [a] for the element. *)
Theorem C83_constructor : forall n direct a,
  chosen n direct a =
  if s_rvalue a && negb (s_const a) then Some FromRvalue
  else if direct && Nat.eqb n 1 && xorb (s_const a) (negb (s_rvalue a)) then Some FromElements
  else Some FromConst.
Proof. exact chosen_ctor. Qed.
Print Assumptions C83_constructor.

(** A lazy function over a plain function and a value that cannot be copied but moved: it can be
    moved only.  Without the value it can be copied, but not assigned.  An uncaptured [int] can be
    assigned. *)
Example C83_case :
  let int := Scalar 4 4 in
  let optional := Scalar 8 4 in
  let f := Class (KUser 0) [] [] [] in
  let unique := Class (KUser 1) [] [] [Scalar 8 8] in
  let traits := fun p c => match p, c with (CopyC | CopyA | TrivialC), Class (KUser 1) _ _ _ => false | _, _ => true end in
  let t1 := TLazy optional f [TPlain optional f; TValue unique] in
  let t2 := TLazy optional f [TPlain optional f] in
  caches_ok t1 /\ caches_ok t2 /\
  map (fun p => has traits p (type_cls int t1)) [DefaultC; CopyC; MoveC; CopyA; MoveA; TrivialC] =
    [false; false; true; false; false; false] /\
  map (fun p => has traits p (type_cls int t2)) [DefaultC; CopyC; MoveC; CopyA; MoveA; TrivialC] =
    [false; true; true; false; false; true] /\
  map (fun p => has traits p (compressed_cls [int; f])) [DefaultC; CopyC; MoveC; CopyA; MoveA; TrivialC] =
    [true; true; true; false; false; true] /\
  map (fun p => has traits p (chain_cls [int; f] (Class (KUser 2) [] [] []))) [DefaultC; CopyC; MoveC; CopyA; MoveA; TrivialC] =
    [false; true; true; true; true; true] /\
  chosen 1 true (mkSource false false) = Some FromElements /\
  chosen 1 false (mkSource false false) = Some FromConst /\
  chosen 2 true (mkSource false false) = Some FromConst.
Proof. repeat split; vm_compute; reflexivity. Qed.
