(** Layout of classes in the Itanium C++ ABI (GCC, Clang), with class identities.

    [Layout.v] assumes that no object contains two subobjects of the same empty class.
    Here classes have names, and two subobjects of the same class never share an address,
    which is where that assumption matters.  Used for src/pigro/compressed_tuple.h:18-61 and
    src/pigro/empty_object.h:9-31.  No virtual functions, no bit-fields, no virtual bases;
    none of the classes is a POD in the sense of the ABI (they have bases, or are closures
    or have constructors), so tail padding of bases is reused. *)
From Coq Require Import List Bool Arith.
From Verif Require Import Layout.
Import ListNotations.

(** The names of class templates and closures; [tag] is a template argument. *)
Inductive kind :=
| KUser (n : nat)         (* a class of the user *)
| KElem (tag : nat)       (* the lambda in compressed_tuple.h:20-22 *)
| KSelf (tag : nat)       (* the first lambda in compressed_tuple.h:28-30 *)
| KHolder (tag : nat)     (* the second one, compressed_tuple.h:31-33 *)
| KTuple                  (* std::tuple<T>, fwd_capture.h:13-14 *)
| KOverload               (* overload.h:35-38 *)
| KRecursive              (* recursive.h:10-11 *)
| KCompressed             (* compressed_tuple.h:51-52 *)
| KT1 | KT2               (* empty_object.h:10-15 *)
| KLambda (n : nat)       (* the other lambdas of pigro, see ClassLazy.v *)
| KStd (n : nat)          (* other classes of the standard library *)
| KUncaptured (tag : nat) (* uncapture.h:12-25, see ClassUncapture.v *)
| KInvocable (tag : nat). (* uncapture.h:27-41 *)

Definition keqb (a b : kind) : bool :=
  match a, b with
  | KUser m, KUser n | KElem m, KElem n | KSelf m, KSelf n | KHolder m, KHolder n
  | KLambda m, KLambda n | KStd m, KStd n | KUncaptured m, KUncaptured n
  | KInvocable m, KInvocable n => Nat.eqb m n
  | KTuple, KTuple | KOverload, KOverload | KRecursive, KRecursive | KCompressed, KCompressed
  | KT1, KT1 | KT2, KT2 => true
  | _, _ => false
  end.

(** A scalar (or anything else without empty subobjects); or a class: its name, its template
    arguments (for a lambda those of the enclosing template), its bases, its data members. *)
Inductive cls :=
| Scalar (size align : nat)
| Class (k : kind) (args bases members : list cls).

(** The same type? *)
Fixpoint ceqb (a b : cls) {struct a} : bool :=
  let all := fix all (l m : list cls) {struct l} : bool :=
    match l, m with
    | [], [] => true
    | x :: l', y :: m' => ceqb x y && all l' m'
    | _, _ => false
    end in
  match a, b with
  | Scalar s x, Scalar t y => Nat.eqb s t && Nat.eqb x y
  | Class k args bs ms, Class k' args' bs' ms' => keqb k k' && all args args' && all bs bs' && all ms ms'
  | _, _ => false
  end.

(** The layout of a type: [std::is_empty], size without tail padding, [alignof], [sizeof],
    its subobjects of empty classes with their offsets (itself included, if it is empty), and
    the offsets of its bases and data members. *)
Record full := mkFull {
  fempty : bool; fdsize : nat; falign : nat; fsize : nat; fcomps : list (cls * nat); foffs : list nat }.

(** Would a subobject of an empty class in a [D] at [o] get the same address as another of the
    same class? *)
Definition conflict (o : nat) (new old : list (cls * nat)) : bool :=
  existsb (fun x => existsb (fun y => ceqb (fst x) (fst y) && Nat.eqb (o + snd x) (snd y)) old) new.

(** The first of [o], [o + step], ... without conflict. *)
Fixpoint search (fuel o step : nat) (new old : list (cls * nat)) : nat :=
  match fuel with
  | 0 => o
  | S n => if conflict o new old then search n (o + step) step new old else o
  end.

Definition shift (o : nat) (cs : list (cls * nat)) : list (cls * nat) := map (fun x => (fst x, o + snd x)) cs.

(** A class under construction. *)
Record partial_class := mkPart { pdsize : nat; psize : nat; palign : nat; pcomps : list (cls * nat); poffs : list nat }.
Definition nothing : partial_class := mkPart 0 0 1 [] [].

(** Itanium C++ ABI 2.4 II 1: at the end, moved until there is no conflict. *)
Definition next_offset (p : partial_class) (d : full) : nat :=
  search (S (list_max (map snd (pcomps p)))) (align_up (pdsize p) (falign d)) (falign d) (fcomps d) (pcomps p).

(** II 2: an empty base is tried at 0 first, and does not count for [dsize]. *)
Definition place_base (p : partial_class) (d : full) : partial_class :=
  let o := if fempty d && negb (conflict 0 (fcomps d) (pcomps p)) then 0 else next_offset p d in
  mkPart (if fempty d then pdsize p else o + fdsize d) (Nat.max (psize p) (o + fsize d))
         (Nat.max (palign p) (falign d)) (pcomps p ++ shift o (fcomps d)) (poffs p ++ [o]).

Definition place_member (p : partial_class) (d : full) : partial_class :=
  let o := next_offset p d in
  mkPart (o + fsize d) (Nat.max (psize p) (o + fsize d))
         (Nat.max (palign p) (falign d)) (pcomps p ++ shift o (fcomps d)) (poffs p ++ [o]).

Fixpoint layout (c : cls) : full :=
  match c with
  | Scalar s a => mkFull false s a s [] []
  | Class k args bs ms =>
      let bl := map layout bs in
      let p := fold_left place_member (map layout ms) (fold_left place_base bl nothing) in
      let e := forallb fempty bl && match ms with [] => true | _ => false end in
      mkFull e (pdsize p) (palign p) (align_up (Nat.max 1 (psize p)) (palign p))
             (pcomps p ++ (if e then [(c, 0)] else [])) (poffs p)
  end.

Definition is_empty (c : cls) : bool := fempty (layout c).

(** ** compressed_tuple.h with names *)

(** fwd_capture.h:12-15 *)
Definition tuple_cls (t : cls) : cls := Class KTuple [] [] [t].
Definition overload_cls (fs : list cls) : cls := Class KOverload [] fs [].
Definition recursive_cls (f : cls) : cls := Class KRecursive [] [f] [].

(** compressed_tuple.h:18-35.  The lambdas belong to one instantiation of
    [compressed_tuple_element], that is to a tag and a type, wherever it is used. *)
Definition element_cls (tag : nat) (t : cls) : cls :=
  if is_empty t then Class (KElem tag) [t] [] []
  else overload_cls [Class (KSelf tag) [t] [] []; Class (KHolder tag) [t] [] [tuple_cls t]].

(** compressed_tuple.h:37-47 *)
Fixpoint elements_cls (tag : nat) (ts : list cls) : list cls :=
  match ts with
  | [] => []
  | t :: ts' => element_cls tag t :: elements_cls (S tag) ts'
  end.

(** compressed_tuple.h:49-61 *)
Definition compressed_cls (ts : list cls) : cls :=
  Class KCompressed ts [recursive_cls (overload_cls (elements_cls 0 ts))] [].

(** ** empty_object.h *)

(** empty_object.h:10-15 *)
Definition char_cls : cls := Scalar 1 1.
Definition T1_cls (t : cls) : cls := Class KT1 [t] [] [char_cls].
Definition T2_cls (t : cls) : cls := Class KT2 [t] [t] [char_cls].

(** empty_object.h:17-21, a union: all members at offset 0. *)
Definition storage_align (t : cls) : nat := Nat.max (falign (layout (T1_cls t))) (falign (layout (T2_cls t))).
Definition storage_size (t : cls) : nat :=
  align_up (Nat.max (fsize (layout (T1_cls t))) (fsize (layout (T2_cls t)))) (storage_align t).

(** empty_object.h:23-30: the address of the object that is copied; [storage] is that of the
    local variable.  The cast at line 28 does not change the address, the one at line 29 goes
    to the base. *)
Definition get_address (t : cls) (storage : nat) : nat :=
  let c := storage + nth 1 (foffs (layout (T2_cls t))) 0 in     (* &storage.t2.c *)
  let t2 := c in
  t2 + nth 0 (foffs (layout (T2_cls t))) 0.
