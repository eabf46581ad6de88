(** Vocabulary of C79: what a layout must satisfy, and the layouts of Layout.v. *)
From Coq Require Import List Bool Arith.
From Verif Require Import Layout ClassLayout.
Import ListNotations.

(** Scalars as C++ has them: the alignment is a power of two, the size a positive multiple. *)
Fixpoint real (c : cls) : Prop :=
  match c with
  | Scalar s a => 0 < s /\ (exists k, a = 2 ^ k) /\ Nat.divide a s
  | Class _ _ bs ms =>
      let all := fix all (l : list cls) : Prop := match l with [] => True | x :: l' => real x /\ all l' end in
      all bs /\ all ms
  end.

(** The subobjects of empty classes that an object contains, whatever their places. *)
Fixpoint empties (c : cls) : list cls :=
  match c with
  | Scalar _ _ => []
  | Class _ _ bs ms =>
      flat_map empties bs ++ flat_map empties ms ++ (if is_empty c then [c] else [])
  end.

(** The same class as [Layout.v] lays it out (for the ABI that reuses tail padding), without
    regard to names. *)
Fixpoint nameless (c : cls) : lay :=
  match c with
  | Scalar s a => prim s a
  | Class _ _ bs ms => class_lay true (map nameless bs) (map nameless ms)
  end.
Definition summary (f : full) : lay := mkLay (fempty f) (fdsize f) (falign f) (fsize f).

(** The places that every part would get if two subobjects of one class could share an
    address. *)
Definition naive_base (p : partial_class) (d : full) : partial_class :=
  let o := if fempty d then 0 else align_up (pdsize p) (falign d) in
  mkPart (if fempty d then pdsize p else o + fdsize d) (Nat.max (psize p) (o + fsize d))
         (Nat.max (palign p) (falign d)) (pcomps p ++ shift o (fcomps d)) (poffs p ++ [o]).
Definition naive_member (p : partial_class) (d : full) : partial_class :=
  let o := align_up (pdsize p) (falign d) in
  mkPart (o + fsize d) (Nat.max (psize p) (o + fsize d))
         (Nat.max (palign p) (falign d)) (pcomps p ++ shift o (fcomps d)) (poffs p ++ [o]).
Fixpoint naive (c : cls) : full :=
  match c with
  | Scalar s a => mkFull false s a s [] []
  | Class k args bs ms =>
      let bl := map naive bs in
      let p := fold_left naive_member (map naive ms) (fold_left naive_base bl nothing) in
      let e := forallb fempty bl && match ms with [] => true | _ => false end in
      mkFull e (pdsize p) (palign p) (align_up (Nat.max 1 (psize p)) (palign p))
             (pcomps p ++ (if e then [(c, 0)] else [])) (poffs p)
  end.

(** The bases and data members of a class: where each begins, its alignment, how many bytes of
    it nobody else may use (none of an empty base, no tail padding of another one), and its
    size. *)
Definition subobjects (c : cls) : list (nat * (nat * nat * nat)) :=
  match c with
  | Scalar _ _ => []
  | Class _ _ bs ms =>
      combine (foffs (layout c))
        (map (fun b => let f := layout b in (falign f, (if fempty f then 0 else fdsize f), fsize f)) bs ++
         map (fun m => let f := layout m in (falign f, fsize f, fsize f)) ms)
  end.

(** A layout that C++ allows. *)
Definition good_layout (c : cls) : Prop :=
  NoDup (fcomps (layout c)) /\
  Forall (fun x => snd x < fsize (layout c)) (fcomps (layout c)) /\
  Forall (fun x => let '(o, (a, _, s)) := x in Nat.divide a o /\ o + s <= fsize (layout c)) (subobjects c) /\
  (forall i j o1 a1 n1 s1 o2 a2 n2 s2, i < j ->
     nth_error (subobjects c) i = Some (o1, (a1, n1, s1)) ->
     nth_error (subobjects c) j = Some (o2, (a2, n2, s2)) -> n1 = 0 \/ n2 = 0 \/ o1 + n1 <= o2).

(** A type without the lambdas of compressed_tuple.h:20-30 inside. *)
Definition foreign (t : cls) : Prop :=
  Forall (fun c => match c with
                   | Class (KElem _) _ _ _ | Class (KSelf _) _ _ _ => False
                   | _ => True
                   end) (empties t).

(** The non-empty ones of the given types. *)
Definition solid_lays (ts : list cls) : list lay :=
  map (fun t => summary (layout t)) (filter (fun t => negb (is_empty t)) ts).

(** [compressed_tuple{ e, compressed_tuple{ e, ... compressed_tuple{ e, t } ... } }], [n + 1]
    deep. *)
Fixpoint nested (e t : cls) (n : nat) : cls :=
  match n with
  | 0 => compressed_cls [e; t]
  | S k => compressed_cls [e; nested e t k]
  end.
