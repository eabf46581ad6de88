(** C79: layouts when classes have names.  Statements only: each is closed by a lemma proved
    elsewhere.  After each theorem an example shows concrete cases. *)
From Coq Require Import List Bool Arith.
From Verif Require Import Layout ClassLayout ClassLayoutSpec ClassLayoutThms.
Import ListNotations.

(** No two subobjects of one class share an address; bases and members are aligned, lie in the
    object, and do not overlap. *)
Theorem C79_valid : forall c, real c -> good_layout c.
Proof. exact always_good. Qed.
Print Assumptions C79_valid.

(** With the names forgotten, [Layout.v] gives the same size exactly where its assumption holds:
    nothing has to be moved if and only if the places that it gives to subobjects of empty
    classes are all different, as they are in particular if no class occurs twice. *)
Theorem C79_no_conflict : forall c, real c -> (layout c = naive c <-> NoDup (fcomps (naive c))).
Proof. exact no_conflict. Qed.
Print Assumptions C79_no_conflict.

Theorem C79_agrees : forall c, real c -> NoDup (fcomps (naive c)) -> summary (layout c) = nameless c.
Proof. exact agrees. Qed.
Print Assumptions C79_agrees.

Theorem C79_distinct : forall c, real c -> NoDup (empties c) -> summary (layout c) = nameless c.
Proof. exact distinct_agrees. Qed.
Print Assumptions C79_distinct.

(** [compressed_tuple_lay] of [Layout.v] is [compressed_cls] without names. *)
Theorem C79_same_tuple : forall ts, Forall real ts ->
  nameless (compressed_cls ts) = compressed_tuple_lay true false (map nameless ts).
Proof. exact nameless_compressed. Qed.
Print Assumptions C79_same_tuple.

(** C37 for tuples whose elements have no [compressed_tuple] inside: equal empty classes cost
    nothing, however often they occur. *)
Theorem C79_flat : forall ts, Forall real ts -> Forall foreign ts ->
  fsize (layout (compressed_cls ts)) = lsize (plain_struct true (solid_lays ts)) /\
  falign (layout (compressed_cls ts)) = lalign (plain_struct true (solid_lays ts)) /\
  is_empty (compressed_cls ts) = forallb is_empty ts.
Proof. exact flat_tuple. Qed.
Print Assumptions C79_flat.

(** Not for nested ones: [compressed_tuple{ e, ... compressed_tuple{ e, t } ... }] grows by the
    alignment of [t] with every level, although nothing but [t] has any state. *)
Theorem C79_nested : forall e s a n, is_empty e = true -> real e -> real (Scalar s a) ->
  fsize (layout (nested e (Scalar s a) n)) = s + n * a.
Proof. exact nested_size. Qed.
Print Assumptions C79_nested.

Theorem C79_nested_without_names : forall e s a n, is_empty e = true -> real e -> real (Scalar s a) ->
  lsize (nameless (nested e (Scalar s a) n)) = s.
Proof. exact nested_nameless. Qed.
Print Assumptions C79_nested_without_names.

Definition ex_e : cls := Class (KUser 0) [] [] [].
Definition ex_e2 : cls := Class (KUser 1) [] [ex_e] [].
Definition ex_int : cls := Scalar 4 4.
Definition ex_pair : cls := Class (KUser 2) [] [ex_e] [ex_e; ex_int].

Example C79_case :
  real ex_pair /\
  fsize (layout (compressed_cls [ex_e; ex_int; ex_e; ex_e2; ex_e])) = 4 /\
  ~ NoDup (empties (compressed_cls [ex_pair; ex_pair])) /\
  fsize (layout ex_pair) = 8 /\ foffs (layout ex_pair) = [0; 1; 4] /\
  fsize (layout (compressed_cls [ex_pair; ex_pair])) = 16 /\
  Forall foreign [ex_pair; ex_pair] /\
  fsize (layout (compressed_cls [ex_e; compressed_cls [ex_e; ex_int]])) = 8 /\
  lsize (nameless (compressed_cls [ex_e; compressed_cls [ex_e; ex_int]])) = 4 /\
  fsize (layout (compressed_cls [ex_e; compressed_cls [ex_int; ex_e]])) = 4 /\
  NoDup (empties (compressed_cls [ex_e; compressed_cls [ex_int; ex_e]])) /\
  fsize (layout (Class (KUser 3) [] [ex_e; ex_e2] [])) = 2 /\
  fsize (layout (nested ex_e ex_int 5)) = 24.
Proof.
  split. { cbn. repeat split; auto with arith; [exists 2; reflexivity|exists 1; reflexivity]. }
  split; [reflexivity|].
  split. { intros H. vm_compute in H. inversion H as [|? ? _ H2]; subst. inversion H2 as [|? ? H1 _]; subst. apply H1. now left. }
  split; [reflexivity|]. split; [reflexivity|]. split; [reflexivity|].
  split. { repeat constructor; cbn; auto. }
  split; [reflexivity|]. split; [reflexivity|]. split; [reflexivity|].
  split. { vm_compute. repeat (apply NoDup_cons; [cbn; intuition discriminate|]). apply NoDup_nil. }
  split; reflexivity.
Qed.

(** empty_object.h: for an empty class, the arithmetic ends at the storage, which has the size
    and alignment of the class. *)
Theorem C79_empty_object : forall t, real t -> is_empty t = true -> forall storage,
  get_address t storage = storage /\
  storage_size t = fsize (layout t) /\ storage_align t = falign (layout t).
Proof. exact empty_object_ok. Qed.
Print Assumptions C79_empty_object.

(** An empty class of size 2 (it has two bases of one class), and what happens with a class
    that is not empty. *)
Example C79_object_case :
  is_empty (Class (KUser 3) [] [ex_e; ex_e2] []) = true /\
  get_address (Class (KUser 3) [] [ex_e; ex_e2] []) 100 = 100 /\
  storage_size (Class (KUser 3) [] [ex_e; ex_e2] []) = 2 /\
  get_address (Class (KUser 4) [] [] [ex_int]) 100 = 104.
Proof. repeat split. Qed.
