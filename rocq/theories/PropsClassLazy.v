(** The property about the memory of lazy functions where classes have identities (C80).
    Statements only: each is closed by a lemma proved elsewhere.  After the theorems an
    example shows concrete cases.

    [int] is the type of the literal of lazy.h:85. *)
From Coq Require Import List Bool Arith.
From Verif Require Import Layout ClassLayout ClassLayoutSpec ClassLazy ClassLazySpec ClassLazyThms.
Import ListNotations.

(** C80 (1): no two empty classes get in each other's way, however lazy functions are nested and
    however often the same types occur: the layout is the one without names, so that C50 and C60
    hold. *)
Theorem C80_lazy : forall int t, user_type int -> user_types t ->
  summary (layout (type_cls int t)) = ensure_lazy_lay true false (summary (layout int)) (type_lay int t).
Proof. exact lazy_layout. Qed.
Print Assumptions C80_lazy.

(** C80 (2): with equal alignments, a tree of lazy functions takes what the user gave and the
    caches, and an [int] for every plain function; pigro adds nothing. *)
Theorem C80_sum : forall int t a, user_type int -> user_types t -> 0 < a ->
  (forall c, In c (kept int t) -> is_empty c = true \/ falign (layout c) = a) ->
  space (type_cls int t) = list_sum (map space (kept int t)).
Proof. exact kept_sum. Qed.
Print Assumptions C80_sum.

(** C80 (3): and never less than that. *)
Theorem C80_at_least : forall int t, user_type int -> user_types t ->
  list_sum (map space (kept int t)) <= space (type_cls int t).
Proof. exact kept_at_least. Qed.
Print Assumptions C80_at_least.

(** [space] is [sizeof] here, as lazy functions are never empty. *)
Theorem C80_not_empty : forall int cache f deps, user_type int -> user_types (TLazy cache f deps) ->
  is_empty (type_cls int (TLazy cache f deps)) = false.
Proof. exact lazy_not_empty. Qed.
Print Assumptions C80_not_empty.

(** C80 (4): with classes of pigro as values it is not so: a [compressed_tuple] that ends in a
    [std::false_type] has it in common with the value that pigro makes of it. *)
Theorem C80_pigro_types_refuted :
  exists int v, user_type int /\ real v /\ is_empty v = false /\
    (forall c, In c (kept int (TValue v)) -> is_empty c = true \/ falign (layout c) = 4) /\
    space (type_cls int (TValue v)) <> list_sum (map space (kept int (TValue v))).
Proof. exact pigro_value. Qed.
Print Assumptions C80_pigro_types_refuted.

Definition ex_e : cls := Class (KUser 0) [] [] [].
Definition ex_int : cls := Scalar 4 4.
Definition ex_opt (t : cls) : cls := Class (KStd 2) [t] [] [t; Scalar 1 1].
Definition ex_inner : lazy_type :=
  TLazy (ex_opt ex_int) ex_e [TPlain (ex_opt ex_int) ex_e; TValue ex_int; TValue ex_e; TValue ex_e].
Definition ex_tree : lazy_type := TLazy (ex_opt ex_int) ex_e [ex_inner; ex_inner; TValue ex_e; ex_inner].

Example C80_case :
  user_type ex_int /\ user_types ex_tree /\
  (forall c, In c (kept ex_int ex_tree) -> is_empty c = true \/ falign (layout c) = 4) /\
  fsize (layout (type_cls ex_int ex_inner)) = 24 /\
  list_sum (map space (kept ex_int ex_inner)) = 24 /\
  list_sum (map space (kept ex_int ex_tree)) = 80.
Proof.
  assert (Hint : user_type ex_int)
    by (split; [|constructor]; split; [auto with arith|]; split; [now exists 2|now exists 1]).
  assert (He : user_type ex_e) by (split; [cbn; auto|vm_compute; repeat constructor]).
  assert (Ho : user_type (ex_opt ex_int)).
  { split; [|vm_compute; repeat constructor]. cbn [real ex_opt]. split; [exact I|]. split; [apply Hint|].
    split; [|exact I]. split; [auto|]. split; [now exists 0|now exists 1]. }
  assert (Hi : user_types ex_inner) by (cbn [ex_inner user_types]; repeat (split; auto)).
  split; auto. split. { cbn [ex_tree user_types]. repeat (split; auto). }
  split. { intros c Hc. vm_compute in Hc. repeat (destruct Hc as [<-|Hc]; [vm_compute; auto|]). contradiction. }
  split; [vm_compute; reflexivity|]. split; vm_compute; reflexivity.
Qed.
