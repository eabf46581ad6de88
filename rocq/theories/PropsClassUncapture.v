(** The property about the memory and the bases of uncaptured values where classes have
    identities (C81).  Statements only: each is closed by a lemma proved elsewhere.  After the
    theorems an example shows concrete cases. *)
From Coq Require Import List Bool Arith.
From Verif Require Import Layout ClassLayout ClassLayoutSpec ClassLazySpec ClassUncapture ClassUncaptureSpec
  ClassUncaptureThms.
Import ListNotations.

(** C81 (1): [uncaptured(ts...) >> f] with empty values has the layout of [f], for every [f]
    without empty classes of uncapture.h inside, even if the same class is given many times. *)
Theorem C81_free : forall ts f, forallb is_empty ts = true -> real f ->
  (forall x, In x (empties f) -> ~ uncapture_class x) ->
  summary (layout (chain_cls ts f)) = summary (layout f).
Proof. exact chain_free. Qed.
Print Assumptions C81_free.

(** C81 (2): with any values of the user over a lambda of the user, the layout is the one without
    names (C51), if the lambda (if it is empty) is not itself inside one of the values. *)
Theorem C81_chain : forall ts f, Forall user_type ts -> user_type f -> user_lambda f ->
  (is_empty f = true -> forall t, In t ts -> is_empty t = false -> ~ In f (empties t)) ->
  summary (layout (chain_cls ts f)) =
  uncaptured_chain_lay true (map (fun t => summary (layout t)) ts) (summary (layout f)).
Proof. exact chain_layout. Qed.
Print Assumptions C81_chain.

(** C81 (3): so with equal alignments the size is the sum of what is kept. *)
Theorem C81_sum : forall ts f a, Forall user_type ts -> user_type f -> user_lambda f ->
  (is_empty f = true -> forall t, In t ts -> is_empty t = false -> ~ In f (empties t)) -> 0 < a ->
  (forall c, In c (f :: ts) -> is_empty c = true \/ falign (layout c) = a) ->
  space (chain_cls ts f) = list_sum (map space ts) + space f.
Proof. exact chain_sum. Qed.
Print Assumptions C81_sum.

(** Not so if the lambda is inside one of the values. *)
Theorem C81_same_function_refuted :
  exists t f, user_type t /\ user_type f /\ user_lambda f /\ is_empty f = true /\
    falign (layout t) = 4 /\ space (chain_cls [t] f) <> space t + space f.
Proof. exact same_function_grows. Qed.
Print Assumptions C81_same_function_refuted.

(** C81 (4): the calls [U::get_value()] and [F::operator()] (uncapture.h:34, 38) are never
    ambiguous, whatever the values are, again if [f] is not made by uncapture.h. *)
Theorem C81_names : forall t ts f, (forall x, In x (all_bases f) -> ~ uncapture_class x) ->
  can_name (chain_cls (t :: ts) f) (uncaptured_cls (S (length ts)) t) /\
  can_name (chain_cls (t :: ts) f) (chain_cls ts f).
Proof. exact chain_names. Qed.
Print Assumptions C81_names.

(** C81 (5): but the tags start again at 1 behind an [overload]: with
    [uncaptured(t) >> overload{ uncaptured(t) >> f, g }], [U::get_value()] is ambiguous, so that
    the object cannot be called; and an empty [t] takes space. *)
Theorem C81_overload : forall t f g, unique_tag f = 0 ->
  ~ can_name (capture_cls t (overload_cls [capture_cls t f; g])) (uncaptured_cls 1 t).
Proof. exact overload_ambiguous. Qed.
Print Assumptions C81_overload.

Theorem C81_overload_refuted :
  exists t f g, is_empty t = true /\ real t /\ user_type f /\ user_type g /\ user_lambda f /\ user_lambda g /\
    fsize (layout (capture_cls t (overload_cls [capture_cls t f; g]))) <>
    fsize (layout (overload_cls [capture_cls t f; g])).
Proof. exact overload_grows. Qed.
Print Assumptions C81_overload_refuted.

Definition ex_e : cls := Class (KUser 0) [] [] [].
Definition ex_int : cls := Scalar 4 4.
Definition ex_f : cls := Class (KUser 1) [] [] [ex_int; Scalar 1 1].
Definition ex_pair : cls := Class (KUser 2) [] [ex_e] [ex_e; ex_int].

Example C81_case :
  Forall user_type [ex_e; ex_pair; ex_e; ex_int; ex_e] /\ user_type ex_f /\ user_lambda ex_f /\
  (forall c, In c (ex_f :: [ex_e; ex_pair; ex_e; ex_int; ex_e]) -> is_empty c = true \/ falign (layout c) = 4) /\
  (forall x, In x (all_bases ex_f) -> ~ uncapture_class x) /\
  (forall x, In x (empties ex_f) -> ~ uncapture_class x) /\
  fsize (layout ex_f) = 8 /\
  fsize (layout (chain_cls [ex_e; ex_e; ex_e] ex_f)) = 8 /\
  fsize (layout (chain_cls [ex_e; ex_pair; ex_e; ex_int; ex_e] ex_f)) = 20.
Proof.
  assert (H4 : real ex_int) by (split; [auto with arith|]; split; [now exists 2|now exists 1]).
  assert (H1 : real (Scalar 1 1)) by (split; [auto with arith|]; split; [now exists 0|now exists 1]).
  assert (He : user_type ex_e) by (split; [cbn; auto|vm_compute; repeat constructor]).
  split.
  { assert (Hp : user_type ex_pair).
    { split; [|vm_compute; repeat constructor]. cbn [real ex_pair]. repeat split; auto; apply H4. }
    assert (Hi : user_type ex_int) by (split; [exact H4|constructor]).
    repeat (constructor; auto). }
  split. { split; [|vm_compute; constructor]. cbn [real ex_f]. repeat split; auto; try apply H4; apply H1. }
  split; [exact I|].
  split. { intros c Hc. cbn in Hc. repeat (destruct Hc as [<-|Hc]; [vm_compute; auto|]). contradiction. }
  split. { intros x [<-|[]] []. }
  split. { vm_compute. intros x []. }
  repeat split.
Qed.
