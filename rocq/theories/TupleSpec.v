(** What it means to apply an effectful callable to the elements of a list in
    order, once each: there is a chain of states, one before each application.
    Independent of the model functions of TupleAlg.v. *)
From Coq Require Import List.
Import ListNotations.

Definition in_order {S X Y : Type} (p : X -> S -> Y * S) (l : list X) (s : S)
    (ys : list Y) (s' : S) : Prop :=
  length ys = length l /\
  exists states : nat -> S,
    states 0 = s /\ states (length l) = s' /\
    forall i x, nth_error l i = Some x ->
      nth_error ys i = Some (fst (p x (states i))) /\ states (i + 1) = snd (p x (states i)).

(** The callable [p], additionally writing each argument it gets into a log. *)
Definition logging {S X Y : Type} (p : X -> S -> Y * S) (x : X) (sl : S * list X)
    : Y * (S * list X) :=
  (fst (p x (fst sl)), (snd (p x (fst sl)), snd sl ++ [x])).
