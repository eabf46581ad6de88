(** The properties of uncapture.h (C44).  Statements only. *)
From Coq Require Import List Bool Arith.
From Verif Require Import Uncapture UncaptureProofs.
Import ListNotations.

(** C44: every call of [uncaptured(vs...) >> f] is a call of [f] with the
    arguments followed by the values; [f]'s state and what [f] does to the values
    and arguments is kept. *)
Theorem C44_uncaptured_appended :
  forall (S V R : Type) (fn : S -> list V -> S * list V * R),
  (forall s args s' args' r, fn s args = (s', args', r) -> length args' = length args) ->
  forall argss s vs,
  calls fn (uncapture vs (Plain s)) argss
  = let '(s', vs', rs) := expected_calls fn s vs argss in (uncapture vs' (Plain s'), rs).
Proof. exact @calls_chain. Qed.
Print Assumptions C44_uncaptured_appended.

(** And however such objects are built, no two base classes carry the same tag. *)
Theorem C44_tags_distinct :
  forall (S V : Type) (o : invocable S V),
  built o -> NoDup (tags o) /\ Forall (fun t => 1 <= t <= unique_tag o) (tags o).
Proof. exact @built_tags. Qed.
Print Assumptions C44_tags_distinct.

Example C44_case :
  (forall s args s' args' r, ex_counter s args = (s', args', r) -> length args' = length args) /\
  snd (calls ex_counter (uncapture [20; 30] (Plain 5)) [[1]; [2]; []])
  = [([1], [1; 20; 30]); ([2], [2; 20; 35]); ([], [20; 41])] /\
  built (uncapture [7] (uncapture [20; 30] (Plain (V := nat) 5))) /\
  tags (uncapture [7] (uncapture [20; 30] (Plain (V := nat) 5))) = [3; 2; 1].
Proof. exact ex_C44. Qed.
