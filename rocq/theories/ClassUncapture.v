(** The classes of src/pigro/uncapture.h with their identities; layouts as in
    [ClassLayout.v]. *)
From Coq Require Import List Bool Arith.
From Verif Require Import Layout ClassLayout.
Import ListNotations.

(** uncapture.h:12-25 *)
Definition uncaptured_cls (tag : nat) (t : cls) : cls :=
  if is_empty t then Class (KUncaptured tag) [t] [] []   (* 20-25 *)
  else Class (KUncaptured tag) [t] [] [t].                (* 12-18 *)

(** uncapture.h:43-52 *)
Definition unique_tag (f : cls) : nat :=
  match f with Class (KInvocable tag) _ _ _ => tag | _ => 0 end.

(** uncapture.h:54-58 and 27-28; the bases are the template arguments. *)
Definition capture_cls (t f : cls) : cls :=
  let tag := S (unique_tag f) in
  Class (KInvocable tag) [] [uncaptured_cls tag t; f] [].

(** uncapture.h:65-71: [(values >> ... >> f)]. *)
Fixpoint chain_cls (ts : list cls) (f : cls) : cls :=
  match ts with
  | [] => f
  | t :: ts' => capture_cls t (chain_cls ts' f)
  end.
