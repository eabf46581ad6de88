(** What constraints mean, and what it means to be the best overload (C75). *)
From Coq Require Import List Bool Arith.
From Verif Require Import Constraints.
Import ListNotations.

Section Spec.
Context {atom K : Type}.
Notation constr := (constr atom).
Notation cand := (cand atom K).

(** A constraint as a formula; [v] says which atomic constraints hold. *)
Fixpoint holds_for (v : atom -> bool) (c : constr) : Prop :=
  match c with
  | CAtom a => v a = true
  | CAnd p q => holds_for v p /\ holds_for v q
  | COr p q => holds_for v p \/ holds_for v q
  end.
(** No constraint: always. *)
Definition req_holds (v : atom -> bool) (c : option constr) : Prop :=
  match c with None => True | Some p => holds_for v p end.

(** [c] asks for all that [d] asks for, but not the other way around; where the form of
    the parameters counts, it is the same. *)
Definition narrower (strict : bool) (c d : cand) : Prop :=
  (strict = true -> form c = form d) /\
  (forall v, req_holds v (req c) -> req_holds v (req d)) /\
  ~ (forall v, req_holds v (req d) -> req_holds v (req c)).

(** The first candidate that holds. *)
Definition yes (v : atom -> tri) (a : atom) : bool := match v a with Yes => true | _ => false end.
Definition first_holding (v : atom -> tri) (cs : list cand) (c : cand) : Prop :=
  exists pre post, cs = pre ++ c :: post /\
    Forall (fun d => ~ req_holds (yes v) (req d)) pre /\ req_holds (yes v) (req c).

(** Constraints are checked from left to right, and no further than necessary; on the way
    there is one that cannot be checked. *)
Fixpoint asks_error (v : atom -> tri) (c : constr) : Prop :=
  match c with
  | CAtom a => v a = Hard
  | CAnd p q => asks_error v p \/ (holds_for (yes v) p /\ asks_error v q)
  | COr p q => asks_error v p \/ (~ holds_for (yes v) p /\ asks_error v q)
  end.
Definition req_error (v : atom -> tri) (c : option constr) : Prop :=
  match c with None => False | Some p => asks_error v p end.

(** [c] is among [cs], it holds, and it is narrower than all others that hold. *)
Definition best (strict : bool) (v : atom -> tri) (cs : list cand) (c : cand) : Prop :=
  exists pre post, cs = pre ++ c :: post /\ req_holds (yes v) (req c) /\
    Forall (fun d => req_holds (yes v) (req d) -> narrower strict c d) (pre ++ post).

End Spec.
