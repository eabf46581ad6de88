(** Vocabulary of C77: programs that do not use what they have moved from, and what can be
    said of those that do. *)
From Coq Require Import List Bool Arith.
From Verif Require Import Value LazyModel LazySpec MoveModel.
Import ListNotations.

Section Spec.
Context {A W fid did : Type}.
Notation value := (val A).
Notation lz := (lz A fid did).
Notation mop := (mop A W fid did).
Notation mdep := (mdep A did).

(** The same program with copies for moves. *)
Definition copied_dep (s : mdep) : depspec A did := match s with MDep s => s | MDepMove x => DVar x end.
Definition copying (o : mop) : op A W fid did :=
  match o with
  | MNew f ss => New f (map copied_dep ss)
  | MCopy x | MMove x => Copy x
  | MCall x => Call x
  | MEnv h => Env h
  end.

(** The variables an operation uses, in order, and those it moves from. *)
Definition uses_dep (s : mdep) : list nat := match s with MDep (DVar x) | MDepMove x => [x] | _ => [] end.
Definition moves_dep (s : mdep) : list nat := match s with MDepMove x => [x] | _ => [] end.

Fixpoint deps_alive (dead : list nat) (ss : list mdep) : Prop :=
  match ss with
  | [] => True
  | s :: ss' => (forall x, In x (uses_dep s) -> ~ In x dead) /\ deps_alive (moves_dep s ++ dead) ss'
  end.

(** No variable is used after it was moved from; those in [dead] have been. *)
Fixpoint no_use_after_move (dead : list nat) (p : list mop) : Prop :=
  match p with
  | [] => True
  | MNew _ ss :: p' => deps_alive dead ss /\ no_use_after_move (flat_map moves_dep ss ++ dead) p'
  | MCopy x :: p' | MCall x :: p' => ~ In x dead /\ no_use_after_move dead p'
  | MMove x :: p' => ~ In x dead /\ no_use_after_move (x :: dead) p'
  | MEnv _ :: p' => no_use_after_move dead p'
  end.

(** Moving leaves everything as it is. *)
Definition leaves_all (L : leavings A fid did) : Prop :=
  (forall a, left_atom L a = a) /\ (forall f, left_fid L f = f) /\ (forall d, left_did L d = d).
(** Moving leaves function objects as they are. *)
Definition leaves_functions (L : leavings A fid did) : Prop :=
  (forall f, left_fid L f = f) /\ (forall d, left_did L d = d).

(** Its constants are left as they are. *)
Fixpoint keeps_constants (L : leavings A fid did) (l : lz) : Prop :=
  match l with
  | LValue v _ => left_value L v = v
  | LCore _ _ deps =>
      (fix all (ds : list lz) : Prop := match ds with [] => True | d :: ds' => keeps_constants L d /\ all ds' end) deps
  end.

(** The lazy function, never called. *)
Fixpoint uncalled (l : lz) : lz :=
  match l with
  | LValue v ch => LValue v ch
  | LCore g _ deps => LCore g None (map uncalled deps)
  end.

(** A lazy function never called, built from the functions and values that moving [l] has left. *)
Fixpoint left_uncalled (L : leavings A fid did) (l : lz) : lz :=
  match l with
  | LValue v ch => LValue (left_value L v) ch
  | LCore (FnUser f) _ deps => LCore (FnUser (left_fid L f)) None (map (left_uncalled L) deps)
  | LCore (FnSample d) _ deps => LCore (FnSample (left_did L d)) None (map (left_uncalled L) deps)
  end.

(** The value held. *)
Definition held (l : lz) : option value := match l with LValue v _ => Some v | LCore _ c _ => c end.

(** Every value is there, and nothing will report a change. *)
Fixpoint settled_lz (l : lz) : bool :=
  match l with
  | LValue _ ch => negb ch
  | LCore _ c deps => is_some c && forallb settled_lz deps
  end.

(** Every function in it has something below that can report a change. *)
Fixpoint live (l : lz) : bool :=
  match l with
  | LValue _ _ => true
  | LCore _ _ deps =>
      existsb (fun d => match d with LValue _ ch => ch | LCore _ _ _ => true end) deps && forallb live deps
  end.

(** No function in [l'] holds the value that the same function in [l] holds, as far as
    [operator==] can tell. *)
Fixpoint all_differ (ne : option value -> value -> bool) (l l' : lz) {struct l} : bool :=
  match l, l' with
  | LCore _ c ds, LCore _ c' ds' =>
      (match c' with Some v => ne c v | None => false end) &&
      (fix all (ds ds' : list lz) : bool :=
         match ds, ds' with
         | d :: ds1, d' :: ds1' => all_differ ne d d' && all ds1 ds1'
         | [], [] => true
         | _, _ => false
         end) ds ds'
  | LValue _ _, LValue _ _ => true
  | _, _ => false
  end.

Definition no_comparisons (lg : list (event A fid did)) : list (event A fid did) :=
  filter (fun e => match e with EvCmp _ _ => false | _ => true end) lg.
End Spec.
