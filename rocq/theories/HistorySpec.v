(** What can be said about values after any history: with exceptions, with lazy
    functions shared by reference, with any [operator==]. *)
From Coq Require Import List Bool Arith.
From Verif Require Import Value LazyModel LazySpec LazySpec2 SharedModel.
Import ListNotations.

Section Spec.
Context {A W fid did : Type}.
Notation value := (val A).
Notation expr := (expr A fid did).
Variable pf : fid -> list value -> option value.
Variable rd : did -> W -> value.

(** [mixed P e v]: [v] is a value of the expression [e] if every occurrence of a
    plain function is read in some outside world satisfying [P] (not necessarily
    all in the same one). *)
Inductive mixed (P : W -> Prop) : expr -> value -> Prop :=
| mixed_const v : mixed P (EConst v) v
| mixed_fun d w : P w -> mixed P (EFun d) (rd d w)
| mixed_app f es vs args :
    mixed_all P es vs -> passes vs args -> mixed P (EApp f es) (fval pf f args)
with mixed_all (P : W -> Prop) : list expr -> list value -> Prop :=
| mixed_nil : mixed_all P [] []
| mixed_cons e es v vs : mixed P e v -> mixed_all P es vs -> mixed_all P (e :: es) (v :: vs).

(** The outside worlds in which the calls of a program happen, if functions do
    not change it. *)
Fixpoint called_worlds (p : list (sop A W fid did)) (w : W) : list W :=
  match p with
  | [] => []
  | SCall _ :: p' => w :: called_worlds p' w
  | SEnv h :: p' => called_worlds p' (h w)
  | _ :: p' => called_worlds p' w
  end.

(** The variables called by a program, in order. *)
Definition called (p : list (sop A W fid did)) : list nat :=
  flat_map (fun o => match o with SCall x => [x] | _ => [] end) p.

(** [exclusive G p ...]: what the variables in the set [G] use by reference is used
    by nobody else.  A variable in [G] is built from variables in [G] only; once one
    of them takes [y] by reference, [y] is not used again, and it was not given to
    anyone by reference before.  Whoever holds such a reference is not copied.  The
    other variables do as they like, with each other and with the rest of [G].

    [n] is the number of the next variable, [used] the variables taken by reference
    by variables in [G], [lent] those taken by others, [holders] the variables in [G]
    that hold references. *)
Fixpoint exclusive (G : nat -> bool) (p : list (sop A W fid did)) (n : nat) (used lent holders : list nat)
    : Prop :=
  match p with
  | [] => True
  | SNew f ss :: p' =>
      if G n then
        NoDup (refs ss) /\
        Forall (fun y => G y = true /\ ~ In y used /\ ~ In y lent) (refs ss) /\
        Forall (fun y => G y = true /\ ~ In y used /\ ~ In y holders) (copied ss) /\
        exclusive G p' (S n) (refs ss ++ used) lent
          (match refs ss with [] => holders | _ => n :: holders end)
      else
        Forall (fun y => ~ In y used) (refs ss) /\
        Forall (fun y => ~ In y used /\ ~ In y holders) (copied ss) /\
        exclusive G p' (S n) used (refs ss ++ lent) holders
  | SCopy x :: p' =>
      ~ In x used /\ ~ In x holders /\ (G n = true -> G x = true) /\
      exclusive G p' (S n) used lent holders
  | SCall x :: p' => ~ In x used /\ exclusive G p' n used lent holders
  | SEnv _ :: p' => exclusive G p' n used lent holders
  end.

End Spec.
