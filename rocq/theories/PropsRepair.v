(** C94: changes of lazy.h under which C01, C02, C15 and C19 hold for all values.

    Statements only; proofs in RepairThms.v and RepairExamples.v. *)
From Coq Require Import List Bool Arith.
From Verif Require Import Value LazyModel LazySpec LazySpec2 LazyExamples OptionalExamples RepairModel RepairThms
  RepairExamples.
Import ListNotations.

(** C94 (1): with the changes concerning exceptions, after any history, whatever threw, a
    call throws or returns the value for the current inputs.  With the other two as well,
    there is no condition on the values: pairs, tuples and optionals of optionals are fine. *)
Theorem C94_always_right :
  forall (A W fid did : Type) (U : user A W fid did) pf rd,
  pure_or_throw U pf rd -> sound_eq U ->
  forall a b p w s outs es x e s' r lg,
  rrun U (mkChanges true true a b) p (mkState [] w) = Some (s, outs) ->
  shapes p [] = Some es -> nth_error es x = Some e ->
  (a = false -> regular pf rd e) -> (b = false -> unnested pf rd e) ->
  rexec U (mkChanges true true a b) (Call x) s = Some (s', (Some r, lg)) ->
  r = Exc \/ r = Ok (visible (eval pf rd e (world s))).
Proof. exact @never_outdated. Qed.
Print Assumptions C94_always_right.

(** An input is read, the next one throws; afterwards the sum is right (12), unlike that of
    the library (8). *)
Example C94_always_right_case :
  pure_or_throw throw_user ex_pf ex_rd /\ sound_eq throw_user /\
  exists s outs es e s' lg s2 outs2 s2' lg2,
  rrun throw_user (mkChanges true true false false) repair_program (mkState [] (5, 3)) = Some (s, outs) /\
  results outs = [Ok (Some (VAtom 8)); Exc] /\
  shapes repair_program [] = Some es /\ nth_error es 0 = Some e /\ regular ex_pf ex_rd e /\ unnested ex_pf ex_rd e /\
  rexec throw_user (mkChanges true true false false) (Call 0) s = Some (s', (Some (Ok (Some (VAtom 12))), lg)) /\
  run throw_user repair_program (mkState [] (5, 3)) = Some (s2, outs2) /\
  exec throw_user (Call 0) s2 = Some (s2', (Some (Ok (Some (VAtom 8))), lg2)).
Proof. exact ex_never_outdated. Qed.

(** C94 (2): none of the four changes can be left out, whatever is done about the others. *)
Theorem C94_fewer_changes_refuted :
  forall C, C <> all_changes ->
  exists (U : user nat (nat * nat) nat bool) pf rd p w s outs es x e s' o lg,
  pure_or_throw U pf rd /\ exact_eq U /\
  rrun U C p (mkState [] w) = Some (s, outs) /\ shapes p [] = Some es /\ nth_error es x = Some e /\
  rexec U C (Call x) s = Some (s', (Some (Ok o), lg)) /\ o <> visible (eval pf rd e (world s)).
Proof. exact each_change_needed. Qed.
Print Assumptions C94_fewer_changes_refuted.

Example C94_fewer_changes_case : mkChanges true true true false <> all_changes /\ no_changes <> all_changes.
Proof. split; discriminate. Qed.

(** C94 (3): without any change, it is the library. *)
Theorem C94_no_changes :
  forall (A W fid did : Type) (U : user A W fid did) p s, rrun U no_changes p s = run U p s.
Proof. exact @run_no_changes. Qed.
Print Assumptions C94_no_changes.

Example C94_no_changes_case :
  exists s outs, run throw_user repair_program (mkState [] (5, 3)) = Some (s, outs) /\
  results outs = [Ok (Some (VAtom 8)); Exc].
Proof. exact ex_no_changes. Qed.

(** C94 (4): the changes concerning exceptions cost nothing as long as no call throws: the
    same results, effects and states as the library's, for all user functions. *)
Theorem C94_same_without_exceptions :
  forall (A W fid did : Type) (U : user A W fid did) a b p s s' outs,
  run U p s = Some (s', outs) -> Forall (fun out => fst out <> Some Exc) outs ->
  rrun U (mkChanges a b false false) p s = Some (s', outs).
Proof. exact @run_same. Qed.
Print Assumptions C94_same_without_exceptions.

Example C94_same_case :
  exists s outs,
  run throw_user [New 0 [DFun true; DFun false]; Call 0; Env (fun _ => (9, 4)); Copy 0; Call 1; Call 0] (mkState [] (5, 3))
    = Some (s, outs) /\
  Forall (fun out => fst out <> Some Exc) outs /\
  results outs = [Ok (Some (VAtom 8)); Ok (Some (VAtom 13)); Ok (Some (VAtom 13))].
Proof. exact ex_same. Qed.

(** C94 (5): the changes concerning values make the effects those of C02 for all values:
    no condition [regular] or [unnested]. *)
Theorem C94_exact_effects :
  forall (A W fid did : Type) (U : user A W fid did) pf rd,
  pure_user U pf rd -> exact_eq U ->
  forall a b p w ts outs, tracked_run pf rd (veq (aeq U)) p [] w = Some (ts, outs) ->
  exists s, rrun U (mkChanges a b true true) p (mkState [] w) = Some (s, outs).
Proof. exact @repaired_effects. Qed.
Print Assumptions C94_exact_effects.

(** An empty optional becomes one that holds an empty one; the library returns the old count. *)
Example C94_exact_effects_case :
  pure_user opt_user opt_pf opt_rd /\ exact_eq opt_user /\
  exists ts s2 outs2,
  let p := [New 0 [DFun false]; Call 0; Env (fun _ => (0, 1)); Call 0] in
  tracked_run opt_pf opt_rd (veq (aeq opt_user)) p [] (0, 0) = Some (ts,
    let none := VOpt None in let full := VOpt (Some none) in
    [(None, []);
     (Some (Ok (Some (VAtom 0))), [EvSample false; EvCall 0 [none]]);
     (None, []);
     (Some (Ok (Some (VAtom 1))), [EvSample false; EvCmp none full; EvCall 0 [full]; EvCmp (VAtom 0) (VAtom 1)])]) /\
  run opt_user p (mkState [] (0, 0)) = Some (s2, outs2) /\
  results outs2 = [Ok (Some (VAtom 0)); Ok (Some (VAtom 0))].
Proof. exact ex_repaired_effects. Qed.

(** C94 (6): with any of the changes, a call evaluates every part at most once,
    dependencies first (C11). *)
Theorem C94_at_most_once :
  forall (A W fid did : Type) (U : user A W fid did) C p w s outs es x e s' r lg,
  rrun U C p (mkState [] w) = Some (s, outs) -> shapes p [] = Some es -> nth_error es x = Some e ->
  rexec U C (Call x) s = Some (s', (Some r, lg)) ->
  subseq (evaluations lg) (postorder e).
Proof. exact @repaired_at_most_once. Qed.
Print Assumptions C94_at_most_once.

(** After an exception a function may be evaluated again with the same arguments. *)
Example C94_at_most_once_case :
  exists s outs s' lg,
  rrun throw_user all_changes
    [New 0 [DFun true; DFun false]; Call 0; Env (fun _ => (5, 98)); Call 0; Env (fun _ => (5, 3))]
    (mkState [] (5, 3)) = Some (s, outs) /\
  rexec throw_user all_changes (Call 0) s = Some (s', (Some (Ok (Some (VAtom 8))), lg)) /\
  evaluations lg = [inr true; inr false; inl 0].
Proof. exact ex_repaired_cost. Qed.
