(** The property about needless evaluations (C90).  Statements only: each is closed by a lemma proved
    elsewhere.  After each theorem an example shows a concrete case. *)
From Coq Require Import List Bool Arith.
From Verif Require Import Value LazyModel LazySpec LazyExamples FewestSpec CoarseThms FewestThms.
Import ListNotations.

(** C90 (1): nothing is evaluated in vain.  Let functions be pure and return values of one type with
    infinitely many values.  Any strategy that finds the results of all calls of a program whatever the
    functions are, with whatever it remembers, knowing the program and all inputs, past and future,
    calls every function with all the arguments with which the lazy functions call it. *)
Theorem C90_needed :
  forall (A W fid did : Type) (U : user A W fid did) pf rd p w es vals s strat,
  (forall f g : fid, {f = g} + {f <> g}) -> (forall l : list A, exists a, ~ In a l) ->
  pure_user U pf rd -> exact_eq U -> plain_results pf ->
  eager pf rd p [] w = Some (es, vals) -> Forall (regular pf rd) es -> Forall (never_null pf rd) es ->
  correct_for rd p w strat ->
  forall outs, run U p (mkState [] w) = Some (s, outs) -> incl (all_calls outs) (asked pf rd strat).
Proof. exact @all_needed. Qed.
Print Assumptions C90_needed.

(** C90 (2): so if no function is called twice with the same arguments, no strategy makes fewer
    calls. *)
Theorem C90_fewest :
  forall (A W fid did : Type) (U : user A W fid did) pf rd p w es vals s strat,
  (forall f g : fid, {f = g} + {f <> g}) -> (forall l : list A, exists a, ~ In a l) ->
  pure_user U pf rd -> exact_eq U -> plain_results pf ->
  eager pf rd p [] w = Some (es, vals) -> Forall (regular pf rd) es -> Forall (never_null pf rd) es ->
  correct_for rd p w strat ->
  forall outs, run U p (mkState [] w) = Some (s, outs) -> NoDup (all_calls outs) ->
  length (all_calls outs) <= length (asked pf rd strat).
Proof. exact @fewest. Qed.
Print Assumptions C90_fewest.

(** A sum of an input and 10, and another sum of that; the input is 5, 6 and 7. *)
Example C90_case :
  (forall l : list nat, exists a, ~ In a l) /\ pure_user sum_user sum_pf ex_rd /\ exact_eq sum_user /\ plain_results sum_pf /\
  (exists es, eager sum_pf ex_rd (fewest_program 6 7) [] (5, 3) = Some (es, [Some (VAtom 15); Some (VAtom 16); Some (VAtom 17)]) /\
     Forall (regular sum_pf ex_rd) es /\ Forall (never_null sum_pf ex_rd) es) /\
  correct_for ex_rd (fewest_program 6 7) (5, 3) (three_times 6 7) /\
  exists s outs, run sum_user (fewest_program 6 7) (mkState [] (5, 3)) = Some (s, outs) /\ NoDup (all_calls outs) /\
    all_calls outs = [(0, [VAtom 5; VAtom 10]); (1, [VAtom 15]); (0, [VAtom 6; VAtom 10]); (1, [VAtom 16]);
                      (0, [VAtom 7; VAtom 10]); (1, [VAtom 17])].
Proof.
  split; [exact more_atoms|]. split; [split; reflexivity|]. split; [intros a b; apply Nat.eqb_eq|].
  split; [intros f xs; eexists; reflexivity|]. split; [|split; [apply three_times_correct|]].
  - eexists. split; [vm_compute; reflexivity|]. split; repeat constructor.
  - do 2 eexists. split; [vm_compute; reflexivity|].
    split; [|reflexivity]. cbn. repeat (constructor; [cbn; intuition discriminate|]). constructor.
Qed.

(** C90 (3): nor is anything read in vain.  Any strategy that finds the results whatever the wrapped and
    plain functions are calls every plain function that is called by a call of a lazy function, in
    the same outside world. *)
Theorem C90_read :
  forall (A W fid did : Type) (U : user A W fid did) pf rd p w es vals s strat,
  (forall f g : fid, {f = g} + {f <> g}) -> (forall x y : did * W, {x = y} + {x <> y}) -> (forall l : list A, exists a, ~ In a l) ->
  pure_user U pf rd -> exact_eq U -> plain_results pf -> plain_inputs rd ->
  eager pf rd p [] w = Some (es, vals) -> Forall (regular pf rd) es ->
  correct p w strat ->
  forall outs, run U p (mkState [] w) = Some (s, outs) ->
  Forall2 (fun w' o => forall d, In (EvSample d) (snd o) -> In (d, w') (read pf rd strat)) (worlds_of p w) outs.
Proof. exact @all_read. Qed.
Print Assumptions C90_read.

Example C90_read_case :
  plain_inputs ex_rd /\ correct (fewest_program 6 7) (5, 3) (reading 6 7) /\
  read sum_pf ex_rd (reading 6 7) = [(true, (5, 3)); (true, (6, 3)); (true, (7, 3))] /\
  exists s outs, run sum_user (fewest_program 6 7) (mkState [] (5, 3)) = Some (s, outs) /\
    flat_map (fun o => flat_map (fun e => match e with EvSample d => [(d, fst o)] | _ => [] end) (snd (snd o)))
      (combine (worlds_of (fewest_program 6 7) (5, 3)) outs) = [(true, (5, 3)); (true, (6, 3)); (true, (7, 3))].
Proof.
  split; [intros [] w; eexists; reflexivity|]. split; [apply reading_correct|]. split; [reflexivity|].
  do 2 eexists. split; [vm_compute; reflexivity|reflexivity].
Qed.

(** Not so if arguments recur: lazy functions remember only the last result. *)
Theorem C90_recurring_refuted : exists (U : user nat (nat * nat) nat bool) pf rd p w es vals s strat outs,
  pure_user U pf rd /\ exact_eq U /\ plain_results pf /\
  eager pf rd p [] w = Some (es, vals) /\ Forall (regular pf rd) es /\ Forall (never_null pf rd) es /\
  correct_for rd p w strat /\ run U p (mkState [] w) = Some (s, outs) /\
  length (all_calls outs) = 6 /\ length (asked pf rd strat) = 4.
Proof. exact recurring. Qed.
Print Assumptions C90_recurring_refuted.
