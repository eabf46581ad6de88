(** What holds after any history (C56), and what is left of C15 and C20.

    Statements only; proofs in HistoryThms.v, RecoverThms.v, ShareThms.v, HistoryExamples.v. *)
From Coq Require Import List Bool Arith.
From Verif Require Import Value TupleAlg LazyModel LazySpec LazySpec2 SharedModel LazyExamples HistorySpec
  HistoryThms RecoverThms ShareThms HistoryExamples.
Import ListNotations.

(** C56: whatever happened before - exceptions, lazy functions shared by reference,
    an [operator==] that equates too much or too little - a call returns a value
    computed from inputs that were really read at some call so far, by the functions
    it consists of.  It may mix inputs of different calls (C15, C20), but it invents
    nothing and never reads a cache that was not filled. *)
Theorem C56_real_inputs :
  forall (A W fid did : Type) (U : user A W fid did) pf rd,
  pure_or_throw U pf rd ->
  forall p x w s outs s' r lg es,
  srun U p (mkSState [] w) = Some (s, outs) ->
  sexec U (SCall x) s = Some (s', (Some r, lg)) ->
  shapes (map by_value p) [] = Some es ->
  r <> UB /\
  forall o, r = Ok o ->
  exists e v, nth_error es x = Some e /\ o = visible v /\
    mixed pf rd (fun w' => In w' (called_worlds (p ++ [SCall x]) w)) e v.
Proof. exact @real_inputs. Qed.
Print Assumptions C56_real_inputs.

Example C56_case :
  pure_or_throw throw_user ex_pf ex_rd /\
  exists s outs s' lg es,
  srun throw_user hist_program (mkSState [] (5, 3)) = Some (s, outs) /\
  results outs = [Ok (Some (VAtom 8)); Ok (Some (VAtom 2)); Exc] /\
  sexec throw_user (SCall 1) s = Some (s', (Some (Ok (Some (VAtom 8))), lg)) /\
  shapes (map by_value hist_program) [] = Some es /\
  called_worlds (hist_program ++ [SCall 1]) (5, 3) = [(5, 3); (5, 3); (9, 98); (9, 3)].
Proof. exact ex_C56. Qed.

(** C56: every program that names existing variables completes, however its lazy
    functions share each other, and whatever the functions do. *)
Theorem C56_completes :
  forall (A W fid did : Type) (U : user A W fid did) p w es,
  shapes (map by_value p) [] = Some es ->
  exists s outs, srun U p (mkSState [] w) = Some (s, outs).
Proof. exact @shared_complete. Qed.
Print Assumptions C56_completes.

Example C56_completes_case :
  exists es, shapes (map by_value share_program) [] = Some es /\ length es = 5.
Proof. eexists. split; reflexivity. Qed.

(** What holds of C15 after any history: a call that runs all functions returns the
    right value.  Missing: calls that do not, see C15_after_exception_partial and the
    refutations. *)
Theorem C15_recovers_partial :
  forall (A W fid did : Type) (U : user A W fid did) pf rd,
  pure_or_throw U pf rd ->
  forall p w s outs es x e s' o lg,
  run U p (mkState [] w) = Some (s, outs) ->
  shapes p [] = Some es -> nth_error es x = Some e -> regular pf rd e ->
  exec U (Call x) s = Some (s', (Some (Ok o), lg)) ->
  evaluations lg = postorder e ->
  o = visible (eval pf rd e (world s)).
Proof. exact @recovers. Qed.
Print Assumptions C15_recovers_partial.

Example C15_recovers_case :
  pure_or_throw throw_user ex_pf ex_rd /\
  exists s outs es e s' lg,
  run throw_user recover_program (mkState [] (5, 3)) = Some (s, outs) /\
  results outs = [Ok (Some (VAtom 8)); Exc; Ok (Some (VAtom 8))] /\
  shapes recover_program [] = Some es /\ nth_error es 0 = Some e /\ regular ex_pf ex_rd e /\
  exec throw_user (Call 0) s = Some (s', (Some (Ok (Some (VAtom 12))), lg)) /\
  evaluations lg = postorder e /\ visible (eval ex_pf ex_rd e (world s)) = Some (VAtom 12).
Proof. exact ex_recovers. Qed.

(** And from such a call on, until the next call that throws, every call returns the
    right value, whether it runs anything or not and whatever happens to other
    variables.  Missing: calls between an exception and the next call that runs all
    functions. *)
Theorem C15_until_next_exception_partial :
  forall (A W fid did : Type) (U : user A W fid did) pf rd,
  pure_or_throw U pf rd -> sound_eq U ->
  forall p w s outs es x e s1 o1 lg1 q s2 outs2 s3 o lg,
  run U p (mkState [] w) = Some (s, outs) ->
  shapes p [] = Some es -> nth_error es x = Some e -> regular pf rd e -> unnested pf rd e ->
  exec U (Call x) s = Some (s1, (Some (Ok o1), lg1)) -> evaluations lg1 = postorder e ->
  run U q s1 = Some (s2, outs2) ->
  Forall (fun out => fst out <> Some Exc) (outputs_of x q outs2) ->
  exec U (Call x) s2 = Some (s3, (Some (Ok o), lg)) ->
  o = visible (eval pf rd e (world s2)).
Proof. exact @stays_recovered. Qed.
Print Assumptions C15_until_next_exception_partial.

Example C15_until_case :
  pure_or_throw throw_user ex_pf ex_rd /\ sound_eq throw_user /\
  exists s outs es e s1 lg1 s2 outs2 s3 lg,
  run throw_user recover_program (mkState [] (5, 3)) = Some (s, outs) /\
  results outs = [Ok (Some (VAtom 8)); Exc; Ok (Some (VAtom 8))] /\
  shapes recover_program [] = Some es /\ nth_error es 0 = Some e /\
  regular ex_pf ex_rd e /\ unnested ex_pf ex_rd e /\
  exec throw_user (Call 0) s = Some (s1, (Some (Ok (Some (VAtom 12))), lg1)) /\
  evaluations lg1 = postorder e /\
  run throw_user later_program s1 = Some (s2, outs2) /\
  results outs2 = [Ok (Some (VAtom 12)); Exc] /\
  map fst (outputs_of 0 later_program outs2) = [Some (Ok (Some (VAtom 12)))] /\
  exec throw_user (Call 0) s2 = Some (s3, (Some (Ok (Some (VAtom 13))), lg)).
Proof. exact ex_stays_recovered. Qed.

(** What holds of C20 with several users: if a set [G] of variables uses by reference
    only what nobody else uses, the calls of variables in [G] return the right values,
    whatever the other variables share.  Missing: variables that do share with others,
    for which it is false. *)
Theorem C20_exclusive_partial :
  forall (A W fid did : Type) (U : user A W fid did) pf rd,
  pure_user U pf rd -> sound_eq U ->
  forall G p w es vals,
  exclusive G p 0 [] [] [] ->
  eager pf rd (map by_value p) [] w = Some (es, vals) ->
  Forall (regular pf rd) es -> Forall (unnested pf rd) es ->
  exists s outs, srun U p (mkSState [] w) = Some (s, outs) /\
  forall k x, nth_error (called p) k = Some x -> G x = true ->
  exists v, nth_error vals k = Some v /\ nth_error (results outs) k = Some (Ok v).
Proof. exact @exclusive_values. Qed.
Print Assumptions C20_exclusive_partial.

(** The fifth call is the one of variable 3, which shares: it returns 5, not 9. *)
Example C20_exclusive_case :
  pure_user ex_user ex_pf ex_rd /\ sound_eq ex_user /\
  exclusive (fun x => Nat.ltb x 2) share_program 0 [] [] [] /\
  called share_program = [4; 3; 1; 4; 3; 1] /\
  exists s outs es vals,
  eager ex_pf ex_rd (map by_value share_program) [] (5, 3) = Some (es, vals) /\
  Forall (regular ex_pf ex_rd) es /\ Forall (unnested ex_pf ex_rd) es /\
  vals = map (fun n => Some (VAtom n)) [13; 5; 8; 21; 9; 12] /\
  srun ex_user share_program (mkSState [] (5, 3)) = Some (s, outs) /\
  results outs = map (fun n => Ok (Some (VAtom n))) [13; 5; 8; 21; 5; 12].
Proof. exact ex_exclusive. Qed.
