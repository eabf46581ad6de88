(** The properties for result types whose copying and comparing may throw (C58).

    Statements only; proofs in ThrowThms.v, ThrowExamples.v. *)
From Coq Require Import List Bool Arith.
From Verif Require Import Value TupleAlg LazyModel LazySpec LazySpec2 LazyExamples HistorySpec
  ThrowModel ThrowSpec ThrowThms ThrowExamples.
Import ListNotations.

(** C58: an exception thrown when a result is copied for the caller loses that result
    and nothing else: all other results, all actions and the final state are as if it
    had not been thrown. *)
Theorem C58_result_lost :
  forall (A W fid did H : Type) (U : user A W fid did) (O : vops A W H),
  never_throws U O ->
  forall p s (h : H) s1 outs,
  run U p s = Some (s1, outs) ->
  exists h1 outs', trun U O p s h = Some (s1, h1, outs') /\ Forall2 same_or_lost outs outs'.
Proof. exact @quiet_runs. Qed.
Print Assumptions C58_result_lost.

(** So every result that is delivered is the right one. *)
Theorem C58_delivered_values :
  forall (A W fid did H : Type) (U : user A W fid did) (O : vops A W H),
  never_throws U O ->
  forall pf rd,
  pure_user U pf rd -> sound_eq U ->
  forall p w h es vals,
    eager pf rd p [] w = Some (es, vals) -> Forall (regular pf rd) es -> Forall (unnested pf rd) es ->
    exists s h1 outs, trun U O p (mkState [] w) h = Some (s, h1, outs) /\
      Forall2 (fun r v => r = Ok v \/ r = Exc) (results outs) vals.
Proof. exact @quiet_values. Qed.
Print Assumptions C58_delivered_values.

Example C58_lost_case :
  never_throws ex_user (nth_lost 1) /\
  exists s h outs,
  trun ex_user (nth_lost 1) call_twice (mkState [] (5, 3)) 0 = Some (s, h, outs) /\
  results outs = [Ok (Some (VAtom 8)); Exc; Ok (Some (VAtom 12))].
Proof. exact ex_C58_lost. Qed.

(** C58: wherever and whenever functions, comparisons, copies and assignments throw, a
    call returns a value computed by its functions from inputs really read at some call
    so far; and the right one, if the call ran all of its functions. *)
Theorem C58_real_inputs :
  forall (A W fid did H : Type) (U : user A W fid did) (O : vops A W H) pf rd,
  pure_or_throw U pf rd -> old_or_new O ->
  forall p x w h s h1 outs s' h2 r lg es,
  trun U O p (mkState [] w) h = Some (s, h1, outs) ->
  texec U O (Call x) s h1 = Some (s', h2, (Some r, lg)) ->
  shapes p [] = Some es ->
  r <> UB /\
  forall o, r = Ok o ->
    exists e v, nth_error es x = Some e /\ o = visible v /\
      mixed pf rd (fun w' => In w' (call_worlds (p ++ [Call x]) w)) e v /\
      (evaluations lg = postorder e -> regular pf rd e -> o = visible (eval pf rd e (world s))).
Proof. exact @throw_real_inputs. Qed.
Print Assumptions C58_real_inputs.

Example C58_real_case :
  pure_or_throw ex_user ex_pf ex_rd /\ old_or_new (nth_throws 16) /\
  exists s h outs s' h' lg es e,
  trun ex_user (nth_throws 16) compare_throws (mkState [] (5, 3)) 0 = Some (s, h, outs) /\
  results outs = [Ok (Some (VAtom 8)); Exc; Ok (Some (VAtom 8))] /\
  texec ex_user (nth_throws 16) (Call 0) s h = Some (s', h', (Some (Ok (Some (VAtom 4))), lg)) /\
  shapes compare_throws [] = Some es /\ nth_error es 0 = Some e /\
  call_worlds (compare_throws ++ [Call 0]) (5, 3) = [(5, 3); (9, 3); (9, 3); (2, 2)] /\
  evaluations lg = postorder e /\ regular ex_pf ex_rd e.
Proof. exact ex_C58_real. Qed.

(** C58: a call returns normally if and only if nothing that it did has thrown. *)
Theorem C58_reaches_caller :
  forall (A W fid did H : Type) (U : user A W fid did) (O : vops A W H) pf rd,
  pure_user U pf rd ->
  forall x s h s' h' r lg,
  texec U O (Call x) s h = Some (s', h', (Some r, lg)) ->
  exists thrown : bool,
    texec U (watched O) (Call x) s (h, false) = Some (s', (h', thrown), (Some r, lg)) /\
    if thrown then r = Exc else exists v, r = Ok v.
Proof. exact @throw_reaches_caller. Qed.
Print Assumptions C58_reaches_caller.

(** C58: however it ends, a call changes nothing but caches, only those of functions it
    called, and leaves none of these empty that was not. *)
Theorem C58_caches :
  forall (A W fid did H : Type) (U : user A W fid did) (O : vops A W H) x s h s' h' o lg,
  texec U O (Call x) s h = Some (s', h', (o, lg)) ->
  exists l l', nth_error (vars s) x = Some l /\ refreshed lg l l' /\ vars s' = update x l' (vars s).
Proof. exact @throw_caches. Qed.
Print Assumptions C58_caches.

Example C58_reaches_case :
  pure_user ex_user ex_pf ex_rd /\
  exists s h outs s' h' r lg,
  trun ex_user (nth_throws 16) [New 0 [DFun true; DFun false]; Call 0; Env (set_first 9)] (mkState [] (5, 3)) 0 =
    Some (s, h, outs) /\
  texec ex_user (nth_throws 16) (Call 0) s h = Some (s', h', (Some r, lg)) /\
  texec ex_user (watched (nth_throws 16)) (Call 0) s (h, false) = Some (s', (h', true), (Some r, lg)) /\
  r = Exc /\ called (FnUser 0) lg.
Proof. exact ex_C58_reaches. Qed.

(** C58: otherwise the value may be outdated.  Here the comparison of a result with the
    cached one throws once, and the next call returns the old value. *)
Theorem C58_right_after_comparison_throws_refuted :
  exists (U : user nat (nat * nat) nat bool) (O : vops nat (nat * nat) nat) pf rd p w es vals s h outs,
  pure_user U pf rd /\ sound_eq U /\ old_or_new O /\
  eager pf rd p [] w = Some (es, vals) /\ Forall (regular pf rd) es /\ Forall (unnested pf rd) es /\
  vals = [Some (VAtom 8); Some (VAtom 12); Some (VAtom 12)] /\
  trun U O p (mkState [] w) 0 = Some (s, h, outs) /\
  results outs = [Ok (Some (VAtom 8)); Exc; Ok (Some (VAtom 8))].
Proof. exact refuted_C58. Qed.
Print Assumptions C58_right_after_comparison_throws_refuted.
