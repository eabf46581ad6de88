(** The properties of lazy functions (C01-C21, C48).  Statements only:
    each is closed by a lemma proved elsewhere.  After each theorem an example
    shows a concrete non-trivial case that meets its hypotheses. *)
From Coq Require Import List Bool Arith.
From Verif Require Import Value TupleAlg LazyModel LazySpec LazySpec2 LazyThms SharedModel SharedProofs LazyExamples LazyExampleProofs.
Import ListNotations.

(** C01: every call returns what evaluating the whole expression from scratch
    returns.  ([regular]: no node has a single dependency whose value is a tuple
    or pair, see C19; [unnested]: no function returns an optional holding an
    optional, [never_null]: none returns an empty optional, see C55.) *)
Theorem C01_lazy_equals_eager :
  forall (A W fid did : Type) (U : user A W fid did) pf rd,
  pure_user U pf rd -> sound_eq U ->
  forall p w es vals,
    eager pf rd p [] w = Some (es, vals) -> Forall (regular pf rd) es -> Forall (unnested pf rd) es ->
    exists s outs, run U p (mkState [] w) = Some (s, outs) /\ results outs = map Ok vals.
Proof. exact @eager_value. Qed.
Print Assumptions C01_lazy_equals_eager.

Example C01_case :
  pure_user ex_user ex_pf ex_rd /\ sound_eq ex_user /\
  exists es, eager ex_pf ex_rd ex_program [] (5, 3) =
    Some (es, [Some (VAtom 14); Some (VAtom 13); Some (VAtom 14); Some (VAtom 14); Some (VAtom 1)]) /\
  Forall (regular ex_pf ex_rd) es /\ Forall (unnested ex_pf ex_rd) es.
Proof. exact ex_C01. Qed.

(** C02: and it does exactly what is needed, in this order. *)
Theorem C02_exact_effects :
  forall (A W fid did : Type) (U : user A W fid did) pf rd,
  pure_user U pf rd -> exact_eq U ->
  forall p w es vals,
    eager pf rd p [] w = Some (es, vals) -> Forall (regular pf rd) es -> Forall (never_null pf rd) es ->
    exists s ts outs,
      run U p (mkState [] w) = Some (s, outs) /\
      tracked_run pf rd (veq (aeq U)) p [] w = Some (ts, outs).
Proof. exact @exact_effects. Qed.
Print Assumptions C02_exact_effects.

Example C02_case :
  pure_user ex_user ex_pf ex_rd /\ exact_eq ex_user /\
  (exists es vals, eager ex_pf ex_rd ex_program [] (5, 3) = Some (es, vals) /\
     Forall (regular ex_pf ex_rd) es /\ Forall (never_null ex_pf ex_rd) es) /\
  exists ts o3 o4 o5 o6 o7 o8,
  tracked_run ex_pf ex_rd (veq (aeq ex_user)) (ex_program ++ [Call 1]) [] (5, 3) = Some (ts,
    [(None, []); (None, []);
     (Some (Ok (Some (VAtom 14))),
      [EvSample true; EvCall 2 [VAtom 5]; EvSample false; EvCall 0 [VAtom 1; VAtom 3; VAtom 10]]);
     o3; o4; o5; o6; o7; o8;
     (Some (Ok (Some (VAtom 1))), [EvSample true; EvCall 2 [VAtom 7]]);
     (Some (Ok (Some (VAtom 14))),
      [EvSample true; EvCmp (VAtom 7) (VAtom 7); EvSample false; EvCmp (VAtom 3) (VAtom 3)])]).
Proof. exact ex_C02. Qed.

(** C03: without dependencies the function runs until it first succeeds, and
    never again. *)
Theorem C03_call_once :
  forall (A W fid did : Type) (U : user A W fid did) f q s s1 o s' outs,
  exec U (New f []) s = Some (s1, o) -> run U q s1 = Some (s', outs) ->
  exists n m v,
    outputs_of (length (vars s)) q outs = repeat (Some Exc, [EvCall f []]) n ++
      match m with
      | None => []
      | Some k => (Some (Ok v), [EvCall f []]) :: repeat (Some (Ok v), []) k
      end.
Proof. exact @call_once_new. Qed.
Print Assumptions C03_call_once.

Example C03_case :
  exists s1 o s' outs,
  exec counter_user (New 0 []) (mkState [] (5, 0)) = Some (s1, o) /\
  run counter_user [Call 0; Env (set_first 9); Call 0; Call 0] s1 = Some (s', outs) /\
  outputs_of 0 [Call 0; Env (set_first 9); Call 0; Call 0] outs =
    [(Some (Ok (Some (VAtom 5))), [EvCall 0 []]); (Some (Ok (Some (VAtom 5))), []);
     (Some (Ok (Some (VAtom 5))), [])].
Proof. exact ex_C03. Qed.

(** C04: in every program creating and copying shows nothing: no function is called, no
    values are compared. *)
Theorem C04_creation_silent :
  forall (A W fid did : Type) (U : user A W fid did) (p : list (op A W fid did)) s s' outs,
  run U p s = Some (s', outs) ->
  Forall2 (fun o out => match o with New _ _ | Copy _ => out = (None, []) | _ => True end) p outs.
Proof. exact @creation_silent. Qed.
Print Assumptions C04_creation_silent.

(** And it changes neither the outside world nor the lazy functions there are. *)
Theorem C04_creation_no_effect :
  forall (A W fid did : Type) (U : user A W fid did) (p : list (op A W fid did)) s s' outs,
  Forall (fun o => match o with New _ _ | Copy _ => True | _ => False end) p ->
  run U p s = Some (s', outs) ->
  world s' = world s /\ firstn (length (vars s)) (vars s') = vars s.
Proof. exact @creation_no_effect. Qed.
Print Assumptions C04_creation_no_effect.

Example C04_case :
  exists s outs,
  run counter_user [New 0 []; Call 0; New 1 [DVar 0; DConst (VAtom 7)]; Copy 1; Call 1] (mkState [] (5, 0)) = Some (s, outs) /\
  map (fun o => length (snd o)) outs = [0; 1; 0; 0; 1] /\
  Forall (fun o => match o with New _ _ | Copy _ => True | _ => False end)
    [New 1 [DVar 0; DConst (VAtom 7)]; Copy 1 : op nat (nat * nat) nat bool].
Proof. exact ex_C04. Qed.

(** C05: the wrapped function runs exactly when a dependency's value differs
    from what it was at the previous call. *)
Theorem C05_reevaluated_iff_changed :
  forall (A W fid did : Type) (U : user A W fid did) pf rd,
  pure_user U pf rd -> exact_eq U ->
  forall p w es vals f ss ds s outs,
  eager pf rd p [] w = Some (es, vals) -> Forall (regular pf rd) es -> Forall (never_null pf rd) es ->
  spec_deps EConst EFun es ss = Some ds -> regular pf rd (EApp f ds) -> never_null pf rd (EApp f ds) ->
  ~ In (inl f) (flat_map postorder ds) ->
  run U (p ++ [New f ss]) (mkState [] w) = Some (s, outs) ->
  exists l, nth_error (vars s) (length es) = Some l /\
  forall ws k wk r lg,
    nth_error ws k = Some wk -> nth_error (call_seq U l ws) k = Some (r, lg) ->
    (exists args, In (EvCall f args) lg) <->
    match k with
    | 0 => True
    | S j => exists wj e, nth_error ws j = Some wj /\ In e ds /\ eval pf rd e wj <> eval pf rd e wk
    end.
Proof. exact @reeval_iff. Qed.
Print Assumptions C05_reevaluated_iff_changed.

Example C05_case :
  pure_user ex_user ex_pf ex_rd /\ exact_eq ex_user /\
  exists es vals ds s outs,
  eager ex_pf ex_rd [New 2 [DFun true]] [] (5, 3) = Some (es, vals) /\
  Forall (regular ex_pf ex_rd) es /\ Forall (never_null ex_pf ex_rd) es /\
  spec_deps EConst EFun es [DVar 0; DFun false] = Some ds /\
  regular ex_pf ex_rd (EApp 0 ds) /\ never_null ex_pf ex_rd (EApp 0 ds) /\ ~ In (inl 0) (flat_map postorder ds) /\
  run ex_user ([New 2 [DFun true]] ++ [New 0 [DVar 0; DFun false]]) (mkState [] (5, 3)) = Some (s, outs) /\
  ex_pf 2 [ex_rd true (5, 3)] = ex_pf 2 [ex_rd true (7, 3)] /\
  ex_pf 2 [ex_rd true (5, 3)] <> ex_pf 2 [ex_rd true (6, 3)].
Proof. exact ex_C05. Qed.

(** C06: everything is evaluated at the first call, and with constant
    dependencies only, nothing ever again. *)
Theorem C06_first_call_evaluates_all :
  forall (A W fid did : Type) (U : user A W fid did) p w s outs es x e s' v lg,
  no_call p ->
  run U p (mkState [] w) = Some (s, outs) -> shapes p [] = Some es -> nth_error es x = Some e ->
  exec U (Call x) s = Some (s', (Some (Ok v), lg)) ->
  evaluations lg = postorder e.
Proof. exact @first_call_evaluates_all. Qed.
Print Assumptions C06_first_call_evaluates_all.

Theorem C06_constants_never_again :
  forall (A W fid did : Type) (U : user A W fid did) p w s outs es x e s1 v lg,
  run U p (mkState [] w) = Some (s, outs) -> shapes p [] = Some es -> nth_error es x = Some e ->
  const_only e ->
  exec U (Call x) s = Some (s1, (Some (Ok v), lg)) ->
  forall q s2 outs2, run U q s1 = Some (s2, outs2) ->
  Forall (fun o => o = (Some (Ok v), [])) (outputs_of x q outs2).
Proof. exact @constants_never_again. Qed.
Print Assumptions C06_constants_never_again.

Example C06_case :
  let p := [New 0 []; New 2 [DVar 0; DConst (VAtom 4)]] in
  no_call p /\
  exists s outs es e s1 v lg s2 outs2,
  run counter_user p (mkState [] (5, 3)) = Some (s, outs) /\ shapes p [] = Some es /\
  nth_error es 1 = Some e /\ const_only e /\ postorder e = [inl 0; inl 2] /\
  exec counter_user (Call 1) s = Some (s1, (Some (Ok v), lg)) /\
  run counter_user [Env (set_first 9); Call 1; Call 1] s1 = Some (s2, outs2) /\
  length (outputs_of 1 [Env (set_first 9); Call 1; Call 1] outs2) = 2.
Proof. exact ex_C06. Qed.

(** C07: every successful call calls each plain function dependency once per
    occurrence, left to right. *)
Theorem C07_samples :
  forall (A W fid did : Type) (U : user A W fid did) p w s outs es x e s' v lg,
  run U p (mkState [] w) = Some (s, outs) -> shapes p [] = Some es -> nth_error es x = Some e ->
  exec U (Call x) s = Some (s', (Some (Ok v), lg)) ->
  samples lg = plain_functions e.
Proof. exact @samples_of_call. Qed.
Print Assumptions C07_samples.

Example C07_case :
  exists s outs es e s' v lg,
  run ex_user ex_program (mkState [] (5, 3)) = Some (s, outs) /\ shapes ex_program [] = Some es /\
  nth_error es 1 = Some e /\
  exec ex_user (Call 1) s = Some (s', (Some (Ok v), lg)) /\ plain_functions e = [true; false].
Proof. exact ex_C07. Qed.

(** C08: if all dependencies deliver what they delivered before, the node does
    nothing and reports no change; otherwise it runs. *)
Theorem C08_cutoff :
  forall (A W fid did : Type) (U : user A W fid did) f c ds w vs ds' w' lg,
  called_all U ds w vs ds' w' lg -> Forall2 (same_as_before U) ds vs ->
  step U (LCore (FnUser f) (Some c) ds) w = (Ok (c, false), LCore (FnUser f) (Some c) ds', w', lg).
Proof. exact @cutoff. Qed.
Print Assumptions C08_cutoff.

Theorem C08_evaluated_when_changed :
  forall (A W fid did : Type) (U : user A W fid did) f c ds w vs ds' w' lg,
  (forall a, aeq U a a = true) -> Forall (fun v => has_nullopt v = false) vs ->
  called_all U ds w vs ds' w' lg ->
  (c = None \/ ~ Forall2 (same_as_before U) ds vs) ->
  exists args r l' w2 lg2, passes vs args /\
    step U (LCore (FnUser f) c ds) w = (r, l', w2, lg ++ EvCall f args :: lg2).
Proof. exact @evaluated_when_changed. Qed.
Print Assumptions C08_evaluated_when_changed.

(** Re-evaluation below (the input changed from 5 to 7), but not above. *)
Example C08_case :
  let ds := [LCore (FnUser 2) (Some (VAtom 1))
               [LCore (FnSample true) (Some (VAtom 5)) [LValue (VAtom 0) true]]; LValue (VAtom 10) false] in
  (exists ds' lg, called_all ex_user ds (7, 3) [VAtom 1; VAtom 10] ds' (7, 3) lg /\
    In (EvCall 2 [VAtom 7]) lg /\
    Forall2 (same_as_before ex_user) ds [VAtom 1; VAtom 10]) /\
  (exists ds' lg, called_all ex_user ds (6, 3) [VAtom 0; VAtom 10] ds' (6, 3) lg /\
    ~ Forall2 (same_as_before ex_user) ds [VAtom 0; VAtom 10]) /\
  (forall a, aeq ex_user a a = true).
Proof. exact ex_C08. Qed.

(** C09: a comparison directly follows an evaluation; the first call compares
    nothing.  Which values are compared is part of [performs], see C11. *)
Theorem C09_compares_after_evaluating :
  forall (A W fid did : Type) (U : user A W fid did) p w s outs x s' r lg,
  run U p (mkState [] w) = Some (s, outs) ->
  exec U (Call x) s = Some (s', (Some r, lg)) ->
  compares_after_evaluating lg.
Proof. exact @comparisons_of_call. Qed.
Print Assumptions C09_compares_after_evaluating.

Theorem C09_first_call_compares_nothing :
  forall (A W fid did : Type) (U : user A W fid did) p w s outs x s' r lg,
  no_call p -> run U p (mkState [] w) = Some (s, outs) ->
  exec U (Call x) s = Some (s', (Some r, lg)) -> comparisons lg = [].
Proof. exact @first_call_compares_nothing. Qed.
Print Assumptions C09_first_call_compares_nothing.

Example C09_case :
  (exists s outs s' r lg,
   run ex_user ex_program (mkState [] (5, 3)) = Some (s, outs) /\
   exec ex_user (Call 1) s = Some (s', (Some r, lg)) /\
   comparisons lg = [(VAtom 7, VAtom 7); (VAtom 3, VAtom 3)]) /\
  no_call ex_new /\
  exists s outs s' r lg, run ex_user ex_new (mkState [] (5, 3)) = Some (s, outs) /\
   exec ex_user (Call 1) s = Some (s', (Some r, lg)) /\ length lg = 4.
Proof. exact ex_C09. Qed.

(** C10: the change flag of the k-th call says whether the value differs from
    that of the previous successful call. *)
Theorem C10_change_flag :
  forall (A W fid did : Type) (U : user A W fid did) f deps ws k v ch lg,
  (forall a, aeq U a a = true) ->
  nth_error (call_seq U (mk_lazy U f deps) ws) k = Some (Ok (v, ch), lg) -> has_nullopt v = false ->
  (ch = true <->
   match last_value (firstn k (call_seq U (mk_lazy U f deps) ws)) with
   | None => True
   | Some previous => veq (aeq U) previous v = false
   end).
Proof. exact @change_flag. Qed.
Print Assumptions C10_change_flag.

Example C10_case :
  (forall a, aeq throw_user a a = true) /\
  map fst (call_seq throw_user (mk_lazy throw_user 0 [ObjPlain true])
             [(5, 0); (5, 0); (6, 99); (7, 0); (7, 0)]) =
    [Ok (VAtom 5, true); Ok (VAtom 5, false); Exc; Ok (VAtom 7, true); Ok (VAtom 7, false)] /\
  map fst (call_seq ex_user (mk_lazy ex_user 0 [ObjPlain true]) [(5, 0); (5, 0); (6, 99)]) =
    [Ok (VAtom 5, true); Ok (VAtom 5, false); Ok (VAtom 6, true)].
Proof. exact ex_C10. Qed.

(** And what the k-th call delivers: what the wrapped function returned in this call
    (then compared once with what the previous successful call delivered), or exactly
    what the previous successful call delivered. *)
Theorem C10_delivered :
  forall (A W fid did : Type) (U : user A W fid did) f deps ws k v ch lg,
  nth_error (call_seq U (mk_lazy U f deps) ws) k = Some (Ok (v, ch), lg) ->
  let previous := last_value (firstn k (call_seq U (mk_lazy U f deps) ws)) in
  (exists before args o w w',
     lg = before ++ EvCall f args :: match previous with None => [] | Some u => [EvCmp u v] end /\
     sem U f args w = (FRet o, w') /\ v = match o with Some u => u | None => VVoid end /\
     (nested_opt v = false ->
      ch = if has_nullopt v then match previous with None => false | Some _ => true end
           else match previous with None => true | Some u => negb (veq (aeq U) u v) end)) \/
  (previous = Some v /\ ch = false).
Proof. exact @delivered. Qed.
Print Assumptions C10_delivered.

(** Values 8 and 10 are equal by parity; the third call delivers the 10. *)
Example C10_delivered_case :
  call_seq parity_sum_user (mk_lazy parity_sum_user 0 [ObjPlain true; ObjPlain false]) [(5, 3); (6, 4); (6, 4)] =
    [(Ok (VAtom 8, true), [EvSample true; EvSample false; EvCall 0 [VAtom 5; VAtom 3]]);
     (Ok (VAtom 10, false), [EvSample true; EvCmp (VAtom 5) (VAtom 6); EvSample false; EvCmp (VAtom 3) (VAtom 4);
                             EvCall 0 [VAtom 6; VAtom 4]; EvCmp (VAtom 8) (VAtom 10)]);
     (Ok (VAtom 10, false), [EvSample true; EvCmp (VAtom 6) (VAtom 6); EvSample false; EvCmp (VAtom 4) (VAtom 4)])].
Proof. exact ex_C10_delivered. Qed.

(** C11: at most one evaluation per occurrence, dependencies first; and every
    evaluation gets the values its dependencies delivered in this call. *)
Theorem C11_at_most_once :
  forall (A W fid did : Type) (U : user A W fid did) p w s outs es x e s' r lg,
  run U p (mkState [] w) = Some (s, outs) -> shapes p [] = Some es -> nth_error es x = Some e ->
  exec U (Call x) s = Some (s', (Some r, lg)) ->
  subseq (evaluations lg) (postorder e).
Proof. exact @evaluations_of_call. Qed.
Print Assumptions C11_at_most_once.

Theorem C11_performs :
  forall (A W fid did : Type) (U : user A W fid did) p w s outs x s' r lg,
  run U p (mkState [] w) = Some (s, outs) ->
  exec U (Call x) s = Some (s', (Some r, lg)) ->
  exists l r', nth_error (vars s) x = Some l /\ r = api_result r' /\
    performs U l (world s) lg (world s') (outcome r').
Proof. exact @what_a_call_does. Qed.
Print Assumptions C11_performs.

Example C11_case :
  exists s outs es e s' r lg,
  run throw_user ex_program (mkState [] (5, 3)) = Some (s, outs) /\ shapes ex_program [] = Some es /\
  nth_error es 1 = Some e /\
  exec throw_user (Call 1) (mkState (vars s) (6, 99)) = Some (s', (Some r, lg)) /\
  r = Exc /\ evaluations lg = [inr true; inl 2; inr false; inl 0] /\
  postorder e = [inr true; inl 2; inr false; inl 0].
Proof. exact ex_C11. Qed.

(** C12: a lazy void function returns void, and reports a change only until its
    first success (so, by C08, dependents do not re-run because of it). *)
Theorem C12_void :
  forall (A W fid did : Type) (U : user A W fid did) f deps ws k r lg,
  void_function U f ->
  nth_error (call_seq U (mk_lazy U f deps) ws) k = Some (r, lg) ->
  r = Exc \/
  (api_result r = Ok None /\
   r = Ok (VVoid, match last_value (firstn k (call_seq U (mk_lazy U f deps) ws)) with
                  | None => true | Some _ => false end)).
Proof. exact @void_calls. Qed.
Print Assumptions C12_void.

Example C12_case :
  void_function ex_user 1 /\
  call_seq ex_user (mk_lazy ex_user 1 [ObjPlain true]) [(5, 0); (6, 0)] =
    [(Ok (VVoid, true), [EvSample true; EvCall 1 [VAtom 5]]);
     (Ok (VVoid, false), [EvSample true; EvCmp (VAtom 5) (VAtom 6); EvCall 1 [VAtom 6]; EvCmp VVoid VVoid])].
Proof. exact ex_C12. Qed.

(** C13: calling a lazy function does not change what anything else does, as
    long as user functions do not change the outside world. *)
Theorem C13_copies_independent :
  forall (A W fid did : Type) (U : user A W fid did), readonly_user U ->
  forall x p s s1 o1 s1' outs1,
  exec U (Call x) s = Some (s1, o1) -> not_copied x p -> run U p s1 = Some (s1', outs1) ->
  exists s2' outs2, run U p s = Some (s2', outs2) /\
    outputs_except x p outs1 = outputs_except x p outs2.
Proof. exact @copies_independent. Qed.
Print Assumptions C13_copies_independent.

(** Whatever user functions do, a call leaves all other lazy functions alone. *)
Theorem C13_others_untouched :
  forall (A W fid did : Type) (U : user A W fid did) x s s1 o1,
  exec U (Call x) s = Some (s1, o1) ->
  forall y, y <> x -> nth_error (vars s1) y = nth_error (vars s) y.
Proof. exact @call_others. Qed.
Print Assumptions C13_others_untouched.

Example C13_case :
  readonly_user ex_user /\ not_copied 0 ([Call 1; Env (set_first 6); Call 0; Call 1; Call 2] : list (op nat (nat * nat) nat bool)) /\
  exists s outs s1 o1 s1' outs1,
  run ex_user [New 0 [DFun true]; New 3 [DVar 0]; Copy 0] (mkState [] (5, 0)) = Some (s, outs) /\
  exec ex_user (Call 0) s = Some (s1, o1) /\
  run ex_user [Call 1; Env (set_first 6); Call 0; Call 1; Call 2] s1 = Some (s1', outs1) /\
  length (outputs_except 0 [Call 1; Env (set_first 6); Call 0; Call 1; Call 2] outs1) = 4.
Proof. exact ex_C13. Qed.

(** C14: a call that throws leaves caches on the way to the throwing node as
    they were and everything to the right alone; a node without cached value is
    evaluated by the next successful call. *)
Theorem C14_exception :
  forall (A W fid did : Type) (U : user A W fid did) x s s' lg,
  exec U (Call x) s = Some (s', (Some Exc, lg)) ->
  exists l l' path g,
    nth_error (vars s) x = Some l /\ vars s' = update x l' (vars s) /\
    failed U l (world s) l' path g /\
    (last path None = None -> In (label g) (pending l')).
Proof. exact @exception_effect. Qed.
Print Assumptions C14_exception.

Theorem C14_retry :
  forall (A W fid did : Type) (U : user A W fid did) p w s outs x s' v lg,
  run U p (mkState [] w) = Some (s, outs) ->
  exec U (Call x) s = Some (s', (Some (Ok v), lg)) ->
  exists l, nth_error (vars s) x = Some l /\ subseq (pending l) (evaluations lg).
Proof. exact @pending_evaluated. Qed.
Print Assumptions C14_retry.

Example C14_case :
  exists s outs s' lg l s2 v lg2,
  run throw_user ex_new (mkState [] (5, 99)) = Some (s, outs) /\
  exec throw_user (Call 1) s = Some (s', (Some Exc, lg)) /\
  nth_error (vars s') 1 = Some l /\ pending l = [inl 0] /\
  run throw_user (ex_new ++ [Call 1; Env (fun _ => (5, 3))]) (mkState [] (5, 99)) =
    Some (mkState (vars s') (5, 3), outs ++ [(Some Exc, lg); (None, [])]) /\
  exec throw_user (Call 1) (mkState (vars s') (5, 3)) = Some (s2, (Some (Ok v), lg2)) /\
  v = Some (VAtom 14).
Proof. exact ex_C14. Qed.

(** C15 is false: after an exception a call may return an outdated value.  Here
    the wrapped function throws at input 6 and the next call returns the sum for
    input 5. *)
Theorem C15_stale_after_exception_refuted :
  exists (U : user nat (nat * nat) nat bool) pf rd w1 w2 l,
  pure_or_throw U pf rd /\ sound_eq U /\
  l = mk_lazy U 0 [ObjPlain true] /\
  map fst (call_seq U l [w1; w2; (fst w2, 0)]) =
    [Ok (eval pf rd (EApp 0 [EFun true]) w1, true); Exc; Ok (eval pf rd (EApp 0 [EFun true]) w1, false)] /\
  eval pf rd (EApp 0 [EFun true]) (fst w2, 0) <> eval pf rd (EApp 0 [EFun true]) w1.
Proof. exact refuted_C15. Qed.
Print Assumptions C15_stale_after_exception_refuted.

(** Also if no wrapped function throws but a dependency to the right does. *)
Theorem C15_stale_after_dependency_exception_refuted :
  exists (U : user nat (nat * nat) nat bool) pf rd w1 w2 w3 l,
  pure_or_throw U pf rd /\ sound_eq U /\
  l = mk_lazy U 0 [ObjPlain true; ObjPlain false] /\
  map fst (call_seq U l [w1; w2; w3]) =
    [Ok (eval pf rd (EApp 0 [EFun true; EFun false]) w1, true); Exc;
     Ok (eval pf rd (EApp 0 [EFun true; EFun false]) w1, false)] /\
  eval pf rd (EApp 0 [EFun true; EFun false]) w3 <> eval pf rd (EApp 0 [EFun true; EFun false]) w1.
Proof. exact refuted_C15_dep. Qed.
Print Assumptions C15_stale_after_dependency_exception_refuted.

(** What holds of C15: if every failing call fails on a path of wrapped functions
    that were never evaluated successfully, later successful calls are right.  Missing: the
    case of a failing re-evaluation, which is false. *)
Theorem C15_after_exception_partial :
  forall (A W fid did : Type) (U : user A W fid did) pf rd,
  pure_or_throw U pf rd -> sound_eq U ->
  forall p w s outs es x e l ws,
    no_call p -> run U p (mkState [] w) = Some (s, outs) -> shapes p [] = Some es ->
    nth_error es x = Some e -> regular pf rd e -> unnested pf rd e -> nth_error (vars s) x = Some l ->
    safe_calls U l ws ->
    forall k wk v ch lg, nth_error ws k = Some wk ->
      nth_error (call_seq U l ws) k = Some (Ok (v, ch), lg) -> v = eval pf rd e wk.
Proof. exact @after_exception. Qed.
Print Assumptions C15_after_exception_partial.

Example C15_case :
  pure_or_throw throw_user ex_pf ex_rd /\ sound_eq throw_user /\ no_call ex_new /\
  exists s outs es e l,
  run throw_user ex_new (mkState [] (5, 99)) = Some (s, outs) /\ shapes ex_new [] = Some es /\
  nth_error es 1 = Some e /\ regular ex_pf ex_rd e /\ unnested ex_pf ex_rd e /\ nth_error (vars s) 1 = Some l /\
  safe_calls throw_user l [(5, 99); (6, 98); (6, 3); (7, 4)] /\
  map fst (call_seq throw_user l [(5, 99); (6, 98); (6, 3); (7, 4)]) =
    [Exc; Exc; Ok (VAtom 13, true); Ok (VAtom 15, true)].
Proof. exact ex_C15. Qed.

(** C16: with a coarser equality results are right up to it, if the wrapped
    functions respect it. *)
Theorem C16_coarse_equality :
  forall (A W fid did : Type) (U : user A W fid did) pf rd,
  pure_user U pf rd ->
  (forall a, aeq U a a = true) ->
  (forall a b, aeq U a b = aeq U b a) ->
  (forall a b c, aeq U a b = true -> aeq U b c = true -> aeq U a c = true) ->
  (forall f xs ys, Forall2 (fun x y => veq (aeq U) x y = true) xs ys ->
     veq (aeq U) (fval pf f xs) (fval pf f ys) = true) ->
  forall p w es vals,
    eager pf rd p [] w = Some (es, vals) -> Forall (regular pf rd) es -> Forall (unnested pf rd) es ->
    exists s outs, run U p (mkState [] w) = Some (s, outs) /\
      Forall2 (seen (fun x y => veq (aeq U) x y = true)) (results outs) vals.
Proof. exact @coarse_value. Qed.
Print Assumptions C16_coarse_equality.

(** Adding respects parity; the second call returns the outdated 15 for 17. *)
Example C16_case :
  let U := parity_sum_user in
  pure_user U sum_pf ex_rd /\ (forall a, aeq U a a = true) /\
  (forall a b, aeq U a b = aeq U b a) /\
  (forall a b c, aeq U a b = true -> aeq U b c = true -> aeq U a c = true) /\
  (forall f xs ys, Forall2 (fun x y => veq (aeq U) x y = true) xs ys ->
     veq (aeq U) (fval sum_pf f xs) (fval sum_pf f ys) = true) /\
  exists es s outs,
  eager sum_pf ex_rd [New 0 [DFun true; DConst (VAtom 10)]; Call 0; Env (set_first 7); Call 0] [] (5, 3) =
    Some (es, [Some (VAtom 15); Some (VAtom 17)]) /\
  Forall (regular sum_pf ex_rd) es /\ Forall (unnested sum_pf ex_rd) es /\
  run U [New 0 [DFun true; DConst (VAtom 10)]; Call 0; Env (set_first 7); Call 0] (mkState [] (5, 3)) = Some (s, outs) /\
  results outs = [Ok (Some (VAtom 15)); Ok (Some (VAtom 15))].
Proof. exact ex_C16. Qed.

(** Without the respect condition the result can be wrong even up to ==. *)
Theorem C16_without_respect_refuted :
  exists (U : user nat (nat * nat) nat bool) pf rd p w es v1 v2 s outs r,
  pure_user U pf rd /\ (forall a, aeq U a a = true) /\
  (forall a b, aeq U a b = aeq U b a) /\
  (forall a b c, aeq U a b = true -> aeq U b c = true -> aeq U a c = true) /\
  eager pf rd p [] w = Some (es, [Some v1; Some v2]) /\ Forall (regular pf rd) es /\ Forall (never_null pf rd) es /\
  run U p (mkState [] w) = Some (s, outs) /\
  results outs = [Ok (Some v1); Ok (Some r)] /\ veq (aeq U) r v2 = false.
Proof. exact refuted_C16. Qed.
Print Assumptions C16_without_respect_refuted.

(** C17: a value that is not equal to its predecessor (even to itself) re-runs
    the dependents; C01 needs no reflexivity, so results are still right. *)
Theorem C17_unequal_sample_evaluates :
  forall (A W fid did : Type) (U : user A W fid did) f c ds w vs ds' w' lg i d old v,
  called_all U ds w vs ds' w' lg ->
  nth_error ds i = Some (LCore (FnSample d) (Some old) [LValue (VAtom (int0 U)) true]) ->
  nth_error vs i = Some v -> nested_opt v = false -> veq (aeq U) old v = false ->
  exists args r l' w2 lg2, passes vs args /\
    step U (LCore (FnUser f) c ds) w = (r, l', w2, lg ++ EvCall f args :: lg2).
Proof. exact @sample_changed_evaluates. Qed.
Print Assumptions C17_unequal_sample_evaluates.

Theorem C17_unequal_node_evaluates :
  forall (A W fid did : Type) (U : user A W fid did) f c ds1 g old ds0 ds2 w
    vs1 ds1' w1 lg1 vs0 ds0' w0 lg0 v ch d' args0 rest w2 vs2 ds2' w3 lg2,
  called_all U ds1 w vs1 ds1' w1 lg1 ->
  called_all U ds0 w1 vs0 ds0' w0 lg0 ->
  (* the dependency evaluated its own function [g] and got [v] *)
  step U (LCore (FnUser g) (Some old) ds0) w1 = (Ok (v, ch), d', w2, lg0 ++ EvCall g args0 :: rest) ->
  nested_opt v = false -> veq (aeq U) old v = false ->
  called_all U ds2 w2 vs2 ds2' w3 lg2 ->
  exists args r l' w4 lg3, passes (vs1 ++ v :: vs2) args /\
    step U (LCore (FnUser f) c (ds1 ++ LCore (FnUser g) (Some old) ds0 :: ds2)) w =
      (r, l', w4, lg1 ++ (lg0 ++ EvCall g args0 :: rest) ++ lg2 ++ EvCall f args :: lg3).
Proof. exact @node_changed_evaluates. Qed.
Print Assumptions C17_unequal_node_evaluates.

Example C17_case :
  pure_user nan_user ex_pf ex_rd /\ sound_eq nan_user /\ veq (aeq nan_user) (VAtom 7) (VAtom 7) = false /\
  (let ds := [LCore (FnSample true) (Some (VAtom 7)) [LValue (VAtom (int0 nan_user)) true]] in
   exists ds' lg, called_all nan_user ds (7, 0) [VAtom 7] ds' (7, 0) lg) /\
  (let ds0 := [LCore (FnSample true) (Some (VAtom 7)) [LValue (VAtom (int0 nan_user)) true]] in
   exists ds0' lg0 d' rest,
     called_all nan_user ds0 (7, 0) [VAtom 7] ds0' (7, 0) lg0 /\
     step nan_user (LCore (FnUser 0) (Some (VAtom 7)) ds0) (7, 0) =
       (Ok (VAtom 7, true), d', (7, 0), lg0 ++ EvCall 0 [VAtom 7] :: rest)).
Proof. exact ex_C17. Qed.

(** C18: the three kinds of dependencies. *)
Theorem C18_classification :
  forall (A W fid did : Type) (U : user A W fid did) (o : depobj A fid did),
  match o with
  | ObjLazy l => ensure_lazy U o = l
  | ObjPlain d =>
      forall ws k r lg, nth_error (call_seq U (ensure_lazy U o) ws) k = Some (r, lg) ->
        exists w, nth_error ws k = Some w /\ samples lg = [d] /\
          (forall f args, ~ In (EvCall f args) lg) /\
          match fst (dsem U d w), r with
          | VRet v, Ok (v', _) => v' = v
          | VThrow, Exc => True
          | _, _ => False
          end
  | ObjRawLazy _ v | ObjValue v =>
      forall w, step U (ensure_lazy U o) w = (Ok (v, false), ensure_lazy U o, w, [])
  end.
Proof. exact @classification. Qed.
Print Assumptions C18_classification.

Example C18_case :
  map fst (call_seq ex_user (ensure_lazy ex_user (ObjPlain true)) [(5, 0); (6, 0); (6, 0)]) =
    [Ok (VAtom 5, true); Ok (VAtom 6, true); Ok (VAtom 6, false)] /\
  map fst (call_seq ex_user (ensure_lazy ex_user (ObjValue (VAtom 3))) [(5, 0); (6, 0)]) =
    [Ok (VAtom 3, false); Ok (VAtom 3, false)].
Proof. exact ex_C18. Qed.

(** C19 is false: a single dependency that yields a pair becomes two arguments. *)
Theorem C19_one_argument_per_dependency_refuted :
  exists (U : user nat (nat * nat) nat bool) f d w r l' w' lg args,
  step U (mk_lazy U f [ObjPlain d]) w = (r, l', w', lg) /\
  In (EvCall f args) lg /\ length args = 2.
Proof. exact refuted_C19. Qed.
Print Assumptions C19_one_argument_per_dependency_refuted.

(** What holds of C19: the arguments are the delivered values, except that a single tuple
    or pair is taken apart. *)
Theorem C19_arguments_partial :
  forall (A W fid did : Type) (U : user A W fid did) f c ds w vs ds' w' lg r l' w2 lg2,
  called_all U ds w vs ds' w' lg ->
  step U (LCore (FnUser f) c ds) w = (r, l', w2, lg2) ->
  exists own, lg2 = lg ++ own /\
    (own = [] \/ exists args rest, own = EvCall f args :: rest /\
       (forall g args', ~ In (EvCall g args') rest) /\
       args = match vs with [VTuple l] => l | [VPair x y] => [x; y] | _ => vs end).
Proof. exact @own_arguments. Qed.
Print Assumptions C19_arguments_partial.

Example C19_case :
  exists ds ds' lg r l' w2 lg2,
  ds = map (ensure_lazy pair_user) [ObjPlain true; ObjValue (VAtom 3)] /\
  called_all pair_user ds (1, 2) [VPair (VAtom 1) (VAtom 2); VAtom 3] ds' (1, 2) lg /\
  step pair_user (LCore (FnUser 4) None ds) (1, 2) = (r, l', w2, lg2) /\
  lg2 = lg ++ [EvCall 4 [VPair (VAtom 1) (VAtom 2); VAtom 3]].
Proof. exact ex_C19. Qed.

(** C20 is false: a lazy function shared by two dependents tells only one of
    them about a change; also if both are used by the same lazy function. *)
Theorem C20_shared_refuted :
  exists (U : user nat (nat * nat) nat bool) pf rd p w s outs es vals,
  pure_user U pf rd /\ exact_eq U /\
  srun U p (mkSState [] w) = Some (s, outs) /\
  eager pf rd (map by_value p) [] w = Some (es, vals) /\ Forall (regular pf rd) es /\ Forall (never_null pf rd) es /\
  results outs <> map Ok vals /\
  p = [SNew 0 [SDep (DFun true)]; SNew 0 [SDRef 0]; SNew 3 [SDRef 0];
       SCall 1; SCall 2; SEnv (set_first 9); SCall 1; SCall 2].
Proof. exact refuted_C20. Qed.
Print Assumptions C20_shared_refuted.

Theorem C20_diamond_refuted :
  exists (U : user nat (nat * nat) nat bool) pf rd p w s outs es vals,
  pure_user U pf rd /\ exact_eq U /\
  srun U p (mkSState [] w) = Some (s, outs) /\
  eager pf rd (map by_value p) [] w = Some (es, vals) /\ Forall (regular pf rd) es /\ Forall (never_null pf rd) es /\
  results outs <> map Ok vals /\
  p = [SNew 0 [SDep (DFun true)]; SNew 0 [SDRef 0]; SNew 3 [SDRef 0]; SNew 0 [SDep (DVar 1); SDep (DVar 2)];
       SCall 3; SEnv (set_first 9); SCall 3].
Proof. exact refuted_C20_diamond. Qed.
Print Assumptions C20_diamond_refuted.

(** What holds of C20: with a single user, sharing by reference does exactly what
    a copy would do (so C01-C19 apply).  Missing: several users, which is false. *)
Theorem C20_single_user_partial :
  forall (A W fid did : Type) (U : user A W fid did) p w s' outs,
  single_user p 0 [] [] ->
  run U (map by_value p) (mkState [] w) = Some (s', outs) ->
  exists s, srun U p (mkSState [] w) = Some (s, outs).
Proof. exact @single_user_same. Qed.
Print Assumptions C20_single_user_partial.

Example C20_case :
  let p := [SNew 0 [SDep (DFun true)]; SNew 3 [SDRef 0; SDep (DFun false)]; SNew 0 [SDRef 1; SDep (DConst (VAtom 1))];
            SCall 2; SEnv (set_first 9); SCall 2] in
  single_user p 0 [] [] /\
  exists s' outs, run ex_user (map by_value p) (mkState [] (5, 3)) = Some (s', outs) /\
  results outs = [Ok (Some (VAtom 5)); Ok (Some (VAtom 7))].
Proof. exact ex_C20. Qed.

(** C21: if the outside world did not change, a repeated call returns the same
    value, calls no wrapped function and reports no change. *)
Theorem C21_repeat :
  forall (A W fid did : Type) (U : user A W fid did) pf rd,
  pure_user U pf rd -> exact_eq U ->
  forall p w es vals s outs x s1 v lg,
  eager pf rd p [] w = Some (es, vals) -> Forall (regular pf rd) es -> Forall (never_null pf rd) es ->
  run U p (mkState [] w) = Some (s, outs) ->
  exec U (Call x) s = Some (s1, (Some (Ok v), lg)) ->
  forall q s2 outs2 r lg2 s3, no_env q -> run U q s1 = Some (s2, outs2) ->
    exec U (Call x) s2 = Some (s3, (Some r, lg2)) ->
    r = Ok v /\ Forall (fun ev => match ev with EvCall _ _ => False | _ => True end) lg2 /\
    exists l u l', nth_error (vars s2) x = Some l /\
      step U l (world s2) = (Ok (u, false), l', world s3, lg2).
Proof. exact @repeat_call. Qed.
Print Assumptions C21_repeat.

Example C21_case :
  pure_user ex_user ex_pf ex_rd /\ exact_eq ex_user /\
  exists es vals s outs s1 v lg s2 outs2 r lg2 s3,
  eager ex_pf ex_rd ex_program [] (5, 3) = Some (es, vals) /\ Forall (regular ex_pf ex_rd) es /\ Forall (never_null ex_pf ex_rd) es /\
  run ex_user ex_program (mkState [] (5, 3)) = Some (s, outs) /\
  exec ex_user (Call 1) s = Some (s1, (Some (Ok v), lg)) /\
  no_env ([Call 0; New 0 [DVar 1]; Call 3] : list (op nat (nat * nat) nat bool)) /\
  run ex_user [Call 0; New 0 [DVar 1]; Call 3] s1 = Some (s2, outs2) /\
  exec ex_user (Call 1) s2 = Some (s3, (Some r, lg2)) /\ length lg2 = 4.
Proof. exact ex_C21. Qed.

(** C48: no call reads an empty cache. *)
Theorem C48_never_reads_empty_cache :
  forall (A W fid did : Type) (U : user A W fid did) p s s' outs,
  run U p s = Some (s', outs) -> Forall (fun o => fst o <> Some UB) outs.
Proof. exact @never_ub. Qed.
Print Assumptions C48_never_reads_empty_cache.

Example C48_case :
  exists s outs, run throw_user ex_program (mkState [] (5, 99)) = Some (s, outs) /\ length outs = 10 /\
  In (Some Exc) (map fst outs).
Proof. exact ex_C48. Qed.
