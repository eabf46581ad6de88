(** The designs of the walkthrough and the library (C59).

    Statements only; proofs in DocThms.v, DocFinal.v, DocExamples.v. *)
From Coq Require Import List Bool Arith.
From Verif Require Import Value TupleAlg LazyModel LazySpec LazySpec2 LazyExamples
  DocModel DocSpec DocThms DocFinal DocExamples.
Import ListNotations.

(** C59: the design the walkthrough starts from, which remembers the arguments, is a
    description of the library: in every program the calls return the same results and
    call the same functions with the same arguments in the same order.  Only the
    comparisons are not the same. *)
Theorem C59_dependencies_design :
  forall (A W fid did : Type) (U : user A W fid did) pf rd,
  pure_user U pf rd -> exact_eq U ->
  forall p w es vals,
    eager pf rd p [] w = Some (es, vals) -> Forall (regular pf rd) es -> Forall (never_null pf rd) es ->
    exists s outs,
      run U p (mkState [] w) = Some (s, outs) /\
      wrun U p [] w = Some (map (fun o => (fst o, without_comparisons (snd o))) outs).
Proof. exact @doc_dependencies. Qed.
Print Assumptions C59_dependencies_design.

Example C59_dependencies_case :
  pure_user ex_user ex_pf ex_rd /\ exact_eq ex_user /\
  exists es vals outs,
  eager ex_pf ex_rd doc_program [] (5, 3) = Some (es, vals) /\
  Forall (regular ex_pf ex_rd) es /\ Forall (never_null ex_pf ex_rd) es /\
  wrun ex_user doc_program [] (5, 3) = Some outs /\
  results outs = map (fun n => Ok (Some (VAtom n))) [18; 18; 26; 26; 26; 13] /\
  map (fun o => length (function_calls (snd o))) outs = [0; 0; 3; 0; 0; 0; 3; 3; 0; 2; 1].
Proof. exact ex_C59_dependencies. Qed.

(** The final design of the walkthrough, which calls dependencies a second time for
    their values, returns the same results, calls the same wrapped functions with the
    same arguments in the same order, and ends in the same state; every call of a plain
    function that the library makes, it makes too, in the same order. *)
Theorem C59_final_design :
  forall (A W fid did : Type) (U : user A W fid did) pf rd,
  pure_user U pf rd -> exact_eq U ->
  forall p w es vals,
    eager pf rd p [] w = Some (es, vals) -> Forall (regular pf rd) es -> Forall (never_null pf rd) es ->
    exists s outs outs',
      run U p (mkState [] w) = Some (s, outs) /\
      frun U p (mkState [] w) = Some (s, outs') /\
      Forall2 (fun o o' =>
        fst o' = fst o /\
        function_calls (snd o') = function_calls (snd o) /\
        subseq (samples (snd o)) (samples (snd o'))) outs outs'.
Proof. exact @doc_final_design. Qed.
Print Assumptions C59_final_design.

Example C59_final_design_case :
  pure_user ex_user ex_pf ex_rd /\ exact_eq ex_user /\
  exists es vals s outs,
  eager ex_pf ex_rd doc_program [] (5, 3) = Some (es, vals) /\
  Forall (regular ex_pf ex_rd) es /\ Forall (never_null ex_pf ex_rd) es /\
  frun ex_user doc_program (mkState [] (5, 3)) = Some (s, outs) /\
  results outs = map (fun n => Ok (Some (VAtom n))) [18; 18; 26; 26; 26; 13] /\
  map (fun o => length (function_calls (snd o))) outs = [0; 0; 3; 0; 0; 0; 3; 3; 0; 2; 1] /\
  map (fun o => length (samples (snd o))) outs = [0; 0; 4; 4; 0; 0; 8; 8; 0; 6; 2].
Proof. exact ex_C59_final_design. Qed.

(** The same with wrapped functions that throw, return anything and change the world, and
    plain functions that throw, as long as the plain functions change nothing and do not
    read what the wrapped ones change, and values compare equal to themselves, hold no
    empty optional and are not tuples: whatever is thrown and whenever, the results, the
    calls of wrapped functions, the world and the caches at the end are the library's. *)
Theorem C59_final_effects :
  forall (A W fid did : Type) (U : user A W fid did),
  (forall d w, snd (dsem U d w) = w) ->
  (forall d f args w, fst (dsem U d (snd (sem U f args w))) = fst (dsem U d w)) ->
  (forall a, aeq U a a = true) ->
  (forall f args w v, fst (sem U f args w) = FRet (Some v) -> as_tuple v = None /\ has_nullopt v = false) ->
  (forall d w v, fst (dsem U d w) = VRet v -> as_tuple v = None /\ has_nullopt v = false) ->
  forall p,
  Forall (fun o => match o with
                   | New _ ss => Forall (fun s => match s with
                                                  | DConst v => as_tuple v = None /\ has_nullopt v = false
                                                  | _ => True
                                                  end) ss
                   | _ => True
                   end) p ->
  forall w s outs,
    run U p (mkState [] w) = Some (s, outs) ->
    exists outs',
      frun U p (mkState [] w) = Some (s, outs') /\
      Forall2 (fun o o' =>
        fst o' = fst o /\
        function_calls (snd o') = function_calls (snd o) /\
        subseq (samples (snd o)) (samples (snd o'))) outs outs'.
Proof. exact @doc_final_effects. Qed.
Print Assumptions C59_final_effects.

Example C59_final_effects_case :
  exists s outs outs',
  (forall d w, snd (dsem counting_thrower d w) = w) /\
  (forall d f args w,
     fst (dsem counting_thrower d (snd (sem counting_thrower f args w))) = fst (dsem counting_thrower d w)) /\
  (forall a, aeq counting_thrower a a = true) /\
  (forall f args w v, fst (sem counting_thrower f args w) = FRet (Some v) ->
     as_tuple v = None /\ has_nullopt v = false) /\
  (forall d w v, fst (dsem counting_thrower d w) = VRet v -> as_tuple v = None /\ has_nullopt v = false) /\
  run counting_thrower thrower_program (mkState [] (5, 0)) = Some (s, outs) /\
  results outs = [Exc; Ok (Some (VAtom 22)); Ok (Some (VAtom 38)); Ok (Some (VAtom 38))] /\
  map (fun o => length (samples (snd o))) outs = [0; 0; 4; 4; 0; 4; 4] /\
  frun counting_thrower thrower_program (mkState [] (5, 0)) = Some (s, outs') /\
  map (fun o => length (samples (snd o))) outs' = [0; 0; 4; 4; 0; 8; 4].
Proof. exact ex_C59_final_effects. Qed.

(** What the library saves by calling dependencies once: when a plain function under a
    chain of [n + 1] lazy functions returns something else and everything changes, the
    final design calls it [n + 2] times, the library once. *)
Theorem C59_double_calls :
  forall (A W fid did : Type) (U : user A W fid did) pf rd,
  pure_user U pf rd -> exact_eq U ->
  forall f d,
  (forall w k, as_tuple (chain_value pf rd f d w k) = None) ->
  (forall w k, has_nullopt (chain_value pf rd f d w k) = false) ->
  forall n w h,
  (forall k, k <= n -> chain_value pf rd f d w k <> chain_value pf rd f d (h w) k) ->
  exists s outs outs' r lg lg',
    run U (chain f d n ++ [Call n; Env h; Call n]) (mkState [] w) = Some (s, outs ++ [(r, lg)]) /\
    frun U (chain f d n ++ [Call n; Env h; Call n]) (mkState [] w) = Some (s, outs' ++ [(r, lg')]) /\
    samples lg = [d] /\ samples lg' = repeat d (n + 2).
Proof. exact @doc_double_calls. Qed.
Print Assumptions C59_double_calls.

Example C59_double_calls_case :
  pure_user ex_user ex_pf ex_rd /\ exact_eq ex_user /\
  (forall w k, as_tuple (chain_value ex_pf ex_rd 0 true w k) = None) /\
  (forall w k, has_nullopt (chain_value ex_pf ex_rd 0 true w k) = false) /\
  (forall k, k <= 10 ->
     chain_value ex_pf ex_rd 0 true (5, 3) k <> chain_value ex_pf ex_rd 0 true (set_first 6 (5, 3)) k).
Proof. exact ex_C59_double_calls. Qed.

(** With a plain function that changes what it returns, the results differ too. *)
Theorem C59_any_plain_function_refuted :
  exists (U : user nat (nat * nat) nat bool) p w s outs s' outs',
    exact_eq U /\ (forall f args w, exists v, sem U f args w = (FRet v, w)) /\
    run U p (mkState [] w) = Some (s, outs) /\
    frun U p (mkState [] w) = Some (s', outs') /\
    results outs <> results outs'.
Proof. exact refuted_C59. Qed.
Print Assumptions C59_any_plain_function_refuted.

(** The first design is also right when functions throw: it remembers the arguments only
    after the function has returned, so the next call tries again.  It needs no
    condition on optionals. *)
Theorem C59_dependencies_exceptions :
  forall (A W fid did : Type) (U : user A W fid did) pf rd,
  pure_or_throw U pf rd -> sound_eq U ->
  forall p w es vals,
    eager pf rd p [] w = Some (es, vals) -> Forall (regular pf rd) es ->
    exists outs, wrun U p [] w = Some outs /\
      Forall2 (fun r v => r = Ok v \/ r = Exc) (results outs) vals.
Proof. exact @doc_exceptions. Qed.
Print Assumptions C59_dependencies_exceptions.

Example C59_exceptions_case :
  pure_or_throw throw_user ex_pf ex_rd /\ sound_eq throw_user /\
  exists es outs,
  eager ex_pf ex_rd throw_program [] (5, 3) = Some (es, map (fun n => Some (VAtom n)) [5; 9; 9]) /\
  Forall (regular ex_pf ex_rd) es /\
  wrun throw_user throw_program [] (5, 3) = Some outs /\
  results outs = [Ok (Some (VAtom 5)); Exc; Ok (Some (VAtom 9))].
Proof. exact ex_C59_exceptions. Qed.

(** In that the library, and the final design, are not like the first design: after the
    function has thrown, they return the outdated value. *)
Theorem C59_same_after_exceptions_refuted :
  exists (U : user nat (nat * nat) nat bool) pf rd p w es vals s outs outs' outs'',
    pure_or_throw U pf rd /\ exact_eq U /\
    eager pf rd p [] w = Some (es, vals) /\ Forall (regular pf rd) es /\ Forall (never_null pf rd) es /\
    run U p (mkState [] w) = Some (s, outs) /\
    results outs = [Ok (Some (VAtom 5)); Exc; Ok (Some (VAtom 5))] /\
    wrun U p [] w = Some outs' /\
    results outs' = [Ok (Some (VAtom 5)); Exc; Ok (Some (VAtom 9))] /\
    frun U p (mkState [] w) = Some (s, outs'') /\
    results outs'' = [Ok (Some (VAtom 5)); Exc; Ok (Some (VAtom 5))].
Proof. exact refuted_C59_exceptions. Qed.
Print Assumptions C59_same_after_exceptions_refuted.
