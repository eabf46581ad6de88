(** Results of type [std::optional] (C55).  Statements only. *)
From Coq Require Import List Bool Arith.
From Verif Require Import Value TupleAlg LazyModel LazySpec LazySpec2 LazyExamples OptionalSpec OptionalThms OptionalExamples.
Import ListNotations.

(** Everything calls do, also with empty optionals and values that are not equal to
    themselves (compare C02). *)
Theorem C55_exact_effects :
  forall (A W fid did : Type) (U : user A W fid did) pf rd,
  pure_user U pf rd -> sound_eq U ->
  forall p w es vals,
    eager pf rd p [] w = Some (es, vals) -> Forall (regular pf rd) es -> Forall (unnested pf rd) es ->
    exists s ts outs,
      run U p (mkState [] w) = Some (s, outs) /\
      action_run pf rd (veq (aeq U)) p [] w = Some (ts, outs).
Proof. exact @exact_actions. Qed.
Print Assumptions C55_exact_effects.

Example C55_case :
  pure_user opt_user opt_pf opt_rd /\ sound_eq opt_user /\
  (exists es vals, eager opt_pf opt_rd opt_program [] (0, 0) = Some (es, vals) /\
     Forall (regular opt_pf opt_rd) es /\ Forall (unnested opt_pf opt_rd) es) /\
  exists ts, action_run opt_pf opt_rd (veq (aeq opt_user)) opt_program [] (0, 0) = Some (ts,
    let none := VOpt None in let five := VOpt (Some (VAtom 5)) in
    [(None, []); (None, []);
     (Some (Ok (Some (VAtom 0))), [EvSample true; EvCall 1 [none]; EvCall 0 [none; none]]);
     (Some (Ok (Some (VAtom 0))),
      [EvSample true; EvCmp none none; EvCall 1 [none]; EvCmp none none; EvCall 0 [none; none]; EvCmp (VAtom 0) (VAtom 0)]);
     (None, []);
     (Some (Ok (Some (VAtom 1))),
      [EvSample true; EvCmp none five; EvCall 1 [five]; EvCmp none five; EvCall 0 [five; none]; EvCmp (VAtom 0) (VAtom 1)]);
     (Some (Ok (Some (VAtom 1))), [EvSample true; EvCmp five five]);
     (None, []);
     (Some (Ok (Some (VAtom 0))),
      [EvSample true; EvCmp five none; EvCall 1 [none]; EvCmp five none; EvCall 0 [none; none]; EvCmp (VAtom 1) (VAtom 0)]);
     (Some (Ok (Some (VAtom 0))),
      [EvSample true; EvCmp none none; EvCall 1 [none]; EvCmp none none; EvCall 0 [none; none]; EvCmp (VAtom 0) (VAtom 0)])]).
Proof. exact ex_C55. Qed.

(** A wrapped function runs again if the value of a dependency changed, or a plain
    dependency yields an empty optional; and only if the value of a dependency
    changed or is an empty optional (compare C05). *)
Theorem C55_reevaluated :
  forall (A W fid did : Type) (U : user A W fid did) pf rd,
  pure_user U pf rd -> sound_eq U ->
  forall p w es vals f ss ds s outs,
  eager pf rd p [] w = Some (es, vals) -> Forall (regular pf rd) es -> Forall (unnested pf rd) es ->
  spec_deps EConst EFun es ss = Some ds -> regular pf rd (EApp f ds) -> unnested pf rd (EApp f ds) ->
  ~ In (inl f) (flat_map postorder ds) ->
  run U (p ++ [New f ss]) (mkState [] w) = Some (s, outs) ->
  exists l, nth_error (vars s) (length es) = Some l /\
  forall ws j wj wk r lg,
    nth_error ws j = Some wj -> nth_error ws (S j) = Some wk ->
    nth_error (call_seq U l ws) (S j) = Some (r, lg) ->
    ((exists e, In e ds /\
        (eval pf rd e wj <> eval pf rd e wk \/ exists d, e = EFun d /\ rd d wk = VOpt None)) ->
     exists args, In (EvCall f args) lg) /\
    ((forall a, aeq U a a = true) -> (exists args, In (EvCall f args) lg) ->
     exists e, In e ds /\ (eval pf rd e wj <> eval pf rd e wk \/ eval pf rd e wk = VOpt None)).
Proof. exact @reeval_optional. Qed.
Print Assumptions C55_reevaluated.

Example C55_reevaluated_case :
  pure_user opt_user opt_pf opt_rd /\ sound_eq opt_user /\ (forall a, aeq opt_user a a = true) /\
  exists es vals ds s outs,
  eager opt_pf opt_rd [New 1 [DFun true]] [] (0, 0) = Some (es, vals) /\
  Forall (regular opt_pf opt_rd) es /\ Forall (unnested opt_pf opt_rd) es /\
  spec_deps EConst EFun es [DVar 0; DFun true] = Some ds /\
  regular opt_pf opt_rd (EApp 0 ds) /\ unnested opt_pf opt_rd (EApp 0 ds) /\
  ~ In (inl 0) (flat_map postorder ds) /\
  run opt_user ([New 1 [DFun true]] ++ [New 0 [DVar 0; DFun true]]) (mkState [] (0, 0)) = Some (s, outs) /\
  In (EFun true) ds /\ opt_rd true (0, 0) = VOpt None.
Proof. exact ex_C55_reevaluated. Qed.

(** So C05 and C21 need their condition that no empty optional occurs: here nothing
    changes, yet the function runs at every call. *)
Theorem C55_repeat_refuted :
  exists (U : user nat (nat * nat) nat bool) pf rd l w,
  pure_user U pf rd /\ exact_eq U /\ regular pf rd (EApp 0 [EFun true]) /\ unnested pf rd (EApp 0 [EFun true]) /\
  l = mk_lazy U 0 [ObjPlain true] /\
  map (fun c => evaluations (snd c)) (call_seq U l [w; w; w]) =
    [[inr true; inl 0]; [inr true; inl 0]; [inr true; inl 0]].
Proof. exact refuted_C55_repeat. Qed.
Print Assumptions C55_repeat_refuted.

(** And C01 needs its condition that no optional holds an optional: here the
    dependency changes from an empty optional to one holding an empty optional, and
    the second call returns the outdated value. *)
Theorem C55_nested_refuted :
  exists (U : user nat (nat * nat) nat bool) pf rd p w es v1 v2 s outs,
  pure_user U pf rd /\ exact_eq U /\
  p = [New 0 [DFun false]; Call 0; Env (fun _ => (0, 1)); Call 0] /\
  eager pf rd p [] w = Some (es, [Some v1; Some v2]) /\ Forall (regular pf rd) es /\
  run U p (mkState [] w) = Some (s, outs) /\ results outs = [Ok (Some v1); Ok (Some v1)] /\ v1 <> v2.
Proof. exact refuted_C55_nested. Qed.
Print Assumptions C55_nested_refuted.
