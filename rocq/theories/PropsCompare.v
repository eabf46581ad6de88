(** What comparisons.md saves (C93).  Statements only. *)
From Coq Require Import List Bool Arith.
From Verif Require Import Value TupleAlg LazyModel LazySpec LazySpec2 LazyExamples DocModel DocSpec DocExamples
  CompareModel CompareSpec CompareThms CompareExamples.
Import ListNotations.

(** [krun] is the design of dependencies.md that C59 is about, with its comparisons. *)
Theorem C93_same_design :
  forall (A W fid did : Type) (U : user A W fid did) p vs w,
  wrun U p vs w =
  match krun U p vs w with Some (_, _, outs) => Some (map (fun o => (fst o, without_comparisons (snd o))) outs) | None => None end.
Proof. exact @krun_erase. Qed.
Print Assumptions C93_same_design.

Example C93_same_design_case :
  match krun throw_user doc_program [] (5, 3) with
  | Some (_, _, outs) => map (fun o => length (comparisons (snd o))) outs = [0; 0; 0; 8; 0; 0; 3; 3; 0; 4; 0]
  | None => False
  end.
Proof. vm_compute. reflexivity. Qed.

(** A second call, when nothing that [x] reads has changed: the library makes one comparison for each
    plain function among the direct and indirect dependencies, the older design also one
    for each value and each lazy function among them. *)
Theorem C93_nothing_changed :
  forall (A W fid did : Type) (U : user A W fid did) pf rd, pure_user U pf rd -> exact_eq U ->
  forall p w es vals, eager pf rd p [] w = Some (es, vals) -> Forall (regular pf rd) es -> Forall (never_null pf rd) es ->
  forall x e s1 o1 h, nth_error es x = Some e -> run U p (mkState [] w) = Some (s1, o1) ->
  (forall d, In d (plain_functions e) -> rd d (h (world s1)) = rd d (world s1)) ->
  exists s outs vs w' outs' r lg lg',
    run U (p ++ [Call x; Env h; Call x]) (mkState [] w) = Some (s, outs ++ [(r, lg)]) /\
    krun U (p ++ [Call x; Env h; Call x]) [] w = Some (vs, w', outs' ++ [(r, lg')]) /\
    function_calls lg = [] /\ function_calls lg' = [] /\
    length (comparisons lg) = length (plain_functions e) /\
    length (comparisons lg') = length (plain_functions e) + values_and_lazies e.
Proof. exact @quiet_call. Qed.
Print Assumptions C93_nothing_changed.

(** [mouse_cursor] of comparisons.md:4-14: the position is compared, the image is not. *)
Definition mouse_cursor : list (op nat (nat * nat) nat bool) :=
  [New 4 [DConst (VAtom 7)]; New 0 [DFun true; DVar 0]].
Example C93_nothing_changed_case :
  pure_user ex_user ex_pf ex_rd /\ exact_eq ex_user /\
  exists es vals, eager ex_pf ex_rd mouse_cursor [] (5, 3) = Some (es, vals) /\
  Forall (regular ex_pf ex_rd) es /\ Forall (never_null ex_pf ex_rd) es /\
  exists e, nth_error es 1 = Some e /\ length (plain_functions e) = 1 /\ values_and_lazies e = 2 /\ plain_functions e = [true] /\
  ex_rd true (5, 4) = ex_rd true (5, 3).
Proof.
  split; [exact ex_pure|]. split; [exact ex_exact|]. eexists _, _. split; [reflexivity|].
  split; [repeat constructor|]. split; [repeat constructor|]. eexists. repeat split.
Qed.

(** Any call: the library makes at most one comparison for each evaluation, of plain functions or
    wrapped ones; the older design at most one for each dependency.  Afterwards
    the library stores one value for each lazy function and one for each plain function, the
    older design also one for each value and each lazy function among the dependencies. *)
Theorem C93_any_call :
  forall (A W fid did : Type) (U : user A W fid did) pf rd, pure_user U pf rd -> exact_eq U ->
  forall p w es vals, eager pf rd p [] w = Some (es, vals) -> Forall (regular pf rd) es -> Forall (never_null pf rd) es ->
  forall x e, nth_error es x = Some e ->
  exists s outs vs w' outs' r lg lg' l k,
    run U (p ++ [Call x]) (mkState [] w) = Some (s, outs ++ [(r, lg)]) /\
    krun U (p ++ [Call x]) [] w = Some (vs, w', outs' ++ [(r, lg')]) /\
    length (comparisons lg) <= length (plain_functions e) + length (function_calls lg) /\
    length (comparisons lg') <= length (plain_functions e) + values_and_lazies e /\
    nth_error (vars s) x = Some l /\ nth_error vs x = Some k /\
    stored l = lazies e + length (plain_functions e) /\
    wstored k = lazies e + length (plain_functions e) + values_and_lazies e.
Proof. exact @after_call. Qed.
Print Assumptions C93_any_call.

Example C93_any_call_case :
  match run ex_user (mouse_cursor ++ [Call 1]) (mkState [] (5, 3)), krun ex_user (mouse_cursor ++ [Call 1]) [] (5, 3) with
  | Some (s, _), Some (vs, _, _) => map stored (vars s) = [0; 3] /\ map wstored vs = [0; 5]
  | _, _ => False
  end.
Proof. vm_compute. auto. Qed.

(** Whatever the user functions do, the library never compares more often than it evaluates. *)
Theorem C93_library :
  forall (A W fid did : Type) (U : user A W fid did) p s s' outs, run U p s = Some (s', outs) ->
  Forall (fun o => length (comparisons (snd o)) <= length (evaluations (snd o))) outs.
Proof. exact @run_compares. Qed.
Print Assumptions C93_library.

Example C93_library_case :
  match run throw_user doc_program (mkState [] (5, 3)) with
  | Some (_, outs) => map (fun o => length (comparisons (snd o))) outs = [0; 0; 0; 4; 0; 0; 7; 7; 0; 6; 0]
  | None => False
  end.
Proof. vm_compute. reflexivity. Qed.

(** But it is not true that it compares at most as often as the older design: if plain
    functions have changed, it may compare arbitrarily more often. *)
Theorem C93_never_more_refuted : forall n, exists s outs ws outs' r lg lg',
  run ex_user (many n) (mkState [] (0, 0)) = Some (s, outs ++ [(r, lg)]) /\
  krun ex_user (many n) [] (0, 0) = Some (ws, (1, 0), outs' ++ [(r, lg')]) /\
  length (comparisons lg) = n + 2 /\ length (comparisons lg') = 1.
Proof. exact many_more. Qed.
Print Assumptions C93_never_more_refuted.

Example C93_never_more_case :
  many 1 = [New 0 [DFun true; DFun true]; Call 0; Env (set_first 1); Call 0].
Proof. reflexivity. Qed.
