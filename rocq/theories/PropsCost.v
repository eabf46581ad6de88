(** What a call costs when lazy functions share others by reference (C78).

    Statements only; proofs in CostThms.v. *)
From Coq Require Import List Bool Arith.
From Verif Require Import Value LazyModel LazySpec LazySpec2 SharedModel LazyExamples HistoryExamples CostSpec CostThms.
Import ListNotations.

(** C78: sharing by [std::ref] saves no calls of plain functions: a call that returns has
    called each of them once per way to reach it, in the order of the expression that every
    [std::ref(x)] replaced by [x] gives (C07).  And nothing is evaluated more often, or in a
    different order, than without sharing (C11).  For any functions, after any history. *)
Theorem C78_paths :
  forall (A W fid did : Type) (U : user A W fid did) p w s outs es x e s' r lg,
  srun U p (mkSState [] w) = Some (s, outs) -> shapes (map by_value p) [] = Some es ->
  nth_error es x = Some e -> sexec U (SCall x) s = Some (s', (Some r, lg)) ->
  subseq (evaluations lg) (postorder e) /\
  ((exists v, r = Ok v) -> samples lg = plain_functions e).
Proof. exact @call_paths. Qed.
Print Assumptions C78_paths.

Example C78_paths_case :
  exists s outs es e s' v lg,
  srun ex_user share_program (mkSState [] (5, 3)) = Some (s, outs) /\
  shapes (map by_value share_program) [] = Some es /\ nth_error es 4 = Some e /\
  sexec ex_user (SCall 4) s = Some (s', (Some (Ok v), lg)) /\
  plain_functions e = [true; true; false] /\ length (postorder e) = 7 /\ length (evaluations lg) = 3.
Proof. do 7 eexists. repeat (split; [vm_compute; reflexivity|]). vm_compute. reflexivity. Qed.

(** C78: what sharing saves are calls of wrapped functions: in one call each wrapped function
    is called at most once per lazy function that owns it, however many ways lead there.
    ([q] selects functions.  [owned] counts for each variable the functions it was created
    with, including those of lazy functions copied into it; a call of [x] reaches no later
    variables.)  The functions depend on their arguments only, or throw; values equal
    themselves; the plain functions return no empty optionals (C55). *)
Theorem C78_nodes :
  forall (A W fid did : Type) (U : user A W fid did) q pf rd,
  pure_or_throw U pf rd -> (forall a, aeq U a a = true) -> (forall d w, has_nullopt (rd d w) = false) ->
  forall p w s outs es x s' r lg,
  srun U p (mkSState [] w) = Some (s, outs) -> shapes (map by_value p) [] = Some es ->
  sexec U (SCall x) s = Some (s', (Some r, lg)) ->
  times q lg <= list_sum (firstn (S x) (owned q p [])).
Proof. exact @nodes_once. Qed.
Print Assumptions C78_nodes.

Example C78_nodes_case :
  let p := [SNew 0 [SDep (DFun true)]; SNew 2 [SDRef 0; SDRef 0]; SNew 3 [SDRef 1; SDep (DVar 1); SDRef 1]] in
  pure_or_throw throw_user ex_pf ex_rd /\ (forall a, aeq throw_user a a = true) /\
  (forall d w, has_nullopt (ex_rd d w) = false) /\
  exists s outs es s' r lg,
  srun throw_user p (mkSState [] (5, 3)) = Some (s, outs) /\ shapes (map by_value p) [] = Some es /\
  sexec throw_user (SCall 2) s = Some (s', (Some r, lg)) /\
  map (fun f => times (Nat.eqb f) lg) [0; 2; 3] = [1; 2; 1] /\
  map (fun f => list_sum (firstn 3 (owned (Nat.eqb f) p []))) [0; 2; 3] = [1; 2; 1].
Proof.
  split; [exact throw_pure_or_throw|]. split; [exact Nat.eqb_refl|]. split; [reflexivity|].
  do 6 eexists. repeat (split; [vm_compute; reflexivity|]). vm_compute. reflexivity.
Qed.

(** C78: the extremes.  [n + 1] lazy functions, each but the first depending on the one
    before twice: every call of the last one calls the plain function [2 ^ n] times, whatever
    happened before, and at most [n + 1] wrapped functions. *)
Theorem C78_ladder :
  forall (A W fid did : Type) (U : user A W fid did) f g d n p w s outs es s' r lg,
  srun U (ladder f g d n ++ p) (mkSState [] w) = Some (s, outs) ->
  shapes (map by_value (ladder f g d n ++ p)) [] = Some es ->
  sexec U (SCall n) s = Some (s', (Some r, lg)) ->
  ((exists v, r = Ok v) -> samples lg = repeat d (2 ^ n)) /\
  (forall pf rd, pure_or_throw U pf rd -> (forall a, aeq U a a = true) ->
   (forall d w, has_nullopt (rd d w) = false) -> times (fun _ => true) lg <= S n).
Proof. exact @ladder_cost. Qed.
Print Assumptions C78_ladder.

(** By value the first call calls [2 ^ (n + 1) - 1] of them. *)
Theorem C78_ladder_by_value :
  forall (A W fid did : Type) (U : user A W fid did) f g d n w s outs s' v lg,
  run U (map by_value (ladder f g d n)) (mkState [] w) = Some (s, outs) ->
  exec U (Call n) s = Some (s', (Some (Ok v), lg)) ->
  times (fun _ => true) lg = 2 ^ S n - 1.
Proof. exact @ladder_by_value. Qed.
Print Assumptions C78_ladder_by_value.

Example C78_ladder_case :
  let p : list (sop nat (nat * nat) nat bool) := ladder 0 0 true 5 ++ [SEnv (set_first 9); SCall 2] in
  exists s outs es s' v lg s2 outs2 s2' lg2,
  srun ex_user p (mkSState [] (5, 3)) = Some (s, outs) /\
  shapes (map by_value p) [] = Some es /\
  sexec ex_user (SCall 5) s = Some (s', (Some (Ok v), lg)) /\
  length (samples lg) = 32 /\ times (fun _ => true) lg = 3 /\
  run ex_user (map by_value (ladder 0 0 true 5)) (mkState [] (9, 3)) = Some (s2, outs2) /\
  exec ex_user (Call 5) s2 = Some (s2', (Some (Ok v), lg2)) /\
  length (samples lg2) = 32 /\ times (fun _ => true) lg2 = 63.
Proof. do 10 eexists. repeat (split; [vm_compute; reflexivity|]). vm_compute. reflexivity. Qed.
