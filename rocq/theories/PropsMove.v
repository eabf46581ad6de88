(** Lazy functions that are moved (C77).  Statements only. *)
From Coq Require Import List Bool Arith.
From Verif Require Import Value LazyModel LazySpec LazySpec2 LazyThms LazyExamples MoveModel MoveSpec MoveThms.
Import ListNotations.

(** Moving from a number leaves 0, function objects are left as they are. *)
Definition to_zero : leavings nat nat bool := mkLeavings (fun _ => 0) (fun f => f) (fun d => d).

(** C77: a program that does not use a variable after it was moved from, [auto y =
    std::move(x)] or [pigro::lazy(f, std::move(x))], does in every operation what the
    program that copies does, calls, comparisons and results included, whatever moving
    leaves behind. *)
Theorem C77_moves_are_copies :
  forall (A W fid did : Type) (U : user A W fid did) (L : leavings A fid did) p w,
  no_use_after_move [] p ->
  option_map snd (mrun U L p (mkState [] w)) = option_map snd (run U (map copying p) (mkState [] w)).
Proof. exact @moves_are_copies. Qed.
Print Assumptions C77_moves_are_copies.

Definition moving : list (mop nat (nat * nat) nat bool) :=
  [MNew 2 [MDep (DFun true)]; MCall 0; MNew 0 [MDepMove 0; MDep (DFun false); MDep (DConst (VAtom 10))];
   MCall 1; MMove 1; MCall 2; MEnv (set_first 6); MCall 2].

Example C77_moves_are_copies_case :
  no_use_after_move [] moving /\
  option_map (fun r => results (snd r)) (mrun ex_user to_zero moving (mkState [] (5, 3))) =
    Some [Ok (Some (VAtom 1)); Ok (Some (VAtom 14)); Ok (Some (VAtom 14)); Ok (Some (VAtom 13))].
Proof. split; [cbn; intuition discriminate|vm_compute; reflexivity]. Qed.

(** Used or not, if moving leaves everything as it is (as for numbers), moves are copies. *)
Theorem C77_trivial :
  forall (A W fid did : Type) (U : user A W fid did) (L : leavings A fid did),
  leaves_all L -> forall p s, mrun U L p s = run U (map copying p) s.
Proof. exact @trivial_moves. Qed.
Print Assumptions C77_trivial.

Example C77_trivial_case :
  leaves_all (mkLeavings (fun a : nat => a) (fun f : nat => f) (fun d : bool => d)) /\
  option_map (fun r => results (snd r))
    (mrun ex_user (mkLeavings (fun a => a) (fun f => f) (fun d => d)) (moving ++ [MCall 1; MCall 0]) (mkState [] (5, 3))) =
    Some [Ok (Some (VAtom 1)); Ok (Some (VAtom 14)); Ok (Some (VAtom 14)); Ok (Some (VAtom 13));
          Ok (Some (VAtom 13)); Ok (Some (VAtom 0))].
Proof. split; [repeat split|vm_compute; reflexivity]. Qed.

(** Calling what was moved from is defined, whatever moving leaves. *)
Theorem C77_defined :
  forall (A W fid did : Type) (U : user A W fid did) (L : leavings A fid did) p s s' outs,
  mrun U L p s = Some (s', outs) -> Forall (fun o => fst o <> Some UB) outs.
Proof. exact @moves_defined. Qed.
Print Assumptions C77_defined.

Example C77_defined_case :
  option_map (fun r => results (snd r)) (mrun ex_user to_zero (moving ++ [MCall 1; MCall 0]) (mkState [] (5, 3))) =
    Some [Ok (Some (VAtom 1)); Ok (Some (VAtom 14)); Ok (Some (VAtom 14)); Ok (Some (VAtom 13));
          Ok (Some (VAtom 3)); Ok (Some (VAtom 0))].
Proof. vm_compute. reflexivity. Qed.

(** But the caches are not empty: a lazy function built from constants that was called
    and moved from returns what the move has left of its value, at every further call, and
    calls nothing; the new one goes on returning the value. *)
Theorem C77_constants :
  forall (A W fid did : Type) (U : user A W fid did) (L : leavings A fid did) p w s outs es x e s1 v lg,
  run U p (mkState [] w) = Some (s, outs) -> shapes p [] = Some es -> nth_error es x = Some e -> const_only e ->
  exec U (Call x) s = Some (s1, (Some (Ok v), lg)) ->
  exists s2, mexec U L (MMove x) s1 = Some (s2, (None, [])) /\
    forall q s3 outs3, run U q s2 = Some (s3, outs3) ->
      Forall (fun o => o = (Some (Ok (option_map (left_value L) v)), [])) (outputs_of x q outs3) /\
      Forall (fun o => o = (Some (Ok v), [])) (outputs_of (length (vars s1)) q outs3).
Proof. exact @moved_constants. Qed.
Print Assumptions C77_constants.

Example C77_constants_case :
  const_only (EApp 0 [@EConst nat nat bool (VAtom 3); EConst (VAtom 4)]) /\
  option_map (fun r => snd r)
    (mrun ex_user to_zero [MNew 0 [MDep (DConst (VAtom 3)); MDep (DConst (VAtom 4))]; MCall 0; MMove 0; MCall 0; MCall 1]
       (mkState [] (0, 0))) =
  Some [(None, []); (Some (Ok (Some (VAtom 7))), [EvCall 0 [VAtom 3; VAtom 4]]); (None, []);
        (Some (Ok (Some (VAtom 0))), []); (Some (Ok (Some (VAtom 7))), [])].
Proof. split; [repeat split|vm_compute; reflexivity]. Qed.

(** With functions below, a call of what was moved from does the same as the first call
    of a copy never called, apart from comparisons, and it leaves the same, provided that
    moving leaves function objects and constants as they are, that every function depends
    on some other function, and that none of them returns what the move has left of its
    value. *)
Theorem C77_recovers :
  forall (A W fid did : Type) (U : user A W fid did) (L : leavings A fid did) (l : lz A fid did) w v ch l' w' lg,
  leaves_functions L -> keeps_constants L l -> live (moved_from L l) = true ->
  step U (uncalled l) w = (Ok (v, ch), l', w', lg) -> all_differ (opt_ne (aeq U)) (moved_from L l) l' = true ->
  exists ch' lg', step U (moved_from L l) w = (Ok (v, ch'), l', w', lg') /\ no_comparisons lg' = lg.
Proof. exact @moved_recovers. Qed.
Print Assumptions C77_recovers.

Definition held_sum : lz nat nat bool :=
  LCore (FnUser 0) (Some (VAtom 8))
    [LCore (FnSample true) (Some (VAtom 5)) [LValue (VAtom 0) true];
     LCore (FnSample false) (Some (VAtom 3)) [LValue (VAtom 0) true]].

Example C77_recovers_case :
  leaves_functions to_zero /\ keeps_constants to_zero held_sum /\ live (moved_from to_zero held_sum) = true /\
  match step ex_user (uncalled held_sum) (5, 4) with
  | (Ok (v, _), l', _, _) => v = VAtom 9 /\ all_differ (opt_ne (aeq ex_user)) (moved_from to_zero held_sum) l' = true
  | _ => False
  end.
Proof. repeat split. Qed.

(** In general it does what a lazy function does that is built anew from what the move has
    left of functions and constants, under the same two conditions. *)
Theorem C77_rebuilt :
  forall (A W fid did : Type) (U : user A W fid did) (L : leavings A fid did) (l : lz A fid did) w v ch l' w' lg,
  live (moved_from L l) = true ->
  step U (left_uncalled L l) w = (Ok (v, ch), l', w', lg) -> all_differ (opt_ne (aeq U)) (moved_from L l) l' = true ->
  exists ch' lg', step U (moved_from L l) w = (Ok (v, ch'), l', w', lg') /\ no_comparisons lg' = lg.
Proof. exact @moved_rebuilt. Qed.
Print Assumptions C77_rebuilt.

(** Here the move makes both plain functions the same one. *)
Example C77_rebuilt_case :
  let L := mkLeavings (fun _ : nat => 0) (fun f : nat => f) (fun _ : bool => false) in
  live (moved_from L held_sum) = true /\
  match step ex_user (left_uncalled L held_sum) (5, 4) with
  | (Ok (v, _), l', _, _) => v = VAtom 8 /\ all_differ (opt_ne (aeq ex_user)) (moved_from L held_sum) l' = true
  | _ => False
  end.
Proof. repeat split. Qed.

(** Otherwise it may return a value that is neither the right one nor the old one, even
    if moving leaves all functions and constants as they are.  Here the plain function
    returns what the move has left of its last value. *)
Theorem C77_moved_from_refuted :
  exists (U : user nat (nat * nat) nat bool) pf rd (L : leavings nat nat bool) p w es vals,
  pure_user U pf rd /\ exact_eq U /\ leaves_functions L /\
  eager pf rd (map copying p) [] w = Some (es, vals) /\
  Forall (regular pf rd) es /\ Forall (never_null pf rd) es /\
  option_map (fun r => results (snd r)) (mrun U L p (mkState [] w)) <> Some (map Ok vals).
Proof. exact moved_from_wrong. Qed.
Print Assumptions C77_moved_from_refuted.
