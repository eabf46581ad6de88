(** C97: with sharing by std::ref, repeated calls do nothing.
    Statements only; proofs in SharedSettled.v. *)
From Coq Require Import List Bool Arith.
From Verif Require Import Value LazyModel LazySpec LazySpec2 LazyExamples SharedModel DocSpec VersionSpec SharedSettled
  SharedDocExamples.
Import ListNotations.

(** C97: after any history and a call of [x], as long as the outside world stays the same, any
    calls of [x] and of what it refers to by [std::ref], directly or indirectly, in any order,
    evaluate no wrapped function and leave all lazy functions as they are; [x] returns the
    same result. *)
Theorem C97_settles :
  forall (A W fid did : Type) (U : user A W fid did) pf rd, pure_user U pf rd -> (forall a, aeq U a a = true) ->
  (forall d w, has_nullopt (rd d w) = false) ->
  forall p w s1 outs x s2 r lg ys,
  srun U p (mkSState [] w) = Some (s1, outs) -> sexec U (SCall x) s1 = Some (s2, (r, lg)) ->
  Forall (fun y => y = x \/ In y (nth x (referred p []) [])) ys ->
  exists outs', srun U (map SCall ys) s2 = Some (s2, outs') /\
    Forall (fun out => function_calls (snd out) = []) outs' /\
    Forall2 (fun y out => y = x -> fst out = r) ys outs'.
Proof. exact @settles_all. Qed.
Print Assumptions C97_settles.

Example C97_hypotheses :
  pure_user ex_user ex_pf ex_rd /\ (forall a, aeq ex_user a a = true) /\
  (forall d w, has_nullopt (ex_rd d w) = false) /\ referred referring [] = [[]; [0]; [1; 0]; [1; 0]].
Proof. exact ex_refers. Qed.
Example C97_case :
  exists s1 outs1 s2 r lg,
  srun ex_user referring (mkSState [] (5, 3)) = Some (s1, outs1) /\
  sexec ex_user (SCall 3) s1 = Some (s2, (r, lg)) /\ function_calls lg <> [] /\
  (exists s3 r3 lg3, sexec ex_user (SCall 0) s1 = Some (s3, (r3, lg3)) /\ function_calls lg3 <> []) /\
  exists outs', srun ex_user (map SCall [0; 3; 1; 3; 1]) s2 = Some (s2, outs') /\
  results outs' = map (fun n => Ok (Some (VAtom n))) [9; 6; 9; 6; 9].
Proof. exact ex_library_settled. Qed.
