(** Exactly what happens when lazy functions share others by reference (C63).

    Statements only; proofs in SharingThms.v, SharingExamples.v. *)
From Coq Require Import List Bool Arith.
From Verif Require Import Value TupleAlg LazyModel LazySpec LazySpec2 LazyExamples SharedModel SharingSpec
  SharingThms SharingExamples.
Import ListNotations.

(** C63: all results and actions of all calls are those of [shared_calls] (SharingSpec.v),
    which knows no caches, only the history: a shared source reports a change only to the
    first call that reaches it after the change. *)
Theorem C63_exact :
  forall (A W fid did : Type) (U : user A W fid did) pf rd,
  pure_user U pf rd -> exact_eq U ->
  forall p es cs calls w,
  sharing pf rd p es cs calls ->
  exists s outs H, shared_calls pf rd (veq (aeq U)) es cs [] calls = Some (outs, H) /\
    srun U (sharing_program p cs calls) (mkSState [] w)
    = Some (s, repeat (None, []) (length p + length cs) ++ outputs_of_calls outs).
Proof. exact @exact_sharing. Qed.
Print Assumptions C63_exact.

(** Nine calls; the fifth and the eighth return outdated values (2 and 12, not 4 and 11). *)
Example C63_case :
  pure_user ex_user ex_pf ex_rd /\ exact_eq ex_user /\ sharing ex_pf ex_rd sh_p sh_es sh_cs sh_calls /\
  exists outs H, shared_calls ex_pf ex_rd (veq (aeq ex_user)) sh_es sh_cs [] sh_calls = Some (outs, H) /\
  map fst outs = map VAtom [8; 2; 10; 12; 2; 18; 4; 12; 12] /\
  nth_error (map snd outs) 4 = Some [EvSample true; EvCmp (VAtom 9) (VAtom 9)] /\
  map (fun c => eval ex_pf ex_rd (nth (fst c - 1) (map (consumer_expr sh_es) sh_cs) (EConst VVoid)) (snd c)) sh_calls
  = map VAtom [8; 2; 10; 12; 4; 18; 4; 11; 12].
Proof. exact ex_exact_sharing. Qed.

(** C63: a consumer never mixes inputs: it returns what its function computes from the
    values of all its dependencies at one of its own calls; at its first call, the present
    one. *)
Theorem C63_one_moment :
  forall (A W fid did : Type) (U : user A W fid did) pf rd,
  pure_user U pf rd -> exact_eq U ->
  forall p es cs calls i c w0 w s outs,
  nth_error cs i = Some c -> let y := length es + i in
  sharing pf rd p es cs (calls ++ [(y, w)]) ->
  srun U (sharing_program p cs (calls ++ [(y, w)])) (mkSState [] w0) = Some (s, outs) ->
  exists w', nth_error (results outs) (length calls) = Some (Ok (visible (eval pf rd (consumer_expr es c) w'))) /\
    (w' = w \/ In (y, w') calls).
Proof. exact @one_moment. Qed.
Print Assumptions C63_one_moment.

Example C63_one_moment_case :
  sharing ex_pf ex_rd sh_p sh_es sh_cs (firstn 7 sh_calls ++ [(1, (8, 3))]) /\
  exists s outs, srun ex_user (sharing_program sh_p sh_cs (firstn 7 sh_calls ++ [(1, (8, 3))])) (mkSState [] (0, 0)) = Some (s, outs) /\
  nth_error (results outs) 7 = Some (Ok (Some (VAtom 12))).
Proof. exact ex_one_moment. Qed.

(** C63: whenever others reach the sources first, the consumer misses the change, whatever
    it is: called in [w0] and next in [w], it returns the same result, if in between every
    source it refers to has been reached in [w], and its other dependencies are the same. *)
Theorem C63_missed_change :
  forall (A W fid did : Type) (U : user A W fid did) pf rd,
  pure_user U pf rd -> exact_eq U ->
  forall p es cs i c calls mid late w00 w0 w s outs,
  nth_error cs i = Some c -> let y := length es + i in
  let calls' := calls ++ (y, w0) :: (mid ++ late) ++ [(y, w)] in
  sharing pf rd p es cs calls' ->
  srun U (sharing_program p cs calls') (mkSState [] w00) = Some (s, outs) ->
  (forall z wz, In (z, wz) (mid ++ late) -> z <> y) ->
  (forall z wz, In (z, wz) late -> wz = w) ->
  (forall j, In (SDRef j) (snd c) -> exists z wz, In (z, wz) late /\ reaches (length es) cs z j) ->
  (forall d, In (SDep d) (snd c) ->
     eval pf rd (dep_expr es (SDep d)) w0 = eval pf rd (dep_expr es (SDep d)) w) ->
  exists v, nth_error (results outs) (length calls) = Some (Ok v) /\
            nth_error (results outs) (length calls + S (length (mid ++ late))) = Some (Ok v).
Proof. exact @missed_change. Qed.
Print Assumptions C63_missed_change.

Example C63_missed_case :
  let calls' := [(1, (5, 3))] ++ (2, (5, 3)) :: ([(0, (7, 3))] ++ [(1, (9, 3))]) ++ [(2, (9, 3))] in
  nth_error sh_cs 1 = Some (3, [SDRef 0]) /\
  sharing ex_pf ex_rd sh_p sh_es sh_cs calls' /\
  (exists z wz, In (z, wz) [(1, (9, 3))] /\ reaches (length sh_es) sh_cs z 0) /\
  exists s outs, srun ex_user (sharing_program sh_p sh_cs calls') (mkSState [] (0, 0)) = Some (s, outs) /\
  results outs = map (fun n => Ok (Some (VAtom n))) [8; 2; 7; 12; 2] /\
  eval ex_pf ex_rd (consumer_expr sh_es (3, [SDRef 0])) (9, 3) = VAtom 4.
Proof. exact ex_missed. Qed.

(** C63: and only then: if a consumer was right at its last call, in [w0], and since then
    nobody reached one of its sources in a world where it has another value than in [w0],
    then it is right. *)
Theorem C63_undisturbed :
  forall (A W fid did : Type) (U : user A W fid did) pf rd,
  pure_user U pf rd -> exact_eq U ->
  forall p es cs i c calls mid w00 w0 w s outs,
  nth_error cs i = Some c -> let y := length es + i in
  let calls' := calls ++ (y, w0) :: mid ++ [(y, w)] in
  sharing pf rd p es cs calls' ->
  srun U (sharing_program p cs calls') (mkSState [] w00) = Some (s, outs) ->
  (forall z wz, In (z, wz) mid -> z <> y) ->
  nth_error (results outs) (length calls) = Some (Ok (visible (eval pf rd (consumer_expr es c) w0))) ->
  (forall j z wz, In (SDRef j) (snd c) -> In (z, wz) mid -> reaches (length es) cs z j ->
     eval pf rd (dep_expr es (SDRef j)) wz = eval pf rd (dep_expr es (SDRef j)) w0) ->
  nth_error (results outs) (length calls + S (length mid))
  = Some (Ok (visible (eval pf rd (consumer_expr es c) w))).
Proof. exact @undisturbed. Qed.
Print Assumptions C63_undisturbed.

Example C63_undisturbed_case :
  let calls' := [(1, (5, 3))] ++ (2, (5, 3)) :: [(1, (5, 4))] ++ [(2, (9, 3))] in
  nth_error sh_cs 1 = Some (3, [SDRef 0]) /\
  sharing ex_pf ex_rd sh_p sh_es sh_cs calls' /\
  (forall z wz, In (z, wz) [(1, (5, 4))] -> eval ex_pf ex_rd (dep_expr sh_es (@SDRef nat bool 0)) wz = VAtom 5) /\
  eval ex_pf ex_rd (dep_expr sh_es (@SDRef nat bool 0)) (5, 3) = VAtom 5 /\
  exists s outs, srun ex_user (sharing_program sh_p sh_cs calls') (mkSState [] (0, 0)) = Some (s, outs) /\
  results outs = map (fun n => Ok (Some (VAtom n))) [8; 2; 9; 4].
Proof. exact ex_undisturbed. Qed.
