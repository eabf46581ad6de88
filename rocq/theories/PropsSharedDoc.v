(** C95: the design of dependencies.md with std::ref.  C96: version numbers.
    Statements only; proofs in SharedDocThms.v, SharedDocSettled.v, VersionThms.v and
    VersionSettled.v. *)
From Coq Require Import List Bool Arith.
From Verif Require Import Value LazyModel LazySpec LazySpec2 LazyExamples SharedModel DocSpec DocModel SharedDocModel SharedDocThms
  SharedDocSettled VersionModel VersionSpec VersionThms VersionSettled SharedDocExamples.
Import ListNotations.

(** C95 (1): in the design of dependencies.md, which remembers the arguments, lazy functions
    shared by [std::ref] keep all their dependents up to date, however many there are
    (C20, which is false of the library). *)
Theorem C95_shared_up_to_date :
  forall (A W fid did : Type) (U : user A W fid did) pf rd, pure_user U pf rd -> sound_eq U ->
  forall p w es vals, eager pf rd (map by_value p) [] w = Some (es, vals) -> Forall (regular pf rd) es ->
  exists s outs, xrun U p (mkXState [] w) = Some (s, outs) /\ results outs = map Ok vals.
Proof. exact @shared_right. Qed.
Print Assumptions C95_shared_up_to_date.

(** The last call of the library is outdated (2 instead of 4). *)
Example C95_shared_case :
  pure_user ex_user ex_pf ex_rd /\ sound_eq ex_user /\
  exists es, eager ex_pf ex_rd (map by_value shared_program) [] (5, 3)
    = Some (es, [Some (VAtom 5); Some (VAtom 2); Some (VAtom 9); Some (VAtom 4)]) /\
  Forall (regular ex_pf ex_rd) es /\ Forall (unnested ex_pf ex_rd) es /\
  exists s outs, srun ex_user shared_program (mkSState [] (5, 3)) = Some (s, outs) /\
  results outs = [Ok (Some (VAtom 5)); Ok (Some (VAtom 2)); Ok (Some (VAtom 9)); Ok (Some (VAtom 2))].
Proof. exact ex_shared. Qed.

(** C95 (2): also if functions throw, every call throws or returns the right value. *)
Theorem C95_with_exceptions :
  forall (A W fid did : Type) (U : user A W fid did) pf rd, pure_or_throw U pf rd -> sound_eq U ->
  forall p w es vals, eager pf rd (map by_value p) [] w = Some (es, vals) -> Forall (regular pf rd) es ->
  exists s outs, xrun U p (mkXState [] w) = Some (s, outs) /\
    Forall2 (fun r v => r = Exc \/ r = Ok v) (results outs) vals.
Proof. exact @shared_right_or_throws. Qed.
Print Assumptions C95_with_exceptions.

(** The library (first case) is outdated after the exception, the older design is not. *)
Example C95_with_exceptions_case :
  pure_or_throw throw_user ex_pf ex_rd /\ sound_eq throw_user /\
  exists es, eager ex_pf ex_rd (map by_value shared_throwing) [] (5, 3)
    = Some (es, [Some (VAtom 8); Some (VAtom 4); Some (VAtom 107); Some (VAtom 6); Some (VAtom 12)]) /\
  Forall (regular ex_pf ex_rd) es /\ Forall (unnested ex_pf ex_rd) es /\
  exists s outs, srun throw_user shared_throwing (mkSState [] (5, 3)) = Some (s, outs) /\
  results outs = [Ok (Some (VAtom 8)); Ok (Some (VAtom 4)); Exc; Ok (Some (VAtom 4)); Ok (Some (VAtom 8))].
Proof. exact ex_shared_throwing. Qed.
Example C95_with_exceptions_results :
  exists s outs, xrun throw_user shared_throwing (mkXState [] (5, 3)) = Some (s, outs) /\
  results outs = [Ok (Some (VAtom 8)); Ok (Some (VAtom 4)); Exc; Ok (Some (VAtom 6)); Ok (Some (VAtom 12))].
Proof. exact ex_doc_throwing. Qed.

(** C95 (3): without references it is the design that C59 and C93 are about, for all user
    functions. *)
Theorem C95_same_design :
  forall (A W fid did : Type) (U : user A W fid did) p w,
  option_map snd (xrun U (map no_refs p) (mkXState [] w)) = wrun U p [] w.
Proof. exact @same_without_refs. Qed.
Print Assumptions C95_same_design.

Example C95_same_design_case :
  exists outs, wrun ex_user unshared_program [] (5, 3) = Some outs /\
  results outs = [Ok (Some (VAtom 14)); Ok (Some (VAtom 14)); Ok (Some (VAtom 13)); Ok (Some (VAtom 13))].
Proof. exact ex_doc_unshared. Qed.

(** C95 (4): a call brings everything up to date that it refers to by [std::ref], directly or
    indirectly: calling any of it afterwards, or the same again, evaluates no function. *)
Theorem C95_brings_up_to_date :
  forall (A W fid did : Type) (U : user A W fid did) pf rd, pure_user U pf rd -> (forall a, aeq U a a = true) ->
  forall p w s outs x y, xrun U (p ++ [SCall x]) (mkXState [] w) = Some (s, outs) ->
  y = x \/ In y (nth x (referred p []) []) ->
  exists s' r lg, xexec U (SCall y) s = Some (s', (r, lg)) /\ function_calls lg = [].
Proof. exact @doc_brings_up_to_date. Qed.
Print Assumptions C95_brings_up_to_date.

(** Without the last call, calling 0 evaluates a function. *)
Example C95_brings_up_to_date_hypotheses :
  pure_user ex_user ex_pf ex_rd /\ (forall a, aeq ex_user a a = true) /\
  (forall d w, has_nullopt (ex_rd d w) = false) /\ referred referring [] = [[]; [0]; [1; 0]; [1; 0]].
Proof. exact ex_refers. Qed.
Example C95_brings_up_to_date_case :
  exists s1 outs1 s2 outs2 s3 r3 lg3,
  xrun ex_user referring (mkXState [] (5, 3)) = Some (s1, outs1) /\
  xrun ex_user (referring ++ [SCall 3]) (mkXState [] (5, 3)) = Some (s2, outs2) /\
  xexec ex_user (SCall 0) s1 = Some (s3, (r3, lg3)) /\ function_calls lg3 <> [].
Proof. exact ex_doc_settled. Qed.

(** C96 (1): if lazy functions pass on version numbers instead of flags, those shared by
    [std::ref] keep all their dependents up to date (C20). *)
Theorem C96_shared_up_to_date :
  forall (A W fid did : Type) (U : user A W fid did) pf rd, pure_user U pf rd -> sound_eq U ->
  forall p w es vals, eager pf rd (map by_value p) [] w = Some (es, vals) ->
  Forall (regular pf rd) es -> Forall (unnested pf rd) es ->
  exists s outs, vrun U p (mkVState [] w) = Some (s, outs) /\ results outs = map Ok vals.
Proof. exact @versions_right. Qed.
Print Assumptions C96_shared_up_to_date.

Example C96_shared_case :
  pure_user ex_user ex_pf ex_rd /\ sound_eq ex_user /\
  exists es, eager ex_pf ex_rd (map by_value shared_program) [] (5, 3)
    = Some (es, [Some (VAtom 5); Some (VAtom 2); Some (VAtom 9); Some (VAtom 4)]) /\
  Forall (regular ex_pf ex_rd) es /\ Forall (unnested ex_pf ex_rd) es /\
  exists s outs, srun ex_user shared_program (mkSState [] (5, 3)) = Some (s, outs) /\
  results outs = [Ok (Some (VAtom 5)); Ok (Some (VAtom 2)); Ok (Some (VAtom 9)); Ok (Some (VAtom 2))].
Proof. exact ex_shared. Qed.

(** C96 (2): also if functions throw, every call throws or returns the right value (C15). *)
Theorem C96_with_exceptions :
  forall (A W fid did : Type) (U : user A W fid did) pf rd, pure_or_throw U pf rd -> sound_eq U ->
  forall p w es vals, eager pf rd (map by_value p) [] w = Some (es, vals) ->
  Forall (regular pf rd) es -> Forall (unnested pf rd) es ->
  exists s outs, vrun U p (mkVState [] w) = Some (s, outs) /\
    Forall2 (fun r v => r = Exc \/ r = Ok v) (results outs) vals.
Proof. exact @versions_right_or_throws. Qed.
Print Assumptions C96_with_exceptions.

(** The hypotheses hold as in [C95_with_exceptions_case]. *)
Example C96_with_exceptions_case :
  exists s outs, vrun throw_user shared_throwing (mkVState [] (5, 3)) = Some (s, outs) /\
  results outs = [Ok (Some (VAtom 8)); Ok (Some (VAtom 4)); Exc; Ok (Some (VAtom 6)); Ok (Some (VAtom 12))].
Proof. exact ex_version_throwing. Qed.

(** C96 (3): without references and as long as no call throws, nothing changes: the results,
    evaluations and comparisons are the library's, for all user functions. *)
Theorem C96_same_without_exceptions :
  forall (A W fid did : Type) (U : user A W fid did) p w s outs,
  run U p (mkState [] w) = Some (s, outs) -> Forall (fun out => fst out <> Some Exc) outs ->
  exists s2, vrun U (map no_refs p) (mkVState [] w) = Some (s2, outs).
Proof. exact @versions_same. Qed.
Print Assumptions C96_same_without_exceptions.

Example C96_same_case :
  exists s outs, run ex_user unshared_program (mkState [] (5, 3)) = Some (s, outs) /\
  Forall (fun out => fst out <> Some Exc) outs /\
  results outs = [Ok (Some (VAtom 14)); Ok (Some (VAtom 14)); Ok (Some (VAtom 13)); Ok (Some (VAtom 13))].
Proof. exact ex_version_unshared. Qed.

(** C96 (4): a call brings everything up to date that it refers to by [std::ref], directly or
    indirectly: calling any of it afterwards, or the same again, evaluates no function (if no plain
    function returns an empty optional). *)
Theorem C96_brings_up_to_date :
  forall (A W fid did : Type) (U : user A W fid did) pf rd, pure_user U pf rd -> (forall a, aeq U a a = true) ->
  (forall d w, has_nullopt (rd d w) = false) ->
  forall p w s outs x y, vrun U (p ++ [SCall x]) (mkVState [] w) = Some (s, outs) ->
  y = x \/ In y (nth x (referred p []) []) ->
  exists s' r lg, vexec U (SCall y) s = Some (s', (r, lg)) /\ function_calls lg = [].
Proof. exact @versions_bring_up_to_date. Qed.
Print Assumptions C96_brings_up_to_date.

(** Without the last call, calling 0 evaluates a function. *)
Example C96_brings_up_to_date_hypotheses :
  pure_user ex_user ex_pf ex_rd /\ (forall a, aeq ex_user a a = true) /\
  (forall d w, has_nullopt (ex_rd d w) = false) /\ referred referring [] = [[]; [0]; [1; 0]; [1; 0]].
Proof. exact ex_refers. Qed.
Example C96_brings_up_to_date_case :
  exists s1 outs1 s2 outs2 s3 r3 lg3,
  vrun ex_user referring (mkVState [] (5, 3)) = Some (s1, outs1) /\
  vrun ex_user (referring ++ [SCall 3]) (mkVState [] (5, 3)) = Some (s2, outs2) /\
  vexec ex_user (SCall 0) s1 = Some (s3, (r3, lg3)) /\ function_calls lg3 <> [].
Proof. exact ex_version_settled. Qed.
