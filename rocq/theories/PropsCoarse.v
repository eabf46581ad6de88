(** The property about coarser equalities (C88).  Statements only: each is closed by a lemma proved
    elsewhere.  After each theorem an example shows a concrete case. *)
From Coq Require Import List Bool Arith.
From Verif Require Import Value LazyModel LazySpec LazySpec2 LazyExamples LazyExampleProofs RelateSpec CoarseSpec CoarseThms.
Import ListNotations.

(** C88: let functions be pure, and [U2] have a coarser [operator==] than [U1] that functions
    respect.  Then each operation of a program has, with [U2], a result that is equal by it to that
    with [U1], and the same evaluations except that some may be left out. *)
Theorem C88_coarser :
  forall (A W fid did : Type) (U1 U2 : user A W fid did) pf rd,
  pure_user U1 pf rd -> pure_user U2 pf rd -> flat pf rd -> finer (aeq U1) (aeq U2) ->
  (forall a, aeq U2 a a = true) -> (forall a b, aeq U2 a b = aeq U2 b a) ->
  (forall a b c, aeq U2 a b = true -> aeq U2 b c = true -> aeq U2 a c = true) ->
  (forall f xs ys, Forall2 (fun x y => veq (aeq U2) x y = true) xs ys -> veq (aeq U2) (fval pf f xs) (fval pf f ys) = true) ->
  forall p w s1 outs1 s2 outs2,
  run U1 p (mkState [] w) = Some (s1, outs1) -> run U2 p (mkState [] w) = Some (s2, outs2) ->
  Forall2 (fewer (aeq U2)) outs1 outs2.
Proof. exact @coarser_fewer. Qed.
Print Assumptions C88_coarser.

(** Sums of numbers; with [U2], of which only whether they are even counts. *)
Example C88_case :
  let p : list (op nat (nat * nat) nat bool) :=
    [New 0 [DFun true]; New 0 [DVar 0; DFun false]; Call 1; Env (set_first 7); Call 1; Env (set_first 8); Call 1] in
  pure_user sum_user sum_pf ex_rd /\ pure_user parity_sum_user sum_pf ex_rd /\ flat sum_pf ex_rd /\
  finer (aeq sum_user) (aeq parity_sum_user) /\
  (forall f xs ys, Forall2 (fun x y => veq (aeq parity_sum_user) x y = true) xs ys ->
     veq (aeq parity_sum_user) (fval sum_pf f xs) (fval sum_pf f ys) = true) /\
  exists s1 outs1 s2 outs2,
  run sum_user p (mkState [] (5, 3)) = Some (s1, outs1) /\ run parity_sum_user p (mkState [] (5, 3)) = Some (s2, outs2) /\
  results outs1 = [Ok (Some (VAtom 8)); Ok (Some (VAtom 10)); Ok (Some (VAtom 11))] /\
  results outs2 = [Ok (Some (VAtom 8)); Ok (Some (VAtom 8)); Ok (Some (VAtom 11))] /\
  map (fun o => length (evaluations (snd o))) outs1 = [0; 0; 4; 0; 4; 0; 4] /\
  map (fun o => length (evaluations (snd o))) outs2 = [0; 0; 4; 0; 2; 0; 4].
Proof.
  cbv zeta. split; [split; reflexivity|]. split; [split; reflexivity|]. split; [|split; [|split]].
  - split; [|reflexivity]. intros f xs v E. now injection E as <-.
  - intros a b E. cbn in E. apply Nat.eqb_eq in E as <-. apply eqb_reflx.
  - exact (proj1 (proj2 (proj2 (proj2 (proj2 ex_C16))))).
  - do 4 eexists. split; [vm_compute; reflexivity|]. split; [vm_compute; reflexivity|]. repeat split; reflexivity.
Qed.

(** Not so if functions do not respect the coarser equality: evaluations may be added. *)
Theorem C88_without_respect_refuted : exists (U1 U2 : user nat (nat * nat) nat bool) pf rd p w s1 outs1 s2 outs2,
  pure_user U1 pf rd /\ pure_user U2 pf rd /\ flat pf rd /\ finer (aeq U1) (aeq U2) /\ exact_eq U1 /\
  (forall a, aeq U2 a a = true) /\ (forall a b, aeq U2 a b = aeq U2 b a) /\
  (forall a b c, aeq U2 a b = true -> aeq U2 b c = true -> aeq U2 a c = true) /\
  run U1 p (mkState [] w) = Some (s1, outs1) /\ run U2 p (mkState [] w) = Some (s2, outs2) /\
  map (fun o => evaluations (snd o)) outs1 = [[]; []; [inr true; inl 3; inl 0]; []; [inr true; inl 3; inl 0]; []; [inr true; inl 3]] /\
  map (fun o => evaluations (snd o)) outs2 = [[]; []; [inr true; inl 3; inl 0]; []; [inr true]; []; [inr true; inl 3; inl 0]].
Proof. exact more_evaluations. Qed.
Print Assumptions C88_without_respect_refuted.
