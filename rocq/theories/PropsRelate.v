(** The property about what the library knows of values (C87).  Statements only: each is closed by a
    lemma proved elsewhere.  After each theorem an example shows a concrete case. *)
From Coq Require Import List Bool Arith.
From Verif Require Import Value LazyModel LazySpec LazyExamples SharedModel RelateSpec RelateThms.
Import ListNotations.

(** C87 (1): the library looks at the atoms of values only through [operator==], at functions and
    the outside world not at all.  If two users' functions do corresponding things to corresponding
    values and worlds, whatever corresponds to what, and [==] gives the same answers, then
    corresponding programs have corresponding outputs: results, exceptions, calls with their
    arguments, and comparisons. *)
Theorem C87_related :
  forall (A1 W1 F1 D1 A2 W2 F2 D2 : Type) (RA : A1 -> A2 -> Prop) (RW : W1 -> W2 -> Prop)
    (RF : F1 -> F2 -> Prop) (RD : D1 -> D2 -> Prop) (U1 : user A1 W1 F1 D1) (U2 : user A2 W2 F2 D2),
  related RA RW RF RD U1 U2 -> forall p p' w w',
  Forall2 (op_rel RA RW RF RD) p p' -> RW w w' ->
  both (fun r r' => RW (world (fst r)) (world (fst r')) /\ Forall2 (out_rel RA RF RD) (snd r) (snd r'))
    (run U1 p (mkState [] w)) (run U2 p' (mkState [] w')).
Proof. exact @related_runs. Qed.
Print Assumptions C87_related.

(** C87 (2): the same for programs with [std::ref]. *)
Theorem C87_related_shared :
  forall (A1 W1 F1 D1 A2 W2 F2 D2 : Type) (RA : A1 -> A2 -> Prop) (RW : W1 -> W2 -> Prop)
    (RF : F1 -> F2 -> Prop) (RD : D1 -> D2 -> Prop) (U1 : user A1 W1 F1 D1) (U2 : user A2 W2 F2 D2),
  related RA RW RF RD U1 U2 -> forall p p' w w',
  Forall2 (sop_rel RA RW RF RD) p p' -> RW w w' ->
  both (fun r r' => RW (sworld (fst r)) (sworld (fst r')) /\ Forall2 (out_rel RA RF RD) (snd r) (snd r'))
    (srun U1 p (mkSState [] w)) (srun U2 p' (mkSState [] w')).
Proof. exact @related_sruns. Qed.
Print Assumptions C87_related_shared.

(** C87 (3): so if [operator==] compares only part of values (a key), which functions respect,
    results have the right key: that of eager evaluation on keys. *)
Theorem C87_keys :
  forall (A1 W1 F1 D1 A2 W2 F2 D2 : Type) (RA : A1 -> A2 -> Prop) (RW : W1 -> W2 -> Prop)
    (RF : F1 -> F2 -> Prop) (RD : D1 -> D2 -> Prop) (U1 : user A1 W1 F1 D1) (U2 : user A2 W2 F2 D2) pf rd,
  related RA RW RF RD U1 U2 -> pure_user U2 pf rd -> sound_eq U2 -> forall p p' w w' es vals,
  Forall2 (op_rel RA RW RF RD) p p' -> RW w w' ->
  eager pf rd p' [] w' = Some (es, vals) -> Forall (regular pf rd) es -> Forall (unnested pf rd) es ->
  exists s outs, run U1 p (mkState [] w) = Some (s, outs) /\
    Forall2 (fun r v => exists o, r = Ok o /\ both (vrel RA) o v) (results outs) vals.
Proof. exact @related_eager. Qed.
Print Assumptions C87_keys.

(** Sums of numbers that are equal if both are even or both odd.  The second call returns 15,
    which is outdated but odd. *)
Example C87_case :
  let p : list (op nat (nat * nat) nat bool) := [New 0 [DFun true; DConst (VAtom 10)]; Call 0; Env (fun w => (S (S (fst w)), snd w)); Call 0; Env (fun w => (S (fst w), snd w)); Call 0] in
  let p' : list (op bool (bool * bool) nat bool) := [New 0 [DFun true; DConst (VAtom true)]; Call 0; Env (fun w => w); Call 0; Env (fun w => (negb (fst w), snd w)); Call 0] in
  related key key_world eq eq parity_sum_user bits_user /\ pure_user bits_user bits_pf bits_rd /\ sound_eq bits_user /\
  Forall2 (op_rel key key_world eq eq) p p' /\ key_world (5, 3) (false, false) /\
  exists es s outs, eager bits_pf bits_rd p' [] (false, false) = Some (es, [Some (VAtom false); Some (VAtom false); Some (VAtom true)]) /\
    Forall (regular bits_pf bits_rd) es /\ Forall (unnested bits_pf bits_rd) es /\
    run parity_sum_user p (mkState [] (5, 3)) = Some (s, outs) /\
    results outs = [Ok (Some (VAtom 15)); Ok (Some (VAtom 15)); Ok (Some (VAtom 18))].
Proof.
  cbv zeta. split; [exact bits_related|]. split; [split; reflexivity|]. split; [intros [] []; cbn; congruence|]. split.
  - constructor; [apply op_new; [reflexivity|]; constructor; [now constructor|]; constructor; [now repeat constructor|constructor]|].
    constructor; [constructor|]. constructor; [constructor; intros w w' [Ha Hb]; split; [exact Ha|exact Hb]|].
    constructor; [constructor|]. constructor; [constructor; intros w w' [Ha Hb]; split; [|exact Hb]|].
    + unfold key in *. cbn [fst]. now rewrite Nat.even_succ, <- Nat.negb_even, Ha.
    + constructor; [constructor|constructor].
  - split; [split; reflexivity|]. do 3 eexists. split; [reflexivity|]. split; [repeat constructor|]. split; [repeat constructor|].
    split; [vm_compute; reflexivity|]. reflexivity.
Qed.

(** C87 (4): in particular the 0 of lazy.h:85 does not matter. *)
Theorem C87_argument :
  forall (A W fid did : Type) (U : user A W fid did) z p w,
  option_map (fun r => (world (fst r), snd r)) (run (mkUser (sem U) (dsem U) (aeq U) z) p (mkState [] w)) =
  option_map (fun r => (world (fst r), snd r)) (run U p (mkState [] w)).
Proof. exact @zero_irrelevant. Qed.
Print Assumptions C87_argument.
Theorem C87_argument_shared :
  forall (A W fid did : Type) (U : user A W fid did) z p w,
  option_map (fun r => (sworld (fst r), snd r)) (srun (mkUser (sem U) (dsem U) (aeq U) z) p (mkSState [] w)) =
  option_map (fun r => (sworld (fst r), snd r)) (srun U p (mkSState [] w)).
Proof. exact @zero_irrelevant_shared. Qed.
Print Assumptions C87_argument_shared.

Example C87_argument_case :
  option_map (fun r => results (snd r)) (run (mkUser (sem ex_user) (dsem ex_user) (aeq ex_user) 99) ex_program (mkState [] (5, 3))) =
  Some [Ok (Some (VAtom 14)); Ok (Some (VAtom 13)); Ok (Some (VAtom 14)); Ok (Some (VAtom 14)); Ok (Some (VAtom 1))].
Proof. vm_compute. reflexivity. Qed.

(** The structure of values does matter: not so if values are represented by pairs instead of
    numbers ([e] is the representation).  A pair that is the only argument is passed as two
    (C19). *)
Theorem C87_structure_refuted : exists (U1 U2 : user nat (nat * nat) nat bool) (e : nat -> val nat) p w s1 outs1 s2 outs2,
  (forall f ns w, exists r, sem U1 f (map VAtom ns) w = (FRet (Some (VAtom r)), w) /\ sem U2 f (map e ns) w = (FRet (Some (e r)), w)) /\
  (forall d w, exists r, dsem U1 d w = (VRet (VAtom r), w) /\ dsem U2 d w = (VRet (e r), w)) /\
  (forall a b, veq (aeq U1) (VAtom a) (VAtom b) = veq (aeq U2) (e a) (e b)) /\
  run U1 p (mkState [] w) = Some (s1, outs1) /\ run U2 p (mkState [] w) = Some (s2, outs2) /\
  results outs1 = [Ok (Some (VAtom 3))] /\ results outs2 = [Exc].
Proof. exact structure_matters. Qed.
Print Assumptions C87_structure_refuted.
