(** Concrete cases for the theorems of PropsSharing.v. *)
From Coq Require Import List Bool Arith Lia.
From Verif Require Import Value TupleAlg LazyModel LazySpec LazySpec2 LazyExamples SharedModel SharingSpec SharingThms.
Import ListNotations.

(** Variable 0 is the first input; variable 1 adds it to the second input, variable 2 halves
    it, variable 3 adds it to a copy of it. *)
Definition sh_p : list (op nat (nat * nat) nat bool) := [New 0 [DFun true]].
Definition sh_es : list (expr nat nat bool) := [EApp 0 [EFun true]].
Definition sh_cs : list (nat * list (sdep nat bool)) :=
  [(0, [SDRef 0; SDep (DFun false)]); (3, [SDRef 0]); (0, [SDep (DVar 0); SDRef 0])].

Definition sh_calls : list (nat * (nat * nat)) :=
  [(1, (5, 3)); (2, (5, 3)); (3, (5, 3)); (1, (9, 3)); (2, (9, 3)); (3, (9, 3)); (2, (8, 3)); (1, (8, 3)); (1, (8, 4))].

Lemma sh_sharing calls : Forall (fun c => fst c < 4) calls -> sharing ex_pf ex_rd sh_p sh_es sh_cs calls.
Proof.
  intros H. repeat split; auto; try (repeat constructor; try (intros; discriminate); fail).
Qed.

Lemma ex_exact_sharing :
  pure_user ex_user ex_pf ex_rd /\ exact_eq ex_user /\ sharing ex_pf ex_rd sh_p sh_es sh_cs sh_calls /\
  exists outs H, shared_calls ex_pf ex_rd (veq (aeq ex_user)) sh_es sh_cs [] sh_calls = Some (outs, H) /\
  map fst outs = map VAtom [8; 2; 10; 12; 2; 18; 4; 12; 12] /\
  nth_error (map snd outs) 4 = Some [EvSample true; EvCmp (VAtom 9) (VAtom 9)] /\
  map (fun c => eval ex_pf ex_rd (nth (fst c - 1) (map (consumer_expr sh_es) sh_cs) (EConst VVoid)) (snd c)) sh_calls
  = map VAtom [8; 2; 10; 12; 4; 18; 4; 11; 12].
Proof.
  split; [exact ex_pure|]. split; [exact ex_exact|].
  split; [apply sh_sharing; repeat constructor; cbn; lia|].
  do 2 eexists. split; [vm_compute; reflexivity|]. split; [reflexivity|]. split; reflexivity.
Qed.

Lemma ex_one_moment :
  sharing ex_pf ex_rd sh_p sh_es sh_cs (firstn 7 sh_calls ++ [(1, (8, 3))]) /\
  exists s outs, srun ex_user (sharing_program sh_p sh_cs (firstn 7 sh_calls ++ [(1, (8, 3))])) (mkSState [] (0, 0)) = Some (s, outs) /\
  nth_error (results outs) 7 = Some (Ok (Some (VAtom 12))).
Proof.
  split; [apply sh_sharing; repeat constructor; cbn; lia|].
  do 2 eexists. split; [vm_compute; reflexivity|reflexivity].
Qed.

(** Variable 2 is called in (5, 3); then the first input changes to 9, and variable 1 is
    called before variable 2. *)
Lemma ex_missed :
  let calls' := [(1, (5, 3))] ++ (2, (5, 3)) :: ([(0, (7, 3))] ++ [(1, (9, 3))]) ++ [(2, (9, 3))] in
  nth_error sh_cs 1 = Some (3, [SDRef 0]) /\
  sharing ex_pf ex_rd sh_p sh_es sh_cs calls' /\
  (exists z wz, In (z, wz) [(1, (9, 3))] /\ reaches (length sh_es) sh_cs z 0) /\
  exists s outs, srun ex_user (sharing_program sh_p sh_cs calls') (mkSState [] (0, 0)) = Some (s, outs) /\
  results outs = map (fun n => Ok (Some (VAtom n))) [8; 2; 7; 12; 2] /\
  eval ex_pf ex_rd (consumer_expr sh_es (3, [SDRef 0])) (9, 3) = VAtom 4.
Proof.
  split; [reflexivity|]. split; [apply sh_sharing; repeat constructor; cbn; lia|].
  split.
  - exists 1, (9, 3). split; [now left|]. right. exists 0, (0, [SDRef 0; SDep (DFun false)]). repeat split; auto. now left.
  - do 2 eexists. split; [vm_compute; reflexivity|]. split; reflexivity.
Qed.

(** The same, but variable 1 is called before the input changes. *)
Lemma ex_undisturbed :
  let calls' := [(1, (5, 3))] ++ (2, (5, 3)) :: [(1, (5, 4))] ++ [(2, (9, 3))] in
  nth_error sh_cs 1 = Some (3, [SDRef 0]) /\
  sharing ex_pf ex_rd sh_p sh_es sh_cs calls' /\
  (forall z wz, In (z, wz) [(1, (5, 4))] -> eval ex_pf ex_rd (dep_expr sh_es (@SDRef nat bool 0)) wz = VAtom 5) /\
  eval ex_pf ex_rd (dep_expr sh_es (@SDRef nat bool 0)) (5, 3) = VAtom 5 /\
  exists s outs, srun ex_user (sharing_program sh_p sh_cs calls') (mkSState [] (0, 0)) = Some (s, outs) /\
  results outs = map (fun n => Ok (Some (VAtom n))) [8; 2; 9; 4].
Proof.
  split; [reflexivity|]. split; [apply sh_sharing; repeat constructor; cbn; lia|].
  split; [intros z wz [E|[]]; now injection E as <- <-|]. split; [reflexivity|].
  do 2 eexists. split; [vm_compute; reflexivity|]. reflexivity.
Qed.
