(** Concrete cases for the theorems of PropsHistory.v. *)
From Coq Require Import List Bool Arith.
From Verif Require Import Value TupleAlg LazyModel LazySpec LazySpec2 SharedModel LazyExamples HistorySpec.
Import ListNotations.

(** A lazy function shared by two; reading the second input throws at the second
    call of variable 1. *)
Definition hist_program : list (sop nat (nat * nat) nat bool) :=
  [SNew 0 [SDep (DFun true)]; SNew 0 [SDRef 0; SDep (DFun false)]; SNew 3 [SDRef 0];
   SCall 1; SCall 2; SEnv (fun _ => (9, 98)); SCall 1; SEnv (fun _ => (9, 3))].

Lemma ex_C56 :
  pure_or_throw throw_user ex_pf ex_rd /\
  exists s outs s' lg es,
  srun throw_user hist_program (mkSState [] (5, 3)) = Some (s, outs) /\
  results outs = [Ok (Some (VAtom 8)); Ok (Some (VAtom 2)); Exc] /\
  sexec throw_user (SCall 1) s = Some (s', (Some (Ok (Some (VAtom 8))), lg)) /\
  shapes (map by_value hist_program) [] = Some es /\
  called_worlds (hist_program ++ [SCall 1]) (5, 3) = [(5, 3); (5, 3); (9, 98); (9, 3)].
Proof.
  split; [exact throw_pure_or_throw|]. do 5 eexists.
  split; [vm_compute; reflexivity|]. split; [reflexivity|]. split; [vm_compute; reflexivity|].
  split; reflexivity.
Qed.

Definition recover_program : list (op nat (nat * nat) nat bool) :=
  [New 0 [DFun true; DFun false]; Call 0; Env (fun _ => (9, 98)); Call 0; Env (fun _ => (9, 3)); Call 0;
   Env (fun _ => (8, 4))].

Lemma ex_recovers :
  pure_or_throw throw_user ex_pf ex_rd /\
  exists s outs es e s' lg,
  run throw_user recover_program (mkState [] (5, 3)) = Some (s, outs) /\
  results outs = [Ok (Some (VAtom 8)); Exc; Ok (Some (VAtom 8))] /\
  shapes recover_program [] = Some es /\ nth_error es 0 = Some e /\ regular ex_pf ex_rd e /\
  exec throw_user (Call 0) s = Some (s', (Some (Ok (Some (VAtom 12))), lg)) /\
  evaluations lg = postorder e /\ visible (eval ex_pf ex_rd e (world s)) = Some (VAtom 12).
Proof.
  split; [exact throw_pure_or_throw|]. do 6 eexists.
  split; [vm_compute; reflexivity|]. split; [reflexivity|]. split; [reflexivity|].
  split; [reflexivity|]. split; [|split; [vm_compute; reflexivity|split; reflexivity]].
  repeat (constructor; try discriminate).
Qed.

(** Afterwards a copy throws, and the inputs change. *)
Definition later_program : list (op nat (nat * nat) nat bool) :=
  [Copy 0; Call 0; Env (fun _ => (6, 98)); Call 1; Env (fun _ => (6, 7))].

Lemma ex_stays_recovered :
  pure_or_throw throw_user ex_pf ex_rd /\ sound_eq throw_user /\
  exists s outs es e s1 lg1 s2 outs2 s3 lg,
  run throw_user recover_program (mkState [] (5, 3)) = Some (s, outs) /\
  results outs = [Ok (Some (VAtom 8)); Exc; Ok (Some (VAtom 8))] /\
  shapes recover_program [] = Some es /\ nth_error es 0 = Some e /\
  regular ex_pf ex_rd e /\ unnested ex_pf ex_rd e /\
  exec throw_user (Call 0) s = Some (s1, (Some (Ok (Some (VAtom 12))), lg1)) /\
  evaluations lg1 = postorder e /\
  run throw_user later_program s1 = Some (s2, outs2) /\
  results outs2 = [Ok (Some (VAtom 12)); Exc] /\
  map fst (outputs_of 0 later_program outs2) = [Some (Ok (Some (VAtom 12)))] /\
  exec throw_user (Call 0) s2 = Some (s3, (Some (Ok (Some (VAtom 13))), lg)).
Proof.
  split; [exact throw_pure_or_throw|]. split; [exact throw_sound|]. do 10 eexists.
  split; [vm_compute; reflexivity|]. split; [reflexivity|]. split; [reflexivity|].
  split; [reflexivity|]. split; [repeat (constructor; try discriminate)|].
  split; [repeat (constructor; try discriminate)|].
  split; [vm_compute; reflexivity|]. split; [reflexivity|]. split; [vm_compute; reflexivity|].
  split; [reflexivity|]. split; [reflexivity|]. vm_compute; reflexivity.
Qed.

(** Variables 0 and 1 belong together; 2 is shared by 3 and 4, which also uses 1. *)
Definition share_program : list (sop nat (nat * nat) nat bool) :=
  [SNew 0 [SDep (DFun true)]; SNew 0 [SDRef 0; SDep (DFun false)];
   SNew 0 [SDep (DFun true)]; SNew 0 [SDRef 2]; SNew 0 [SDRef 2; SDRef 1];
   SCall 4; SCall 3; SCall 1; SEnv (set_first 9); SCall 4; SCall 3; SCall 1].

Lemma ex_exclusive :
  pure_user ex_user ex_pf ex_rd /\ sound_eq ex_user /\
  exclusive (fun x => Nat.ltb x 2) share_program 0 [] [] [] /\
  called share_program = [4; 3; 1; 4; 3; 1] /\
  exists s outs es vals,
  eager ex_pf ex_rd (map by_value share_program) [] (5, 3) = Some (es, vals) /\
  Forall (regular ex_pf ex_rd) es /\ Forall (unnested ex_pf ex_rd) es /\
  vals = map (fun n => Some (VAtom n)) [13; 5; 8; 21; 9; 12] /\
  srun ex_user share_program (mkSState [] (5, 3)) = Some (s, outs) /\
  results outs = map (fun n => Ok (Some (VAtom n))) [13; 5; 8; 21; 5; 12].
Proof.
  split; [exact ex_pure|]. split; [exact ex_sound|]. split.
  { cbn. repeat split; repeat (constructor; cbn); intuition discriminate. }
  split; [reflexivity|]. do 4 eexists. split; [reflexivity|].
  split; [repeat (constructor; try discriminate)|]. split; [repeat constructor|].
  split; [reflexivity|]. split; [vm_compute; reflexivity|]. reflexivity.
Qed.
