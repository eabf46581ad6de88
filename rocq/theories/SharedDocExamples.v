(** Concrete cases for C95 to C97. *)
From Coq Require Import List Bool Arith.
From Verif Require Import Value TupleAlg LazyModel LazySpec LazySpec2 LazyExamples LazyExampleProofs
  SharedModel DocSpec DocModel SharedDocModel VersionModel VersionSpec.
Import ListNotations.

(** The program that refutes C20; two lazy functions refer to the first. *)
Definition shared_program : list (sop nat (nat * nat) nat bool) :=
  [SNew 0 [SDep (DFun true)]; SNew 0 [SDRef 0]; SNew 3 [SDRef 0];
   SCall 1; SCall 2; SEnv (set_first 9); SCall 1; SCall 2].

(** The same with an input that throws in between; [SCall 2] is the first call afterwards. *)
Definition shared_throwing : list (sop nat (nat * nat) nat bool) :=
  [SNew 0 [SDep (DFun true); SDep (DFun false)]; SNew 0 [SDRef 0]; SNew 3 [SDRef 0];
   SCall 1; SCall 2; SEnv (fun _ => (9, 98)); SCall 1; SEnv (fun _ => (9, 3)); SCall 2; SCall 1].

(** Without references. *)
Definition unshared_program : list (op nat (nat * nat) nat bool) :=
  [New 2 [DFun true]; New 0 [DVar 0; DFun false; DConst (VAtom 10)];
   Call 1; Env (set_first 7); Copy 1; Call 2; Env (set_first 8); Call 1; Call 1].

Ltac vmr := vm_compute; reflexivity.
Ltac reg := vm_compute; repeat (constructor; try discriminate; intros).

Lemma ex_shared :
  pure_user ex_user ex_pf ex_rd /\ sound_eq ex_user /\
  exists es, eager ex_pf ex_rd (map by_value shared_program) [] (5, 3)
    = Some (es, [Some (VAtom 5); Some (VAtom 2); Some (VAtom 9); Some (VAtom 4)]) /\
  Forall (regular ex_pf ex_rd) es /\ Forall (unnested ex_pf ex_rd) es /\
  exists s outs, srun ex_user shared_program (mkSState [] (5, 3)) = Some (s, outs) /\
  results outs = [Ok (Some (VAtom 5)); Ok (Some (VAtom 2)); Ok (Some (VAtom 9)); Ok (Some (VAtom 2))].
Proof.
  split; [exact ex_pure|]. split; [exact ex_sound|]. eexists. split; [vmr|]. split; [reg|]. split; [reg|].
  do 2 eexists. split; vmr.
Qed.

Lemma ex_shared_throwing :
  pure_or_throw throw_user ex_pf ex_rd /\ sound_eq throw_user /\
  exists es, eager ex_pf ex_rd (map by_value shared_throwing) [] (5, 3)
    = Some (es, [Some (VAtom 8); Some (VAtom 4); Some (VAtom 107); Some (VAtom 6); Some (VAtom 12)]) /\
  Forall (regular ex_pf ex_rd) es /\ Forall (unnested ex_pf ex_rd) es /\
  exists s outs, srun throw_user shared_throwing (mkSState [] (5, 3)) = Some (s, outs) /\
  results outs = [Ok (Some (VAtom 8)); Ok (Some (VAtom 4)); Exc; Ok (Some (VAtom 4)); Ok (Some (VAtom 8))].
Proof.
  split; [exact throw_pure_or_throw|]. split; [exact throw_sound|]. eexists. split; [vmr|]. split; [reg|]. split; [reg|].
  do 2 eexists. split; vmr.
Qed.

Lemma ex_doc_throwing :
  exists s outs, xrun throw_user shared_throwing (mkXState [] (5, 3)) = Some (s, outs) /\
  results outs = [Ok (Some (VAtom 8)); Ok (Some (VAtom 4)); Exc; Ok (Some (VAtom 6)); Ok (Some (VAtom 12))].
Proof. do 2 eexists. split; vmr. Qed.

Lemma ex_version_throwing :
  exists s outs, vrun throw_user shared_throwing (mkVState [] (5, 3)) = Some (s, outs) /\
  results outs = [Ok (Some (VAtom 8)); Ok (Some (VAtom 4)); Exc; Ok (Some (VAtom 6)); Ok (Some (VAtom 12))].
Proof. do 2 eexists. split; vmr. Qed.

Lemma ex_doc_unshared :
  exists outs, wrun ex_user unshared_program [] (5, 3) = Some outs /\
  results outs = [Ok (Some (VAtom 14)); Ok (Some (VAtom 14)); Ok (Some (VAtom 13)); Ok (Some (VAtom 13))].
Proof. eexists. split; vmr. Qed.

Lemma ex_version_unshared :
  exists s outs, run ex_user unshared_program (mkState [] (5, 3)) = Some (s, outs) /\
  Forall (fun out => fst out <> Some Exc) outs /\
  results outs = [Ok (Some (VAtom 14)); Ok (Some (VAtom 14)); Ok (Some (VAtom 13)); Ok (Some (VAtom 13))].
Proof. do 2 eexists. split; [vmr|]. split; [repeat (constructor; [discriminate|]); constructor|vmr]. Qed.

(** 2 refers to 1, which refers to 0; 3 is a copy of 2. *)
Definition referring : list (sop nat (nat * nat) nat bool) :=
  [SNew 0 [SDep (DFun true)]; SNew 0 [SDRef 0]; SNew 3 [SDRef 1; SDep (DFun false)]; SCopy 2; SCall 3; SEnv (set_first 9)].

Lemma ex_refers :
  pure_user ex_user ex_pf ex_rd /\ (forall a, aeq ex_user a a = true) /\
  (forall d w, has_nullopt (ex_rd d w) = false) /\ referred referring [] = [[]; [0]; [1; 0]; [1; 0]].
Proof. split; [exact ex_pure|]. split; [exact Nat.eqb_refl|]. split; [intros [] w; reflexivity|vmr]. Qed.

Lemma ex_doc_settled :
  exists s1 outs1 s2 outs2 s3 r3 lg3,
  xrun ex_user referring (mkXState [] (5, 3)) = Some (s1, outs1) /\
  xrun ex_user (referring ++ [SCall 3]) (mkXState [] (5, 3)) = Some (s2, outs2) /\
  xexec ex_user (SCall 0) s1 = Some (s3, (r3, lg3)) /\ function_calls lg3 <> [].
Proof. do 7 eexists. split; [vmr|]. split; [vmr|]. split; [vmr|]. vm_compute. discriminate. Qed.

Lemma ex_version_settled :
  exists s1 outs1 s2 outs2 s3 r3 lg3,
  vrun ex_user referring (mkVState [] (5, 3)) = Some (s1, outs1) /\
  vrun ex_user (referring ++ [SCall 3]) (mkVState [] (5, 3)) = Some (s2, outs2) /\
  vexec ex_user (SCall 0) s1 = Some (s3, (r3, lg3)) /\ function_calls lg3 <> [].
Proof. do 7 eexists. split; [vmr|]. split; [vmr|]. split; [vmr|]. vm_compute. discriminate. Qed.

(** Before the call of 3, calls of 0 and 3 evaluate functions; afterwards not. *)
Lemma ex_library_settled :
  exists s1 outs1 s2 r lg,
  srun ex_user referring (mkSState [] (5, 3)) = Some (s1, outs1) /\
  sexec ex_user (SCall 3) s1 = Some (s2, (r, lg)) /\ function_calls lg <> [] /\
  (exists s3 r3 lg3, sexec ex_user (SCall 0) s1 = Some (s3, (r3, lg3)) /\ function_calls lg3 <> []) /\
  exists outs', srun ex_user (map SCall [0; 3; 1; 3; 1]) s2 = Some (s2, outs') /\
  results outs' = map (fun n => Ok (Some (VAtom n))) [9; 6; 9; 6; 9].
Proof.
  do 5 eexists. split; [vmr|]. split; [vmr|]. split; [vm_compute; discriminate|]. split.
  - do 3 eexists. split; [vmr|]. vm_compute. discriminate.
  - eexists. split; vmr.
Qed.
