(** Concrete cases for the theorems of PropsDoc.v. *)
From Coq Require Import List Bool Arith Lia.
From Verif Require Import Value TupleAlg LazyModel LazySpec LazySpec2 LazyExamples DocModel DocSpec.
Import ListNotations.

(** A lazy function of two plain functions and a value, one that depends on it twice,
    a copy; the world changes between calls and changes back. *)
Definition doc_program : list (op nat (nat * nat) nat bool) :=
  [New 0 [DFun true; DFun false; DConst (VAtom 1)]; New 0 [DVar 0; DVar 0]; Call 1; Call 1;
   Env (set_first 9); Copy 1; Call 1; Call 2; Env (fun w => (snd w, fst w)); Call 1; Call 0].

Lemma ex_C59_dependencies :
  pure_user ex_user ex_pf ex_rd /\ exact_eq ex_user /\
  exists es vals outs,
  eager ex_pf ex_rd doc_program [] (5, 3) = Some (es, vals) /\
  Forall (regular ex_pf ex_rd) es /\ Forall (never_null ex_pf ex_rd) es /\
  wrun ex_user doc_program [] (5, 3) = Some outs /\
  results outs = map (fun n => Ok (Some (VAtom n))) [18; 18; 26; 26; 26; 13] /\
  map (fun o => length (function_calls (snd o))) outs = [0; 0; 3; 0; 0; 0; 3; 3; 0; 2; 1].
Proof.
  split; [apply ex_pure|]. split; [apply ex_exact|].
  do 3 eexists. split; [vm_compute; reflexivity|].
  split; [repeat (constructor; try discriminate)|].
  split; [repeat constructor; cbn; intros; reflexivity|].
  split; [vm_compute; reflexivity|]. split; reflexivity.
Qed.

Lemma ex_C59_final_design :
  pure_user ex_user ex_pf ex_rd /\ exact_eq ex_user /\
  exists es vals s outs,
  eager ex_pf ex_rd doc_program [] (5, 3) = Some (es, vals) /\
  Forall (regular ex_pf ex_rd) es /\ Forall (never_null ex_pf ex_rd) es /\
  frun ex_user doc_program (mkState [] (5, 3)) = Some (s, outs) /\
  results outs = map (fun n => Ok (Some (VAtom n))) [18; 18; 26; 26; 26; 13] /\
  map (fun o => length (function_calls (snd o))) outs = [0; 0; 3; 0; 0; 0; 3; 3; 0; 2; 1] /\
  map (fun o => length (samples (snd o))) outs = [0; 0; 4; 4; 0; 0; 8; 8; 0; 6; 2].
Proof.
  split; [apply ex_pure|]. split; [apply ex_exact|].
  do 4 eexists. split; [vm_compute; reflexivity|].
  split; [repeat (constructor; try discriminate)|].
  split; [repeat constructor; cbn; intros; reflexivity|].
  split; [vm_compute; reflexivity|]. repeat split; reflexivity.
Qed.

Lemma ex_chain_value w k : chain_value ex_pf ex_rd 0 true w k = VAtom (fst w).
Proof. induction k as [|k IH]; [reflexivity|]. cbn [chain_value]. rewrite IH. cbn. f_equal. lia. Qed.

Lemma ex_C59_double_calls :
  pure_user ex_user ex_pf ex_rd /\ exact_eq ex_user /\
  (forall w k, as_tuple (chain_value ex_pf ex_rd 0 true w k) = None) /\
  (forall w k, has_nullopt (chain_value ex_pf ex_rd 0 true w k) = false) /\
  (forall k, k <= 10 ->
     chain_value ex_pf ex_rd 0 true (5, 3) k <> chain_value ex_pf ex_rd 0 true (set_first 6 (5, 3)) k).
Proof.
  split; [apply ex_pure|]. split; [apply ex_exact|].
  split; [intros; now rewrite ex_chain_value|]. split; [intros; now rewrite ex_chain_value|].
  intros k _. rewrite !ex_chain_value. discriminate.
Qed.

(** A plain function that returns how often it has been called. *)
Definition count_user : user nat (nat * nat) nat bool :=
  mkUser (fun f args w => (FRet (ex_pf f args), w))
         (fun _ w => (VRet (VAtom (fst w)), (S (fst w), snd w))) Nat.eqb 0.

Lemma refuted_C59 :
  exists (U : user nat (nat * nat) nat bool) p w s outs s' outs',
    exact_eq U /\ (forall f args w, exists v, sem U f args w = (FRet v, w)) /\
    run U p (mkState [] w) = Some (s, outs) /\
    frun U p (mkState [] w) = Some (s', outs') /\
    results outs <> results outs'.
Proof.
  exists count_user, [New 0 [DFun true]; Call 0; Call 0], (0, 0). do 4 eexists.
  split; [apply ex_exact|]. split; [intros; eexists; reflexivity|].
  split; [vm_compute; reflexivity|]. split; [vm_compute; reflexivity|]. discriminate.
Qed.

(** The function throws in the second call and would not throw in the third, where its
    argument is the same. *)
Definition throw_program : list (op nat (nat * nat) nat bool) :=
  [New 0 [DFun true]; Call 0; Env (fun _ => (9, 99)); Call 0; Env (fun _ => (9, 3)); Call 0].

Lemma ex_C59_exceptions :
  pure_or_throw throw_user ex_pf ex_rd /\ sound_eq throw_user /\
  exists es outs,
  eager ex_pf ex_rd throw_program [] (5, 3) = Some (es, map (fun n => Some (VAtom n)) [5; 9; 9]) /\
  Forall (regular ex_pf ex_rd) es /\
  wrun throw_user throw_program [] (5, 3) = Some outs /\
  results outs = [Ok (Some (VAtom 5)); Exc; Ok (Some (VAtom 9))].
Proof.
  split; [apply throw_pure_or_throw|]. split; [apply throw_sound|].
  do 2 eexists. split; [vm_compute; reflexivity|].
  split; [repeat (constructor; try discriminate)|]. split; reflexivity.
Qed.

Lemma refuted_C59_exceptions :
  exists (U : user nat (nat * nat) nat bool) pf rd p w es vals s outs outs' outs'',
    pure_or_throw U pf rd /\ exact_eq U /\
    eager pf rd p [] w = Some (es, vals) /\ Forall (regular pf rd) es /\ Forall (never_null pf rd) es /\
    run U p (mkState [] w) = Some (s, outs) /\
    results outs = [Ok (Some (VAtom 5)); Exc; Ok (Some (VAtom 5))] /\
    wrun U p [] w = Some outs' /\
    results outs' = [Ok (Some (VAtom 5)); Exc; Ok (Some (VAtom 9))] /\
    frun U p (mkState [] w) = Some (s, outs'') /\
    results outs'' = [Ok (Some (VAtom 5)); Exc; Ok (Some (VAtom 5))].
Proof.
  exists throw_user, ex_pf, ex_rd, throw_program, (5, 3). do 6 eexists.
  split; [apply throw_pure_or_throw|]. split; [intros a b; apply Nat.eqb_eq|].
  split; [vm_compute; reflexivity|].
  split; [repeat (constructor; try discriminate)|].
  split; [repeat constructor; cbn; intros; reflexivity|].
  split; [vm_compute; reflexivity|]. repeat split; reflexivity.
Qed.

(** The functions count their calls and the third one throws; the plain functions do not read the counter. *)
Definition counting_thrower : user nat (nat * nat) nat bool :=
  mkUser (fun f args w => ((if Nat.eqb (snd w) 2 then FThrow else FRet (ex_pf f args)), (fst w, S (snd w))))
         (fun (b : bool) (w : nat * nat) => (VRet (VAtom (if b then fst w else S (fst w))), w)) Nat.eqb 0.

Definition thrower_program : list (op nat (nat * nat) nat bool) :=
  [New 0 [DFun true; DFun false]; New 0 [DVar 0; DVar 0]; Call 1; Call 1; Env (set_first 9); Call 1; Call 1].

Lemma ex_C59_final_effects :
  exists s outs outs',
  (forall d w, snd (dsem counting_thrower d w) = w) /\
  (forall d f args w,
     fst (dsem counting_thrower d (snd (sem counting_thrower f args w))) = fst (dsem counting_thrower d w)) /\
  (forall a, aeq counting_thrower a a = true) /\
  (forall f args w v, fst (sem counting_thrower f args w) = FRet (Some v) ->
     as_tuple v = None /\ has_nullopt v = false) /\
  (forall d w v, fst (dsem counting_thrower d w) = VRet v -> as_tuple v = None /\ has_nullopt v = false) /\
  run counting_thrower thrower_program (mkState [] (5, 0)) = Some (s, outs) /\
  results outs = [Exc; Ok (Some (VAtom 22)); Ok (Some (VAtom 38)); Ok (Some (VAtom 38))] /\
  map (fun o => length (samples (snd o))) outs = [0; 0; 4; 4; 0; 4; 4] /\
  frun counting_thrower thrower_program (mkState [] (5, 0)) = Some (s, outs') /\
  map (fun o => length (samples (snd o))) outs' = [0; 0; 4; 4; 0; 8; 4].
Proof.
  do 3 eexists. split; [reflexivity|]. split; [reflexivity|]. split; [intros; apply Nat.eqb_refl|].
  split.
  { intros f args w v. cbn. destruct (Nat.eqb (snd w) 2); [discriminate|]. intros [= H]. revert H. unfold ex_pf.
    repeat match goal with |- context [match ?x with _ => _ end] => destruct x end; intros [= <-]; now split. }
  split; [intros d w v [= <-]; now split|].
  split; [vm_compute; reflexivity|]. split; [vm_compute; reflexivity|]. split; [vm_compute; reflexivity|]. split; vm_compute; reflexivity.
Qed.
