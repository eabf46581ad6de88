(** Concrete cases for C94. *)
From Coq Require Import List Bool Arith.
From Verif Require Import Value TupleAlg LazyModel LazySpec LazySpec2 LazyExamples LazyExampleProofs
  OptionalExamples RepairModel.
Import ListNotations.

(** An input is read, the next one throws; then that one is as before. *)
Definition repair_program : list (op nat (nat * nat) nat bool) :=
  [New 0 [DFun true; DFun false]; Call 0; Env (fun _ => (9, 98)); Call 0; Env (fun _ => (9, 3))].

Lemma ex_never_outdated :
  pure_or_throw throw_user ex_pf ex_rd /\ sound_eq throw_user /\
  exists s outs es e s' lg s2 outs2 s2' lg2,
  rrun throw_user (mkChanges true true false false) repair_program (mkState [] (5, 3)) = Some (s, outs) /\
  results outs = [Ok (Some (VAtom 8)); Exc] /\
  shapes repair_program [] = Some es /\ nth_error es 0 = Some e /\ regular ex_pf ex_rd e /\ unnested ex_pf ex_rd e /\
  rexec throw_user (mkChanges true true false false) (Call 0) s = Some (s', (Some (Ok (Some (VAtom 12))), lg)) /\
  run throw_user repair_program (mkState [] (5, 3)) = Some (s2, outs2) /\
  exec throw_user (Call 0) s2 = Some (s2', (Some (Ok (Some (VAtom 8))), lg2)).
Proof.
  split; [exact throw_pure_or_throw|]. split; [exact throw_sound|].
  do 10 eexists. split; [vm_compute; reflexivity|]. split; [vm_compute; reflexivity|].
  split; [vm_compute; reflexivity|]. split; [vm_compute; reflexivity|].
  split; [repeat (constructor; try discriminate)|]. split; [repeat (constructor; try discriminate)|].
  repeat split; vm_compute; reflexivity.
Qed.

Lemma ex_same :
  exists s outs,
  run throw_user [New 0 [DFun true; DFun false]; Call 0; Env (fun _ => (9, 4)); Copy 0; Call 1; Call 0] (mkState [] (5, 3))
    = Some (s, outs) /\
  Forall (fun out => fst out <> Some Exc) outs /\
  results outs = [Ok (Some (VAtom 8)); Ok (Some (VAtom 13)); Ok (Some (VAtom 13))].
Proof.
  do 2 eexists. split; [vm_compute; reflexivity|].
  split; [repeat (constructor; [discriminate|]); constructor|vm_compute; reflexivity].
Qed.

Lemma ex_no_changes :
  exists s outs, run throw_user repair_program (mkState [] (5, 3)) = Some (s, outs) /\
  results outs = [Ok (Some (VAtom 8)); Exc].
Proof. do 2 eexists. split; vm_compute; reflexivity. Qed.

Lemma ex_repaired_cost :
  exists s outs s' lg,
  rrun throw_user all_changes
    [New 0 [DFun true; DFun false]; Call 0; Env (fun _ => (5, 98)); Call 0; Env (fun _ => (5, 3))]
    (mkState [] (5, 3)) = Some (s, outs) /\
  rexec throw_user all_changes (Call 0) s = Some (s', (Some (Ok (Some (VAtom 8))), lg)) /\
  evaluations lg = [inr true; inr false; inl 0].
Proof. do 4 eexists. repeat split; vm_compute; reflexivity. Qed.

(** ** No change can be left out *)

Definition own_program : list (op nat (nat * nat) nat bool) :=
  [New 0 [DFun true]; Call 0; Env (fun _ => (6, 99)); Call 0; Env (fun _ => (6, 0))].
Definition deps_program : list (op nat (nat * nat) nat bool) :=
  [New 2 [DFun false]; New 0 [DFun true; DVar 0]; Call 1; Env (fun _ => (9, 98)); Call 1; Env (fun _ => (9, 3))].
Definition pair_rd (d : bool) (w : nat * nat) : val nat := VPair (VAtom (fst w)) (VAtom (snd w)).
Lemma pair_or_throw : pure_or_throw pair_user ex_pf pair_rd.
Proof. split; [intros f args w|intros d w]; left; reflexivity. Qed.
Lemma opt_or_throw : pure_or_throw opt_user opt_pf opt_rd.
Proof. split; [intros f args w|intros d w]; left; reflexivity. Qed.

Lemma each_change_needed C : C <> all_changes ->
  exists (U : user nat (nat * nat) nat bool) pf rd p w s outs es x e s' o lg,
  pure_or_throw U pf rd /\ exact_eq U /\
  rrun U C p (mkState [] w) = Some (s, outs) /\ shapes p [] = Some es /\ nth_error es x = Some e /\
  rexec U C (Call x) s = Some (s', (Some (Ok o), lg)) /\ o <> visible (eval pf rd e (world s)).
Proof.
  intros H. destruct C as [[|] d a b].
  - destruct d.
    + destruct a.
      * destruct b; [now destruct H|].
        exists opt_user, opt_pf, opt_rd, [New 0 [DFun false]; Call 0; Env (fun _ => (0, 1))], (0, 0).
        do 3 eexists. exists 0. do 4 eexists. split; [exact opt_or_throw|]. split; [exact opt_exact|].
        do 4 (split; [vm_compute; reflexivity|]). vm_compute. discriminate.
      * exists pair_user, ex_pf, pair_rd, [New 4 [DFun true]], (0, 0).
        do 3 eexists. exists 0. do 4 eexists. split; [exact pair_or_throw|]. split; [exact ex_exact|].
        destruct b; (do 4 (split; [vm_compute; reflexivity|])); vm_compute; discriminate.
    + exists throw_user, ex_pf, ex_rd, deps_program, (5, 3).
      destruct a, b; (do 3 eexists; exists 1; do 4 eexists; split; [exact throw_pure_or_throw|]; split; [exact ex_exact|];
        (do 4 (split; [vm_compute; reflexivity|])); vm_compute; discriminate).
  - exists throw_user, ex_pf, ex_rd, own_program, (5, 0).
    destruct d, a, b; (do 3 eexists; exists 0; do 4 eexists; split; [exact throw_pure_or_throw|]; split; [exact ex_exact|];
      (do 4 (split; [vm_compute; reflexivity|])); vm_compute; discriminate).
Qed.

(** Optionals of optionals. *)
Lemma ex_repaired_effects :
  pure_user opt_user opt_pf opt_rd /\ exact_eq opt_user /\
  exists ts s2 outs2,
  let p := [New 0 [DFun false]; Call 0; Env (fun _ => (0, 1)); Call 0] in
  tracked_run opt_pf opt_rd (veq (aeq opt_user)) p [] (0, 0) = Some (ts,
    let none := VOpt None in let full := VOpt (Some none) in
    [(None, []);
     (Some (Ok (Some (VAtom 0))), [EvSample false; EvCall 0 [none]]);
     (None, []);
     (Some (Ok (Some (VAtom 1))), [EvSample false; EvCmp none full; EvCall 0 [full]; EvCmp (VAtom 0) (VAtom 1)])]) /\
  run opt_user p (mkState [] (0, 0)) = Some (s2, outs2) /\
  results outs2 = [Ok (Some (VAtom 0)); Ok (Some (VAtom 0))].
Proof.
  split; [exact opt_pure|]. split; [exact opt_exact|].
  do 3 eexists. repeat split; vm_compute; reflexivity.
Qed.
