(** Cases for C67. *)
From Coq Require Import List Bool Arith Lia.
From Verif Require Import Value Machine MachineSpec Programs RewiredSpec RefPrograms RewiredRefSpec
  MachineExamples.
From Verif Require LazyModel SharedModel.
Import ListNotations.

(** Variable 2 refers to variable 0 twice; in between it calls its copy of variable 1,
    which changes the outside world.  Variable 3 refers to 0 and 2; a copy of it, which
    refers to the same two; and one that throws. *)
Definition alias_prog : list (rop nat nat mf nat) :=
  [RNew FAdd None [RSrc (SrcFun FNow None)];
   RNew FHello (Some 1) [RSrc (SrcFun FNow None)];
   RNew FAdd None [RRef 0; RSrc (SrcLazy 1); RRef 0];
   RNew FAdd (Some 2) [RRef 0; RRef 2; RSrc (SrcValue (VAtom 5))];
   RCallVar 2; RCallVar 3; RCopy 3; RCallVar 4; REnv (fun w => w + 3); RCallVar 4; RCallVar 3;
   RNew FBoom None [RRef 4]; RCallVar 5; RCallVar 0].

Lemma fun_steady f s : f <> FTick -> f <> FPick -> wrapped_ok exU f s.
Proof.
  intros H1 H2. split; [intros vs w; destruct f, s; try congruence; reflexivity|].
  intros vs w e. destruct f; try congruence; cbn; intros E; congruence.
Qed.
Lemma now_steady : plain_ok exU FNow None.
Proof. split; [intros vs w; reflexivity|]. intros w e. cbn. discriminate. Qed.

Lemma ex_alias : prog_ok 0 (by_values alias_prog) /\ Forall (rop_steady exU) alias_prog.
Proof.
  split; [cbn; intuition (repeat constructor)|]. unfold alias_prog, rop_steady.
  repeat first [apply Forall_cons | apply Forall_nil | exact I | (apply fun_steady; discriminate) | exact now_steady | split].
Qed.

Definition alias_shown : list (shows nat) :=
  [None; None; None; None; Some (d_ 2); Some (d_ 11); None; Some (d_ 14); None; Some (d_ 26); Some (d_ 29);
   None; Some (Err Throw); Some (d_ 9)].
(** The first call: the second time variable 0 is asked it has changed; both arguments
    are references to its cache, and 1. *)
Definition alias_first : list (mevent nat mf) :=
  [MCall FNow []; MCall FAdd [VAtom 0]; MCall FNow []; MCall FHello [VAtom 0];
   MCall FNow []; MCmp (VAtom 0) (VAtom 1); MCall FAdd [VAtom 1]; MCmp (VAtom 0) (VAtom 1);
   MCall FAdd [VAtom 1; VVoid; VAtom 1]].

Lemma ex_alias_run :
  (let (os, st) := run_refs full (mkCfg true true) exU 200 [] alias_prog (start []) in
   (os, mworld st, firstn 9 (trace st), length (trace st))) = (alias_shown, 9, alias_first, 93) /\
  match SharedModel.srun (kept_user exU) (map (@kept_rop nat nat mf nat) alias_prog) (SharedModel.mkSState [] 0) with
  | Some (s, outs) => (map (@kept_shows nat mf nat) outs, SharedModel.sworld s, firstn 9 (kept_actions outs),
                       length (kept_actions outs)) = (alias_shown, 9, alias_first, 93)
  | None => False
  end /\
  (* by value, the first argument is 0 *)
  firstn 7 (trace (snd (run_prog full (mkCfg true true) exU 200 [] (by_values alias_prog) (start [])))) =
    [MCall FNow []; MCall FAdd [VAtom 0]; MCall FNow []; MCall FHello [VAtom 0]; MCall FNow []; MCall FAdd [VAtom 1];
     MCall FAdd [VAtom 0; VVoid; VAtom 1]].
Proof. split; [|split]; vm_compute; reflexivity. Qed.

(** A single user for each. *)
Definition lent_prog : list (rop nat nat mf nat) :=
  [RNew FAdd None [RSrc (SrcFun FNow None); RSrc (SrcValue (VAtom 5))];
   RNew FHello (Some 1) [RSrc (SrcFun FNow None)];
   RNew FAdd None [RRef 0; RRef 1];
   RNew FAdd (Some 2) [RSrc (SrcFun FNow None); RRef 2];
   RCallVar 3; REnv (fun w => w + 3); RCallVar 3; RCallVar 3].

Lemma ex_lent :
  prog_ok 0 (by_values lent_prog) /\ Forall (rop_steady exU) lent_prog /\
  SharedModel.single_user (map (@kept_rop nat nat mf nat) lent_prog) 0 [] [].
Proof.
  split; [cbn; intuition (repeat constructor)|]. split.
  - unfold lent_prog, rop_steady.
    repeat first [apply Forall_cons | apply Forall_nil | exact I | (apply fun_steady; discriminate) | exact now_steady | split].
  - cbn. repeat (split || constructor || (cbn; lia)).
Qed.

Lemma ex_lent_run :
  fst (run_refs full (mkCfg true true) exU 200 [] lent_prog (start [])) =
    [None; None; None; None; Some (d_ 5); None; Some (d_ 13); Some (d_ 15)].
Proof. vm_compute. reflexivity. Qed.

(** A function that gets variable 0 twice, and in between a copy of one that changes the
    outside world (C68). *)
Definition twice_before : list (rop nat nat mf nat) :=
  [RNew FNow None [RSrc (SrcFun FNow None)]; RNew FHello (Some 1) [RSrc (SrcFun FNow None)]].
Definition twice_deps : list (rsource nat mf nat) := [RRef 0; RSrc (SrcLazy 1); RRef 0].
Definition twice_after : list (rop nat nat mf nat) :=
  [RCallVar 2; REnv (fun w => w + 3); RCallVar 2; RCopy 2; RCallVar 3].
Definition twice_prog : list (rop nat nat mf nat) := twice_before ++ RNew FAdd None twice_deps :: twice_after.
Definition adds (l : list (mevent nat mf)) : list (list (val nat)) :=
  flat_map (fun e => match e with MCall FAdd args => [args] | _ => [] end) l.

Lemma ex_twice :
  (prog_ok 0 (by_values twice_prog) /\ Forall (rop_steady exU) twice_prog) /\
  Forall (fun o => match o with RNew f' _ _ => f' <> FAdd | _ => True end) (twice_before ++ twice_after) /\
  twice_prog = twice_before ++ RNew FAdd None twice_deps :: twice_after /\
  nth_error twice_deps 0 = Some (RRef 0) /\ nth_error twice_deps 2 = Some (RRef 0) /\
  adds (trace (snd (run_refs full (mkCfg true true) exU 200 [] twice_prog (start [])))) =
    [[VAtom 1; VVoid; VAtom 1]; [VAtom 5; VVoid; VAtom 5]; [VAtom 6; VVoid; VAtom 6]] /\
  adds (trace (snd (run_prog full (mkCfg true true) exU 200 [] (by_values twice_prog) (start [])))) =
    [[VAtom 0; VVoid; VAtom 1]; [VAtom 4; VVoid; VAtom 5]; [VAtom 5; VVoid; VAtom 6]].
Proof.
  split; [|split; [|split; [|split; [|split; [|split]]]]]; try (vm_compute; reflexivity).
  - split; [cbn; intuition (repeat constructor)|]. unfold twice_prog, twice_before, twice_after, twice_deps, rop_steady.
    repeat first [apply Forall_cons | apply Forall_nil | exact I | (apply fun_steady; discriminate) | exact now_steady | split].
  - unfold twice_before, twice_after. repeat first [apply Forall_cons | apply Forall_nil | exact I | discriminate].
Qed.
