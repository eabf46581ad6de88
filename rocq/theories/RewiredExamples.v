(** A case for C54. *)
From Coq Require Import List Bool Arith Lia.
From Verif Require Import Value Machine MachineSpec Programs RewiredSpec MachineExamples.
From Verif Require LazyModel.
Import ListNotations.

(** The outside world plus 5; a greeting after that; the world changes; a copy; and one
    that throws. *)
Definition kept_prog : list (mop nat nat mf nat) :=
  [MNew FAdd None [SrcFun FNow None; SrcValue (VAtom 5)];
   MNew FHello (Some 1) [SrcLazy 0];
   MCallVar 0; MCallVar 0; MEnv (fun w => w + 3); MCopy 0; MCallVar 2; MCallVar 1;
   MNew FBoom None [SrcLazy 0]; MCallVar 3].

Lemma ex_steady : prog_ok 0 kept_prog /\ Forall (op_steady exU) kept_prog.
Proof.
  split; [cbn; intuition (repeat constructor)|].
  assert (HW : forall f s, f <> FTick -> f <> FPick -> wrapped_ok exU f s).
  { intros f s H1 H2. split; [intros vs w; destruct f, s; try congruence; reflexivity|].
    intros vs w e. destruct f; try congruence; cbn; intros E; congruence. }
  assert (HP : plain_ok exU FNow None).
  { split; [intros vs w; reflexivity|]. intros w e. cbn. discriminate. }
  unfold kept_prog.
  repeat first [apply Forall_cons | apply Forall_nil | exact I | (apply HW; discriminate) | exact HP | split].
Qed.

Definition kept_shown : list (shows nat) :=
  [None; None; Some (d_ 5); Some (d_ 5); None; None; Some (d_ 8); Some (Done None); None; Some (Err Throw)].
(** The second call only asks again what the outside world is like. *)
Definition kept_trace : list (mevent nat mf) :=
  [MCall FNow []; MCall FAdd [VAtom 0; VAtom 5];
   MCall FNow []; MCmp (VAtom 0) (VAtom 0);
   MCall FNow []; MCmp (VAtom 0) (VAtom 3); MCall FAdd [VAtom 3; VAtom 5]; MCmp (VAtom 5) (VAtom 8);
   MCall FNow []; MCall FAdd [VAtom 3; VAtom 5]; MCall FHello [VAtom 8];
   MCall FNow []; MCmp (VAtom 0) (VAtom 4); MCall FAdd [VAtom 4; VAtom 5]; MCmp (VAtom 5) (VAtom 9);
   MCall FBoom [VAtom 9]].

Lemma ex_C54_run :
  (let (os, st) := run_prog full (mkCfg true true) exU 200 [] kept_prog (start []) in (os, mworld st, trace st))
  = (kept_shown, 4, kept_trace).
Proof. vm_compute. reflexivity. Qed.

Lemma ex_C54_kept :
  match LazyModel.run (kept_user exU) (map (@kept_op nat nat mf nat) kept_prog) (LazyModel.mkState [] 0) with
  | Some (s, outs) => (map (@kept_shows nat mf nat) outs, LazyModel.world s, kept_actions outs)
                      = (kept_shown, 4, kept_trace)
  | None => False
  end.
Proof. vm_compute. reflexivity. Qed.
