(** A case for C66. *)
From Coq Require Import List Bool Arith Lia.
From Verif Require Import Value Machine MachineSpec Programs RefPrograms MachineExamples.
Import ListNotations.

(** The outside world plus 5, read twice by one function, which another one refers to;
    the world changes; a copy of the function that holds references is called. *)
Definition ref_prog : list (rop nat nat mf nat) :=
  [RNew FAdd None [RSrc (SrcFun FNow None); RSrc (SrcValue (VAtom 5))];
   RNew FTick (Some 1) [RRef 0; RRef 0];
   RNew FHello None [RRef 1; RSrc (SrcLazy 0)];
   RCallVar 0; RCallVar 1; REnv (fun w => w + 3); RCopy 1; RCallVar 3; RCallVar 2; RCallVar 2].

Lemma ref_prog_ok : prog_ok 0 (by_values ref_prog).
Proof. cbn. repeat (split || constructor || lia). Qed.

Definition ref_shown : list (shows nat) :=
  [None; None; None; Some (d_ 5); Some (d_ 10); None; None; Some (d_ 16); Some (Done None); Some (Done None)].
Definition ref_trace : list (mevent nat mf) :=
  [MCall FNow []; MCall FAdd [VAtom 0; VAtom 5];
   MCall FNow []; MCall FAdd [VAtom 0; VAtom 5]; MCall FNow []; MCall FAdd [VAtom 0; VAtom 5]; MCall FTick [VAtom 5; VAtom 5];
   MCall FNow []; MCall FAdd [VAtom 3; VAtom 5]; MCall FNow []; MCall FAdd [VAtom 3; VAtom 5]; MCall FTick [VAtom 8; VAtom 8];
   MCall FNow []; MCall FAdd [VAtom 3; VAtom 5]; MCall FNow []; MCall FAdd [VAtom 3; VAtom 5]; MCall FTick [VAtom 8; VAtom 8];
   MCall FNow []; MCall FAdd [VAtom 3; VAtom 5]; MCall FHello [VAtom 16; VAtom 8];
   MCall FNow []; MCall FAdd [VAtom 4; VAtom 5]; MCall FNow []; MCall FAdd [VAtom 4; VAtom 5]; MCall FTick [VAtom 9; VAtom 9];
   MCall FNow []; MCall FAdd [VAtom 4; VAtom 5]; MCall FHello [VAtom 18; VAtom 9]].

Lemma ex_C66 :
  (let (os, st) := run_refs full (mkCfg false false) exU 60 [] ref_prog (start []) in (os, mworld st, trace st))
  = (ref_shown, 5, ref_trace) /\
  (let (os, st) := run_prog full (mkCfg false false) exU 60 [] (by_values ref_prog) (start []) in (os, mworld st, trace st))
  = (ref_shown, 5, ref_trace).
Proof. split; vm_compute; reflexivity. Qed.

Lemma ex_C66_std :
  fst (run_refs full std exU 60 [] ref_prog (start [])) = fst (run_prog full std exU 60 [] (by_values ref_prog) (start [])) /\
  nth 4 (fst (run_refs full std exU 60 [] ref_prog (start []))) None = Some (Err Undefined).
Proof. split; vm_compute; reflexivity. Qed.
