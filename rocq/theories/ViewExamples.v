(** Concrete histories with the results of [to_tuple] (C57). *)
From Coq Require Import List Bool Arith Lia.
From Verif Require Import Value Machine MachineLib TupleOps ViewOps MachineExamples.
Import ListNotations.

(** A variable [x], a tuple of a copy of [x], a reference to [x], and an object of the
    empty class [regular_void]; its [to_tuple]; a default-constructed tuple; [to_tuple] of a
    temporary copy of the first tuple. *)
Definition ex_views : list (view_op nat) :=
  [Op (NewVar (VAtom 1)); Op (NewVar VVoid); Op (NewTuple [(false, 0); (true, 0); (false, 1)]);
   ToTuple 0; SetView 0 0 (VAtom 5); SetView 0 1 (VAtom 6);
   Op (GetElem 0 0); Op (GetElem 0 1); Op (GetVar 0); Op (SetElem 0 0 (VAtom 7)); GetView 0 0;
   NewDefault [VAtom 0; VVoid]; ToTuple 1; Op (CopyTuple 1); Op (SetElem 2 0 (VAtom 9)); GetView 1 0;
   SetView 1 0 (VAtom 3); Op (GetElem 1 0); Op (GetElem 2 0);
   ToTupleTemp 0; SetView 2 1 (VAtom 8); Op (GetElem 0 1); GetView 2 1].

Lemma ex_C57 :
  vops_ok full no_vars ex_views /\
  fst (vmach_run full std [] [] [] ex_views (start []))
  = Done [None; None; None; None; None; None; n_ 5; n_ 6; n_ 6; None; n_ 7;
          None; None; None; None; n_ 0; None; n_ 3; n_ 9; None; None; n_ 8; n_ 8].
Proof. split; [|reflexivity]. cbn. repeat (split || constructor || intros; try discriminate; try lia). Qed.

Lemma ex_C57_gone :
  view_of (fst (venv_run full no_vars ex_views)) 0 2 = Some (Gone VVoid) /\
  fst (vmach_run full std [] [] [] (ex_views ++ [SetView 0 2 VVoid]) (start [])) = Err Undefined /\
  view_of (fst (venv_run full no_vars ex_views)) 2 0 = Some (Gone (VAtom 7)) /\
  fst (vmach_run full std [] [] [] (ex_views ++ [GetView 2 0]) (start [])) = Err Undefined.
Proof. split; [|split; [|split]]; reflexivity. Qed.
