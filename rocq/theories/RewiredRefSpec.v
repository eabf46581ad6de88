(** The rewired composition ([byref], see [RewiredSpec.v]; NOT the code) with [std::ref]:
    how programs and objects correspond to those of [SharedModel.v]. *)
From Coq Require Import List Bool Arith.
From Verif Require Import Value Machine MachineSpec Programs RewiredSpec RefPrograms.
From Verif Require LazyModel SharedModel.
Import ListNotations.

Section RewiredRefs.
Context {A W F S : Type}.
Notation fn := (F * option S)%type.
Variable U : muser A W F S.

Definition kept_rsource (d : rsource A F S) : SharedModel.sdep A fn :=
  match d with
  | RRef x => SharedModel.SDRef x
  | RSrc d' => SharedModel.SDep (kept_source d')
  end.
Definition kept_rop (o : rop A W F S) : SharedModel.sop A W fn fn :=
  match o with
  | RNew f s deps => SharedModel.SNew (f, s) (map kept_rsource deps)
  | RCopy x => SharedModel.SCopy x
  | RCallVar x => SharedModel.SCall x
  | REnv h => SharedModel.SEnv h
  end.

(** Programs over functions that calls do not change. *)
Definition rop_steady (o : rop A W F S) : Prop := op_steady U (unref_op o).

(** The objects; [rs] says where the variables are. *)
Fixpoint skept (rs : list ref) (l : SharedModel.slz A fn fn) : obj A F S :=
  match l with
  | SharedModel.SValue v ch => lazy_value_obj v ch
  | SharedModel.SCore (LazyModel.FnUser p) c ds =>
      wrap_obj (node_obj c (reg_obj (fun_obj (fst p) (snd p))) (map (skept rs) ds))
  | SharedModel.SCore (LazyModel.FnSample p) c ds =>
      node_obj c (sample_fn (fun_obj (fst p) (snd p))) (map (skept rs) ds)
  | SharedModel.SRef x => std_ref (nth x rs (0, []))
  end.

End RewiredRefs.
