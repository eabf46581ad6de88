(** Cases for C74. *)
From Coq Require Import List Bool Arith Lia.
From Verif Require Import Value TupleAlg LazyModel StateModel StateSpec.
From Verif Require Import Machine MachineSpec Programs RewiredSpec RewiredStateSpec MachineExamples.
Import ListNotations.

(** [Count] returns how often it has been called, and throws the third time; [Sum] adds
    its arguments to what it has, and returns that; [Plus] has no state. *)
Inductive sf := Count | Sum | Plus.
Definition sf_sem (f : sf) (s : option nat) (vs : list (val nat)) (w : nat)
    : option nat * list (val nat) * ures nat * nat :=
  let k := match s with Some k => k | None => 0 end in
  match f with
  | Count => (Some (k + 1), vs, if k =? 2 then UThrow else URet (VAtom k), w)
  | Sum => (Some (k + total vs), vs, URet (VAtom (k + total vs)), w)
  | Plus => (s, vs, URet (VAtom (total vs)), w + 1)
  end.
Definition sfU : muser nat nat sf nat := mkMUser sf_sem Nat.eqb 0.

(** A sum of what a counter says; a copy, which goes its own way; the third call of the
    counter throws, and the fourth goes on from there. *)
Definition state_prog : list (mop nat nat sf nat) :=
  [MNew Sum (Some 10) [SrcFun Count (Some 0); SrcValue (VAtom 5)];
   MNew Plus None [SrcLazy 0];
   MCallVar 0; MCallVar 0; MCopy 0; MCallVar 0; MCallVar 0; MCallVar 2; MCallVar 1].

Lemma ex_defined : prog_ok 0 state_prog /\ Forall (op_defined sfU) state_prog.
Proof.
  split; [cbn; intuition (repeat constructor)|].
  assert (HW : forall f, wrapped_defined sfU f).
  { intros f t vs w e. destruct f; cbn; try discriminate. destruct t as [[|[|[|t]]]|]; cbn; congruence. }
  assert (HP : plain_defined sfU Count).
  { intros t w e. cbn. destruct t as [[|[|[|t]]]|]; cbn; congruence. }
  unfold state_prog.
  repeat first [apply Forall_cons | apply Forall_nil | exact I | apply HW | exact HP | split].
Qed.

Definition state_shown : list (shows nat) :=
  [None; None; Some (d_ 15); Some (d_ 21); None; Some (Err Throw); Some (d_ 29); Some (Err Throw); Some (d_ 15)].
Definition state_trace : list (mevent nat sf) :=
  [MCall Count []; MCall Sum [VAtom 0; VAtom 5];
   MCall Count []; MCmp (VAtom 0) (VAtom 1); MCall Sum [VAtom 1; VAtom 5]; MCmp (VAtom 15) (VAtom 21);
   MCall Count [];
   MCall Count []; MCmp (VAtom 1) (VAtom 3); MCall Sum [VAtom 3; VAtom 5]; MCmp (VAtom 21) (VAtom 29);
   MCall Count [];
   MCall Count []; MCall Sum [VAtom 0; VAtom 5]; MCall Plus [VAtom 15]].

Lemma ex_C74_machine :
  (let (os, st) := run_prog full (mkCfg true true) sfU 200 [] state_prog (mkSt [] 0 []) in (os, mworld st, trace st))
  = (state_shown, 1, state_trace).
Proof. vm_compute. reflexivity. Qed.

Lemma ex_C74_model :
  match srun (state_user sfU) (map (@kept_op nat nat sf nat) state_prog) [] 0 with
  | Some (_, w, outs) => (map (@state_shows nat sf nat) outs, w, state_actions outs) = (state_shown, 1, state_trace)
  | None => False
  end.
Proof. vm_compute. reflexivity. Qed.

(** As the code is written, the counter always says 0. *)
Lemma ex_C74_written :
  fst (run_prog full (mkCfg false false) sfU 200 [] state_prog (mkSt [] 0 []))
  = [None; None; Some (d_ 15); Some (d_ 15); None; Some (d_ 15); Some (d_ 15); Some (d_ 15); Some (d_ 15)].
Proof. vm_compute. reflexivity. Qed.

(** ** Wrapped functions without state *)

(** Counters ([true]: steps of 2) that also count all calls in the world; and sums. *)
Definition tally : suser nat nat bool nat :=
  mkSUser (fun (f : bool) (t : nat) args (w : nat) => (t, FRet (if f then Some (VAtom (total args)) else None), w))
          (fun (f : bool) (t w : nat) => (if f then t + 2 else t + 1, VRet (VAtom t), w + 1)) Nat.eqb 0.
Definition tally_pf (f : bool) (args : list (val nat)) : option (val nat) :=
  if f then Some (VAtom (total args)) else None.

Lemma ex_tally : pure_wrapped tally tally_pf /\ returning tally /\ same_if_equal tally.
Proof.
  split; [split|split].
  - reflexivity.
  - intros [|] args v E; [|discriminate]. injection E as <-. reflexivity.
  - intros f t w. cbn. eauto.
  - intros a b. apply Nat.eqb_eq.
Qed.

(** Two counters behind two sums, one copied after it has been called. *)
Definition tally_prog : list (op nat nat (bool * nat) (bool * nat)) :=
  [New (true, 0) [DFun (true, 0); DFun (false, 7)]; Call 0; Copy 0;
   New (true, 0) [DVar 0; DConst (VAtom 100); DVar 1]; Call 0; Call 0; Env (fun w => w + 50); Call 2; Call 1; Call 2].
Lemma ex_C74_tally :
  xrun tally tally_pf tally_prog [] 0 =
  Some (66, map (fun n => Some (VAtom n)) [7; 10; 13; 120; 10; 126]).
Proof. vm_compute. reflexivity. Qed.

(** ** The states of the function objects *)
Definition three : slz nat sf (option nat) :=
  SUser Sum (Some 10) None [SPlain Count (Some 0) None; SUser Plus None None [SValue (VAtom 4) false]].
Lemma ex_C74_three :
  NoDup (map fst (objects three)) /\
  match srun (state_user sfU) (again 0 [S; S; S; S]) [three] 0 with
  | Some ([l], _, _) => objects l = [(Sum, Some 26); (Count, Some 4); (Plus, None)]
  | _ => False
  end.
Proof.
  split; [|vm_compute; reflexivity].
  repeat constructor; cbn; intuition discriminate.
Qed.

(** Functions whose calls do not change them. *)
Definition constant : suser nat nat bool nat :=
  mkSUser (fun (f : bool) (t : nat) args (w : nat) => (t, if f then FRet (Some (VAtom (t + total args))) else FThrow, w))
          (fun (f : bool) (t w : nat) => (t, if f then VRet (VAtom (t + w)) else VThrow, w)) Nat.eqb 0.
Lemma ex_constant : constant_state constant.
Proof. split; reflexivity. Qed.
Definition constant_prog : list (op nat nat (bool * nat) (bool * nat)) :=
  [New (true, 3) [DFun (true, 1)]; Call 0; Env S; Call 0; Call 0; New (false, 0) [DVar 0]; Call 1].
Lemma ex_C74_constant :
  match srun constant constant_prog [] 5 with
  | Some (_, _, outs) => sresults outs = [Ok (Some (VAtom 9)); Ok (Some (VAtom 10)); Ok (Some (VAtom 10)); Exc]
  | None => False
  end.
Proof. vm_compute. reflexivity. Qed.
