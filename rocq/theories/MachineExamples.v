(** Concrete programs for the properties stated on the machine. *)
From Coq Require Import List Bool Arith Lia.
From Verif Require Import Value Machine MachineSpec MachineLib MachineSpec2 BindSpec TupleOps RegularVoid Programs.
Import ListNotations.

(** Function objects: [FTick] has a counter, adds it to every argument and returns
    the sum the arguments had; [FHello] returns [void] and changes the outside world;
    [FBoom] throws; [FNow] returns what the outside world is like; [FPick] returns a
    reference to its first argument; [FAdd] has no state. *)
Inductive mf := FTick | FHello | FBoom | FNow | FPick | FAdd.

Definition num (v : val nat) : nat := match v with VAtom n => n | _ => 0 end.
Definition total (vs : list (val nat)) : nat := list_sum (map num vs).
Definition bump (k : nat) (v : val nat) : val nat := match v with VAtom n => VAtom (n + k) | _ => v end.

Definition ex_sem (f : mf) (s : option nat) (vs : list (val nat)) (w : nat)
    : option nat * list (val nat) * ures nat * nat :=
  match f with
  | FTick => let k := match s with Some k => k | None => 0 end in
             (Some (k + 1), map (bump k) vs, URet (VAtom (total vs)), w)
  | FHello => (s, vs, UVoid, w + 1)
  | FBoom => (s, vs, UThrow, w)
  | FNow => (s, vs, URet (VAtom w), w)
  | FPick => (s, vs, URefArg 0, w)
  | FAdd => (s, vs, URet (VAtom (total vs)), w)
  end.
Definition exU : muser nat nat mf nat := mkMUser ex_sem Nat.eqb 0.

(** No value of type [nat] is of an empty class. *)
Definition full : val nat -> bool := fun _ => false.
(** Using a dead object is undefined; the code as it is. *)
Definition std : config := mkCfg true false.

Notation cell := (bool * obj nat mf nat)%type.
Definition num_obj (n : nat) : obj nat mf nat := data (VAtom n).
Definition start (l : list (obj nat mf nat)) : mstate nat nat mf nat := mkSt (map (pair true) l) 0 [].

Lemma overwrite_same (vs : list (val nat)) : overwrite vs vs = vs.
Proof. induction vs; cbn; congruence. Qed.
Lemma overwrite_bump k (vs : list (val nat)) : overwrite vs (map (bump k) vs) = map (bump k) vs.
Proof. induction vs; cbn; congruence. Qed.
Lemma same_class_refl (v : val nat) : same_class full v v.
Proof. split; auto. Qed.

Lemma ex_well_typed f : well_typed full exU f.
Proof.
  intros s vs w. assert (H : forall l : list (val nat), Forall2 (same_class full) l l).
  { induction l; constructor; auto using same_class_refl. }
  destruct f; cbn; rewrite ?overwrite_same; auto.
  rewrite overwrite_bump. induction vs as [|v vs IH]; cbn; constructor; auto.
  destruct v; cbn; split; auto; discriminate.
Qed.

Lemma ex_by_value : by_value_fun exU FTick.
Proof. intros s vs w i. discriminate. Qed.

(** ** C35 *)
Definition ex_history : list (tuple_op nat) :=
  [NewVar (VAtom 1); NewVar (VAtom 2); NewTuple [(false, 0); (true, 1)];
   SetElem 0 0 (VAtom 10); SetElem 0 1 (VAtom 20); GetVar 0; GetVar 1;
   CopyTuple 0; SetElem 1 0 (VAtom 11); SetElem 1 1 (VAtom 21);
   GetElem 0 0; GetElem 0 1; GetElem 1 0; SetVar 1 (VAtom 3); GetElem 0 1; GetElem 1 1].
Definition n_ (n : nat) : option (val nat) := Some (VAtom n).
Lemma ex_C35 :
  ops_ok full (mkEnv [] []) ex_history /\
  fst (mach_run full std [] [] ex_history (start []))
  = Done [None; None; None; None; None; n_ 1; n_ 20; None; None; None; n_ 10; n_ 21; n_ 11; None; n_ 3; n_ 3].
Proof. split; [|reflexivity]. cbn. repeat (split || constructor || intros; try discriminate; try lia). Qed.

(** ** C38, C42: [bind_back(f, b, 20)], [b] a variable. *)
Definition ex_bound : mstate nat nat mf nat := start [fun_obj FTick (Some 1); num_obj 10; num_obj 20].
Definition bound_args : list arg := [mkArg (1, []) LV; mkArg (2, []) RV].
Definition ex_steps : list (step nat) :=
  [CallWith [VAtom 1]; CallWith []; Assign 0 (VAtom 5); CallWith [VAtom 1; VAtom 2]].
Definition d_ (n : nat) : outcome (option (val nat)) := Done (Some (VAtom n)).

Definition and_run {X} (m : M nat nat mf nat ref) (k : ref -> mstate nat nat mf nat -> X)
    (x : X) (st : mstate nat nat mf nat) : X :=
  match m st with (Done r, st1) => k r st1 | _ => x end.

Ltac held := eexists; split; reflexivity.

Lemma ex_C38 :
  holds (store ex_bound) (aref (mkArg (0, []) LV)) (fun_obj FTick (Some 1)) /\
  Forall2 (fun b v => holds (store ex_bound) (aref b) (data v)) bound_args [VAtom 10; VAtom 20] /\
  NoDup (map aref bound_args) /\ in_range 2 ex_steps /\
  and_run (bind (bind_back full std (mkArg (0, []) LV) bound_args) alloc)
    (fun r st1 =>
       let (os, st2) := run_steps full std exU 2 r (homes r 1 bound_args) ex_steps st1 in
       (os, trace st2, firstn 3 (store st2)))
    ([], [], []) ex_bound
  = ([d_ 31; d_ 32; d_ 31],
     [MCall FTick [VAtom 1; VAtom 10; VAtom 20]; MCall FTick [VAtom 11; VAtom 21];
      MCall FTick [VAtom 1; VAtom 2; VAtom 5; VAtom 23]],
     [(true, fun_obj FTick (Some 4)); (true, num_obj 8); (true, num_obj 20)]).
Proof.
  split; [held|]. split; [repeat constructor; held|]. split.
  { repeat constructor; cbn; intuition congruence. }
  split; [repeat constructor; lia|]. vm_compute. reflexivity.
Qed.

(** The variable [b] dies; the temporary that 20 was does not matter. *)
Lemma ex_C42 :
  referred_dead [1; 2] (mkArg (1, []) LV) /\
  and_run (bind (bind_back full std (mkArg (0, []) LV) bound_args) alloc)
    (fun r st1 =>
       (fst (call_with full std exU 2 r [] (mkSt (die [1; 2] (store st1)) (mworld st1) (trace st1))),
        fst (call_with full std exU 2 r [] (mkSt (die [2] (store st1)) (mworld st1) (trace st1)))))
    (Err NoFuel, Err NoFuel) ex_bound
  = (Err Undefined, d_ 30).
Proof. split; [|reflexivity]. split; [discriminate|now left]. Qed.

(** ** C39, C40, C41: a tuple of a value and of a reference to a variable. *)
Definition ex_pair : obj nat mf nat := Node KCT [SVal (num_obj 10); SRef (2, [])].
Definition ex_tuple : mstate nat nat mf nat := start [fun_obj FTick (Some 1); ex_pair; num_obj 20].
Definition op_f : arg := mkArg (0, []) LV.
Definition op_t : arg := mkArg (1, []) LV.

Lemma ex_tuple_ok :
  holds (store ex_tuple) (aref op_f) (fun_obj FTick (Some 1)) /\
  holds (store ex_tuple) (aref op_t) ex_pair /\
  Forall2 (slot_holds (store ex_tuple)) (members ex_pair) (map data [VAtom 10; VAtom 20]) /\
  NoDup (places (aref op_t) 0 (members ex_pair)) /\ in_range 2 ex_steps.
Proof.
  split; [held|]. split; [held|]. split; [repeat constructor; held|].
  split; [apply NoDup_cons; [intros [H|[]]; discriminate|apply NoDup_cons; [easy|apply NoDup_nil]]|].
  repeat constructor; lia.
Qed.

Definition ex_shift (op : arg -> arg -> M nat nat mf nat (obj nat mf nat)) :=
  and_run (bind (op op_t op_f) alloc)
    (fun r st1 =>
       let (os, st2) := run_steps full std exU 3 r (places (aref op_t) 0 (members ex_pair)) ex_steps st1 in
       (os, trace st2, firstn 3 (store st2)))
    ([], [], []) ex_tuple.

Lemma ex_C39 :
  ex_shift (shift_right full std)
  = ([d_ 31; d_ 32; d_ 31],
     [MCall FTick [VAtom 10; VAtom 20; VAtom 1]; MCall FTick [VAtom 11; VAtom 21];
      MCall FTick [VAtom 5; VAtom 23; VAtom 1; VAtom 2]],
     [(true, fun_obj FTick (Some 4)); (true, Node KCT [SVal (num_obj 8); SRef (2, [])]); (true, num_obj 26)]).
Proof. vm_compute. reflexivity. Qed.

Lemma ex_C40 :
  ex_shift (shift_left full std)
  = ([d_ 31; d_ 32; d_ 30],
     [MCall FTick [VAtom 1; VAtom 10; VAtom 20]; MCall FTick [VAtom 11; VAtom 21];
      MCall FTick [VAtom 1; VAtom 2; VAtom 5; VAtom 22]],
     [(true, fun_obj FTick (Some 1)); (true, Node KCT [SVal (num_obj 6); SRef (2, [])]); (true, num_obj 23)]).
Proof. vm_compute. reflexivity. Qed.

(** [t << f] does not keep the state of [f]. *)
Lemma ex_C41_left :
  exists (st : mstate nat nat mf nat) (ta fa : arg) (f : mf) (s : option nat) ss tvs,
    by_value_fun exU f /\ well_typed full exU f /\
    holds (store st) (aref fa) (fun_obj f s) /\ holds (store st) (aref ta) (Node KCT ss) /\
    Forall2 (slot_holds (store st)) ss (map data tvs) /\ NoDup (places (aref ta) 0 ss) /\
    exists r st1,
      bind (shift_left full std ta fa) alloc st = (Done r, st1) /\
      exists steps, in_range (length tvs) steps /\
      forall n,
      let '(os, s2, _, _, _) := direct false true exU f s tvs steps (mworld st) in
      let (os', st2) := run_steps full std exU (3 + n) r (places (op_home full r 1 ta (Node KCT ss)) 0 ss) steps st1 in
      os' <> os /\ ~ holds (store st2) (op_home full r 0 fa (fun_obj f s)) (fun_obj f s2).
Proof.
  destruct ex_tuple_ok as (H1 & H2 & H3 & H4 & _).
  exists ex_tuple, op_t, op_f, FTick, (Some 1), (members ex_pair), [VAtom 10; VAtom 20].
  split; [exact ex_by_value|]. split; [apply ex_well_typed|]. do 4 (split; [assumption|]).
  eexists _, _. split; [reflexivity|].
  exists [CallWith []; CallWith []; CallWith []]. split; [repeat constructor|]. intros n.
  vm_compute. split; [discriminate|]. intros (o & H1' & H2'). injection H1' as <-. discriminate.
Qed.

(** ** C43 *)
Lemma ex_C43_optional :
  deref_engaged (None, None) [Make true; Deref true; TestEq; CopyTo false; TestEq; EqValue false; ToNone true; TestNeq; TestBool true] /\
  run_opt_void [Make true; Deref true; TestEq; CopyTo false; TestEq; EqValue false; ToNone true; TestNeq; TestBool true]
  = [ObsNone; ObsValue (Some tt); ObsBool false; ObsNone; ObsBool true; ObsBool true; ObsNone; ObsBool true; ObsBool false].
Proof. split; [|reflexivity]. cbn. intuition discriminate. Qed.

Lemma ex_C43 :
  and_run (bind (regularized_void full std (mkArg (0, []) LV)) alloc)
    (fun r st1 => let (os, st2) := call_each full std exU 4 r [[VAtom 1]; []] st1 in (os, mworld st2, trace st2))
    ([], 0, []) (start [fun_obj FHello None])
  = ([Done (Some VVoid); Done (Some VVoid)], 2, [MCall FHello [VAtom 1]; MCall FHello []]) /\
  and_run (bind (regularized_void full std (mkArg (0, []) LV))
             (fun o => bind (temp o) (fun a => bind (unregularized_void full std a) alloc)))
    (fun r st1 => let (os, st2) := call_each full std exU 7 r [[VAtom 1]; []] st1 in (os, mworld st2, trace st2))
    ([], 0, []) (start [fun_obj FHello None])
  = ([Done None; Done None], 2, [MCall FHello [VAtom 1]; MCall FHello []]).
Proof. split; vm_compute; reflexivity. Qed.

Lemma ex_C43_unregularized :
  no_void_ref exU FHello None /\ no_void_ref exU FAdd None /\
  and_run (bind (unregularized_void full std (mkArg (0, []) LV)) alloc)
    (fun r st1 => let (os, st2) := call_each full std exU 4 r [[VAtom 1]; []] st1 in (os, mworld st2, trace st2))
    ([], 0, []) (start [fun_obj FHello None])
  = ([Done None; Done None], 2, [MCall FHello [VAtom 1]; MCall FHello []]).
Proof.
  split; [|split]; [intros vs w; exact I|intros vs w; exact I|vm_compute; reflexivity].
Qed.

(** ** C45, C46, C47, C52, C53 *)
Definition ex_prog : list (mop nat nat mf nat) :=
  [MNew FHello None []; MNew FAdd None [SrcFun FNow None; SrcValue (VAtom 5)]; MCallVar 0; MCopy 1; MCallVar 0;
   MNew FTick (Some 1) [SrcLazy 1; SrcLazy 2]; MCallVar 3; MCallVar 3].
Lemma ex_prog_ok : prog_ok 0 ex_prog.
Proof. cbn. repeat (split || constructor || lia). Qed.

Lemma ex_C47 :
  eval_prog exU [] ex_prog 0
  = ([None; None; Some (Done None); None; Some (Done None); None; Some (d_ 14); Some (d_ 14)], 2,
     [MCall FHello []; MCall FHello [];
      MCall FNow []; MCall FAdd [VAtom 2; VAtom 5]; MCall FNow []; MCall FAdd [VAtom 2; VAtom 5];
      MCall FTick [VAtom 7; VAtom 7];
      MCall FNow []; MCall FAdd [VAtom 2; VAtom 5]; MCall FNow []; MCall FAdd [VAtom 2; VAtom 5];
      MCall FTick [VAtom 7; VAtom 7]]).
Proof. vm_compute. reflexivity. Qed.

Lemma ex_C47_run :
  let (os, st) := run_prog full (mkCfg false false) exU 40 [] ex_prog (start []) in
  (os, mworld st, trace st) = eval_prog exU [] ex_prog 0.
Proof. vm_compute. reflexivity. Qed.

Lemma ex_C52_std :
  std_prog exU (fun v => negb true || data_empty full v) [] ex_prog 0
  = ([None; None; Some (Done None); None; Some (Done None); None; Some (Err Undefined); Some (Err Undefined)], 2,
     [MCall FHello []; MCall FHello []]).
Proof. vm_compute. reflexivity. Qed.

Lemma ex_C52 :
  fst (run_prog full std exU 40 [] ex_prog (start []))
  = [None; None; Some (Done None); None; Some (Done None); None; Some (Err Undefined); Some (Err Undefined)].
Proof. vm_compute. reflexivity. Qed.

(** A function object without state that only changes the outside world is run again
    at every call. *)
Lemma ex_C45 :
  exists (U : muser nat nat mf nat) (f : mf), void_fun U f /\
  forall n,
  let (os, st) := run_prog full std U (20 + n) [] [MNew f None []; MCallVar 0; MCallVar 0] (start []) in
  os = [None; Some (Done None); Some (Done None)] /\ trace st <> [MCall f []] /\ mworld st <> 1.
Proof.
  exists exU, FHello. split; [intros s vs w; now left|]. intros n. vm_compute. repeat split; discriminate.
Qed.

(** Adding up one value: the result is read from a dead object. *)
Lemma ex_C46 :
  exists (U : muser nat nat mf nat) (f : mf) (v : val nat) (st : mstate nat nat mf nat),
  fst (fst (eval_prog U [] [MNew f None []; MCallVar 0] 0)) = [None; Some (Done (Some v))] /\
  forall n, fst (run_prog full std U (20 + n) [] [MNew f None []; MCallVar 0] st) = [None; Some (Err Undefined)].
Proof.
  exists exU, FAdd, (VAtom 0), (start []). split; [reflexivity|]. intros n. vm_compute. reflexivity.
Qed.

(** [void] functions that depend on each other. *)
Definition ex_void : lexp nat mf nat :=
  LExp FHello None [DepLazy (LExp FHello None []); DepLazy (LExp FHello (Some 1) [])].
Lemma ex_C53 :
  void_tree exU ex_void /\
  holds (store (start [lazy_obj exU ex_void])) (0, []) (lazy_obj exU ex_void) /\
  let (os, st) := call_all (fun r => invoke full std exU 40 r []) [(0, []); (0, [])] (start [lazy_obj exU ex_void]) in
  os = [Done RVoid; Done RVoid] /\ mworld st = 6 /\
  trace st = [MCall FHello []; MCall FHello []; MCall FHello [VVoid; VVoid];
              MCall FHello []; MCall FHello []; MCall FHello [VVoid; VVoid]].
Proof.
  split; [|split].
  - cbn. repeat split; try (intros s vs w; now left).
  - held.
  - vm_compute. auto.
Qed.
