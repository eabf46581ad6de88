(** The repository's own tests (tests/*.test.cpp), replayed on the models.

    These are tests of the models, not proofs: literal programs with literal results.
    A test that only asks whether something compiles has no counterpart here.
    Where the models disagree with a test, this is said: these are tests that the
    sources cannot pass either (see C45, C46 and C60). *)
From Coq Require Import List Bool Arith.
From Verif Require Import Value TupleAlg Partition LazyModel CppTypes Layout Footprint RegularVoid.
From Verif Require Machine MachineSpec Programs BindSpec.
Import ListNotations.

(** ** lazy.test.cpp, on kept state

    Wrapped function [k] returns [k] plus the sum of its arguments; the plain function
    reads the outside world, a number. *)
Definition test_num (v : val nat) : nat := match v with VAtom n => n | _ => 0 end.
Definition test_user : user nat nat nat unit :=
  mkUser (fun k args w => (FRet (Some (VAtom (k + list_sum (map test_num args)))), w))
         (fun _ w => (VRet (VAtom w), w)) Nat.eqb 0.

Notation prog := (list (op nat nat nat unit)).
Definition outputs (p : prog) (w : nat) :=
  option_map snd (run test_user p (mkState [] w)).
(** What the tests look at: results of calls, evaluations of function [k], samples. *)
Definition results (p : prog) (w : nat) : option (list nat) :=
  option_map (flat_map (fun o : output nat nat unit =>
                          match fst o with Some (Ok (Some v)) => [test_num v] | _ => [] end))
             (outputs p w).
Definition count (which : event nat nat unit -> bool) (p : prog) (w : nat)
    : option nat :=
  option_map (fun os => length (filter which (flat_map snd os))) (outputs p w).
Definition calls_of (k : nat) (e : event nat nat unit) : bool :=
  match e with EvCall k' _ => Nat.eqb k k' | _ => false end.
Definition samples (e : event nat nat unit) : bool := match e with EvSample _ => true | _ => false end.
Definition compared (e : event nat nat unit) : bool := match e with EvCmp _ _ => true | _ => false end.

(** "cached", lazy.test.cpp:28-41 *)
Example test_cached :
  let p : prog := [New 42 []; Call 0; Call 0] in
  results p 0 = Some [42; 42] /\ count (calls_of 42) (firstn 2 p) 0 = Some 1 /\
  count (calls_of 42) p 0 = Some 1.
Proof. repeat split. Qed.

(** "dependencies", :43-73 *)
Example test_dependencies :
  let p : prog := [New 2 [DFun tt]; Call 0; Call 0; Env S; Call 0] in
  results p 40 = Some [42; 42; 43] /\
  map (fun n => (count (calls_of 2) (firstn n p) 40, count samples (firstn n p) 40)) [1; 2; 3; 5]
  = [(Some 0, Some 0); (Some 1, Some 1); (Some 1, Some 2); (Some 2, Some 3)].
Proof. repeat split. Qed.

(** "lazy_dependencies", :75-120 *)
Example test_lazy_dependencies :
  let p : prog := [New 2 [DFun tt]; New 40 [DVar 0]; Call 1; Call 1; Env S; Call 1; Call 1] in
  results p 0 = Some [42; 42; 43; 43] /\
  map (fun n => (count (calls_of 40) (firstn n p) 0, count (calls_of 2) (firstn n p) 0,
                 count samples (firstn n p) 0)) [2; 3; 4; 6; 7]
  = [(Some 0, Some 0, Some 0); (Some 1, Some 1, Some 1); (Some 1, Some 1, Some 2);
     (Some 2, Some 2, Some 3); (Some 2, Some 2, Some 4)].
Proof. repeat split. Qed.

(** "values", :122-133 *)
Example test_values :
  let p : prog := [New 40 [DConst (VAtom 2)]; Call 0; Call 0] in
  results p 0 = Some [42; 42] /\ count (calls_of 40) p 0 = Some 1.
Proof. repeat split. Qed.

(** "comparisons", :143-174.  [f] is the plain function, [g] yields the constant
    [g_result], [h] the constant 0; comparisons are those of [f]'s and of [g]'s
    results (those of [h]'s are of type [int]). *)
Definition const_user : user nat nat bool unit :=
  mkUser (fun (g : bool) args w => (FRet (Some (VAtom (if g then 100 else 0))), w))
         (fun _ w => (VRet (VAtom (1 + w)), w)) Nat.eqb 0.
Definition comparisons_of (lo hi : nat) (p : list (op nat nat bool unit)) : option nat :=
  option_map (fun so => length (filter (fun e : event nat bool unit => match e with
                                                 | EvCmp a _ => (lo <=? test_num a) && (test_num a <=? hi)
                                                 | _ => false
                                                 end) (flat_map snd (snd so))))
             (run const_user p (mkState [] 0)).
Example test_comparisons :
  let p : list (op nat nat bool unit) := [New true [DFun tt]; New false [DVar 0]; Call 1; Call 1; Env S; Call 1] in
  map (fun n => (comparisons_of 1 2 (firstn n p), comparisons_of 100 100 (firstn n p))) [3; 4; 6]
  = [(Some 0, Some 0); (Some 1, Some 0); (Some 2, Some 1)].
Proof. reflexivity. Qed.

(** "variadic_dependencies", :176-188 *)
Example test_variadic_dependencies :
  results [New 0 []; New 0 [DConst (VAtom 1)]; New 0 [DConst (VAtom 1); DConst (VAtom 2)];
           Call 0; Call 1; Call 2] 0
  = Some [0; 1; 3].
Proof. reflexivity. Qed.

(** "void", :135-141, and "memory_footprint", :190-230: [f1]-[f5] and [f10] (whose size
    the test does not look at).  4 bytes for an [int], 8 for a reference. *)
Definition int_lay := prim 4 4.
Definition ref_lay := prim 8 8.
Definition nothing_lay (reuse : bool) := closure reuse [].
Example test_memory_footprint :
  forall reuse sorts,
  let opt := optional_lay reuse int_lay in
  let lz c f ds := lazy_lay reuse sorts c f (map (ensure_lazy_lay reuse sorts int_lay) ds) in
  let none := nothing_lay reuse in
  lsize (lz (optional_void_lay reuse) none []) = 1 /\
  lsize (lz opt none []) = lsize opt /\
  lsize (lz opt (closure reuse [int_lay]) []) = 4 + lsize opt /\
  lsize (lz opt (closure reuse [ref_lay]) []) = 8 + lsize opt /\
  lsize (lz opt none [DepValue int_lay]) = lsize opt + 4 /\
  lsize (lz opt none [DepLazy (lz opt none [])]) = lsize opt + lsize opt.
Proof. intros [] []; vm_compute; repeat split. Qed.
(** [f6] caches a [std::integral_constant], not an [int] (the test expects
    [sizeof(std::optional<int>)]); [f7]-[f9] have plain functions as dependencies, which
    cost an [int] more than the test expects (the literal of lazy.h:85).  The last line
    of the test expects of [f9] another size than the line for [f9] itself. *)
Example test_memory_footprint_differs :
  forall reuse sorts,
  let opt := optional_lay reuse int_lay in
  let lz c f ds := lazy_lay reuse sorts c f (map (ensure_lazy_lay reuse sorts int_lay) ds) in
  let none := nothing_lay reuse in
  lsize (lz (optional_lay reuse none) none [DepValue none]) = 2 /\
  lsize (lz opt none [DepPlain opt none]) = lsize opt + lsize opt + 4 /\
  lsize (lz opt none [DepPlain opt (closure reuse [int_lay])]) = lsize opt + lsize opt + 4 + 4.
Proof. intros [] []; vm_compute; repeat split. Qed.

(** ** lazy.test.cpp, on the machine

    [byref = true], the rewired composition: as the tests want it.  As composed by the
    sources, "cached" meets undefined behaviour at the first call; if dead objects
    keep their contents, the function is called twice. *)
Section OnTheMachine.
Import Machine MachineSpec Programs.
Definition machine_user : muser nat nat (option nat) nat :=
  mkMUser (fun f s vs w =>
             match f with
             | Some k => (s, vs, URet (VAtom (k + list_sum (map test_num vs))), w)
             | None => (s, vs, URet (VAtom w), w)
             end) Nat.eqb 0.
Definition machine_run (C : config) (p : list (mop nat nat (option nat) nat)) (w : nat) :=
  let (os, st) := run_prog (fun _ => false) C machine_user 60 [] p (mkSt [] w []) in
  (flat_map (fun o => match o with Some x => [x] | None => [] end) os,
   flat_map (fun e => match e with MCall f _ => [f] | MCmp _ _ => [] end) (trace st)).
Definition returns (n : nat) : outcome (option (val nat)) := Done (Some (VAtom n)).

Example test_cached_machine :
  let p := [MNew (Some 42) None []; MCallVar 0; MCallVar 0] in
  machine_run (mkCfg true true) p 0 = ([returns 42; returns 42], [Some 42]) /\
  machine_run (mkCfg false false) p 0 = ([returns 42; returns 42], [Some 42; Some 42]) /\
  fst (machine_run (mkCfg true false) p 0) = [Err Undefined; Err Undefined].
Proof. vm_compute. repeat split. Qed.

Example test_dependencies_machine :
  machine_run (mkCfg true true)
    [MNew (Some 2) None [SrcFun None None]; MCallVar 0; MCallVar 0; MEnv S; MCallVar 0] 40
  = ([returns 42; returns 42; returns 43], [None; Some 2; None; None; Some 2]).
Proof. vm_compute. reflexivity. Qed.

Example test_lazy_dependencies_machine :
  machine_run (mkCfg true true)
    [MNew (Some 2) None [SrcFun None None]; MNew (Some 40) None [SrcLazy 0];
     MCallVar 1; MCallVar 1; MEnv S; MCallVar 1; MCallVar 1] 0
  = ([returns 42; returns 42; returns 43; returns 43],
     [None; Some 2; Some 40; None; None; Some 2; Some 40; None]).
Proof. vm_compute. reflexivity. Qed.

Example test_values_machine :
  machine_run (mkCfg true true) [MNew (Some 40) None [SrcValue (VAtom 2)]; MCallVar 0; MCallVar 0] 0
  = ([returns 42; returns 42], [Some 40]).
Proof. vm_compute. reflexivity. Qed.

(** ** bind_tuple.test.cpp

    Function objects: the sum of the arguments; the difference of two; the successor
    of the first argument, which it increments. *)
Import BindSpec.
Inductive test_fun := Sum | Minus | Next.
Definition bind_user : muser nat nat test_fun nat :=
  mkMUser (fun f s vs w =>
             match f, vs with
             | Sum, _ => (s, vs, URet (VAtom (list_sum (map test_num vs))), w)
             | Minus, [a; b] => (s, vs, URet (VAtom (test_num a - test_num b)), w)
             | Next, [a] => (s, [VAtom (S (test_num a))], URet a, w)
             | _, _ => (s, vs, UThrow, w)
             end) Nat.eqb 0.
Definition bind_run (make : M nat nat test_fun nat (obj nat test_fun nat)) (calls : list (list (val nat))) :=
  match bind make alloc (mkSt [] 0 []) with
  | (Done r, st) =>
      fst (fold_left (fun acc vs =>
                        let (o, st') := call_with (fun _ => false) (mkCfg true false) bind_user 9 r vs (snd acc) in
                        (fst acc ++ [o], st')) calls ([], st))
  | (Err e, _) => [Err e]
  end.
Definition value_args (ns : list nat) : M nat nat test_fun nat (list arg) :=
  mapM (fun n => bind (alloc (data (VAtom n))) (fun r => ret (mkArg r RV))) ns.
Definition fun_arg (f : test_fun) : M nat nat test_fun nat arg :=
  bind (alloc (fun_obj f None)) (fun r => ret (mkArg r RV)).
Definition tuple_and (op : arg -> arg -> M nat nat test_fun nat (obj nat test_fun nat))
    (ns : list nat) (f : test_fun) :=
  bind (value_args ns) (fun xs => bind (make_ct (fun _ => false) (mkCfg true false) xs) (fun t =>
  bind (temp t) (fun ta => bind (fun_arg f) (fun fa => op ta fa)))).
Definition returned (n : nat) : outcome (option (val nat)) := Done (Some (VAtom n)).

(** "stateful", bind_tuple.test.cpp:25-36 *)
Example test_stateful :
  bind_run (tuple_and (shift_right (fun _ => false) (mkCfg true false)) [1] Sum) [[]] = [returned 1] /\
  bind_run (tuple_and (shift_right (fun _ => false) (mkCfg true false)) [1; 2; 3; 4] Sum) [[]] = [returned 10].
Proof. vm_compute. repeat split. Qed.
(** "zero_args", :122-126 *)
Example test_zero_args :
  bind_run (tuple_and (shift_right (fun _ => false) (mkCfg true false)) [] Sum) [[]] = [returned 0].
Proof. vm_compute. reflexivity. Qed.
(** "remember_state", :38-45 *)
Example test_remember_state :
  bind_run (bind (value_args [0]) (fun xs =>
            bind (make_ct_as (fun _ => false) (mkCfg true false) (map (pair true) xs)) (fun t =>
            bind (temp t) (fun ta => bind (fun_arg Next) (fun fa =>
            shift_right (fun _ => false) (mkCfg true false) ta fa))))) [[]; []; []]
  = [returned 0; returned 1; returned 2].
Proof. vm_compute. reflexivity. Qed.
(** "by_value", :135-139 *)
Example test_by_value :
  bind_run (bind (fun_arg Sum) (fun fa => bind (value_args [1]) (fun bs =>
            bind_back (fun _ => false) (mkCfg true false) fa bs))) [[VAtom 0]] = [returned 1].
Proof. vm_compute. reflexivity. Qed.
(** "bind_back_tuple", :212-216 *)
Example test_bind_back_tuple :
  bind_run (tuple_and (shift_left (fun _ => false) (mkCfg true false)) [1] Minus) [[VAtom 3]] = [returned 2].
Proof. vm_compute. reflexivity. Qed.
End OnTheMachine.

(** "size", bind_tuple.test.cpp:47-68: a captureless function and an empty value; a
    function with a captured [int]; an [int] in the tuple; both. *)
Example test_bind_tuple_size :
  forall reuse sorts,
  let bound f t := bind_tuple_lay reuse sorts f (compressed_tuple_lay reuse sorts [t]) in
  let none := nothing_lay reuse in
  lsize (bound none none) = 1 /\ lempty (bound none none) = true /\
  lsize (bound (closure reuse [int_lay]) none) = 4 /\
  lsize (bound none int_lay) = 4 /\
  lsize (bound (closure reuse [int_lay]) int_lay) = 4 + 4.
Proof. intros [] []; vm_compute; repeat split. Qed.

(** ** compressed_tuple.test.cpp *)

(** "basic", compressed_tuple.test.cpp:99-138: sizes *)
Example test_compressed_tuple_size :
  forall reuse sorts,
  let ct := compressed_tuple_lay reuse sorts in
  let none := nothing_lay reuse in
  let double := prim 8 8 in
  lsize (ct []) = 1 /\ lempty (ct []) = true /\
  lsize (ct [int_lay]) = 4 /\ lempty (ct [int_lay]) = false /\
  lsize (ct [int_lay; double]) = 8 + 8 /\
  lsize (ct [none]) = 1 /\ lempty (ct [none]) = true /\
  lsize (ct [none; double]) = 8 /\ lsize (ct [double; none]) = 8.
Proof. intros [] []; vm_compute; repeat split. Qed.

(** Types: 0 is [int], 1 an empty class, 8 and 9 stand for [std::tuple<T>] and the
    compressed tuple itself. *)
Definition int_ : ty nat := mkTy 0 false false NoRef.
Definition cint : ty nat := mkTy 0 true false NoRef.
Definition idx_ : ty nat := mkTy 1 false false NoRef.
Definition get_type (T : ty nat) (is_cst : bool) (c : cat) : option (ty nat) :=
  get Nat.eq_dec (fun b => b =? 1) 8 9 T is_cst c.

(** "compressed_tuple_element_stateful", :14-42, "…_stateless", :44-72 *)
Example test_elements :
  get_type int_ false LV = Some (add_lref int_) /\
  get_type int_ true LV = Some (add_lref cint) /\
  get_type (add_lref int_) false LV = Some (add_lref int_) /\
  get_type (add_lref cint) false LV = Some (add_lref cint) /\
  get_type (add_lref int_) true LV = Some (add_lref cint) /\
  get_type (add_lref cint) true LV = Some (add_lref cint) /\
  map (fun q => get_type (fst (fst q)) (snd (fst q)) (snd q))
      [(idx_, false, LV); (idx_, true, LV); (add_lref idx_, false, LV); (add_lref idx_, true, LV)]
  = [Some idx_; Some idx_; Some idx_; Some idx_].
Proof. repeat split. Qed.

(** "pigro::get ADL", :234-249 *)
Example test_get_adl :
  map (fun q => get_type int_ (fst q) (snd q)) [(false, LV); (false, XV); (true, LV); (true, XV)]
  = map (fun q => Some (std_get int_ q)) [(false, LV); (false, XV); (true, LV); (true, XV)].
Proof. reflexivity. Qed.

(** "tuple_interface", :190-198; "std::tuple_size_v", :213-224; "std::tuple_element_t", :226-232 *)
Example test_tuple_interface :
  forallb (fun Ts => tuple_like false Ts)
    [[]; [int_]; [cint]; [add_lref int_]; [add_lref cint]; [add_rref int_]; [add_rref cint]] = true /\
  map tuple_size [[]; [int_]; [int_; cint]; [int_; int_; int_]] = [0; 1; 2; 3] /\
  tuple_element false 1 [int_; idx_; cint] = Some idx_ /\
  tuple_element true 0 [int_] = Some cint.
Proof. repeat split. Qed.

(** "single parameter (changing)" of to_tuple.test.cpp:21-42, all 20 lines.  The test is
    skipped by the test runner ([skip /]).  The lines 4 and 8, rvalue tuples with an
    lvalue reference as element, expect an rvalue reference; like [std::get], the
    sources give the lvalue reference. *)
Example test_to_tuple :
  let tt T is_cst c := to_tuple Nat.eq_dec (fun b => b =? 1) 8 9 [T] is_cst c in
  let l := add_lref in let r := add_rref in
  map (fun q => tt (fst (fst q)) (snd (fst q)) (snd q))
    [(int_, false, LV); (int_, false, XV); (l int_, false, LV); (l int_, false, XV);
     (r int_, false, LV); (r int_, false, XV); (l cint, false, LV); (l cint, false, XV);
     (r cint, false, LV); (r cint, false, XV);
     (int_, true, LV); (int_, true, XV); (l int_, true, LV); (l int_, true, XV);
     (r int_, true, LV); (r int_, true, XV); (l cint, true, LV); (l cint, true, XV);
     (r cint, true, LV); (r cint, true, XV)]
  = map (fun t => Some [t])
    [l int_; r int_; l int_; l int_ (* expected: r int_ *);
     l int_; r int_; l cint; l cint (* expected: r cint *);
     l cint; r cint;
     l cint; r cint; l cint; r cint;
     l cint; r cint; l cint; r cint;
     l cint; r cint].
Proof. reflexivity. Qed.

(** ** partition.test.cpp:14-44.  0 [int], 1 [char], 2 [Empty], 3 [float]. *)
Example test_partition :
  let l := [0; 1; 2; 3; 2; 0] in
  let is_empty := predicate (fun t => t =? 2) in
  filter_if l is_empty = [2; 2] /\ filter_if l (negate is_empty) = [0; 1; 3; 0] /\
  partition l is_empty = [2; 2; 0; 1; 3; 0] /\ partition [] is_empty = [].
Proof. repeat split. Qed.

(** ** overload.test.cpp:24-60 "ebo_msvc_workaround" *)
Example test_overload_size :
  forall reuse sorts,
  let ov := overload_lay reuse sorts in
  let none := nothing_lay reuse in
  let int1 := closure reuse [int_lay] in
  let chr1 := closure reuse [prim 1 1] in
  map (fun fs => (lempty (ov fs), lsize (ov fs)))
    [[none; none]; [none; int1]; [chr1; none]; [none; int1; none; int1]; [int1; none; int1; none]]
  = [(true, 1); (false, 4); (false, 1); (false, 8); (false, 8)].
Proof. intros [] []; vm_compute; reflexivity. Qed.

(** ** pack_algorithms.test.cpp:14-84 *)
Example test_pack :
  let idx_sum {X} (items : list (Item X)) (s : unit) := (list_sum (map (@index X) items), s) in
  let val_sum (items : list (Item nat)) (s : unit) := (list_sum (map (@TupleAlg.value nat) items), s) in
  enumerate_pack idx_sum [1; 2; 3; 4; 5] tt = Some (10, tt) /\
  enumerate_pack val_sum [1; 2; 3; 4; 5] tt = Some (15, tt) /\
  enumerate_n 5 idx_sum tt = Some (10, tt) /\ enumerate_n 5 val_sum tt = Some (10, tt) /\
  (* a tuple stays a tuple *)
  enumerate_pack (fun items s => (map (@TupleAlg.value (list nat)) items, s)) [[1; 2; 3; 4; 5]] tt
  = Some ([[1; 2; 3; 4; 5]], tt).
Proof. repeat split. Qed.

(** ** tuple_algorithms.test.cpp:14-50 *)
Example test_tuple_algorithms :
  let inv := pure1 negb in
  let tr l := fst (transform (fun _ => None) l inv tt) in
  map tr [[]; [false]; [true]; [false; false]; [false; true]; [true; false]; [true; true]]
  = [[]; [true]; [false]; [true; true]; [true; false]; [false; true]; [false; false]] /\
  map (fun l => fst (any l (pure1 (fun b : bool => b)) tt))
    [[]; [false]; [true]; [false; false]; [false; true]; [true; false]; [true; true]]
  = [false; false; true; false; true; true; true].
Proof. repeat split. Qed.

(** ** regular_void.test.cpp:31-41 *)
Example test_optional_regular_void :
  let b := ov_none in let c := ov_some tt in
  ov_eq (ov_some tt) (ov_some tt) = true /\ ov_neq (ov_some tt) b = true /\
  ov_eq (ov_some tt) c = true /\ ov_neq b c = true.
Proof. repeat split. Qed.

(** ** utils.test.cpp:17-24 *)
Example test_as_nonconst :
  map (fun t => as_nonconst (call_expr t)) [add_lref int_; add_rref int_; add_lref cint; add_rref cint]
  = [add_lref int_; add_rref int_; add_lref int_; add_rref int_].
Proof. reflexivity. Qed.
