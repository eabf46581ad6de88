(** Functions that call lazy functions (C71, C72, C73).

    Statements only; proofs in NestedThms.v, NestedCalls.v, NestedNeed.v, NestedSelf.v,
    NestedExamples.v. *)
From Coq Require Import List Bool Arith.
From Verif Require Import Value TupleAlg LazyModel LazySpec DocSpec
  NestedModel NestedSpec NestedThms NestedCalls NestedNeed NestedSelf
  SharedModel LazyExamples NestedShared NestedExamples.
Import ListNotations.

(** C71: a lazy function may be shared by any number of others, at any depth, through
    plain functions that call it ([[&] { return x(); }]): every call returns what is
    computed from scratch. *)
Theorem C71_sharing :
  forall (A W fid did : Type) (U : nuser A W fid did) pf,
  (forall f args, body U f args = Return (pf f args)) ->
  (forall a b, naeq U a b = true -> a = b) ->
  forall n p w ds vals,
    neager (plain U) pf p [] w = Some (ds, vals) -> length ds <= n ->
    shared_by_functions (plain U) ds ->
    on_arguments (fun args => match args with [v] => as_tuple v = None | _ => True end) (plain U) pf ds ->
    on_arguments (Forall (fun v => nested_opt v = false)) (plain U) pf ds ->
    exists vs w' outs, nrun U n p [] w = Some (vs, w', outs) /\ results outs = map Ok vals.
Proof. exact @sharing_right. Qed.
Print Assumptions C71_sharing.

(** Nothing is computed twice: in one call no function is called twice, and in the whole
    program never twice in succession with the same arguments. *)
Theorem C71_minimal :
  forall (A W fid did : Type) (U : nuser A W fid did) pf,
  (forall f args, body U f args = Return (pf f args)) ->
  (forall a b, naeq U a b = true -> a = b) ->
  forall n p w ds vals,
    neager (plain U) pf p [] w = Some (ds, vals) -> length ds <= n ->
    shared_by_functions (plain U) ds ->
    on_arguments (fun args => match args with [v] => as_tuple v = None | _ => True end) (plain U) pf ds ->
    on_arguments (Forall (fun v => nested_opt v = false)) (plain U) pf ds ->
    (forall a, naeq U a a = true) -> NoDup (map fst ds) ->
    on_arguments (Forall (fun v => has_nullopt v = false)) (plain U) pf ds ->
    forall vs w' outs, nrun U n p [] w = Some (vs, w', outs) ->
    no_repeats (function_calls (concat (map snd outs))) /\
    Forall (fun o => NoDup (map fst (function_calls (snd o)))) outs.
Proof. exact @sharing_minimal. Qed.
Print Assumptions C71_minimal.

Example C71_case :
  (forall f args, body share_user f args = Return (sum_fn f args)) /\
  (forall a b, naeq share_user a b = true -> a = b) /\
  (exists vals, neager (plain share_user) sum_fn share_program [] (5, 3) = Some (share_defs, vals)) /\
  shared_by_functions (plain share_user) share_defs /\
  on_arguments (fun args => match args with [v] => as_tuple v = None | _ => True end) (plain share_user) sum_fn share_defs /\
  on_arguments (Forall (fun v => nested_opt v = false)) (plain share_user) sum_fn share_defs /\
  (forall a, naeq share_user a a = true) /\ NoDup (map fst share_defs) /\
  on_arguments (Forall (fun v => has_nullopt v = false)) (plain share_user) sum_fn share_defs /\
  exists vs w outs, nrun share_user 4 share_program [] (5, 3) = Some (vs, w, outs) /\
    results outs = map (fun n => Ok (Some (VAtom n))) [1114; 1114; 408; 1118; 1124; 316] /\
    map (fun o => length (function_calls (snd o))) outs = [0; 0; 0; 0; 4; 0; 0; 2; 2; 0; 2; 0; 0].
Proof. exact ex_C71. Qed.

(** With [std::ref] instead it is not so: the second user is not told of a change. *)
Theorem C71_by_reference_refuted :
  ~ (forall (A W fid did : Type) (U : nuser A W fid did) pf,
     (forall f args, body U f args = Return (pf f args)) -> (forall a b, naeq U a b = true <-> a = b) ->
     forall p w ds vals, neager (plain U) pf p [] w = Some (ds, vals) -> calls_earlier (body U) (plain U) ds ->
     exists n vs w' outs, nrun U n p [] w = Some (vs, w', outs) /\ results outs = map Ok vals).
Proof. exact ref_refuted. Qed.
Print Assumptions C71_by_reference_refuted.

(** C72: functions may call lazy functions, change the world, throw and catch.  If they
    call only lazy functions defined before theirs, every call ends; the number of calls
    under way is at most the number of lazy functions. *)
Theorem C72_ends :
  forall (A W fid did : Type) (U : nuser A W fid did) n p w,
  known p 0 -> calls_earlier (body U) (plain U) (definitions p []) -> length (definitions p []) <= n ->
  exists vs w' outs, nrun U n p [] w = Some (vs, w', outs).
Proof. exact (fun A W fid did U n p => @nrun_finishes A W fid did U n p []). Qed.
Print Assumptions C72_ends.

(** What a program that ends does, does not depend on the bound. *)
Theorem C72_bound :
  forall (A W fid did : Type) (U : nuser A W fid did) n m p,
  n <= m -> forall vs w r, nrun U n p vs w = Some r -> nrun U m p vs w = Some r.
Proof. exact @nrun_mono. Qed.
Print Assumptions C72_bound.

(** Once a lazy function without dependencies has returned, it returns the same, and calls
    nothing, ever after; whatever its function does and whatever comes between. *)
Theorem C72_stays :
  forall (A W fid did : Type) (U : nuser A W fid did) n p q x f w vs w' outs,
  nth_error (definitions p []) x = Some (f, []) ->
  nrun U n (p ++ PCall x :: q ++ [PCall x]) [] w = Some (vs, w', outs) ->
  exists outs1 o outs2 last, outs = outs1 ++ o :: outs2 ++ [last] /\ length outs1 = length p /\ length outs2 = length q /\
    forall r, fst o = Some (Ok r) -> last = (Some (Ok r), []).
Proof. exact @stays_for_ever. Qed.
Print Assumptions C72_stays.

Example C72_case :
  known (retry_program ++ PCall 1 :: [PEnv (fun _ => 50)] ++ [PCall 1]) 0 /\
  calls_earlier (body retry_user) (plain retry_user) (definitions (retry_program ++ PCall 1 :: [PEnv (fun _ => 50)] ++ [PCall 1]) []) /\
  nth_error (definitions retry_program []) 1 = Some (1, []) /\
  exists vs outs, nrun retry_user 2 (retry_program ++ PCall 1 :: [PEnv (fun _ => 50)] ++ [PCall 1]) [] 0 = Some (vs, 50, outs) /\
    outs = [(None, []); (None, []);
            (Some (Ok (Some (VAtom 20))), [EvCall 1 []; EvCall 0 []; EvCall 0 []]);
            (None, []); (Some (Ok (Some (VAtom 20))), [])].
Proof. exact ex_retry. Qed.

(** Functions without arguments that call each other: each is called at most once, and
    exactly those are called that a result needs. *)
Theorem C72_by_need :
  forall (A W fid did : Type) (U : nuser A W fid did) fs w,
  NoDup fs -> (forall i f, nth_error fs i = Some f -> gentle i (body U f [])) ->
  forall n xs, Forall (fun x => x < length fs) xs -> length fs <= n ->
  exists vs outs, nrun U n (map (fun f => PNew f []) fs ++ map PCall xs) [] w = Some (vs, w, outs) /\
    results outs = map (fun x => Ok (visible (nth x (needs (body U) fs w) VVoid))) xs /\
    NoDup (map fst (function_calls (concat (map snd outs)))) /\
    forall f, In f (map fst (function_calls (concat (map snd outs)))) <->
              exists x y, In x xs /\ reaches (body U) fs w x y /\ nth_error fs y = Some f.
Proof. exact @by_need. Qed.
Print Assumptions C72_by_need.

Example C72_by_need_case :
  NoDup [10; 11; 12; 13] /\
  (forall i f, nth_error [10; 11; 12; 13] i = Some f -> gentle i (body need_user f [])) /\
  Forall (fun x => x < length [10; 11; 12; 13]) [2; 1; 2] /\
  needs (body need_user) [10; 11; 12; 13] 6 = map VAtom [6; 7; 42; 99] /\
  exists vs outs, nrun need_user 4 (map (fun f => PNew f []) [10; 11; 12; 13] ++ map PCall [2; 1; 2]) [] 6 = Some (vs, 6, outs) /\
    map snd outs = [[]; []; []; []; [EvCall 12 []; EvCall 10 []; EvCall 11 []]; []; []].
Proof. exact ex_need. Qed.

(** What a wrapped function calls is not a dependency: x1, whose function returns [x0()],
    does not follow x0. *)
Theorem C72_untracked_refuted :
  exists vs outs, nrun untracked_user 2 [PNew 0 [PFun 0]; PNew 1 []; PCall 1; PEnv (fun _ => 8); PCall 0; PCall 1] [] 3 = Some (vs, 8, outs) /\
    results outs = map (fun n => Ok (Some (VAtom n))) [3; 8; 3].
Proof. exact untracked. Qed.
Print Assumptions C72_untracked_refuted.

(** Where no function calls a lazy function, this is the algorithm of the other statements:
    programs whose dependencies are values, plain functions and [std::ref] behave the
    same, action for action. *)
Theorem C72_same_algorithm :
  forall (A W fid did : Type) (U : user A W fid did) p q w s outs m,
  quiet_program p = Some q -> length p < m ->
  srun U p (mkSState [] w) = Some (s, outs) ->
  exists vs, nrun (quiet_user U) m q [] w = Some (vs, sworld s, outs).
Proof. exact @same_as_shared. Qed.
Print Assumptions C72_same_algorithm.

Example C72_same_algorithm_case :
  exists q s outs, quiet_program plain_refs = Some q /\ srun ex_user plain_refs (mkSState [] (5, 3)) = Some (s, outs) /\
    results outs = map (fun n => Ok (Some (VAtom n))) [15; 13; 15; 15] /\
    nth_error q 1 = Some (PNew 0 [PRef 0; PFun false; PValue (VAtom 10)]).
Proof. exact ex_plain_refs. Qed.

(** C73: a lazy function that comes back to itself before it has a value never returns. *)
Theorem C73_never_returns :
  forall (A W fid did : Type) (U : nuser A W fid did) (P : nat -> Prop) p q x,
  Forall (fun o => match o with PCopy _ => False | _ => True end) p ->
  circular (body U) (plain U) (definitions p []) P -> P x ->
  forall n w, nrun U n (p ++ PCall x :: q) [] w = None.
Proof. exact @never_returns. Qed.
Print Assumptions C73_never_returns.

Example C73_never_returns_case :
  Forall (fun o => match o with PCopy _ => False | _ => True end) loop_program /\
  circular (body loop_user) (plain loop_user) (definitions loop_program []) (fun x => x < 3) /\
  exists vs outs, nrun loop_user 1 loop_program [] 0 = Some (vs, 1, outs) /\ results outs = [Ok (Some (VAtom 4))].
Proof. exact ex_loop. Qed.

(** One that has a value and whose dependencies changed sees, when it calls itself, its
    previous value: results build on each other, once for every change. *)
Theorem C73_previous :
  forall (A W fid did : Type) (U : nuser A W fid did),
  (forall a b, naeq U a b = true <-> a = b) ->
  forall f d (first : W -> bool) (rd : W -> A) (init : A -> A) (next : A -> A -> A),
  plain U d = Look (fun w => Return (Some (VAtom (rd w)))) ->
  (forall a, body U f [VAtom a] =
     Look (fun w : W => if first w then Return (Some (VAtom (init a)))
                    else CallLazy 0 (fun r : option (option (val A)) => match r with
                                              | Some (Some (VAtom b)) => Return (Some (VAtom (next a b)))
                                              | _ => Throw
                                              end))) ->
  forall n w0 ws wz, first w0 = true -> Forall (fun w => first w = false) ws -> 2 <= n ->
  exists vs w' outs,
    nrun U n (PNew f [PFun d] :: visits (w0 :: ws)) [] wz = Some (vs, w', outs) /\
    results outs = map (fun b => Ok (Some (VAtom b))) (init (rd w0) :: history (naeq U) rd next (rd w0) (init (rd w0)) ws) /\
    function_calls (concat (map snd outs)) = map (fun b => (f, [VAtom b])) (rd w0 :: news (naeq U) rd (rd w0) ws).
Proof. exact @previous_values. Qed.
Print Assumptions C73_previous.

Example C73_previous_case :
  (forall a b, naeq adder a b = true <-> a = b) /\
  plain adder 1 = Look (fun w : bool * nat => Return (Some (VAtom (snd w)))) /\
  (forall a, body adder 0 [VAtom a] =
     Look (fun w : bool * nat => if fst w then Return (Some (VAtom (id a)))
                    else CallLazy 0 (fun r : option (option (val nat)) => match r with
                                              | Some (Some (VAtom b)) => Return (Some (VAtom (a + b)))
                                              | _ => Throw
                                              end))) /\
  exists vs w outs,
    nrun adder 2 (PNew 0 [PFun 1] :: visits ((true, 5) :: [(false, 5); (false, 7); (false, 7); (false, 2)])) [] (false, 0) = Some (vs, w, outs) /\
    results outs = map (fun n => Ok (Some (VAtom n))) [5; 5; 12; 12; 14].
Proof. exact ex_previous. Qed.

(** One without dependencies that calls itself until the world tells it to stop recurses
    like any function.  Each level, on its way back, overwrites the cache (and compares
    with what the level below stored); the outermost result stays.  The number of calls
    under way is that of the levels, no fewer. *)
Theorem C73_recursion :
  forall (A W fid did : Type) (U : nuser A W fid did) f (stop : W -> bool) (base : W -> A) (down : W -> W) (next : A -> A),
  body U f [] =
    Look (fun w : W => if stop w then Return (Some (VAtom (base w)))
                   else Act down (CallLazy 0 (fun r : option (option (val A)) =>
                                                match r with
                                                | Some (Some (VAtom b)) => Return (Some (VAtom (next b)))
                                                | _ => Throw
                                                end))) ->
  forall k w h, stop (descend down k w) = true -> (forall j, j < k -> stop (descend down j w) = false) ->
  let b := base (descend down k w) in
  (forall n, n <= k -> nrun U n [PNew f []; PCall 0; PEnv h; PCall 0] [] w = None) /\
  (forall n, k < n -> exists vs, nrun U n [PNew f []; PCall 0; PEnv h; PCall 0] [] w =
     Some (vs, h (descend down k w),
       [(None, []);
        (Some (Ok (Some (VAtom (Nat.iter k next b)))),
         repeat (EvCall f []) (S k) ++
         map (fun j => EvCmp (VAtom (Nat.iter j next b)) (VAtom (Nat.iter (S j) next b))) (seq 0 k));
        (None, []);
        (Some (Ok (Some (VAtom (Nat.iter k next b)))), [])])).
Proof. exact @recursion. Qed.
Print Assumptions C73_recursion.

Example C73_recursion_case :
  (body doubler 5 [] =
     Look (fun w : nat => if Nat.eqb w 0 then Return (Some (VAtom (w + 1)))
                    else Act pred (CallLazy 0 (fun r : option (option (val nat)) =>
                                                 match r with
                                                 | Some (Some (VAtom b)) => Return (Some (VAtom (2 * b)))
                                                 | _ => Throw
                                                 end)))) /\
  Nat.eqb (descend pred 3 3) 0 = true /\ (forall j, j < 3 -> Nat.eqb (descend pred j 3) 0 = false) /\
  nrun doubler 3 [PNew 5 []; PCall 0; PEnv S; PCall 0] [] 3 = None /\
  exists vs outs, nrun doubler 4 [PNew 5 []; PCall 0; PEnv S; PCall 0] [] 3 = Some (vs, 1, outs) /\
    results outs = map (fun n => Ok (Some (VAtom n))) [8; 8].
Proof. exact ex_doubler. Qed.

(** The same through a dependency: the plain function calls the lazy function it is a
    dependency of, until the world tells it to stop.  What the inner call has stored, of
    the dependency and of the lazy function, is what the outer one compares with: the
    wrapped function is called only for arguments that differ from those of the level
    below. *)
Theorem C73_through_dependency :
  forall (A W fid did : Type) (U : nuser A W fid did),
  (forall a b, naeq U a b = true <-> a = b) ->
  forall f d (stop : W -> bool) (base : W -> A) (down : W -> W) (next F : A -> A),
  plain U d =
    Look (fun w : W => if stop w then Return (Some (VAtom (base w)))
                   else Act down (CallLazy 0 (fun r : option (option (val A)) =>
                                                match r with
                                                | Some (Some (VAtom b)) => Return (Some (VAtom (next b)))
                                                | _ => Throw
                                                end))) ->
  (forall a, body U f [VAtom a] = Return (Some (VAtom (F a)))) ->
  forall k w, stop (descend down k w) = true -> (forall j, j < k -> stop (descend down j w) = false) ->
  let b := base (descend down k w) in
  let arg j := Nat.iter j (fun a => next (F a)) b in
  forall n, k < n -> exists vs outs, nrun U n [PNew f [PFun d]; PCall 0] [] w = Some (vs, descend down k w, outs) /\
    results outs = [Ok (Some (VAtom (F (arg k))))] /\
    function_calls (concat (map snd outs)) =
      map (fun a => (f, [VAtom a])) (b :: flat_map (fun j => if naeq U (arg j) (arg (S j)) then [] else [arg (S j)]) (seq 0 k)).
Proof. exact @dependency. Qed.
Print Assumptions C73_through_dependency.

Example C73_through_dependency_case :
  (forall a b, naeq halver a b = true <-> a = b) /\
  plain halver 1 =
     Look (fun w : nat => if Nat.eqb w 0 then Return (Some (VAtom (w + 9)))
                    else Act pred (CallLazy 0 (fun r : option (option (val nat)) =>
                                                 match r with
                                                 | Some (Some (VAtom b)) => Return (Some (VAtom (b + 3)))
                                                 | _ => Throw
                                                 end))) /\
  (forall a, body halver 5 [VAtom a] = Return (Some (VAtom (Nat.div2 a)))) /\
  Nat.eqb (descend pred 5 5) 0 = true /\ (forall j, j < 5 -> Nat.eqb (descend pred j 5) 0 = false) /\
  exists vs outs, nrun halver 6 [PNew 5 [PFun 1]; PCall 0] [] 5 = Some (vs, 0, outs) /\
    results outs = [Ok (Some (VAtom 3))] /\
    function_calls (concat (map snd outs)) = map (fun a => (5, [VAtom a])) [9; 7; 6].
Proof. exact ex_halver. Qed.

(** Arguments are read when all dependencies have been called: if the second dependency
    calls the lazy function, the outer call, too, gets what the innermost one read for
    the first. *)
Theorem C73_latest_arguments :
  forall (A W fid did : Type) (U : nuser A W fid did),
  (forall a b, naeq U a b = true <-> a = b) ->
  forall f d1 d2 (stop : W -> bool) (down : W -> W) (rd1 rd2 : W -> A) (F : A -> A -> A),
  plain U d1 = Look (fun w : W => Return (Some (VAtom (rd1 w)))) ->
  plain U d2 =
    Look (fun w : W => if stop w then Return (Some (VAtom (rd2 w)))
                   else Act down (CallLazy 0 (fun _ : option (option (val A)) => Look (fun w' : W => Return (Some (VAtom (rd2 w'))))))) ->
  (forall a b, body U f [VAtom a; VAtom b] = Return (Some (VAtom (F a b)))) ->
  forall k w, stop (descend down k w) = true -> (forall j, j < k -> stop (descend down j w) = false) ->
  forall n, k < n -> exists vs outs, nrun U n [PNew f [PFun d1; PFun d2]; PCall 0] [] w = Some (vs, descend down k w, outs) /\
    results outs = [Ok (Some (VAtom (F (rd1 (descend down k w)) (rd2 (descend down k w)))))].
Proof. exact @latest. Qed.
Print Assumptions C73_latest_arguments.

Example C73_latest_arguments_case :
  (forall a b, naeq latest_user a b = true <-> a = b) /\
  plain latest_user 0 = Look (fun w : nat => Return (Some (VAtom (w + 1)))) /\
  plain latest_user 1 = Look (fun w : nat => if Nat.eqb w 0 then Return (Some (VAtom (w + 50)))
     else Act pred (CallLazy 0 (fun _ : option (option (val nat)) => Look (fun w' : nat => Return (Some (VAtom (w' + 50))))))) /\
  (forall a b, body latest_user 5 [VAtom a; VAtom b] = Return (Some (VAtom (100 * a + b)))) /\
  Nat.eqb (descend pred 3 3) 0 = true /\ (forall j, j < 3 -> Nat.eqb (descend pred j 3) 0 = false) /\
  exists vs outs, nrun latest_user 4 [PNew 5 [PFun 0; PFun 1]; PCall 0] [] 3 = Some (vs, 0, outs) /\
    results outs = [Ok (Some (VAtom 150))].
Proof. exact ex_latest. Qed.
