(** Model of src/pigro/lazy.h, the algorithm, on kept state.

    A lazy function is a tree: a node holds its wrapped function, its cache
    and its dependencies (which are copies, lazy.h:46 [auto... deps]).  A call
    updates the tree in place.  How the sources wire the same lambda into an
    object (and lose the state) is modelled in [Machine.v]. *)
From Coq Require Import List Bool Arith.
From Verif Require Import Value TupleAlg.
Import ListNotations.

Section Lazy.
Context {A W fid did : Type}.
Notation value := (val A).

(** Outcome of calling a wrapped function: it returns [void] ([FRet None]),
    returns a value, or throws. *)
Inductive fres := FRet (o : option value) | FThrow.
(** Outcome of calling a plain function dependency.  It cannot be [void]:
    [std::optional<void>] (lazy.h:47-49) does not compile. *)
Inductive vres := VRet (v : value) | VThrow.

(** The user's side of the interface: what the wrapped functions and the plain
    function dependencies do to the outside world [W], and [operator==].
    [int0] is the literal [0] of lazy.h:85. *)
Record user := mkUser {
  sem : fid -> list value -> W -> fres * W;
  dsem : did -> W -> vres * W;
  aeq : A -> A -> bool;
  int0 : A }.

(** Observable actions. *)
Inductive event :=
| EvCall (f : fid) (args : list value)      (* a wrapped function is called *)
| EvSample (d : did)                        (* a plain function dependency is called *)
| EvCmp (old new : value).                  (* operator!= on two results *)

(** Outcome of a call: a result, an exception, or undefined behaviour
    ([*cache] on an empty optional, lazy.h:63). *)
Inductive res (X : Type) := Ok (x : X) | Exc | UB.
Arguments Ok {X} _.
Arguments Exc {X}.
Arguments UB {X}.

(** The function objects that [detail::lazy] gets as its [f]:
    - [FnUser f]: [regularized_void(f)] (lazy.h:98);
    - [FnSample d]: [compressed_tuple{ dep } << [](auto, auto dep) mutable { return dep(); }]
      (lazy.h:84). *)
Inductive fnobj := FnUser (f : fid) | FnSample (d : did).

(** Lazy functions (things callable with [nullptr]):
    - [LValue v ch]: [lazy_value(v, ch)], lazy.h:69-76;
    - [LCore g cache deps]: [detail::lazy(g, deps...)] with its cache, lazy.h:46-67. *)
Inductive lz :=
| LValue (v : value) (ch : bool)
| LCore (g : fnobj) (cache : option value) (deps : list lz).

Section Induction.
  Variable P : lz -> Prop.
  Hypothesis Hvalue : forall v ch, P (LValue v ch).
  Hypothesis Hcore : forall g cache deps, Forall P deps -> P (LCore g cache deps).
  Fixpoint lz_ind' (l : lz) : P l :=
    match l with
    | LValue v ch => Hvalue v ch
    | LCore g cache deps =>
        Hcore g cache deps
          ((fix go (ds : list lz) : Forall P ds :=
              match ds with
              | [] => Forall_nil P
              | d :: ds' => Forall_cons d (lz_ind' d) (go ds')
              end) deps)
    end.
End Induction.

Variable U : user.

(** src/pigro/regular_void.h:15-26 [regularized_void]: call [f], turn [void]
    into [regular_void{}]. *)
Definition regularized (r : fres) : vres :=
  match r with
  | FRet None => VRet VVoid
  | FRet (Some v) => VRet v
  | FThrow => VThrow
  end.

(** Calling the [f] of [detail::lazy] ([std::apply(f, values)], lazy.h:56).
    The sampling wrapper ignores its argument (the [0] of lazy.h:85) and calls
    the dependency without arguments. *)
Definition call_fn (g : fnobj) (args : list value) (w : W) : vres * W * list event :=
  match g with
  | FnUser f =>
      let '(r, w') := sem U f args w in (regularized r, w', [EvCall f args])
  | FnSample d =>
      let '(r, w') := dsem U d w in (r, w', [EvSample d])
  end.

(** [cache != result], lazy.h:58, [std::optional<T> != T], see [opt_ne].  With a
    filled cache this is logged as a comparison of the two values (even if the
    library decides without calling the value type's own [==], as for
    [regular_void], and for an empty [std::optional]). *)
Definition opt_neq (cache : option value) (result : value) : bool * list event :=
  (opt_ne (aeq U) cache result, match cache with None => [] | Some c => [EvCmp c result] end).

Definition is_some {X} (o : option X) : bool := match o with Some _ => true | None => false end.

(** src/pigro/lazy.h:27-33 [value] and [is_changed]. *)
Definition lr_value (r : value * bool) : value := fst r.
Definition lr_is_changed (r : value * bool) : bool := snd r.

(** src/pigro/lazy.h:53-65, the body of the lambda after its dependencies have
    been evaluated to [args].  Returns the [LazyResult], the new cache, the new
    world and the log. *)
Definition core (g : fnobj) (cache : option value) (args : list (value * bool)) (w : W)
    : res (value * bool) * option value * W * list event :=
  (* auto changed = !cache || any(args, is_changed); *)
  let changed := negb (is_some cache) || fst (any args (pure1 lr_is_changed) tt) in
  if changed then
    (* const auto values = transform(args, value); *)
    let values := fst (transform as_tuple args (pure1 lr_value) tt) in
    (* const auto result = std::apply(f, values); *)
    match call_fn g values w with
    | (VThrow, w', lg) => (Exc, cache, w', lg)
    | (VRet result, w', lg) =>
        (* changed = cache != result; *)
        let '(changed', lc) := opt_neq cache result in
        (* cache = std::move(result); return LazyResult{ *cache, changed }; *)
        (Ok (result, changed'), Some result, w', lg ++ lc)
    end
  else
    (* return LazyResult{ *cache, changed }; *)
    match cache with
    | Some c => (Ok (c, changed), cache, w, [])
    | None => (UB, cache, w, [])
    end.

(** [std::tuple{ deps(nullptr)... }] (lazy.h:51): the dependencies are called
    left to right; an exception skips the rest.  Returns the results, the
    updated dependencies, the world and the log.  The elements are
    [LazyResult]s, so deduction never looks inside them ([look = None]). *)
Definition steps_with (step : lz -> W -> res (value * bool) * lz * W * list event) :=
  fix steps (ds : list lz) (w : W)
    : res (list (value * bool)) * list lz * W * list event :=
    match ds with
    | [] => (Ok [], [], w, [])
    | d :: ds' =>
        let '(r, d', w1, l1) := step d w in
        match r with
        | Ok x =>
            let '(rs, ds'', w2, l2) := steps ds' w1 in
            (match rs with Ok xs => Ok (x :: xs) | Exc => Exc | UB => UB end,
             d' :: ds'', w2, l1 ++ l2)
        | Exc => (Exc, d' :: ds', w1, l1)
        | UB => (UB, d' :: ds', w1, l1)
        end
    end.

(** Calling a lazy function with [nullptr]: lazy.h:70-75 for a value, lazy.h:50-66
    for a node. *)
Fixpoint step (l : lz) (w : W) {struct l} : res (value * bool) * lz * W * list event :=
  match l with
  | LValue v ch => (Ok (v, ch), LValue v ch, w, [])
  | LCore g cache deps =>
      let '(rs, deps', w1, l1) := steps_with step deps w in
      match rs with
      | Ok rs' =>
          let args := ctad_tuple (fun _ => None) rs' in
          let '(r, cache', w2, l2) := core g cache args w1 in
          (r, LCore g cache' deps', w2, l1 ++ l2)
      | Exc => (Exc, LCore g cache deps', w1, l1)
      | UB => (UB, LCore g cache deps', w1, l1)
      end
  end.

Definition steps := steps_with step.

(** An object passed as a dependency, by how it can be called:
    - [ObjLazy l]: without arguments, and with [nullptr] yielding a
      [LazyResult] (what [pigro::lazy] returns);
    - [ObjRawLazy l v]: only with [nullptr] (what [detail::lazy] and
      [lazy_value] return); [v] is the object itself, as a value;
    - [ObjPlain d]: only without arguments;
    - [ObjValue v]: neither. *)
Inductive depobj :=
| ObjLazy (l : lz)
| ObjRawLazy (l : lz) (v : value)
| ObjPlain (d : did)
| ObjValue (v : value).

(** src/pigro/concepts.h:14-18 [lazy_function]. *)
Definition lazy_function (o : depobj) : bool :=
  match o with ObjLazy _ | ObjRawLazy _ _ => true | _ => false end.
(** [std::invocable] without arguments. *)
Definition invocable (o : depobj) : bool :=
  match o with ObjLazy _ | ObjPlain _ => true | _ => false end.
(** src/pigro/concepts.h:20-21 [lazy_function_unwrapped]. *)
Definition lazy_function_unwrapped (o : depobj) : bool := lazy_function o && invocable o.

(** src/pigro/lazy.h:82-86: a plain function becomes a node that samples it,
    with one dependency that always reports a change. *)
Definition sample_node (d : did) : lz :=
  LCore (FnSample d) None [LValue (VAtom (int0 U)) true].

(** src/pigro/lazy.h:78-90, the three [ensure_lazy] overloads: for
    [lazy_function_unwrapped], for [std::invocable] and for anything.  Of the viable ones
    the most constrained is called: the first implies the second. *)
Inductive ensure_overload := TakeAsIs | Sampled | Constant.
Definition most_constrained (o : depobj) : ensure_overload :=
  if lazy_function_unwrapped o then TakeAsIs
  else if invocable o then Sampled
  else Constant.

(** What it returns.  In the last case the body would not compile. *)
Definition ensure_lazy (o : depobj) : lz :=
  match most_constrained o, o with
  | TakeAsIs, ObjLazy l => l
  | TakeAsIs, ObjRawLazy l _ => l
  | Sampled, ObjPlain d => sample_node d
  | Constant, ObjRawLazy _ v => LValue v false
  | Constant, ObjValue v => LValue v false
  | _, _ => LValue VVoid true
  end.

(** src/pigro/lazy.h:96-103 [pigro::lazy]: a fresh node.  [unwrap_value] and
    [unregularized_void] only matter when it is called without arguments, see
    [api_result]. *)
Definition mk_lazy (f : fid) (deps : list depobj) : lz :=
  LCore (FnUser f) None (map ensure_lazy deps).

(** Calling a lazy function without arguments: [unwrap_value] (lazy.h:39-41)
    drops the flag; [unregularized_void] (regular_void.h:28-39) turns
    [regular_void] into [void] ([None]). *)
Definition api_result (r : res (value * bool)) : res (option value) :=
  match r with
  | Ok (VVoid, _) => Ok None
  | Ok (v, _) => Ok (Some v)
  | Exc => Exc
  | UB => UB
  end.

(** ** Programs

    A program creates lazy functions, copies them, calls them and changes the
    outside world.  Variables are numbered in creation order. *)
Inductive depspec :=
| DVar (x : nat)             (* an earlier lazy function, passed by value: copied *)
| DFun (d : did)             (* a plain function *)
| DConst (v : value).        (* a value *)

Inductive op :=
| New (f : fid) (deps : list depspec)   (* auto x = pigro::lazy(f, deps...); *)
| Copy (x : nat)                        (* auto y = x; *)
| Call (x : nat)                        (* x(); *)
| Env (h : W -> W).                     (* the outside world changes *)

(** The state of a program: its lazy functions and the outside world. *)
Record pstate := mkState { vars : list lz; world : W }.

(** What an operation shows: the result if it is a call, and the actions. *)
Definition output := (option (res (option value)) * list event)%type.

Definition dep_of (vs : list lz) (s : depspec) : option depobj :=
  match s with
  | DVar x => option_map ObjLazy (nth_error vs x)
  | DFun d => Some (ObjPlain d)
  | DConst v => Some (ObjValue v)
  end.

Fixpoint deps_of (vs : list lz) (ss : list depspec) : option (list depobj) :=
  match ss with
  | [] => Some []
  | s :: ss' =>
      match dep_of vs s, deps_of vs ss' with
      | Some o, Some os => Some (o :: os)
      | _, _ => None
      end
  end.

(** [l] with its [n]-th element replaced. *)
Fixpoint update {X} (n : nat) (x : X) (l : list X) : list X :=
  match l, n with
  | [], _ => []
  | _ :: l', 0 => x :: l'
  | y :: l', S n' => y :: update n' x l'
  end.

(** One operation.  Using a variable that does not exist is not a program
    ([None]). *)
Definition exec (o : op) (s : pstate) : option (pstate * output) :=
  match o with
  | New f ss =>
      match deps_of (vars s) ss with
      | Some ds => Some (mkState (vars s ++ [mk_lazy f ds]) (world s), (None, []))
      | None => None
      end
  | Copy x =>
      match nth_error (vars s) x with
      | Some l => Some (mkState (vars s ++ [l]) (world s), (None, []))
      | None => None
      end
  | Call x =>
      match nth_error (vars s) x with
      | Some l =>
          let '(r, l', w', lg) := step l (world s) in
          Some (mkState (update x l' (vars s)) w', (Some (api_result r), lg))
      | None => None
      end
  | Env h => Some (mkState (vars s) (h (world s)), (None, []))
  end.

(** A whole program: the final state and the outputs of its operations. *)
Fixpoint run (p : list op) (s : pstate) : option (pstate * list output) :=
  match p with
  | [] => Some (s, [])
  | o :: p' =>
      match exec o s with
      | Some (s1, out) =>
          match run p' s1 with
          | Some (s2, outs) => Some (s2, out :: outs)
          | None => None
          end
      | None => None
      end
  end.

End Lazy.

Arguments fres : clear implicits.
Arguments vres : clear implicits.
Arguments user : clear implicits.
Arguments event : clear implicits.
Arguments fnobj : clear implicits.
Arguments lz : clear implicits.
Arguments op : clear implicits.
Arguments pstate : clear implicits.
Arguments output : clear implicits.
Arguments depobj : clear implicits.
Arguments depspec : clear implicits.
Arguments Ok {X} _.
Arguments Exc {X}.
Arguments UB {X}.
