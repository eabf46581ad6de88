(** Functions that call lazy functions.

    As LazyModel.v (src/pigro/lazy.h, kept state), but the wrapped functions and the plain
    functions given as dependencies may call lazy functions, which they hold by reference
    (a lambda [[&] { return x(); }]), themselves included.  Such a call can come while
    another one is under way, so what a call reads of the caches is read from the state at
    that moment.

    Simplified: a lazy function is not taken as a dependency by value (it can be copied,
    and the copy passed by [std::ref]). *)
From Coq Require Import List Bool Arith.
From Verif Require Import Value TupleAlg LazyModel.
Import ListNotations.

Section Nested.
Context {A W fid did : Type}.
Notation value := (val A).
Notation event := (event A fid did).

(** What a function does: return ([None]: [void]), throw, look at the world, change it, or
    call a lazy function; it sees what that returns, or catches what it throws ([None]). *)
Inductive script :=
| Return (r : option value)
| Throw
| Look (k : W -> script)
| Act (h : W -> W) (s : script)
| CallLazy (x : nat) (k : option (option value) -> script).

(** The user's side: the wrapped functions, the plain functions, [operator==]. *)
Record nuser := mkNUser {
  body : fid -> list value -> script;
  plain : did -> script;
  naeq : A -> A -> bool }.

(** The dependencies of a lazy function, after [ensure_lazy] (lazy.h:78-90):
    - [NValue v]: a value (lazy.h:88-90);
    - [NFun d cache]: a plain function, with the cache of the node that samples it
      (lazy.h:82-86);
    - [NRef x]: [std::ref(x)] for a lazy function [x], taken as it is (lazy.h:78-80). *)
Inductive ndep := NValue (v : value) | NFun (d : did) (cache : option value) | NRef (x : nat).

(** A lazy function (lazy.h:46-67): wrapped function, cache, dependencies. *)
Record nvar := mkVar { nfn : fid; ncache : option value; ndeps : list ndep }.

(** The caches in a state: of variable [x], and of the node for its [i]-th dependency. *)
Definition cache_of (vs : list nvar) (x : nat) : option value :=
  match nth_error vs x with Some v => ncache v | None => None end.
Definition set_cache (x : nat) (c : value) (vs : list nvar) : list nvar :=
  match nth_error vs x with
  | Some v => update x (mkVar (nfn v) (Some c) (ndeps v)) vs
  | None => vs
  end.
Definition dep_cache (vs : list nvar) (x i : nat) : option value :=
  match nth_error vs x with
  | Some v => match nth_error (ndeps v) i with Some (NFun _ c) => c | _ => None end
  | None => None
  end.
Definition set_dep_cache (x i : nat) (c : value) (vs : list nvar) : list nvar :=
  match nth_error vs x with
  | Some v =>
      match nth_error (ndeps v) i with
      | Some (NFun d _) => update x (mkVar (nfn v) (ncache v) (update i (NFun d (Some c)) (ndeps v))) vs
      | _ => vs
      end
  | None => vs
  end.

Variable U : nuser.

(** [cache != result], lazy.h:60, as [LazyModel.opt_neq]. *)
Definition compare (cache : option value) (result : value) : bool * list event :=
  (opt_ne (naeq U) cache result, match cache with None => [] | Some c => [EvCmp c result] end).

(** Outcome, state, world, log; [None]: a variable that does not exist, or not enough
    fuel. *)
Definition outcome (X : Type) : Type := option (res X * list nvar * W * list event).

Section Calls.
(** Calling a variable with [nullptr]. *)
Variable call : nat -> list nvar -> W -> outcome (value * bool).

(** Running a function; it calls lazy functions without arguments ([api_result],
    lazy.h:39-41, regular_void.h:28-39).  [void] becomes [regular_void{}]. *)
Fixpoint run_script (s : script) (vs : list nvar) (w : W) : outcome value :=
  match s with
  | Return o => Some (Ok (match o with Some v => v | None => VVoid end), vs, w, [])
  | Throw => Some (Exc, vs, w, [])
  | Look k => run_script (k w) vs w
  | Act h s' => run_script s' vs (h w)
  | CallLazy x k =>
      match call x vs w with
      | None => None
      | Some (r, vs1, w1, l1) =>
          match api_result r with
          | UB => Some (UB, vs1, w1, l1)
          | Exc =>
              match run_script (k None) vs1 w1 with
              | Some (r', vs2, w2, l2) => Some (r', vs2, w2, l1 ++ l2)
              | None => None
              end
          | Ok o =>
              match run_script (k (Some o)) vs1 w1 with
              | Some (r', vs2, w2, l2) => Some (r', vs2, w2, l1 ++ l2)
              | None => None
              end
          end
      end
  end.

(** Calling the [i]-th dependency [d] of variable [x].  For a plain function this is
    lazy.h:50-66 with a dependency that has always changed (lazy.h:85). *)
Definition call_dep (x i : nat) (d : ndep) (vs : list nvar) (w : W) : outcome (value * bool) :=
  match d with
  | NValue v => Some (Ok (v, false), vs, w, [])
  | NRef y => call y vs w
  | NFun d _ =>
      match run_script (plain U d) vs w with
      | None => None
      | Some (Ok v, vs1, w1, l1) =>
          let (changed, lc) := compare (dep_cache vs1 x i) v in
          Some (Ok (v, changed), set_dep_cache x i v vs1, w1, EvSample d :: l1 ++ lc)
      | Some (Exc, vs1, w1, l1) => Some (Exc, vs1, w1, EvSample d :: l1)
      | Some (UB, vs1, w1, l1) => Some (UB, vs1, w1, EvSample d :: l1)
      end
  end.

(** [std::tuple{ deps(nullptr)... }] (lazy.h:51), from the [i]-th on. *)
Fixpoint call_deps (x i : nat) (ds : list ndep) (vs : list nvar) (w : W) : outcome (list (value * bool)) :=
  match ds with
  | [] => Some (Ok [], vs, w, [])
  | d :: ds' =>
      match call_dep x i d vs w with
      | None => None
      | Some (Ok r, vs1, w1, l1) =>
          match call_deps x (S i) ds' vs1 w1 with
          | None => None
          | Some (rs, vs2, w2, l2) =>
              Some (match rs with Ok rs' => Ok (r :: rs') | Exc => Exc | UB => UB end, vs2, w2, l1 ++ l2)
          end
      | Some (Exc, vs1, w1, l1) => Some (Exc, vs1, w1, l1)
      | Some (UB, vs1, w1, l1) => Some (UB, vs1, w1, l1)
      end
  end.
End Calls.

(** The results of the dependencies are references (lazy.h:23-24), read after all of them
    were called (lazy.h:55); see [SharedModel.read_ref]. *)
Definition read_dep (vs : list nvar) (x i : nat) (d : ndep) (r : value) : value :=
  match d with
  | NValue v => r
  | NFun _ _ => match dep_cache vs x i with Some c => c | None => r end
  | NRef y => match r with VVoid => r | _ => match cache_of vs y with Some c => c | None => r end end
  end.
Fixpoint read_deps (vs : list nvar) (x i : nat) (ds : list ndep) (rs : list (value * bool)) : list value :=
  match ds, rs with
  | d :: ds', r :: rs' => read_dep vs x i d (fst r) :: read_deps vs x (S i) ds' rs'
  | _, _ => []
  end.

(** Calling variable [x] with [nullptr], lazy.h:50-66.  [n] bounds the number of calls
    under way at a time. *)
Fixpoint ncall (n : nat) (x : nat) (vs : list nvar) (w : W) {struct n} : outcome (value * bool) :=
  match n, nth_error vs x with
  | S n', Some v =>
      match call_deps (ncall n') x 0 (ndeps v) vs w with
      | None => None
      | Some (Exc, vs1, w1, l1) => Some (Exc, vs1, w1, l1)
      | Some (UB, vs1, w1, l1) => Some (UB, vs1, w1, l1)
      | Some (Ok rs, vs1, w1, l1) =>
          (* auto changed = !cache || any(args, is_changed); *)
          if negb (is_some (cache_of vs1 x)) || existsb snd rs then
            (* const auto result = std::apply(f, transform(args, value)); *)
            let args := ctad_tuple as_tuple (read_deps vs1 x 0 (ndeps v) rs) in
            match run_script (ncall n') (body U (nfn v) args) vs1 w1 with
            | None => None
            | Some (Exc, vs2, w2, l2) => Some (Exc, vs2, w2, l1 ++ EvCall (nfn v) args :: l2)
            | Some (UB, vs2, w2, l2) => Some (UB, vs2, w2, l1 ++ EvCall (nfn v) args :: l2)
            | Some (Ok result, vs2, w2, l2) =>
                (* changed = cache != result; cache = std::move(result); *)
                let (changed, lc) := compare (cache_of vs2 x) result in
                Some (Ok (result, changed), set_cache x result vs2, w2, l1 ++ EvCall (nfn v) args :: l2 ++ lc)
            end
          else
            match cache_of vs1 x with
            | Some c => Some (Ok (c, false), vs1, w1, l1)
            | None => Some (UB, vs1, w1, l1)
            end
      end
  | _, _ => None
  end.

(** ** Programs *)

(** Dependencies as the program gives them. *)
Inductive ndepspec := PValue (v : value) | PFun (d : did) | PRef (x : nat).

Inductive nop :=
| PNew (f : fid) (deps : list ndepspec)   (* auto x = pigro::lazy(f, deps...); *)
| PCopy (x : nat)                         (* auto y = x; *)
| PCall (x : nat)                         (* x(); *)
| PEnv (h : W -> W).                      (* the outside world changes *)

Definition ndep_of (s : ndepspec) : ndep :=
  match s with PValue v => NValue v | PFun d => NFun d None | PRef x => NRef x end.

Definition new_var (f : fid) (ss : list ndepspec) : nvar := mkVar f None (map ndep_of ss).

Definition nexec (n : nat) (o : nop) (vs : list nvar) (w : W)
    : option (list nvar * W * output A fid did) :=
  match o with
  | PNew f ss => Some (vs ++ [new_var f ss], w, (None, []))
  | PCopy x => match nth_error vs x with Some v => Some (vs ++ [v], w, (None, [])) | None => None end
  | PCall x =>
      match ncall n x vs w with
      | Some (r, vs', w', lg) => Some (vs', w', (Some (api_result r), lg))
      | None => None
      end
  | PEnv h => Some (vs, h w, (None, []))
  end.

Fixpoint nrun (n : nat) (p : list nop) (vs : list nvar) (w : W)
    : option (list nvar * W * list (output A fid did)) :=
  match p with
  | [] => Some (vs, w, [])
  | o :: p' =>
      match nexec n o vs w with
      | Some (vs1, w1, out) =>
          match nrun n p' vs1 w1 with
          | Some (vs2, w2, outs) => Some (vs2, w2, out :: outs)
          | None => None
          end
      | None => None
      end
  end.

End Nested.
Arguments script : clear implicits.
Arguments nuser : clear implicits.
Arguments ndep : clear implicits.
Arguments nvar : clear implicits.
Arguments ndepspec : clear implicits.
Arguments nop : clear implicits.
