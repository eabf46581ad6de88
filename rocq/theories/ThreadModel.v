(** The algorithm of src/pigro/lazy.h (kept state, as in [LazyModel.v]), one access at a
    time, for several threads.

    A call is a sequence of accesses to the caches and of calls of user functions.  What
    a lazy function returns for its value is a reference into its cache (lazy.h:23-24,
    63): a dependency's value is read when the arguments are (lazy.h:57), not when the
    dependency is called.  Threads take turns in any order; nothing in pigro synchronises
    them. *)
From Coq Require Import List Bool Arith.
From Verif Require Import Value TupleAlg LazyModel.
Import ListNotations.

Section Threads.
Context {A W fid did : Type}.
Notation value := (val A).
Variable U : user A W fid did.

(** A cache is an object at a location. *)
Definition loc := nat.
Definition heap := loc -> option value.
Definition put (h : heap) (c : loc) (o : option value) : heap := fun c' => if Nat.eqb c' c then o else h c'.

(** Lazy functions as in [LazyModel.lz], with the place of the cache for the cache. *)
Inductive node :=
| NValue (v : value) (ch : bool)
| NCore (g : fnobj fid did) (c : loc) (deps : list node).

(** What a [LazyResult] refers to (lazy.h:17-25): the value of a [lazy_value], which never
    changes, or a cache. *)
Inductive rv := Imm (v : value) | At (c : loc).

(** What a thread is going to do. *)
Inductive prog (X : Type) :=
| Ret (x : X)
| Throw
| Undefined
| Load (c : loc) (k : option value -> prog X)
| Store (c : loc) (o : option value) (p : prog X)
| CallF (g : fnobj fid did) (args : list value) (k : vres A -> prog X)
| Cmp (old new : value) (k : bool -> prog X).
Arguments Ret {X} _.
Arguments Throw {X}.
Arguments Undefined {X}.
Arguments Load {X} _ _.
Arguments Store {X} _ _ _.
Arguments CallF {X} _ _ _.
Arguments Cmp {X} _ _ _.

Fixpoint bind {X Y} (p : prog X) (f : X -> prog Y) : prog Y :=
  match p with
  | Ret x => f x
  | Throw => Throw
  | Undefined => Undefined
  | Load c k => Load c (fun o => bind (k o) f)
  | Store c o p' => Store c o (bind p' f)
  | CallF g args k => CallF g args (fun r => bind (k r) f)
  | Cmp a b k => Cmp a b (fun r => bind (k r) f)
  end.

(** [try { ... } catch (...) { ... }] *)
Fixpoint catching {X Y} (p : prog X) (f : res X -> prog Y) : prog Y :=
  match p with
  | Ret x => f (Ok x)
  | Throw => f Exc
  | Undefined => Undefined
  | Load c k => Load c (fun o => catching (k o) f)
  | Store c o p' => Store c o (catching p' f)
  | CallF g args k => CallF g args (fun r => catching (k r) f)
  | Cmp a b k => Cmp a b (fun r => catching (k r) f)
  end.

(** Reading through a reference. *)
Definition fetch (x : rv) : prog value :=
  match x with
  | Imm v => Ret v
  | At c => Load c (fun o => match o with Some v => Ret v | None => Undefined end)
  end.

(** lazy.h:57 [transform(args, value)], the reading of the values from left to right. *)
Fixpoint fetch_all (xs : list (rv * bool)) : prog (list (value * bool)) :=
  match xs with
  | [] => Ret []
  | (x, b) :: xs' => bind (fetch x) (fun v => bind (fetch_all xs') (fun vs => Ret ((v, b) :: vs)))
  end.

(** lazy.h:58 [cache != result], the cache having been read. *)
Definition differs_from (o : option value) (result : value) : prog bool :=
  match o with
  | None => Ret (opt_ne (aeq U) None result)
  | Some v => Cmp v result (fun b => Ret b)
  end.

(** lazy.h:53-65, as [LazyModel.core]. *)
Definition core_prog (g : fnobj fid did) (c : loc) (args : list (rv * bool)) : prog (rv * bool) :=
  (* auto changed = !cache || any(args, is_changed); *)
  Load c (fun o =>
  let changed := negb (is_some o) || fst (any args (pure1 (fun x : rv * bool => snd x)) tt) in
  if changed then
    (* const auto values = transform(args, value); *)
    bind (fetch_all args) (fun vs =>
    let values := fst (transform as_tuple vs (pure1 lr_value) tt) in
    (* const auto result = std::apply(f, values); *)
    CallF g values (fun r =>
    match r with
    | VThrow => Throw
    | VRet result =>
        (* changed = cache != result; *)
        Load c (fun o' => bind (differs_from o' result) (fun changed' =>
        (* cache = std::move(result); return LazyResult{ *cache, changed }; *)
        Store c (Some result) (Ret (At c, changed'))))
    end))
  else Ret (At c, changed)).

(** lazy.h:51 [deps(nullptr)...] *)
Definition calls_with (call : node -> prog (rv * bool)) :=
  fix calls (ns : list node) : prog (list (rv * bool)) :=
    match ns with
    | [] => Ret []
    | n :: ns' => bind (call n) (fun x => bind (calls ns') (fun xs => Ret (x :: xs)))
    end.

(** lazy.h:50-66 and 69-76. *)
Fixpoint call (n : node) : prog (rv * bool) :=
  match n with
  | NValue v ch => Ret (Imm v, ch)
  | NCore g c deps => bind (calls_with call deps) (core_prog g c)
  end.
Definition calls := calls_with call.

(** [x()]: lazy.h:39-41 reads the value; regular_void.h:28-39. *)
Definition call_api (n : node) : prog (option value) :=
  bind (call n) (fun xb => bind (fetch (fst xb)) (fun v => Ret (match v with VVoid => None | _ => Some v end))).

(** Copying a lazy function: the caches of [n] are read, those of [m] initialised. *)
Definition copy_cache (c c' : loc) {X} (p : prog X) : prog X :=
  Load c (fun o => Store c' o p).
Fixpoint copy_caches (cs cs' : list loc) : prog unit :=
  match cs, cs' with
  | c :: cs1, c' :: cs1' => copy_cache c c' (copy_caches cs1 cs1')
  | _, _ => Ret tt
  end.

(** The places of the caches of a lazy function, a node after its dependencies. *)
Fixpoint locs (n : node) : list loc :=
  match n with
  | NValue _ _ => []
  | NCore _ c deps => flat_map locs deps ++ [c]
  end.

(** What a thread does with lazy functions; the results of its calls. *)
Inductive top := TCall (n : node) | TCopy (n m : node).
Fixpoint thread (ops : list top) : prog (list (res (option value))) :=
  match ops with
  | [] => Ret []
  | TCall n :: ops' => catching (call_api n) (fun r => bind (thread ops') (fun rs => Ret (r :: rs)))
  | TCopy n m :: ops' => bind (copy_caches (locs n) (locs m)) (fun _ => thread ops')
  end.

(** ** One thread *)
Fixpoint alone {X} (p : prog X) (h : heap) (w : W) : res X * heap * W * list (event A fid did) :=
  match p with
  | Ret x => (Ok x, h, w, [])
  | Throw => (Exc, h, w, [])
  | Undefined => (UB, h, w, [])
  | Load c k => alone (k (h c)) h w
  | Store c o p' => alone p' (put h c o) w
  | CallF g args k =>
      let '(r, w', lg) := call_fn U g args w in
      let '(x, h', w'', lg') := alone (k r) h w' in (x, h', w'', lg ++ lg')
  | Cmp a b k =>
      let '(x, h', w', lg) := alone (k (opt_ne (aeq U) (Some a) b)) h w in (x, h', w', EvCmp a b :: lg)
  end.

(** ** Many threads *)
Inductive action :=
| ALoad (c : loc) (o : option value)
| AStore (c : loc) (o : option value)
| ACall (g : fnobj fid did) (args : list value) (w : W)   (* in the outside world [w] *)
| ACmp (old new : value).

(** One step of a thread; a thread that has ended does nothing. *)
Definition tstep {X} (p : prog X) (h : heap) (w : W) : option (action * prog X * heap * W) :=
  match p with
  | Ret _ | Throw | Undefined => None
  | Load c k => Some (ALoad c (h c), k (h c), h, w)
  | Store c o p' => Some (AStore c o, p', put h c o, w)
  | CallF g args k => let '(r, w', _) := call_fn U g args w in Some (ACall g args w, k r, h, w')
  | Cmp a b k => Some (ACmp a b, k (opt_ne (aeq U) (Some a) b), h, w)
  end.

Record conf (X : Type) := mkConf { threads : list (prog X); mem : heap; wrld : W }.
Arguments mkConf {X} _ _ _.
Arguments threads {X} _.
Arguments mem {X} _.
Arguments wrld {X} _.

(** A thread takes a step, or the outside world changes. *)
Inductive turn := Turn (i : nat) | Outside (f : W -> W).
Definition turn_step {X} (t : turn) (s : conf X) : conf X * list (nat * action) :=
  match t with
  | Outside f => (mkConf (threads s) (mem s) (f (wrld s)), [])
  | Turn i =>
      match nth_error (threads s) i with
      | None => (s, [])
      | Some p =>
          match tstep p (mem s) (wrld s) with
          | None => (s, [])
          | Some (a, p', h', w') => (mkConf (update i p' (threads s)) h' w', [(i, a)])
          end
      end
  end.

Fixpoint interleave {X} (sched : list turn) (s : conf X) : conf X * list (nat * action) :=
  match sched with
  | [] => (s, [])
  | t :: sched' =>
      let '(s1, tr1) := turn_step t s in
      let '(s2, tr2) := interleave sched' s1 in (s2, tr1 ++ tr2)
  end.
End Threads.

Arguments node : clear implicits.
Arguments prog : clear implicits.
Arguments top : clear implicits.
Arguments action : clear implicits.
Arguments conf : clear implicits.
Arguments turn : clear implicits.
Arguments heap : clear implicits.
Arguments Ret {A fid did X} _.
Arguments Throw {A fid did X}.
Arguments Undefined {A fid did X}.
Arguments Load {A fid did X} _ _.
Arguments Store {A fid did X} _ _ _.
Arguments CallF {A fid did X} _ _ _.
Arguments Cmp {A fid did X} _ _ _.
Arguments mkConf {A W fid did X} _ _ _.
Arguments threads {A W fid did X} _.
Arguments mem {A W fid did X} _.
Arguments wrld {A W fid did X} _.
