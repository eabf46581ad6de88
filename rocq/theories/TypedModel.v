(** Model of src/pigro/lazy.h with the types that the compiler computes.  In [LazyModel.v] some
    decisions are made by looking at values: whether a single value is a [std::tuple] or a
    [std::pair], whether two [std::optional]s are compared, whether a result is [void].  In C++
    they are made by types, at compile time; here too.  Programs that do not compile for their types
    are rejected. *)
From Coq Require Import List Bool Arith.
From Verif Require Import Value TupleAlg LazyModel.
Import ListNotations.

(** Types of values, without references and [const]: the functions that [detail::lazy] gets return
    [auto] (regular_void.h:15-26, lazy.h:84), [transform] makes a [std::tuple] by deduction
    (tuple_algorithms.h:10), dependencies are parameters by value (lazy.h:96).
    [TAtom c] is the type of number [c] that is neither of the others. *)
Inductive ty :=
| TAtom (c : nat)
| TVoid                       (* pigro::regular_void, regular_void.h:11-13 *)
| TTuple (ts : list ty)
| TPair (t u : ty)
| TOpt (t : ty).

(** Equality of types ([std::same_as]). *)
Fixpoint ty_eqb (t u : ty) {struct t} : bool :=
  match t, u with
  | TAtom c, TAtom d => c =? d
  | TVoid, TVoid => true
  | TTuple ts, TTuple us =>
      (fix go (ts us : list ty) : bool :=
         match ts, us with
         | [], [] => true
         | t :: ts', u :: us' => ty_eqb t u && go ts' us'
         | _, _ => false
         end) ts us
  | TPair t1 t2, TPair u1 u2 => ty_eqb t1 u1 && ty_eqb t2 u2
  | TOpt t', TOpt u' => ty_eqb t' u'
  | _, _ => false
  end.

Section Typed.
Context {A W fid did : Type}.
Notation value := (val A).

(** The user's side: what functions do ([untyped]); the return type of wrapped functions for
    arguments of given types ([None] if no call compiles, [Some None] for [void]) and of plain
    functions; the number of the type [int]; and, for two different types, which values of the
    first convert to the second on assignment, and [!=] between an optional of the first and a
    value of the second. *)
Record typed_user := mkTyped {
  untyped : user A W fid did;
  fty : fid -> list ty -> option (option ty);
  dty : did -> ty;
  int_ty : nat;
  conv : ty -> ty -> option (value -> value);
  mixed : ty -> ty -> option (option value -> value -> bool) }.
Variable TU : typed_user.
Notation U := (untyped TU).

(** [operator==] on two values of a type. *)
Fixpoint teq (t : ty) (x y : value) {struct t} : bool :=
  match t with
  | TAtom _ => match x, y with VAtom a, VAtom b => aeq U a b | _, _ => false end
  | TVoid => true
  | TTuple ts =>
      match x, y with
      | VTuple l, VTuple m =>
          (fix go (ts : list ty) (l m : list value) : bool :=
             match ts, l, m with
             | t' :: ts', a :: l', b :: m' => teq t' a b && go ts' l' m'
             | _, _, _ => true
             end) ts l m
      | _, _ => false
      end
  | TPair t1 t2 =>
      match x, y with VPair a b, VPair c d => teq t1 a c && teq t2 b d | _, _ => false end
  | TOpt t' =>
      match x, y with
      | VOpt (Some a), VOpt (Some b) => teq t' a b
      | VOpt None, VOpt None => true
      | _, _ => false
      end
  end.

(** [cache != result] (lazy.h:58) for a [std::optional<T>] and a [T], by [T]: for
    [regular_void] the specialisation of regular_void.h:66-70, for a [std::optional] the comparison
    of two [std::optional]s, otherwise that of a [std::optional] and a value. *)
Fixpoint opt_ne_ty (t : ty) (x : option value) (y : value) {struct t} : bool :=
  match t with
  | TVoid => negb (is_some x)
  | TOpt t' =>
      match x, y with
      | None, VOpt None => false
      | Some (VOpt x'), VOpt (Some y') => opt_ne_ty t' x' y'
      | _, _ => true
      end
  | _ => match x with None => true | Some c => negb (teq t c y) end
  end.

(** Lazy functions with their types.  [TLCore g t t' cache deps] has [result_t = t] (lazy.h:47), so
    a cache of type [std::optional<t>] (lazy.h:49); [t'] is the type of [result] (lazy.h:56). *)
Inductive tlz :=
| TLValue (t : ty) (v : value) (ch : bool)
| TLCore (g : fnobj fid did) (t t' : ty) (cache : option value) (deps : list tlz).

Section Induction.
  Variable P : tlz -> Prop.
  Hypothesis Hvalue : forall t v ch, P (TLValue t v ch).
  Hypothesis Hcore : forall g t t' cache deps, Forall P deps -> P (TLCore g t t' cache deps).
  Fixpoint tlz_ind' (l : tlz) : P l :=
    match l with
    | TLValue t v ch => Hvalue t v ch
    | TLCore g t t' cache deps =>
        Hcore g t t' cache deps
          ((fix go (ds : list tlz) : Forall P ds :=
              match ds with
              | [] => Forall_nil P
              | d :: ds' => Forall_cons d (tlz_ind' d) (go ds')
              end) deps)
    end.
End Induction.

(** The type of [value] in the [LazyResult] of a call. *)
Definition type_of (l : tlz) : ty := match l with TLValue t _ _ => t | TLCore _ t _ _ _ => t end.

(** [std::tuple{ ... }] of expressions of types [ts] (tuple_algorithms.h:10): the types of the
    elements, see [Value.ctad_tuple]. *)
Definition look_ty (t : ty) : option (list ty) :=
  match t with TTuple ts => Some ts | TPair t u => Some [t; u] | _ => None end.
Definition tuple_types (ts : list ty) : list ty := ctad_tuple look_ty ts.
(** And their values. *)
Definition tuple_values (ts : list ty) (vs : list value) : list value :=
  match ts, vs with
  | [TTuple _], [VTuple l] => l
  | [TPair _ _], [VPair x y] => [x; y]
  | _, _ => vs
  end.

(** src/pigro/lazy.h:53-65, as [LazyModel.core].  If the types of [result] and of the cache differ,
    the comparison is between different types and the assignment converts. *)
Definition tcore (g : fnobj fid did) (t t' : ty) (ts : list ty) (cache : option value)
    (args : list (value * bool)) (w : W) : res (value * bool) * option value * W * list (event A fid did) :=
  let changed := negb (is_some cache) || existsb snd args in
  if changed then
    match call_fn U g (tuple_values ts (map fst args)) w with
    | (VThrow, w', lg) => (Exc, cache, w', lg)
    | (VRet result, w', lg) =>
        let changed' :=
          if ty_eqb t t' then opt_ne_ty t cache result
          else match mixed TU t t' with Some ne => ne cache result | None => true end in
        let stored :=
          if ty_eqb t t' then result
          else match conv TU t' t with Some c => c result | None => result end in
        (Ok (stored, changed'), Some stored, w',
         lg ++ match cache with None => [] | Some c => [EvCmp c result] end)
    end
  else
    match cache with
    | Some c => (Ok (c, changed), cache, w, [])
    | None => (UB, cache, w, [])
    end.

(** Calling with [nullptr], as [LazyModel.step]. *)
Definition tsteps_with (tstep : tlz -> W -> res (value * bool) * tlz * W * list (event A fid did)) :=
  fix tsteps (ds : list tlz) (w : W) : res (list (value * bool)) * list tlz * W * list (event A fid did) :=
    match ds with
    | [] => (Ok [], [], w, [])
    | d :: ds' =>
        let '(r, d', w1, l1) := tstep d w in
        match r with
        | Ok x =>
            let '(rs, ds'', w2, l2) := tsteps ds' w1 in
            (match rs with Ok xs => Ok (x :: xs) | Exc => Exc | UB => UB end, d' :: ds'', w2, l1 ++ l2)
        | Exc => (Exc, d' :: ds', w1, l1)
        | UB => (UB, d' :: ds', w1, l1)
        end
    end.
Fixpoint tstep (l : tlz) (w : W) {struct l} : res (value * bool) * tlz * W * list (event A fid did) :=
  match l with
  | TLValue t v ch => (Ok (v, ch), TLValue t v ch, w, [])
  | TLCore g t t' cache deps =>
      let '(rs, deps', w1, l1) := tsteps_with tstep deps w in
      match rs with
      | Ok args =>
          let '(r, cache', w2, l2) := tcore g t t' (map type_of deps) cache args w1 in
          (r, TLCore g t t' cache' deps', w2, l1 ++ l2)
      | Exc => (Exc, TLCore g t t' cache deps', w1, l1)
      | UB => (UB, TLCore g t t' cache deps', w1, l1)
      end
  end.
Definition tsteps := tsteps_with tstep.

(** [unregularized_void] (regular_void.h:28-39) decides by the type. *)
Definition tapi (t : ty) (r : res (value * bool)) : res (option value) :=
  match r with
  | Ok (v, _) => Ok (match t with TVoid => None | _ => Some v end)
  | Exc => Exc
  | UB => UB
  end.

(** [regularized_void] (regular_void.h:15-26) decides by the type. *)
Definition reg (r : option ty) : ty := match r with None => TVoid | Some t => t end.

(** Whether [cache != result] and [cache = std::move(result)] compile (lazy.h:58-59), for a cache
    of type [std::optional<t>] and a result of type [t']. *)
Definition accepted (t t' : ty) : bool := ty_eqb t t' || (is_some (mixed TU t t') && is_some (conv TU t' t)).

(** [pigro::lazy(f, deps...)] (lazy.h:96-103): [result_t] is the type of [f] for the types of the
    dependencies (lazy.h:47), but [f] is called by [std::apply] with the tuple that [transform]
    makes of them (lazy.h:55-56). *)
Definition node_types (f : fid) (ts : list ty) : option (ty * ty) :=
  match fty TU f ts, fty TU f (tuple_types ts) with
  | Some r, Some r' => if accepted (reg r) (reg r') then Some (reg r, reg r') else None
  | _, _ => None
  end.

(** Programs: constants have a type. *)
Inductive tdep := TDVar (x : nat) | TDFun (d : did) | TDConst (t : ty) (v : value).
Inductive top := TNew (f : fid) (deps : list tdep) | TCopy (x : nat) | TCall (x : nat) | TEnv (h : W -> W).

Record tstate := mkTState { tvars : list tlz; tworld : W }.

(** [ensure_lazy] (lazy.h:78-90) of a dependency. *)
Definition tensure (vs : list tlz) (d : tdep) : option tlz :=
  match d with
  | TDVar x => nth_error vs x
  | TDFun d => Some (TLCore (FnSample d) (dty TU d) (dty TU d) None [TLValue (TAtom (int_ty TU)) (VAtom (int0 U)) true])
  | TDConst t v => Some (TLValue t v false)
  end.
Fixpoint all_some {X} (l : list (option X)) : option (list X) :=
  match l with
  | [] => Some []
  | o :: l' => match o, all_some l' with Some x, Some xs => Some (x :: xs) | _, _ => None end
  end.

Definition texec (o : top) (s : tstate) : option (tstate * output A fid did) :=
  match o with
  | TNew f deps =>
      match all_some (map (tensure (tvars s)) deps) with
      | Some ds =>
          match node_types f (map type_of ds) with
          | Some (t, t') => Some (mkTState (tvars s ++ [TLCore (FnUser f) t t' None ds]) (tworld s), (None, []))
          | None => None
          end
      | None => None
      end
  | TCopy x =>
      match nth_error (tvars s) x with
      | Some l => Some (mkTState (tvars s ++ [l]) (tworld s), (None, []))
      | None => None
      end
  | TCall x =>
      match nth_error (tvars s) x with
      | Some l =>
          let '(r, l', w', lg) := tstep l (tworld s) in
          Some (mkTState (update x l' (tvars s)) w', (Some (tapi (type_of l) r), lg))
      | None => None
      end
  | TEnv h => Some (mkTState (tvars s) (h (tworld s)), (None, []))
  end.
Fixpoint trun (p : list top) (s : tstate) : option (tstate * list (output A fid did)) :=
  match p with
  | [] => Some (s, [])
  | o :: p' =>
      match texec o s with
      | Some (s1, out) =>
          match trun p' s1 with Some (s2, outs) => Some (s2, out :: outs) | None => None end
      | None => None
      end
  end.

(** What the compiler does: the types of the variables, or an error. *)
Definition dep_type (env : list ty) (d : tdep) : option ty :=
  match d with TDVar x => nth_error env x | TDFun d => Some (dty TU d) | TDConst t _ => Some t end.
Definition compile1 (o : top) (env : list ty) : option (list ty) :=
  match o with
  | TNew f deps =>
      match all_some (map (dep_type env) deps) with
      | Some ts => option_map (fun t => env ++ [fst t]) (node_types f ts)
      | None => None
      end
  | TCopy x => option_map (fun t => env ++ [t]) (nth_error env x)
  | TCall x => option_map (fun _ => env) (nth_error env x)
  | TEnv _ => Some env
  end.
Fixpoint compile (p : list top) (env : list ty) : option (list ty) :=
  match p with
  | [] => Some env
  | o :: p' => match compile1 o env with Some env' => compile p' env' | None => None end
  end.

End Typed.
Arguments typed_user : clear implicits.
Arguments tlz : clear implicits.
Arguments tdep : clear implicits.
Arguments top : clear implicits.
Arguments tstate : clear implicits.
