(** Programs that create, copy and call lazy functions in a changing world, run on the machine with
    pigro::lazy as composed by the code, and evaluated from scratch. *)
From Coq Require Import List Bool Arith.
From Verif Require Import Value Machine MachineSpec MachineLib BindSpec.
Import ListNotations.

Section Programs.
Context {A W F S : Type}.
Notation value := (val A).
Notation mstate := (mstate A W F S).
Notation mevent := (mevent A F).
Notation M := (M A W F S).
Notation lexp := (lexp A F S).
Notation ldep := (ldep A F S).
Notation data := (@Machine.data A F S).
Local Open Scope machine_scope.

(** What is handed to [pigro::lazy] as a dependency: an existing lazy function (they
    are numbered in the order of creation), another function object, or a value. *)
Inductive source := SrcLazy (x : nat) | SrcFun (g : F) (t : option S) | SrcValue (v : value).

(** [auto y = lazy(f, deps...);]  [auto y = x;]  [x();], and the outside world changes
    by itself. *)
Inductive mop :=
| MNew (f : F) (s : option S) (deps : list source)
| MCopy (x : nat)
| MCallVar (x : nat)
| MEnv (h : W -> W).

(** Programs that use only variables that exist; [n] exist at the start. *)
Definition source_ok (n : nat) (d : source) : Prop := match d with SrcLazy x => x < n | _ => True end.
Fixpoint prog_ok (n : nat) (p : list mop) : Prop :=
  match p with
  | [] => True
  | MNew _ _ deps :: p' => Forall (source_ok n) deps /\ prog_ok (Datatypes.S n) p'
  | MCopy x :: p' => x < n /\ prog_ok (Datatypes.S n) p'
  | MCallVar x :: p' => x < n /\ prog_ok n p'
  | MEnv _ :: p' => prog_ok n p'
  end.

(** What an operation shows: [None], or the outcome of a call ([Done None]: it
    returned [void]). *)
Definition shows := option (outcome (option value)).

(** ** On the machine *)
Section Run.
Variables (ve : value -> bool) (C : config) (U : muser A W F S) (fuel : nat).

Definition source_arg (rs : list ref) (d : source) : M (dep_class * arg) :=
  match d with
  | SrcLazy x => ret (CLazy, lv (nth x rs (0, [])))
  | SrcFun g t => r <- alloc (fun_obj g t) ;; ret (CInvocable, lv r)
  | SrcValue v => r <- alloc (data v) ;; ret (COther, lv r)
  end.

Definition new_lazy (rs : list ref) (f : F) (s : option S) (deps : list source) : M ref :=
  r <- alloc (fun_obj f s) ;;
  xs <- mapM (source_arg rs) deps ;;
  o <- pigro_lazy ve C U (lv r) xs ;; alloc o.

Definition call_lazy (r : ref) : M (option value) := x <- invoke ve C U fuel r [] ;; observe ve C x.

Fixpoint run_prog (rs : list ref) (p : list mop) (st : mstate) : list shows * mstate :=
  match p with
  | [] => ([], st)
  | MCallVar x :: p' =>
      let (o, st1) := call_lazy (nth x rs (0, [])) st in
      let (os, st2) := run_prog rs p' st1 in (Some o :: os, st2)
  | MEnv h :: p' =>
      let (os, st2) := run_prog rs p' (mkSt (store st) (h (mworld st)) (trace st)) in (None :: os, st2)
  | MNew f s deps :: p' =>
      let (o, st1) := new_lazy rs f s deps st in
      match o with
      | Done r => let (os, st2) := run_prog (rs ++ [r]) p' st1 in (None :: os, st2)
      | Err e => ([Some (Err e)], st1)
      end
  | MCopy x :: p' =>
      let (o, st1) := by_value ve C (lv (nth x rs (0, []))) st in
      match o with
      | Done r => let (os, st2) := run_prog (rs ++ [r]) p' st1 in (None :: os, st2)
      | Err e => ([Some (Err e)], st1)
      end
  end.
End Run.

(** ** From scratch: a lazy function is the expression it stands for. *)
Section Eval.
Variable call : lexp -> W -> outcome value * W * list mevent.

Fixpoint sources (env : list lexp) (deps : list source) : list ldep :=
  match deps with
  | [] => []
  | SrcLazy x :: deps' =>
      match nth_error env x with
      | Some e => DepLazy e :: sources env deps'
      | None => sources env deps'
      end
  | SrcFun g t :: deps' => DepFun g t :: sources env deps'
  | SrcValue v :: deps' => DepValue v :: sources env deps'
  end.

Definition plain (o : outcome value) : outcome (option value) :=
  match o with Done VVoid => Done None | Done v => Done (Some v) | Err e => Err e end.

Fixpoint eval_with (env : list lexp) (p : list mop) (w : W) : list shows * W * list mevent :=
  match p with
  | [] => ([], w, [])
  | MNew f s deps :: p' =>
      let '(os, w', l) := eval_with (env ++ [LExp f s (sources env deps)]) p' w in (None :: os, w', l)
  | MCopy x :: p' =>
      match nth_error env x with
      | Some e => let '(os, w', l) := eval_with (env ++ [e]) p' w in (None :: os, w', l)
      | None => ([], w, [])
      end
  | MCallVar x :: p' =>
      match nth_error env x with
      | Some e =>
          let '(o, w1, l1) := call e w in
          let '(os, w2, l2) := eval_with env p' w1 in (Some (plain o) :: os, w2, l1 ++ l2)
      | None => ([], w, [])
      end
  | MEnv h :: p' => let '(os, w', l) := eval_with env p' (h w) in (None :: os, w', l)
  end.
End Eval.

(** Every call evaluates the whole tree from scratch. *)
Definition eval_prog (U : muser A W F S) := eval_with (ecall U).
(** The same with undefined behaviour, if only [ok] values may be read from dead
    objects. *)
Definition std_prog (U : muser A W F S) (ok : value -> bool) := eval_with (tcall U ok).

(** Undefined behaviour: what a run shows agrees with [os] up to the first undefined
    call; and the first call that should return a non-empty value is undefined, if
    none before it was. *)
Inductive agree_until_undefined (ve : value -> bool) : list shows -> list shows -> Prop :=
| agree_nil : agree_until_undefined ve [] []
| agree_same o os os' :
    (forall v, o = Some (Done (Some v)) -> data_empty ve v = true) ->
    agree_until_undefined ve os os' -> agree_until_undefined ve (o :: os) (o :: os')
| agree_undefined o os os' : agree_until_undefined ve (Some o :: os) (Some (Err Undefined) :: os').

End Programs.
Arguments source : clear implicits.
Arguments mop : clear implicits.
Arguments shows : clear implicits.
