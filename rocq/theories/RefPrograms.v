(** Programs that also pass lazy functions by reference: [lazy(f, std::ref(x), y, ...)].
    [std::ref] is not pigro's; it is what C++ offers for sharing a function object where
    a library, like pigro::lazy (lazy.h:96-103), takes its arguments by value. *)
From Coq Require Import List Bool Arith.
From Verif Require Import Value Machine MachineSpec MachineLib BindSpec Programs.
Import ListNotations.

Section RefPrograms.
Context {A W F S : Type}.
Notation value := (val A).
Notation obj := (obj A F S).
Notation mstate := (mstate A W F S).
Notation M := (M A W F S).
Notation source := (source A F S).
Notation mop := (mop A W F S).
Notation shows := (shows A).
Local Open Scope machine_scope.

(** [std::ref(x)]: an object that holds a reference to the variable. *)
Definition std_ref (r : ref) : obj := Node KRefWrap [SRef r].

(** What is handed to [pigro::lazy]: [std::ref(x)] of an existing lazy function, or as
    before. *)
Inductive rsource := RRef (x : nat) | RSrc (d : source).

Inductive rop :=
| RNew (f : F) (s : option S) (deps : list rsource)
| RCopy (x : nat)
| RCallVar (x : nat)
| REnv (h : W -> W).

(** The same program without [std::ref]. *)
Definition unref (d : rsource) : source := match d with RRef x => SrcLazy x | RSrc d' => d' end.
Definition unref_op (op : rop) : mop :=
  match op with
  | RNew f s deps => MNew f s (map unref deps)
  | RCopy x => MCopy x
  | RCallVar x => MCallVar x
  | REnv h => MEnv h
  end.
Definition by_values (p : list rop) : list mop := map unref_op p.

Section Run.
Variables (ve : value -> bool) (C : config) (U : muser A W F S) (fuel : nat).

(** A [std::reference_wrapper] of a lazy function is called with [nullptr] like the
    function itself: [ensure_lazy] (lazy.h:78-81) takes it for a lazy function. *)
Definition rsource_arg (rs : list ref) (d : rsource) : M (dep_class * arg) :=
  match d with
  | RRef x => r <- alloc (std_ref (nth x rs (0, []))) ;; ret (CLazy, lv r)
  | RSrc d' => source_arg rs d'
  end.

Definition rnew_lazy (rs : list ref) (f : F) (s : option S) (deps : list rsource) : M ref :=
  r <- alloc (fun_obj f s) ;;
  xs <- mapM (rsource_arg rs) deps ;;
  o <- pigro_lazy ve C U (lv r) xs ;; alloc o.

Fixpoint run_refs (rs : list ref) (p : list rop) (st : mstate) : list shows * mstate :=
  match p with
  | [] => ([], st)
  | RCallVar x :: p' =>
      let (o, st1) := call_lazy ve C U fuel (nth x rs (0, [])) st in
      let (os, st2) := run_refs rs p' st1 in (Some o :: os, st2)
  | REnv h :: p' =>
      let (os, st2) := run_refs rs p' (mkSt (store st) (h (mworld st)) (trace st)) in (None :: os, st2)
  | RNew f s deps :: p' =>
      let (o, st1) := rnew_lazy rs f s deps st in
      match o with
      | Done r => let (os, st2) := run_refs (rs ++ [r]) p' st1 in (None :: os, st2)
      | Err e => ([Some (Err e)], st1)
      end
  | RCopy x :: p' =>
      let (o, st1) := by_value ve C (lv (nth x rs (0, []))) st in
      match o with
      | Done r => let (os, st2) := run_refs (rs ++ [r]) p' st1 in (None :: os, st2)
      | Err e => ([Some (Err e)], st1)
      end
  end.
End Run.

End RefPrograms.
Arguments rsource : clear implicits.
Arguments rop : clear implicits.
