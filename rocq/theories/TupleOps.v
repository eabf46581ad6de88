(** Histories of compressed tuples and variables: what the caller does, on the machine
    and as plain values. *)
From Coq Require Import List Bool Arith.
From Verif Require Import Value Machine MachineLib.
Import ListNotations.

Section Ops.
Context {A W F S : Type}.
Notation value := (val A).
Notation mstate := (mstate A W F S).
Notation M := (M A W F S).
Notation data := (@Machine.data A F S).
Variable ve : value -> bool.
Variable C : config.
Local Open Scope machine_scope.

(** What the caller does.  Tuples and variables are numbered in the order of their
    creation.
    - [NewVar v]: a variable;
    - [NewTuple xs]: [compressed_tuple<Ts...>{ x... }] from variables; [true] marks
      the elements declared as lvalue references;
    - [CopyTuple t];
    - [GetElem t i]: read [get<i>(t)];  [SetElem t i v]: [get<i>(t) = v];
    - [GetVar x], [SetVar x v]. *)
Inductive tuple_op :=
| NewVar (v : value)
| NewTuple (xs : list (bool * nat))
| CopyTuple (t : nat)
| GetElem (t i : nat)
| SetElem (t i : nat) (v : value)
| GetVar (x : nat)
| SetVar (x : nat) (v : value).

(** ** As plain values *)

(** An element: a value of its own, or a variable. *)
Inductive telem := Own (v : value) | Shared (x : nat).

Record tenv := mkEnv { vars : list value; tuples : list (list telem) }.

Definition telem_value (e : tenv) (c : telem) : option value :=
  match c with Own v => Some v | Shared x => nth_error (vars e) x end.

Definition elem_of (e : tenv) (t i : nat) : option telem :=
  match nth_error (tuples e) t with Some cs => nth_error cs i | None => None end.

Definition env_step (e : tenv) (op : tuple_op) : tenv * option value :=
  match op with
  | NewVar v => (mkEnv (vars e ++ [v]) (tuples e), None)
  | NewTuple xs =>
      let c (x : bool * nat) :=
        if fst x then Shared (snd x) else Own (nth (snd x) (vars e) VVoid) in
      (mkEnv (vars e) (tuples e ++ [map c xs]), None)
  | CopyTuple t => (mkEnv (vars e) (tuples e ++ [nth t (tuples e) []]), None)
  | GetElem t i => (e, match elem_of e t i with Some c => telem_value e c | None => None end)
  | SetElem t i v =>
      (match elem_of e t i with
       | Some (Own _) => mkEnv (vars e) (LazyModel.update t (LazyModel.update i (Own v) (nth t (tuples e) [])) (tuples e))
       | Some (Shared x) => mkEnv (LazyModel.update x v (vars e)) (tuples e)
       | None => e
       end, None)
  | GetVar x => (e, nth_error (vars e) x)
  | SetVar x v => (mkEnv (LazyModel.update x v (vars e)) (tuples e), None)
  end.

Fixpoint env_run (e : tenv) (ops : list tuple_op) : tenv * list (option value) :=
  match ops with
  | [] => (e, [])
  | op :: ops' =>
      let (e1, o) := env_step e op in
      let (e2, os) := env_run e1 ops' in (e2, o :: os)
  end.

(** The operations that compile: variables, tuples and elements exist, and an element
    of an empty class has only one value. *)
Definition op_ok (e : tenv) (op : tuple_op) : Prop :=
  match op with
  | NewVar _ => True
  | NewTuple xs => Forall (fun x => snd x < length (vars e)) xs
  | CopyTuple t => t < length (tuples e)
  | GetElem t i => elem_of e t i <> None
  | SetElem t i v =>
      match elem_of e t i with
      | Some (Own u) => data_empty ve u = data_empty ve v /\ (data_empty ve u = true -> u = v)
      | Some (Shared _) => True
      | None => False
      end
  | GetVar x | SetVar x _ => x < length (vars e)
  end.

Fixpoint ops_ok (e : tenv) (ops : list tuple_op) : Prop :=
  match ops with
  | [] => True
  | op :: ops' => op_ok e op /\ ops_ok (fst (env_step e op)) ops'
  end.

(** ** On the machine *)

(** The caller knows where the variables and the tuples are. *)
Definition tuple_get (r : ref) (i : nat) : M value :=
  e <- get ve C r i ;; o <- to_obj ve C e ;; value_of o.

(** Assignment to what [get] yields; a copy of an element of an empty class is
    assigned to and forgotten. *)
Definition tuple_set (r : ref) (i : nat) (v : value) : M unit :=
  e <- get ve C r i ;;
  match e with RRef q => write C q (data v) | _ => ret tt end.

Definition mach_step (vs ts : list ref) (op : tuple_op) : M (list ref * list ref * option value) :=
  match op with
  | NewVar v => r <- alloc (data v) ;; ret (vs ++ [r], ts, None)
  | NewTuple xs =>
      o <- make_ct_as ve C (map (fun x : bool * nat => (fst x, lv (nth (snd x) vs (0, [])))) xs) ;;
      r <- alloc o ;; ret (vs, ts ++ [r], None)
  | CopyTuple t => r <- by_value ve C (lv (nth t ts (0, []))) ;; ret (vs, ts ++ [r], None)
  | GetElem t i => v <- tuple_get (nth t ts (0, [])) i ;; ret (vs, ts, Some v)
  | SetElem t i v => tuple_set (nth t ts (0, [])) i v ;;; ret (vs, ts, None)
  | GetVar x => o <- read ve C (nth x vs (0, [])) ;; v <- value_of o ;; ret (vs, ts, Some v)
  | SetVar x v => write C (nth x vs (0, [])) (data v) ;;; ret (vs, ts, None)
  end.

Fixpoint mach_run (vs ts : list ref) (ops : list tuple_op) : M (list (option value)) :=
  match ops with
  | [] => ret []
  | op :: ops' =>
      p <- mach_step vs ts op ;;
      let '(vs', ts', o) := p in
      os <- mach_run vs' ts' ops' ;; ret (o :: os)
  end.

End Ops.
Arguments tuple_op : clear implicits.
Arguments telem : clear implicits.
Arguments tenv : clear implicits.
