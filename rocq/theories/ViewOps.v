(** Histories of compressed tuples as in [TupleOps.v], with default-constructed tuples
    and the results of [to_tuple]. *)
From Coq Require Import List Bool Arith.
From Verif Require Import Value Machine MachineLib TupleOps.
Import ListNotations.

Section Ops.
Context {A W F S : Type}.
Notation value := (val A).
Notation obj := (obj A F S).
Notation mstate := (mstate A W F S).
Notation M := (M A W F S).
Notation data := (@Machine.data A F S).
Notation tuple_op := (tuple_op A).
Notation tenv := (tenv A).
Notation telem := (telem A).
Variable ve : value -> bool.
Variable C : config.
Local Open Scope machine_scope.

(** src/pigro/to_tuple.h:11-17 [to_tuple(t)] of an lvalue: [pigro::apply] (apply.h:8-17)
    with [std::forward_as_tuple], i.e. a [std::tuple] of references to what [get<I>(t)...]
    yields.  For an element of empty class that is a temporary of the call in
    apply.h:10. *)
Definition to_tuple (r : ref) : M obj :=
  scoped (es <- elements ve C r ;; ret (Node KTuple (map (fun a => SRef (aref a)) es))).

(** [to_tuple] of a temporary, here a copy of the tuple at [r]: the elements are reached
    as for an lvalue (forward_like.h and fwd_capture.h only change the categories of the
    references, C28-C30), and the temporary ends with the call. *)
Definition to_tuple_temp (r : ref) : M obj :=
  scoped (q <- by_value ve C (lv r) ;; to_tuple q).

(** src/pigro/compressed_tuple.h:53-54, the default constructor: the elements are moved
    from temporaries [Ts{}...], whose values are [vs]. *)
Definition make_ct_default (vs : list value) : M obj :=
  scoped (rs <- mapM alloc (map data vs) ;; make_ct ve C (map (fun r => mkArg r RV) rs)).

(** What the caller does, in addition to [TupleOps.tuple_op]:
    - [NewDefault vs]: [compressed_tuple<Ts...>{}];
    - [ToTuple t]: [auto w = to_tuple(t);] (numbered in the order of creation);
    - [ToTupleTemp t]: [auto w = to_tuple(decltype(t)(t));], of a temporary copy of [t];
    - [GetView w i]: read [std::get<i>(w)];  [SetView w i v]: [std::get<i>(w) = v]. *)
Inductive view_op :=
| Op (op : tuple_op)
| NewDefault (vs : list value)
| ToTuple (t : nat)
| ToTupleTemp (t : nat)
| GetView (w i : nat)
| SetView (w i : nat) (v : value).

(** ** As plain values *)

(** What an element of the result of [to_tuple] stands for: an element of a compressed
    tuple, a variable, or nothing any more: the copy of an element of empty class, or an
    element of a temporary. *)
Inductive tview := ElemOf (t i : nat) | VarOf (x : nat) | Gone (v : value).

Record venv := mkVEnv { env : tenv; views : list (list tview) }.

Definition view_of (e : venv) (w i : nat) : option tview :=
  match nth_error (views e) w with Some cs => nth_error cs i | None => None end.

Definition view_elem (t i : nat) (c : telem) : tview :=
  match c with
  | Shared x => VarOf x
  | Own v => if data_empty ve v then Gone v else ElemOf t i
  end.

Fixpoint view_elems (t i : nat) (cs : list telem) : list tview :=
  match cs with [] => [] | c :: cs' => view_elem t i c :: view_elems t (1 + i) cs' end.

Definition view_temp (c : telem) : tview :=
  match c with Shared x => VarOf x | Own v => Gone v end.

Definition venv_step (e : venv) (op : view_op) : venv * option value :=
  match op with
  | Op op => let (e1, o) := env_step (env e) op in (mkVEnv e1 (views e), o)
  | NewDefault vs => (mkVEnv (mkEnv (vars (env e)) (tuples (env e) ++ [map Own vs])) (views e), None)
  | ToTuple t => (mkVEnv (env e) (views e ++ [view_elems t 0 (nth t (tuples (env e)) [])]), None)
  | ToTupleTemp t => (mkVEnv (env e) (views e ++ [map view_temp (nth t (tuples (env e)) [])]), None)
  | GetView w i =>
      (e, match view_of e w i with
          | Some (ElemOf t j) => snd (env_step (env e) (GetElem t j))
          | Some (VarOf x) => snd (env_step (env e) (GetVar x))
          | _ => None
          end)
  | SetView w i v =>
      (match view_of e w i with
       | Some (ElemOf t j) => mkVEnv (fst (env_step (env e) (SetElem t j v))) (views e)
       | Some (VarOf x) => mkVEnv (fst (env_step (env e) (SetVar x v))) (views e)
       | _ => e
       end, None)
  end.

Fixpoint venv_run (e : venv) (ops : list view_op) : venv * list (option value) :=
  match ops with
  | [] => (e, [])
  | op :: ops' =>
      let (e1, o) := venv_step e op in
      let (e2, os) := venv_run e1 ops' in (e2, o :: os)
  end.

(** As [op_ok]; and what is gone is neither read nor assigned. *)
Definition vop_ok (e : venv) (op : view_op) : Prop :=
  match op with
  | Op op => op_ok ve (env e) op
  | NewDefault _ => True
  | ToTuple t | ToTupleTemp t => t < length (tuples (env e))
  | GetView w i =>
      match view_of e w i with Some (ElemOf _ _) | Some (VarOf _) => True | _ => False end
  | SetView w i v =>
      match view_of e w i with
      | Some (ElemOf t j) => op_ok ve (env e) (SetElem t j v)
      | Some (VarOf x) => True
      | _ => False
      end
  end.

Fixpoint vops_ok (e : venv) (ops : list view_op) : Prop :=
  match ops with
  | [] => True
  | op :: ops' => vop_ok e op /\ vops_ok (fst (venv_step e op)) ops'
  end.

Definition no_vars : venv := mkVEnv (mkEnv [] []) [].

(** ** On the machine *)
Definition vmach_step (vs ts ws : list ref) (op : view_op)
    : M (list ref * list ref * list ref * option value) :=
  match op with
  | Op op =>
      p <- mach_step ve C vs ts op ;; let '(vs', ts', o) := p in ret (vs', ts', ws, o)
  | NewDefault us => o <- make_ct_default us ;; r <- alloc o ;; ret (vs, ts ++ [r], ws, None)
  | ToTuple t => o <- to_tuple (nth t ts (0, [])) ;; r <- alloc o ;; ret (vs, ts, ws ++ [r], None)
  | ToTupleTemp t => o <- to_tuple_temp (nth t ts (0, [])) ;; r <- alloc o ;; ret (vs, ts, ws ++ [r], None)
  | GetView w i => v <- tuple_get ve C (nth w ws (0, [])) i ;; ret (vs, ts, ws, Some v)
  | SetView w i v => tuple_set ve C (nth w ws (0, [])) i v ;;; ret (vs, ts, ws, None)
  end.

Fixpoint vmach_run (vs ts ws : list ref) (ops : list view_op) : M (list (option value)) :=
  match ops with
  | [] => ret []
  | op :: ops' =>
      p <- vmach_step vs ts ws op ;;
      let '(vs', ts', ws', o) := p in
      os <- vmach_run vs' ts' ws' ops' ;; ret (o :: os)
  end.

End Ops.
Arguments view_op : clear implicits.
Arguments tview : clear implicits.
Arguments venv : clear implicits.
