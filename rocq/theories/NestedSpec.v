(** Vocabulary for programs whose functions call lazy functions (NestedModel.v). *)
From Coq Require Import List Bool Arith.
From Verif Require Import Value TupleAlg LazyModel LazySpec NestedModel.
Import ListNotations.

Section Spec.
Context {A W fid did : Type}.
Notation value := (val A).
Notation event := (event A fid did).
Notation script := (script A W).
Notation ndepspec := (ndepspec A did).
Notation nop := (nop A W fid did).

(** ** Without lazy functions: definitions, evaluated in their order *)

(** A definition: the wrapped function and its dependencies. *)
Definition def : Type := fid * list ndepspec.

(** What a function that only looks and calls earlier lazy functions returns, where [env]
    are the values of those. *)
Fixpoint answer (env : list value) (w : W) (s : script) : option value :=
  match s with
  | Return o => o
  | Throw => None
  | Look k => answer env w (k w)
  | Act _ s' => answer env w s'
  | CallLazy x k => answer env w (k (Some (visible (nth x env VVoid))))
  end.

Section Values.
Variable plainf : did -> script.
Variable pf : fid -> list value -> option value.

Definition dep_value (env : list value) (w : W) (s : ndepspec) : value :=
  match s with
  | PValue v => v
  | PFun d => match answer env w (plainf d) with Some v => v | None => VVoid end
  | PRef x => nth x env VVoid
  end.

Definition args_of (env : list value) (w : W) (d : def) : list value := map (dep_value env w) (snd d).

Definition values (defs : list def) (w : W) : list value :=
  fold_left (fun env d => env ++ [fval pf (fst d) (args_of env w d)]) defs [].

(** A program: its definitions at the end, and what the calls are to return. *)
Fixpoint neager (p : list nop) (defs : list def) (w : W) : option (list def * list (option value)) :=
  match p with
  | [] => Some (defs, [])
  | PNew f ss :: p' => neager p' (defs ++ [(f, ss)]) w
  | PCopy x :: p' =>
      match nth_error defs x with Some d => neager p' (defs ++ [d]) w | None => None end
  | PCall x :: p' =>
      match nth_error (values defs w) x, neager p' defs w with
      | Some v, Some (ds, vals) => Some (ds, visible v :: vals)
      | _, _ => None
      end
  | PEnv h :: p' => neager p' defs (h w)
  end.
End Values.

(** The definitions a program makes, after those in [ds]. *)
Fixpoint definitions (p : list nop) (ds : list def) : list def :=
  match p with
  | [] => ds
  | PNew f ss :: p' => definitions p' (ds ++ [(f, ss)])
  | PCopy x :: p' => definitions p' (match nth_error ds x with Some d => ds ++ [d] | None => ds end)
  | _ :: p' => definitions p' ds
  end.

(** ** Conditions on functions *)

(** The function changes nothing, does not throw, and calls only the first [n] lazy
    functions. *)
Inductive gentle (n : nat) : script -> Prop :=
| gentle_return o : gentle n (Return o)
| gentle_look k : (forall w, gentle n (k w)) -> gentle n (Look k)
| gentle_call x k : x < n -> (forall o, gentle n (k (Some o))) -> gentle n (CallLazy x k).

(** The function calls only the first [n] lazy functions, whatever else it does. *)
Inductive calls_below (n : nat) : script -> Prop :=
| below_return o : calls_below n (Return o)
| below_throw : calls_below n Throw
| below_look k : (forall w, calls_below n (k w)) -> calls_below n (Look k)
| below_act h s : calls_below n s -> calls_below n (Act h s)
| below_call x k : x < n -> (forall o, calls_below n (k o)) -> calls_below n (CallLazy x k).

(** Every function of a definition calls only lazy functions defined before. *)
Definition calls_earlier (bodyf : fid -> list value -> script) (plainf : did -> script) (ds : list def) : Prop :=
  forall i f ss, nth_error ds i = Some (f, ss) ->
  (forall args, calls_below i (bodyf f args)) /\
  Forall (fun s => match s with PValue _ => True | PFun d => calls_below i (plainf d) | PRef y => y < i end) ss.

(** Lazy functions are used by plain functions that only look and call earlier ones, and are
    not passed by [std::ref]. *)
Definition shared_by_functions (plainf : did -> script) (ds : list def) : Prop :=
  forall i f ss, nth_error ds i = Some (f, ss) ->
  Forall (fun s => match s with PValue _ => True | PFun d => gentle i (plainf d) | PRef _ => False end) ss.

(** [P] holds of the arguments of every definition, in every world. *)
Definition on_arguments (P : list value -> Prop) (plainf : did -> script) (pf : fid -> list value -> option value)
    (ds : list def) : Prop :=
  forall w i d, nth_error ds i = Some d -> P (args_of plainf (values plainf pf ds w) w d).

(** [[&] { return x(); }] *)
Definition lambda (x : nat) : script :=
  CallLazy x (fun r => match r with Some o => Return o | None => Throw end).

(** The variables a program uses exist ([n] exist at its start). *)
Fixpoint known (p : list nop) (n : nat) : Prop :=
  match p with
  | [] => True
  | PNew _ _ :: p' => known p' (S n)
  | PCopy x :: p' => x < n /\ known p' (S n)
  | PCall x :: p' => x < n /\ known p' n
  | PEnv _ :: p' => known p' n
  end.

(** ** Functions that come back to themselves *)

(** Whatever the world, the first lazy function that the function calls is one of [P]. *)
Inductive enters (P : nat -> Prop) : script -> Prop :=
| enters_look k : (forall w, enters P (k w)) -> enters P (Look k)
| enters_act h s : enters P s -> enters P (Act h s)
| enters_call x k : P x -> enters P (CallLazy x k).

(** Calling one of [P] leads to calling one of [P]: by its first dependency, or, if it has
    none, by its wrapped function. *)
Definition circular (bodyf : fid -> list value -> script) (plainf : did -> script) (ds : list def) (P : nat -> Prop) : Prop :=
  forall x f ss, P x -> nth_error ds x = Some (f, ss) ->
  match ss with
  | [] => enters P (bodyf f [])
  | PFun d :: _ => enters P (plainf d)
  | PRef y :: _ => P y
  | PValue _ :: _ => False
  end.

(** A function of what it reads ([rd]) and of its own previous result. *)
Section Previous.
Variables (eqf : A -> A -> bool) (rd : W -> A) (next : A -> A -> A).

(** The results in the worlds [ws], after argument [a] and result [r]. *)
Fixpoint history (a r : A) (ws : list W) : list A :=
  match ws with
  | [] => []
  | w :: ws' => let r' := if eqf a (rd w) then r else next (rd w) r in r' :: history (rd w) r' ws'
  end.

(** What was read, where it differs from before. *)
Fixpoint news (a : A) (ws : list W) : list A :=
  match ws with
  | [] => []
  | w :: ws' => (if eqf a (rd w) then [] else [rd w]) ++ news (rd w) ws'
  end.
End Previous.

(** The world after [k] steps of [down]. *)
Fixpoint descend (down : W -> W) (k : nat) (w : W) : W := match k with 0 => w | S k' => descend down k' (down w) end.

(** Variable 0, called in each of [ws]. *)
Definition visits (ws : list W) : list nop := flat_map (fun w => [PEnv (fun _ => w); PCall 0]) ws.

(** ** Functions without arguments that call each other *)
Section Need.
Variable bodyf : fid -> list value -> script.

(** The values of the functions [fs]. *)
Definition needs (fs : list fid) (w : W) : list value :=
  fold_left (fun env f => env ++ [match answer env w (bodyf f []) with Some v => v | None => VVoid end]) fs [].

(** The lazy functions that a function calls. *)
Fixpoint asks (env : list value) (w : W) (s : script) (y : nat) : Prop :=
  match s with
  | Return _ | Throw => False
  | Look k => asks env w (k w) y
  | Act _ s' => asks env w s' y
  | CallLazy x k => y = x \/ asks env w (k (Some (visible (nth x env VVoid)))) y
  end.

(** [x] comes, directly or not, to call [y]. *)
Inductive reaches (fs : list fid) (w : W) : nat -> nat -> Prop :=
| reach_self x : reaches fs w x x
| reach_step x y z f : nth_error fs x = Some f -> asks (needs fs w) w (bodyf f []) y -> reaches fs w y z -> reaches fs w x z.
End Need.

(** ** Reading logs *)

(** No two successive calls of the same function have the same arguments. *)
Definition no_repeats (l : list (fid * list value)) : Prop :=
  forall f a1 a2 l1 l2 l3,
  l = l1 ++ (f, a1) :: l2 ++ (f, a2) :: l3 -> (forall a, ~ In (f, a) l2) -> a1 <> a2.

End Spec.
