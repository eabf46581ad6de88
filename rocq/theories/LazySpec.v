(** Specification of lazy functions: no caches, no flags.

    A lazy function means an expression.  Its value is found by evaluating the
    expression from scratch ([eval]); what a call is allowed and obliged to do is
    described from the moments at which its parts were used last ([expected]). *)
From Coq Require Import List Bool Arith.
From Verif Require Import Value LazyModel.
Import ListNotations.

Section Spec.
Context {A W fid did : Type}.
Notation value := (val A).
Notation event := (event A fid did).

(** Pure user functions: what a wrapped function returns for its arguments
    ([None]: it returns [void]), and what a plain function reads from the outside
    world. *)
Variable pf : fid -> list value -> option value.
Variable rd : did -> W -> value.

(** A pure wrapped function's result as a value: [void] counts as [VVoid]. *)
Definition fval (f : fid) (args : list value) : value :=
  match pf f args with Some v => v | None => VVoid end.

(** ** Expressions and eager evaluation *)
Inductive expr :=
| EConst (v : value)
| EFun (d : did)
| EApp (f : fid) (es : list expr).

Fixpoint eval (e : expr) (w : W) : value :=
  match e with
  | EConst v => v
  | EFun d => rd d w
  | EApp f es => fval f (map (fun e => eval e w) es)
  end.

(** No application in [e] has a single argument that is a [std::tuple] or
    [std::pair] (such an argument would be spread, see C19). *)
Fixpoint regular (e : expr) : Prop :=
  match e with
  | EConst _ | EFun _ => True
  | EApp f es =>
      match es with
      | [e1] => forall w, as_tuple (eval e1 w) = None
      | _ => True
      end /\
      (fix all (es : list expr) : Prop :=
         match es with [] => True | e :: es' => regular e /\ all es' end) es
  end.

(** Every function in [e], wrapped or plain, always returns a value satisfying
    [P]. *)
Fixpoint all_results (P : value -> Prop) (e : expr) : Prop :=
  match e with
  | EConst _ => True
  | EFun d => forall w, P (rd d w)
  | EApp f es =>
      (forall w, P (fval f (map (fun e => eval e w) es))) /\
      (fix all (es : list expr) : Prop :=
         match es with [] => True | e :: es' => all_results P e /\ all es' end) es
  end.

(** No function in [e] returns an optional holding an optional, or an empty
    optional (such values are compared in an unexpected way, see C55). *)
Definition unnested : expr -> Prop := all_results (fun v => nested_opt v = false).
Definition never_null : expr -> Prop := all_results (fun v => has_nullopt v = false).

(** What the caller of a function object sees of a value: [void] for [VVoid]. *)
Definition visible (v : value) : option value :=
  match v with VVoid => None | _ => Some v end.

(** ** Programs, eagerly: variables are expressions, a call evaluates. *)
Fixpoint spec_deps {T} (const : value -> T) (fn : did -> T) (vs : list T)
    (ss : list (depspec A did)) : option (list T) :=
  match ss with
  | [] => Some []
  | s :: ss' =>
      match (match s with
             | DVar x => nth_error vs x
             | DFun d => Some (fn d)
             | DConst v => Some (const v)
             end), spec_deps const fn vs ss' with
      | Some t, Some ts => Some (t :: ts)
      | _, _ => None
      end
  end.

(** Final expressions and the values returned by the calls, in order. *)
Fixpoint eager (p : list (op A W fid did)) (vs : list expr) (w : W)
    : option (list expr * list (option value)) :=
  match p with
  | [] => Some (vs, [])
  | New f ss :: p' =>
      match spec_deps EConst EFun vs ss with
      | Some es => eager p' (vs ++ [EApp f es]) w
      | None => None
      end
  | Copy x :: p' =>
      match nth_error vs x with
      | Some e => eager p' (vs ++ [e]) w
      | None => None
      end
  | Call x :: p' =>
      match nth_error vs x with
      | Some e =>
          match eager p' vs w with
          | Some (vs', outs) => Some (vs', visible (eval e w) :: outs)
          | None => None
          end
      | None => None
      end
  | Env h :: p' => eager p' vs (h w)
  end.

(** ** Effects: every part of an expression remembers the outside world of the
    last call that involved it. *)
Inductive tracked :=
| TConst (v : value)
| TFun (d : did) (last : option W)
| TApp (f : fid) (last : option W) (ts : list tracked).

Fixpoint erase (t : tracked) : expr :=
  match t with
  | TConst v => EConst v
  | TFun d _ => EFun d
  | TApp f _ ts => EApp f (map erase ts)
  end.

Definition last_of (t : tracked) : option W :=
  match t with TConst _ => None | TFun _ l => l | TApp _ l _ => l end.

(** Does the value of this part differ from the one it had when it was last
    involved in a call?  (A part never involved counts as different, a constant
    never differs.)  [eqb] decides equality of values. *)
Variable eqb : value -> value -> bool.
Definition differs (t : tracked) (w : W) : bool :=
  match t with
  | TConst _ => false
  | _ =>
      match last_of t with
      | None => true
      | Some w0 => negb (eqb (eval (erase t) w0) (eval (erase t) w))
      end
  end.

(** The one comparison made after evaluating a part, if it had been evaluated
    before. *)
Definition compare_last (t : tracked) (w : W) : list event :=
  match last_of t with
  | None => []
  | Some w0 => [EvCmp (eval (erase t) w0) (eval (erase t) w)]
  end.

(** Everything a call does, in order. *)
Fixpoint expected (t : tracked) (w : W) : list event :=
  match t with
  | TConst _ => []
  | TFun d _ => EvSample d :: compare_last t w
  | TApp f last ts =>
      flat_map (fun t => expected t w) ts ++
      (if match last with None => true | Some _ => existsb (fun t => differs t w) ts end
       then EvCall f (map (fun t => eval (erase t) w) ts) :: compare_last t w
       else [])
  end.

(** After a call every part has been involved. *)
Fixpoint touch (w : W) (t : tracked) : tracked :=
  match t with
  | TConst v => TConst v
  | TFun d _ => TFun d (Some w)
  | TApp f _ ts => TApp f (Some w) (map (touch w) ts)
  end.

(** Programs with effects: outputs of all operations. *)
Fixpoint tracked_run (p : list (op A W fid did)) (vs : list tracked) (w : W)
    : option (list tracked * list (output A fid did)) :=
  match p with
  | [] => Some (vs, [])
  | o :: p' =>
      match (match o with
             | New f ss =>
                 match spec_deps TConst (fun d => TFun d None) vs ss with
                 | Some ts => Some (vs ++ [TApp f None ts], w, (None, []))
                 | None => None
                 end
             | Copy x =>
                 match nth_error vs x with
                 | Some t => Some (vs ++ [t], w, (None, []))
                 | None => None
                 end
             | Call x =>
                 match nth_error vs x with
                 | Some t => Some (update x (touch w t) vs, w,
                                   (Some (Ok (visible (eval (erase t) w))), expected t w))
                 | None => None
                 end
             | Env h => Some (vs, h w, (None, []))
             end) with
      | Some (vs1, w1, out) =>
          match tracked_run p' vs1 w1 with
          | Some (vs2, outs) => Some (vs2, out :: outs)
          | None => None
          end
      | None => None
      end
  end.

(** The results of the calls among the outputs of a program. *)
Definition results (outs : list (output A fid did)) : list (res (option value)) :=
  flat_map (fun o => match fst o with Some r => [r] | None => [] end) outs.

End Spec.

Arguments expr : clear implicits.
Arguments tracked : clear implicits.

(** User functions are pure: wrapped functions depend on their arguments only,
    plain functions only read the world, nothing throws. *)
Definition pure_user {A W fid did} (U : user A W fid did)
    (pf : fid -> list (val A) -> option (val A)) (rd : did -> W -> val A) : Prop :=
  (forall f args w, sem U f args w = (FRet (pf f args), w)) /\
  (forall d w, dsem U d w = (VRet (rd d w), w)).

(** [operator==] never calls different values equal. *)
Definition sound_eq {A W fid did} (U : user A W fid did) : Prop :=
  forall a b, aeq U a b = true -> a = b.
(** [operator==] is equality. *)
Definition exact_eq {A W fid did} (U : user A W fid did) : Prop :=
  forall a b, aeq U a b = true <-> a = b.
