(** Specification of lazy functions over function objects with state: no caches. *)
From Coq Require Import List Bool Arith.
From Verif Require Import Value TupleAlg LazyModel StateModel.
Import ListNotations.

Section Spec.
Context {A W F T : Type}.
Notation value := (val A).
Notation suser := (suser A W F T).
Notation sevent := (sevent A F T).
Notation slz := (slz A F T).
Notation sop := (op A W (F * T) (F * T)).
Notation sspec := (depspec A (F * T)).
Notation soutput := (soutput A F T).

(** The results and the actions of a program. *)
Definition sresults (outs : list soutput) : list (res (option value)) :=
  flat_map (fun o => match fst o with Some r => [r] | None => [] end) outs.
Definition sactions (outs : list soutput) : list sevent := flat_map snd outs.

(** ** Wrapped functions without state, plain functions with *)

(** Wrapped functions are pure: [pf f args] is what [f] returns ([None]: [void]).  Plain
    functions always return, and may do anything to their state and to the world. *)
Definition pure_wrapped (U : suser) (pf : F -> list value -> option value) : Prop :=
  (forall f t args w, ssem U f t args w = (t, FRet (pf f args), w)) /\
  (forall f args v, pf f args = Some v -> nested_opt v = false).
Definition returning (U : suser) : Prop :=
  forall f t w, exists t' v w', sdsem U f t w = (t', VRet v, w') /\ nested_opt v = false.
Definition same_if_equal (U : suser) : Prop := forall a b, saeq U a b = true -> a = b.

(** What a lazy function means: an expression whose leaves are constants and function
    objects.  Evaluating it calls every function object once, from left to right. *)
Inductive sexpr :=
| XConst (v : value)
| XFun (f : F) (t : T)
| XApp (f : F) (es : list sexpr).

Fixpoint xeval (U : suser) (pf : F -> list value -> option value) (e : sexpr) (w : W) {struct e}
    : value * sexpr * W :=
  match e with
  | XConst v => (v, e, w)
  | XFun f t =>
      match sdsem U f t w with
      | (t', VRet v, w') => (v, XFun f t', w')
      | (t', VThrow, w') => (VVoid, XFun f t', w')
      end
  | XApp f es =>
      let '(vs, es', w') :=
        (fix go (es : list sexpr) (w : W) : list value * list sexpr * W :=
           match es with
           | [] => ([], [], w)
           | e :: es' =>
               let '(v, e', w1) := xeval U pf e w in
               let '(vs, es'', w2) := go es' w1 in
               (v :: vs, e' :: es'', w2)
           end) es w in
      (match pf f (ctad_tuple as_tuple vs) with Some v => v | None => VVoid end, XApp f es', w')
  end.

Fixpoint xdeps (vs : list sexpr) (ss : list sspec) : option (list sexpr) :=
  match ss with
  | [] => Some []
  | s :: ss' =>
      match (match s with
             | DVar x => nth_error vs x
             | DFun p => Some (XFun (fst p) (snd p))
             | DConst v => Some (XConst v)
             end), xdeps vs ss' with
      | Some e, Some es => Some (e :: es)
      | _, _ => None
      end
  end.

(** A program, with evaluation from scratch at every call: the final world and what the
    calls return. *)
Fixpoint xrun (U : suser) pf (p : list sop) (vs : list sexpr) (w : W) : option (W * list (option value)) :=
  match p with
  | [] => Some (w, [])
  | New q ss :: p' =>
      match xdeps vs ss with
      | Some es => xrun U pf p' (vs ++ [XApp (fst q) es]) w
      | None => None
      end
  | Copy x :: p' =>
      match nth_error vs x with
      | Some e => xrun U pf p' (vs ++ [e]) w
      | None => None
      end
  | Call x :: p' =>
      match nth_error vs x with
      | Some e =>
          let '(v, e', w') := xeval U pf e w in
          match xrun U pf p' (update x e' vs) w' with
          | Some (w'', vals) => Some (w'', match v with VVoid => None | _ => Some v end :: vals)
          | None => None
          end
      | None => None
      end
  | Env h :: p' => xrun U pf p' vs (h w)
  end.

(** ** The function objects of a lazy function, with their states *)
Fixpoint objects (l : slz) : list (F * T) :=
  match l with
  | SValue _ _ => []
  | SPlain f t _ => [(f, t)]
  | SUser f t _ ds => (f, t) :: flat_map objects ds
  end.

(** [linked f t lg t']: in [lg], the calls of [f] start with the state [t], every one
    goes on with the state in which the one before left the object, and the last one
    leaves [t']. *)
Inductive linked (f : F) : T -> list sevent -> T -> Prop :=
| linked_nil t : linked f t [] t
| linked_call t args t' lg t'' : linked f t' lg t'' -> linked f t (SCall f t args t' :: lg) t''
| linked_sample t t' lg t'' : linked f t' lg t'' -> linked f t (SSample f t t' :: lg) t''
| linked_other e t lg t' :
    match e with SCall g _ _ _ | SSample g _ _ => g <> f | SCmp _ _ => True end ->
    linked f t lg t' -> linked f t (e :: lg) t'.

(** The world changes, and [x] is called; and so on. *)
Definition again (x : nat) (hs : list (W -> W)) : list sop := flat_map (fun h => [Env h; Call x]) hs.

(** ** Functions whose calls do not change them *)
Definition constant_state (U : suser) : Prop :=
  (forall f t args w, fst (fst (ssem U f t args w)) = t) /\ (forall f t w, fst (fst (sdsem U f t w)) = t).

(** As user of LazyModel.v: a function object is one function. *)
Definition forget_user (U : suser) : user A W (F * T) (F * T) :=
  mkUser (fun p args w => let '(_, r, w') := ssem U (fst p) (snd p) args w in (r, w'))
         (fun p w => let '(_, r, w') := sdsem U (fst p) (snd p) w in (r, w'))
         (saeq U) (sint0 U).
Definition forget_event (e : sevent) : event A (F * T) (F * T) :=
  match e with
  | SCall f t args _ => EvCall (f, t) args
  | SSample f t _ => EvSample (f, t)
  | SCmp a b => EvCmp a b
  end.
Definition forget_output (o : soutput) : output A (F * T) (F * T) := (fst o, map forget_event (snd o)).

End Spec.
Arguments sexpr : clear implicits.
