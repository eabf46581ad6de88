(** Specification vocabulary for arbitrary user functions (impure, throwing):
    what kind of expression a lazy function stands for, what one call may do,
    and how a call may fail.  None of it mentions change flags. *)
From Coq Require Import List Bool Arith.
From Verif Require Import Value LazyModel LazySpec.
Import ListNotations.

Section Spec.
Context {A W fid did : Type}.
Notation value := (val A).
Notation event := (event A fid did).
Notation expr := (expr A fid did).
Notation lz := (lz A fid did).

(** The expressions that the variables of a program stand for. *)
Fixpoint shapes (p : list (op A W fid did)) (vs : list expr) : option (list expr) :=
  match p with
  | [] => Some vs
  | New f ss :: p' =>
      match spec_deps EConst EFun vs ss with
      | Some es => shapes p' (vs ++ [EApp f es])
      | None => None
      end
  | Copy x :: p' =>
      match nth_error vs x with
      | Some e => shapes p' (vs ++ [e])
      | None => None
      end
  | Call x :: p' => match nth_error vs x with Some _ => shapes p' vs | None => None end
  | Env _ :: p' => shapes p' vs
  end.

(** The plain functions of an expression, one per occurrence, left to right. *)
Fixpoint plain_functions (e : expr) : list did :=
  match e with
  | EConst _ => []
  | EFun d => [d]
  | EApp _ es => flat_map plain_functions es
  end.

(** Everything that can be evaluated, dependencies before dependents. *)
Fixpoint postorder (e : expr) : list (fid + did) :=
  match e with
  | EConst _ => []
  | EFun d => [inr d]
  | EApp f es => flat_map postorder es ++ [inl f]
  end.

(** Built from values only. *)
Fixpoint const_only (e : expr) : Prop :=
  match e with
  | EConst _ => True
  | EFun _ => False
  | EApp _ es =>
      (fix all (es : list expr) : Prop :=
         match es with [] => True | e :: es' => const_only e /\ all es' end) es
  end.

(** What a log says. *)
Definition samples (lg : list event) : list did :=
  flat_map (fun e => match e with EvSample d => [d] | _ => [] end) lg.
Definition evaluations (lg : list event) : list (fid + did) :=
  flat_map (fun e => match e with EvCall f _ => [inl f] | EvSample d => [inr d] | EvCmp _ _ => [] end) lg.
Definition comparisons (lg : list event) : list (value * value) :=
  flat_map (fun e => match e with EvCmp a b => [(a, b)] | _ => [] end) lg.

(** [l] with some elements left out. *)
Inductive subseq {X} : list X -> list X -> Prop :=
| subseq_nil : subseq [] []
| subseq_skip x l m : subseq l m -> subseq l (x :: m)
| subseq_take x l m : subseq l m -> subseq (x :: l) (x :: m).

(** The outputs of the calls of variable [x] in a program. *)
Fixpoint outputs_of (x : nat) (p : list (op A W fid did)) (outs : list (output A fid did))
    : list (output A fid did) :=
  match p, outs with
  | Call y :: p', o :: outs' =>
      if Nat.eqb x y then o :: outputs_of x p' outs' else outputs_of x p' outs'
  | _ :: p', _ :: outs' => outputs_of x p' outs'
  | _, _ => []
  end.

(** The outputs of everything but the calls of variable [x]. *)
Fixpoint outputs_except (x : nat) (p : list (op A W fid did)) (outs : list (output A fid did))
    : list (output A fid did) :=
  match p, outs with
  | Call y :: p', o :: outs' =>
      if Nat.eqb x y then outputs_except x p' outs' else o :: outputs_except x p' outs'
  | _ :: p', o :: outs' => o :: outputs_except x p' outs'
  | _, _ => []
  end.

(** [x] is neither copied nor handed to a new lazy function. *)
Definition not_copied (x : nat) (p : list (op A W fid did)) : Prop :=
  Forall (fun o => match o with
                   | New _ ss => Forall (fun s => match s with DVar y => y <> x | _ => True end) ss
                   | Copy y => y <> x
                   | _ => True
                   end) p.

(** The outside world changes only through the user functions. *)
Definition no_env (p : list (op A W fid did)) : Prop :=
  Forall (fun o => match o with Env _ => False | _ => True end) p.

(** Nothing has been called yet. *)
Definition no_call (p : list (op A W fid did)) : Prop :=
  Forall (fun o => match o with Call _ => False | _ => True end) p.

(** The caller gets a value related to the expected one ([None]: [void]). *)
Definition seen (R : value -> value -> Prop) (r : res (option value)) (v : option value) : Prop :=
  match r, v with
  | Ok None, None => True
  | Ok (Some x), Some y => R x y
  | _, _ => False
  end.

(** The delivered value, if any. *)
Definition outcome {X} (r : res (X * bool)) : option X :=
  match r with Ok (v, _) => Some v | _ => None end.

(** Which arguments the wrapped function gets for the values [vs]: those values,
    except that a single tuple or pair is spread (C19). *)
Inductive passes : list value -> list value -> Prop :=
| passes_same vs : (forall v, vs = [v] -> as_tuple v = None) -> passes vs vs
| passes_tuple l : passes [VTuple l] l
| passes_pair x y : passes [VPair x y] [x; y].

(** No part of the lazy function has ever been evaluated. *)
Fixpoint fresh (l : lz) : Prop :=
  match l with
  | LValue _ _ => True
  | LCore _ c ds =>
      c = None /\ (fix all (ds : list lz) : Prop :=
                     match ds with [] => True | d :: ds' => fresh d /\ all ds' end) ds
  end.

(** ** What one call does, dependencies first.

    [performs U l w lg w' (Some v)]: called in world [w], the lazy function [l]
    does [lg], leaves world [w'] and delivers [v].  With [None] it throws. *)
Inductive performs (U : user A W fid did) : lz -> W -> list event -> W -> option value -> Prop :=
| p_const v ch w : performs U (LValue v ch) w [] w (Some v)
| p_skip f c ds w lg w' vs :         (* the cached value is delivered *)
    performs_all U ds w lg w' (Some vs) ->
    performs U (LCore (FnUser f) (Some c) ds) w lg w' (Some c)
| p_first f ds w lg w1 vs args o w2 :  (* evaluated, nothing to compare with *)
    performs_all U ds w lg w1 (Some vs) -> passes vs args ->
    sem U f args w1 = (FRet o, w2) ->
    performs U (LCore (FnUser f) None ds) w (lg ++ [EvCall f args]) w2
             (Some (match o with Some v => v | None => VVoid end))
| p_again f c ds w lg w1 vs args o w2 :  (* evaluated, compared once *)
    performs_all U ds w lg w1 (Some vs) -> passes vs args ->
    sem U f args w1 = (FRet o, w2) ->
    performs U (LCore (FnUser f) (Some c) ds) w
             (lg ++ [EvCall f args; EvCmp c (match o with Some v => v | None => VVoid end)]) w2
             (Some (match o with Some v => v | None => VVoid end))
| p_throw f c ds w lg w1 vs args w2 :    (* evaluated, threw *)
    performs_all U ds w lg w1 (Some vs) -> passes vs args ->
    sem U f args w1 = (FThrow, w2) ->
    performs U (LCore (FnUser f) c ds) w (lg ++ [EvCall f args]) w2 None
| p_dep_throw f c ds w lg w' :           (* a dependency threw *)
    performs_all U ds w lg w' None ->
    performs U (LCore (FnUser f) c ds) w lg w' None
| p_sample_first d ds w v w' :
    dsem U d w = (VRet v, w') ->
    performs U (LCore (FnSample d) None ds) w [EvSample d] w' (Some v)
| p_sample_again d c ds w v w' :
    dsem U d w = (VRet v, w') ->
    performs U (LCore (FnSample d) (Some c) ds) w [EvSample d; EvCmp c v] w' (Some v)
| p_sample_throw d c ds w w' :
    dsem U d w = (VThrow, w') ->
    performs U (LCore (FnSample d) c ds) w [EvSample d] w' None
with performs_all (U : user A W fid did) : list lz -> W -> list event -> W -> option (list value) -> Prop :=
| pa_nil w : performs_all U [] w [] w (Some [])
| pa_cons d ds w lg1 w1 v lg2 w2 vs :
    performs U d w lg1 w1 (Some v) -> performs_all U ds w1 lg2 w2 (Some vs) ->
    performs_all U (d :: ds) w (lg1 ++ lg2) w2 (Some (v :: vs))
| pa_throw d ds w lg1 w1 :
    performs U d w lg1 w1 None ->
    performs_all U (d :: ds) w lg1 w1 None
| pa_throw_later d ds w lg1 w1 v lg2 w2 :
    performs U d w lg1 w1 (Some v) -> performs_all U ds w1 lg2 w2 None ->
    performs_all U (d :: ds) w (lg1 ++ lg2) w2 None.

(** Every comparison directly follows an evaluation. *)
Definition compares_after_evaluating (lg : list event) : Prop :=
  forall lg1 a b lg2, lg = lg1 ++ EvCmp a b :: lg2 ->
  exists lg0 ev, lg1 = lg0 ++ [ev] /\
    match ev with EvCall _ _ | EvSample _ => True | EvCmp _ _ => False end.

(** ** How a call fails.

    [called_all U ds w vs ds' w' lg]: the lazy functions [ds], called one after
    the other, deliver [vs] and are left as [ds'].

    [failed U l w l' path]: called in world [w], [l] throws and is left as [l'].
    [path] lists the caches of the nodes from the root down to the one whose
    function, the last parameter, threw.  All caches on the path are as before, everything to the
    right of the path is untouched, everything to the left was called
    successfully. *)
Inductive called_all (U : user A W fid did) : list lz -> W -> list value -> list lz -> W -> list event -> Prop :=
| ca_nil w : called_all U [] w [] [] w []
| ca_cons d ds w v ch d' w1 lg1 vs ds' w2 lg2 :
    step U d w = (Ok (v, ch), d', w1, lg1) -> called_all U ds w1 vs ds' w2 lg2 ->
    called_all U (d :: ds) w (v :: vs) (d' :: ds') w2 (lg1 ++ lg2).

Inductive failed (U : user A W fid did) : lz -> W -> lz -> list (option value) -> fnobj fid did -> Prop :=
| failed_here g c ds w vs ds' w1 lg1 args w2 ev :
    called_all U ds w vs ds' w1 lg1 -> passes vs args ->
    call_fn U g args w1 = (VThrow, w2, ev) ->
    step U (LCore g c ds) w = (Exc, LCore g c ds', w2, lg1 ++ ev) ->
    failed U (LCore g c ds) w (LCore g c ds') [c] g
| failed_below g c ds1 d ds2 w vs ds1' w1 lg1 d' path g' :
    called_all U ds1 w vs ds1' w1 lg1 ->
    failed U d w1 d' path g' ->
    failed U (LCore g c (ds1 ++ d :: ds2)) w (LCore g c (ds1' ++ d' :: ds2)) (c :: path) g'.

Definition label (g : fnobj fid did) : fid + did :=
  match g with FnUser f => inl f | FnSample d => inr d end.

(** The functions of the nodes that have no cached value, dependencies first. *)
Fixpoint pending (l : lz) : list (fid + did) :=
  match l with
  | LValue _ _ => []
  | LCore g c ds =>
      flat_map pending ds ++ match c with None => [label g] | Some _ => [] end
  end.

(** ** Repeated calls of one lazy function, the k-th in the k-th of the given
    outside worlds. *)
Fixpoint call_seq (U : user A W fid did) (l : lz) (ws : list W)
    : list (res (value * bool) * list event) :=
  match ws with
  | [] => []
  | w :: ws' => let '(r, l', _, lg) := step U l w in (r, lg) :: call_seq U l' ws'
  end.

(** The value of the last successful call. *)
Fixpoint last_value (rs : list (res (value * bool) * list event)) : option value :=
  match rs with
  | [] => None
  | (r, _) :: rs' =>
      match last_value rs' with
      | Some v => Some v
      | None => match r with Ok (v, _) => Some v | _ => None end
      end
  end.

(** The value a lazy function (or constant) is known to have had before equals
    [v], by the value type's own [==], and is no empty optional (see C55). *)
Definition same_as_before (U : user A W fid did) (l : lz) (v : value) : Prop :=
  match l with
  | LValue _ ch => ch = false
  | LCore _ (Some old) _ => veq (aeq U) old v = true /\ has_nullopt v = false
  | LCore _ None _ => False
  end.

(** The caches of the wrapped functions on the path to a failure: all of it,
    without its last element if what failed is a plain function. *)
Definition wrapped_on (path : list (option value)) (g : fnobj fid did) : list (option value) :=
  match g with FnUser _ => path | FnSample _ => removelast path end.

(** Every failing call in the sequence fails on a path of wrapped functions none
    of which was ever evaluated successfully. *)
Fixpoint safe_calls (U : user A W fid did) (l : lz) (ws : list W) : Prop :=
  match ws with
  | [] => True
  | w :: ws' =>
      let '(_, l', _, _) := step U l w in
      (forall path g, failed U l w l' path g -> Forall (fun c => c = None) (wrapped_on path g)) /\
      safe_calls U l' ws'
  end.

(** ** Kinds of user functions *)

(** Functions do not change the outside world (they may read it and throw). *)
Definition readonly_user (U : user A W fid did) : Prop :=
  (forall f args w, snd (sem U f args w) = w) /\ (forall d w, snd (dsem U d w) = w).

(** A function that returns [void] whenever it returns. *)
Definition void_function (U : user A W fid did) (f : fid) : Prop :=
  forall args w, fst (sem U f args w) = FRet None \/ fst (sem U f args w) = FThrow.

(** Pure functions, except that they may throw (at any time). *)
Definition pure_or_throw (U : user A W fid did)
    (pf : fid -> list value -> option value) (rd : did -> W -> value) : Prop :=
  (forall f args w, sem U f args w = (FRet (pf f args), w) \/ sem U f args w = (FThrow, w)) /\
  (forall d w, dsem U d w = (VRet (rd d w), w) \/ dsem U d w = (VThrow, w)).

End Spec.
