(** Function objects with state, as wrapped functions and as dependencies.

    As LazyModel.v (src/pigro/lazy.h, kept state), but a call may change the function
    object that is called, as in [[n = 0]() mutable { return n++; }].  The objects live in
    the lazy function: the wrapped one in [regularized_void] (regular_void.h:15-16), the
    plain ones in the node that samples them (lazy.h:82-86), and are copied with it. *)
From Coq Require Import List Bool Arith.
From Verif Require Import Value TupleAlg LazyModel.
Import ListNotations.

Section State.
Context {A W F T : Type}.
Notation value := (val A).

(** The user's side: calls of function objects, with the state before and after.  A call
    that throws may have changed it, too. *)
Record suser := mkSUser {
  ssem : F -> T -> list value -> W -> T * fres A * W;
  sdsem : F -> T -> W -> T * vres A * W;
  saeq : A -> A -> bool;
  sint0 : A }.

(** Observable actions; calls with the state of the function object before and after. *)
Inductive sevent :=
| SCall (f : F) (t : T) (args : list value) (t' : T)
| SSample (f : F) (t t' : T)
| SCmp (old new : value).

(** Lazy functions, as [LazyModel.lz]. *)
Inductive slz :=
| SValue (v : value) (ch : bool)                                     (* lazy.h:69-76 *)
| SUser (f : F) (t : T) (cache : option value) (deps : list slz)     (* lazy.h:96-103 *)
| SPlain (f : F) (t : T) (cache : option value).                     (* lazy.h:82-86 *)

Section Induction.
  Variable P : slz -> Prop.
  Hypothesis Hvalue : forall v ch, P (SValue v ch).
  Hypothesis Huser : forall f t c ds, Forall P ds -> P (SUser f t c ds).
  Hypothesis Hplain : forall f t c, P (SPlain f t c).
  Fixpoint slz_ind' (l : slz) : P l :=
    match l with
    | SValue v ch => Hvalue v ch
    | SUser f t c ds =>
        Huser f t c ds
          ((fix go (ds : list slz) : Forall P ds :=
              match ds with
              | [] => Forall_nil P
              | d :: ds' => Forall_cons d (slz_ind' d) (go ds')
              end) ds)
    | SPlain f t c => Hplain f t c
    end.
End Induction.

Variable U : suser.

(** [changed = cache != result; cache = std::move(result);] (lazy.h:58-59). *)
Definition stored (cache : option value) (result : value) : bool * list sevent :=
  (opt_ne (saeq U) cache result, match cache with None => [] | Some c => [SCmp c result] end).

Definition ssteps_with (step : slz -> W -> res (value * bool) * slz * W * list sevent) :=
  fix steps (ds : list slz) (w : W) : res (list (value * bool)) * list slz * W * list sevent :=
    match ds with
    | [] => (Ok [], [], w, [])
    | d :: ds' =>
        let '(r, d', w1, l1) := step d w in
        match r with
        | Ok x =>
            let '(rs, ds'', w2, l2) := steps ds' w1 in
            (match rs with Ok xs => Ok (x :: xs) | Exc => Exc | UB => UB end, d' :: ds'', w2, l1 ++ l2)
        | Exc => (Exc, d' :: ds', w1, l1)
        | UB => (UB, d' :: ds', w1, l1)
        end
    end.

(** Calling a lazy function with [nullptr], lazy.h:50-66.  The node that samples a plain
    function has a dependency that has always changed (lazy.h:85), so it always runs. *)
Fixpoint sstep (l : slz) (w : W) {struct l} : res (value * bool) * slz * W * list sevent :=
  match l with
  | SValue v ch => (Ok (v, ch), SValue v ch, w, [])
  | SPlain f t c =>
      let '(t', r, w') := sdsem U f t w in
      match r with
      | VThrow => (Exc, SPlain f t' c, w', [SSample f t t'])
      | VRet v =>
          let (changed, lc) := stored c v in
          (Ok (v, changed), SPlain f t' (Some v), w', SSample f t t' :: lc)
      end
  | SUser f t c ds =>
      let '(rs, ds', w1, l1) := ssteps_with sstep ds w in
      match rs with
      | Exc => (Exc, SUser f t c ds', w1, l1)
      | UB => (UB, SUser f t c ds', w1, l1)
      | Ok rs' =>
          if negb (is_some c) || existsb snd rs' then
            let args := ctad_tuple as_tuple (map fst rs') in
            let '(t', r, w2) := ssem U f t args w1 in
            match r with
            | FThrow => (Exc, SUser f t' c ds', w2, l1 ++ [SCall f t args t'])
            | FRet o =>
                let result := match o with Some v => v | None => VVoid end in
                let (changed, lc) := stored c result in
                (Ok (result, changed), SUser f t' (Some result) ds', w2, l1 ++ SCall f t args t' :: lc)
            end
          else
            match c with
            | Some v => (Ok (v, false), SUser f t c ds', w1, l1)
            | None => (UB, SUser f t c ds', w1, l1)
            end
      end
  end.
Definition ssteps := ssteps_with sstep.

(** ** Programs: as in LazyModel.v, a function being given with its initial state. *)
Notation sop := (op A W (F * T) (F * T)).
Notation sspec := (depspec A (F * T)).
Definition soutput := (option (res (option value)) * list sevent)%type.

Definition sdep_of (vs : list slz) (s : sspec) : option slz :=
  match s with
  | DVar x => nth_error vs x
  | DFun p => Some (SPlain (fst p) (snd p) None)
  | DConst v => Some (SValue v false)
  end.
Fixpoint sdeps_of (vs : list slz) (ss : list sspec) : option (list slz) :=
  match ss with
  | [] => Some []
  | s :: ss' =>
      match sdep_of vs s, sdeps_of vs ss' with
      | Some d, Some ds => Some (d :: ds)
      | _, _ => None
      end
  end.

Definition sexec (o : sop) (vs : list slz) (w : W) : option (list slz * W * soutput) :=
  match o with
  | New p ss =>
      match sdeps_of vs ss with
      | Some ds => Some (vs ++ [SUser (fst p) (snd p) None ds], w, (None, []))
      | None => None
      end
  | Copy x =>
      match nth_error vs x with
      | Some l => Some (vs ++ [l], w, (None, []))
      | None => None
      end
  | Call x =>
      match nth_error vs x with
      | Some l =>
          let '(r, l', w', lg) := sstep l w in
          Some (update x l' vs, w', (Some (api_result r), lg))
      | None => None
      end
  | Env h => Some (vs, h w, (None, []))
  end.

Fixpoint srun (p : list sop) (vs : list slz) (w : W) : option (list slz * W * list soutput) :=
  match p with
  | [] => Some (vs, w, [])
  | o :: p' =>
      match sexec o vs w with
      | Some (vs1, w1, out) =>
          match srun p' vs1 w1 with
          | Some (vs2, w2, outs) => Some (vs2, w2, out :: outs)
          | None => None
          end
      | None => None
      end
  end.

End State.
Arguments suser : clear implicits.
Arguments sevent : clear implicits.
Arguments slz : clear implicits.
Arguments soutput : clear implicits.
