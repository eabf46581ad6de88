(** What a call does when results may be of type [std::optional] or not equal to
    themselves (C55).  As in LazySpec.v, from the moments at which the parts of an
    expression were used last. *)
From Coq Require Import List Bool Arith.
From Verif Require Import Value LazyModel LazySpec.
Import ListNotations.

(** The empty [std::optional]. *)
Definition is_null {A} (v : val A) : bool := match v with VOpt None => true | _ => false end.

Section Spec.
Context {A W fid did : Type}.
Notation value := (val A).
Notation event := (event A fid did).
Variable pf : fid -> list value -> option value.
Variable rd : did -> W -> value.
Variable eqb : value -> value -> bool.

(** Does a newly computed value count as a change?  An empty optional counts as
    one exactly if there was a value before, whichever it was. *)
Definition news (old : option value) (new : value) : bool :=
  match old with
  | None => negb (is_null new)
  | Some u => is_null new || negb (eqb u new)
  end.

(** Does this part report a change?  A constant never does; a plain function is
    read at every call; a wrapped function is evaluated at its first call and
    whenever one of its dependencies reports a change, and reports nothing if it
    is not evaluated. *)
Fixpoint reports (t : tracked A W fid did) (w : W) : bool :=
  match t with
  | TConst _ => false
  | TFun d last => news (option_map (rd d) last) (rd d w)
  | TApp f last ts =>
      match last with None => true | Some _ => existsb (fun t => reports t w) ts end &&
      news (option_map (eval pf rd (erase t)) last) (eval pf rd (erase t) w)
  end.

(** Everything a call does, in order. *)
Fixpoint actions (t : tracked A W fid did) (w : W) : list event :=
  match t with
  | TConst _ => []
  | TFun d _ => EvSample d :: compare_last pf rd t w
  | TApp f last ts =>
      flat_map (fun t => actions t w) ts ++
      (if match last with None => true | Some _ => existsb (fun t => reports t w) ts end
       then EvCall f (map (fun t => eval pf rd (erase t) w) ts) :: compare_last pf rd t w
       else [])
  end.

(** Programs: outputs of all operations. *)
Fixpoint action_run (p : list (op A W fid did)) (vs : list (tracked A W fid did)) (w : W)
    : option (list (tracked A W fid did) * list (output A fid did)) :=
  match p with
  | [] => Some (vs, [])
  | o :: p' =>
      match (match o with
             | New f ss =>
                 match spec_deps TConst (fun d => TFun d None) vs ss with
                 | Some ts => Some (vs ++ [TApp f None ts], w, (None, []))
                 | None => None
                 end
             | Copy x =>
                 match nth_error vs x with
                 | Some t => Some (vs ++ [t], w, (None, []))
                 | None => None
                 end
             | Call x =>
                 match nth_error vs x with
                 | Some t => Some (update x (touch w t) vs, w,
                                   (Some (Ok (visible (eval pf rd (erase t) w))), actions t w))
                 | None => None
                 end
             | Env h => Some (vs, h w, (None, []))
             end) with
      | Some (vs1, w1, out) =>
          match action_run p' vs1 w1 with
          | Some (vs2, outs) => Some (vs2, out :: outs)
          | None => None
          end
      | None => None
      end
  end.

End Spec.
