(** What the theorems about [BindTypes.v] say, in terms of the expressions that the user
    wrote: no captures, parameters and return types in between. *)
From Coq Require Import List Bool Arith.
From Verif Require Import CppTypes BindTypes.
Import ListNotations.

Section Spec.
Context {B : Type}.
Notation expr := (expr B).
Notation ty := (ty B).

(** Perfect forwarding: an expression of the same type, an lvalue or an rvalue as given. *)
Definition fwd (e : expr) : expr := mkExpr (etype e) (match ecat e with LV => LV | _ => XV end).

(** As an lvalue. *)
Definition lval (e : expr) : expr := mkExpr (etype e) LV.

(** A copy, as an rvalue. *)
Definition copied (e : expr) : expr := mkExpr (mkTy (base (etype e)) false false NoRef) XV.

(** A member of an object that is const or not, as an lvalue; references are const with
    the object; an object of empty class is made anew.  There is none if const and volatile come together. *)
Definition held (is_empty : B -> bool) (is_cst : bool) (e : expr) : option expr :=
  if is_empty (base (etype e)) then Some (mkExpr (mkTy (base (etype e)) false false NoRef) LV)
  else if is_cst && vol (etype e) then None
  else Some (mkExpr (mkTy (base (etype e)) (is_cst || cst (etype e)) (vol (etype e)) NoRef) LV).

Variable invoke : expr -> list expr -> verdict B.
Variable converts : ty -> ty -> bool.
Variable gets : expr -> option (list ty).

(** First the call [asked] for must be viable, then the ones [made] must be; its type is
    that of the first one. *)
Definition asks (asked : verdict B) (made : verdict B) : verdict B :=
  match asked with
  | Accepted R =>
      match made with
      | Accepted R' => if converts R' R then Accepted R else HardError
      | _ => HardError
      end
  | v => v
  end.

Definition elements (t : expr) (k : list expr -> verdict B) : verdict B :=
  match gets t with Some gs => k (map (fun g => fwd (call_expr g)) gs) | None => NotViable end.

(** [bind_back(f, back...)(front...)] *)
Definition spec_bind_back (f : expr) (back front : list expr) : verdict B :=
  asks (invoke (fwd f) (map fwd front ++ map fwd back))
       (invoke (lval f) (map fwd front ++ map lval back)).

(** The invocation for [t >> f] and [t << f] with given [f], [t] and arguments. *)
Definition asked (s : side) (f t : expr) (args : list expr) : verdict B :=
  elements t (fun gs =>
    match s with
    | Front => invoke f (gs ++ map fwd args)
    | Back => invoke (copied f) (map copied args ++ gs)
    end).

Definition made (s : side) (f t : expr) (args : list expr) : verdict B :=
  match s with
  | Front =>
      asks (asked Front f t args) (elements t (fun gs => invoke f (gs ++ map lval args)))
  | Back => asked Back f t args
  end.

(** [idx<i>] (utils.h:15-16) is a constant. *)
Definition tag (idx_t : nat -> B) (i : nat) : expr := mkExpr (mkTy (idx_t i) true false NoRef) LV.

(** [(t >> f)(args...)] and [(t << f)(args...)] *)
Definition spec_binder (is_empty : B -> bool) (idx_t : nat -> B)
    (s : side) (F T : expr) (is_cst : bool) (args : list expr) : verdict B :=
  asks (asked s (lval F) (lval T) args)
    (match asked s (lval F) (lval T) [tag idx_t 0], asked s (lval F) (lval T) [tag idx_t 1],
           held is_empty is_cst F, held is_empty is_cst T with
     | HardError, _, _, _ | _, HardError, _, _ => HardError
     | _, _, Some f, Some t => made s f t args
     | _, _, _, _ => HardError
     end).

End Spec.

(** ** Function objects *)
Section Functions.
Context {B : Type}.
Variable copyable : B -> bool.

Definition rvalue (e : expr B) : bool := match ecat e with LV => false | _ => true end.

(** A parameter that a stored object, being an lvalue, cannot be passed to: [T &&], or [T] that cannot be copied. *)
Definition wants_rvalue (p : ty B) : bool :=
  match ref p with RRef => true | LRef => false | NoRef => negb (copyable (base p)) end.

(** Some of the objects bound from rvalues goes to such a parameter. *)
Fixpoint lost (ps : list (ty B)) (es : list (expr B)) : bool :=
  match ps, es with
  | p :: ps', e :: es' => (rvalue e && wants_rvalue p) || lost ps' es'
  | _, _ => false
  end.

(** Parameters [T] that can be copied and [const T &]; a const call operator. *)
Definition reads_only (o : fobj B) : Prop :=
  fconst o = true /\ fref o <> RRef /\
  Forall (fun p => vol p = false /\
            match ref p with NoRef => copyable (base p) = true | LRef => cst p = true | RRef => False end)
         (fparams o).

(** The type of [std::get] of an element of type [T]: a reference to it, const if the tuple
    is, unless it is a reference already; an rvalue if the tuple is, unless it is an
    lvalue reference. *)
Definition element_type (c : bool) (k : cat) (T : ty B) : ty B :=
  mkTy (base T) (match ref T with NoRef => c || cst T | _ => cst T end) (vol T)
    (match k, ref T with LV, _ | _, LRef => LRef | _, _ => RRef end).

(** A tuple with elements of classes [bs], whether const or not. *)
Definition holds (gets : expr B -> option (list (ty B))) (tuple : B) (bs : list B) : Prop :=
  forall c, exists gs, gets (mkExpr (mkTy tuple c false NoRef) LV) = Some gs /\
    map base gs = bs /\ Forall (fun g => vol g = false) gs.

End Functions.
