(** Vocabulary of C82: programs that differ in a small, local way.  User functions may throw
    and have effects. *)
From Coq Require Import List Bool Arith.
From Verif Require Import Value LazyModel LazySpec LazySpec2.
Import ListNotations.

Section Spec.
Context {A W fid did : Type}.
Notation value := (val A).
Notation event := (event A fid did).
Notation op := (op A W fid did).
Variable U : user A W fid did.

(** ** Binding a constant *)

(** [g] is [f] with the value [v] bound to its parameter number [n], [m] more following.  (A
    single argument that is a tuple is spread, see C19.) *)
Definition binds (f : fid) (n m : nat) (v : value) (g : fid) : Prop :=
  n + m <> 1 /\ (n + m = 0 -> as_tuple v = None) /\
  forall a b w, length a = n -> length b = m -> sem U g (a ++ b) w = sem U f (a ++ v :: b) w.

(** [lazy(f, xs..., v, ys...)] against [lazy(g, xs..., ys...)]. *)
Inductive bind_op : op -> op -> Prop :=
| bind_same o : bind_op o o
| bind_const f n m v g ss1 ss2 : binds f n m v g -> length ss1 = n -> length ss2 = m ->
    bind_op (New f (ss1 ++ DConst v :: ss2)) (New g (ss1 ++ ss2)).

Inductive bind_event : event -> event -> Prop :=
| bind_event_same e : bind_event e e
| bind_event_call f n m v g a b : binds f n m v g -> length a = n -> length b = m ->
    bind_event (EvCall f (a ++ v :: b)) (EvCall g (a ++ b)).

(** ** Identities *)

(** Functions return nothing that is a tuple, a pair, or an optional of an optional. *)
Definition simple (v : value) : Prop := as_tuple v = None /\ nested_opt v = false.
Definition simple_user : Prop :=
  (forall f args w v w', sem U f args w = (FRet (Some v), w') -> simple v) /\
  (forall d w v w', dsem U d w = (VRet v, w') -> simple v).

(** The functions [ident] return their argument, if it is none of these. *)
Variable ident : fid -> Prop.
Definition identities : Prop :=
  forall i, ident i -> forall v w, simple v -> sem U i [v] w = (FRet (Some v), w).

(** [auto y = lazy(identity, x)] against [auto y = x]. *)
Inductive ident_op : op -> op -> Prop :=
| ident_same o : ident_op o o
| ident_copy i x : ident i -> ident_op (New i [DVar x]) (Copy x).

(** The same actions, but for the calls of identities and the comparisons of their results. *)
Inductive ident_log : list event -> list event -> Prop :=
| ident_nil : ident_log [] []
| ident_event e l1 l2 : ident_log l1 l2 -> ident_log (e :: l1) (e :: l2)
| ident_first i v l1 l2 : ident i -> ident_log l1 l2 -> ident_log (EvCall i [v] :: l1) l2
| ident_again i v u l1 l2 : ident i -> ident_log l1 l2 -> ident_log (EvCall i [v] :: EvCmp u v :: l1) l2.

(** ** Fusion *)

(** [h] is [f] with the result of [g] put in, as the parameter after the first [n] ones; [g] has
    [k] parameters, and [m] more follow. *)
Variable pf : fid -> list value -> option value.
Definition fuses (f g h : fid) (n k m : nat) : Prop :=
  forall a x b, length a = n -> length x = k -> length b = m ->
    pf h (a ++ x ++ b) = pf f (a ++ fval pf g x :: b).

(** The same expression, but [f(as..., g(xs...), bs...)] is [h(as..., xs..., bs...)] in some
    places. *)
Inductive fused : expr A fid did -> expr A fid did -> Prop :=
| fused_const v : fused (EConst v) (EConst v)
| fused_fun d : fused (EFun d) (EFun d)
| fused_app f es es' : Forall2 fused es es' -> fused (EApp f es) (EApp f es')
| fused_call f g h es1 es1' xs xs' es2 es2' : fuses f g h (length es1) (length xs) (length es2) ->
    Forall2 fused es1 es1' -> Forall2 fused xs xs' -> Forall2 fused es2 es2' ->
    fused (EApp f (es1 ++ EApp g xs :: es2)) (EApp h (es1' ++ xs' ++ es2')).

Definition perhaps (b : bool) (f : fid) : list (fid + did) := if b then [inl f] else [].

(** The evaluations of two calls: the same ones, but for calls of [g] (after those for its
    dependencies) and [f] instead of those of [h].  [h] is called if at least one of them is. *)
Inductive fused_log : list (fid + did) -> list (fid + did) -> Prop :=
| fused_nil : fused_log [] []
| fused_one x : fused_log [x] [x]
| fused_join l1 l2 k1 k2 : fused_log l1 l2 -> fused_log k1 k2 -> fused_log (l1 ++ k1) (l2 ++ k2)
| fused_node f g h n k m bf bg l1 l1' lx lx' l2 l2' : fuses f g h n k m ->
    fused_log l1 l1' -> fused_log lx lx' -> fused_log l2 l2' ->
    fused_log (l1 ++ lx ++ perhaps bg g ++ l2 ++ perhaps bf f) (l1' ++ lx' ++ l2' ++ perhaps (bf || bg) h).

End Spec.
