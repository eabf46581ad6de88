(** Vocabulary of C89: values of types, and programs without their types. *)
From Coq Require Import List Bool Arith.
From Verif Require Import Value LazyModel TypedModel.
Import ListNotations.

Section Spec.
Context {A W fid did : Type}.

(** [aty] is the type of an atom. *)
Variable aty : A -> nat.
Inductive has_type : val A -> ty -> Prop :=
| ht_atom a : has_type (VAtom a) (TAtom (aty a))
| ht_void : has_type VVoid TVoid
| ht_tuple l ts : Forall2 has_type l ts -> has_type (VTuple l) (TTuple ts)
| ht_pair x y t u : has_type x t -> has_type y u -> has_type (VPair x y) (TPair t u)
| ht_null t : has_type (VOpt None) (TOpt t)
| ht_opt x t : has_type x t -> has_type (VOpt (Some x)) (TOpt t).

(** A function returns what its return type says. *)
Definition returns (r : fres A) (t : option ty) : Prop :=
  match r, t with
  | FThrow, _ => True
  | FRet None, None => True
  | FRet (Some v), Some t => has_type v t
  | _, _ => False
  end.

(** The functions of a user, and its conversions, have the types they are said to have. *)
Record respects (TU : typed_user A W fid did) : Prop := {
  resp_f : forall f ts r xs w, fty TU f ts = Some r -> Forall2 has_type xs ts -> returns (fst (sem (untyped TU) f xs w)) r;
  resp_d : forall d w v, fst (dsem (untyped TU) d w) = VRet v -> has_type v (dty TU d);
  resp_0 : aty (int0 (untyped TU)) = int_ty TU;
  resp_conv : forall t t' c v, conv TU t t' = Some c -> has_type v t -> has_type (c v) t' }.

(** Constants have the types they are said to have. *)
Definition const_ok (d : tdep A did) : Prop := match d with TDConst t v => has_type v t | _ => True end.
Definition consts_ok (o : top A W fid did) : Prop := match o with TNew _ deps => Forall const_ok deps | _ => True end.

(** The program without types. *)
Definition erase_dep (d : tdep A did) : depspec A did :=
  match d with TDVar x => DVar x | TDFun d => DFun d | TDConst _ v => DConst v end.
Definition erase (o : top A W fid did) : op A W fid did :=
  match o with
  | TNew f deps => New f (map erase_dep deps)
  | TCopy x => Copy x
  | TCall x => Call x
  | TEnv h => Env h
  end.

(** Wherever a lazy function is created, its function has the same return type for the
    dependencies as for what it is called with. *)
Fixpoint same_types (TU : typed_user A W fid did) (p : list (top A W fid did)) (env : list ty) : Prop :=
  match p with
  | [] => True
  | o :: p' =>
      match o with
      | TNew f deps => forall ts, all_some (map (dep_type TU env) deps) = Some ts -> fty TU f (tuple_types ts) = fty TU f ts
      | _ => True
      end /\
      forall env', compile1 TU o env = Some env' -> same_types TU p' env'
  end.

(** No lazy function has a [std::tuple] or a [std::pair] as its only dependency. *)
Fixpoint no_single_tuple (TU : typed_user A W fid did) (p : list (top A W fid did)) (env : list ty) : Prop :=
  match p with
  | [] => True
  | o :: p' =>
      match o with
      | TNew _ [d] => forall t, dep_type TU env d = Some t -> look_ty t = None
      | _ => True
      end /\
      forall env', compile1 TU o env = Some env' -> no_single_tuple TU p' env'
  end.

(** The output of an operation has the types that the compiler gave to the variables: a call of
    [x] returns a value of its type, nothing if that is [void]; functions are called with arguments
    for which a call compiles, of these types; and what is compared is either of the same type, or
    of types between which [!=] compiles. *)
Definition event_ok (TU : typed_user A W fid did) (e : event A fid did) : Prop :=
  match e with
  | EvCall f xs => exists ts, fty TU f ts <> None /\ Forall2 has_type xs ts
  | EvSample _ => True
  | EvCmp x y => exists t t', has_type x t /\ has_type y t' /\ (t = t' \/ mixed TU t t' <> None)
  end.
Definition output_ok (TU : typed_user A W fid did) (env : list ty) (o : top A W fid did) (out : output A fid did) : Prop :=
  Forall (event_ok TU) (snd out) /\
  match o, fst out with
  | TCall x, Some (Ok (Some v)) => exists t, nth_error env x = Some t /\ t <> TVoid /\ has_type v t
  | TCall x, Some (Ok None) => nth_error env x = Some TVoid
  | TCall x, Some Exc => True
  | TCall _, _ => False
  | _, r => r = None
  end.

End Spec.
