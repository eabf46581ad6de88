(** Vocabulary of C91: lazy functions that refer to each other with [std::ref] (the
    programs of [SharedModel.v]), laid out in the memory of [ThreadModel.v]. *)
From Coq Require Import List Bool Arith.
From Verif Require Import Value LazyModel SharedModel ThreadModel ThreadSpec.
Import ListNotations.

Section Spec.
Context {A W fid did : Type}.
Notation value := (val A).
Notation node := (node A fid did).
Notation heap := (heap A).
Notation slz := (@slz A fid did).

(** A lazy function as in [SharedModel.slz], with the place of the cache for the cache. *)
Inductive obj :=
| OValue (v : value) (ch : bool)
| OCore (g : fnobj fid did) (c : loc) (deps : list obj)
| ORef (x : nat).

(** The functions it is made of, with the places of their caches; not those of the lazy
    functions it refers to. *)
Fixpoint cores (p : obj) : list (fnobj fid did * loc) :=
  match p with
  | OCore g c deps => flat_map cores deps ++ [(g, c)]
  | _ => []
  end.
Definition own (p : obj) : list loc := map snd (cores p).
Fixpoint refs_of (p : obj) : list nat :=
  match p with
  | OValue _ _ => []
  | OCore _ _ deps => flat_map refs_of deps
  | ORef x => [x]
  end.

(** Its state, as in [SharedModel.v]. *)
Fixpoint state_at (h : heap) (p : obj) : slz :=
  match p with
  | OValue v ch => SValue v ch
  | OCore g c deps => SCore g (h c) (map (state_at h) deps)
  | ORef x => SRef x
  end.

(** What is called through it, as in [ThreadModel.v]: a reference stands for the lazy
    function it refers to. *)
Fixpoint node_of (ns : list node) (p : obj) : node :=
  match p with
  | OValue v ch => NValue v ch
  | OCore g c deps => NCore g c (map (node_of ns) deps)
  | ORef x => nth x ns (NValue VVoid false)
  end.
Definition nodes (P : list obj) : list node := fold_left (fun ns p => ns ++ [node_of ns p]) P [].
Definition node_at (P : list obj) (x : nat) : node := nth x (nodes P) (NValue VVoid false).

(** The variables of a program: made by [pigro::lazy], referring to earlier ones, each
    with its own caches. *)
Definition laid_out (P : list obj) : Prop :=
  NoDup (flat_map own P) /\
  forall x p, nth_error P x = Some p -> (exists g c deps, p = OCore g c deps) /\ forall y, In y (refs_of p) -> y < x.

(** Variable [z] is [x], or is reached from it through references. *)
Inductive reaches (P : list obj) : nat -> nat -> Prop :=
| reaches_self x : reaches P x x
| reaches_ref x p y z : nth_error P x = Some p -> In y (refs_of p) -> reaches P y z -> reaches P x z.

(** A function returns [void] always or never: [vf] tells which. *)
Definition steady (U : user A W fid did) (vf : fnobj fid did -> bool) : Prop :=
  forall g args w v w' l, call_fn U g args w = (VRet v, w', l) -> (v = VVoid <-> vf g = true).
Definition steady_caches (vf : fnobj fid did -> bool) (P : list obj) (h : heap) : Prop :=
  forall g c v, In (g, c) (flat_map cores P) -> h c = Some v -> (v = VVoid <-> vf g = true).

(** A thread that calls the variables [xs], one after the other. *)
Definition calling (U : user A W fid did) (P : list obj) (xs : list nat) : prog A fid did (list (res (option value))) :=
  thread U (map (fun x => TCall (node_at P x)) xs).

(** Two threads reach the same variable only if it is settled. *)
Definition share_settled (P : list obj) (h : heap) (thr : list (list nat)) : Prop :=
  forall i j xs ys x y z, i <> j -> nth_error thr i = Some xs -> nth_error thr j = Some ys -> In x xs -> In y ys ->
  reaches P x z -> reaches P y z -> settled h (node_at P z) = true.
End Spec.

Arguments obj : clear implicits.
