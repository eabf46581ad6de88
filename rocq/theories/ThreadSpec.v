(** Vocabulary of C76: data races, who uses what, and what a thread does alone. *)
From Coq Require Import List Bool Arith.
From Verif Require Import Value LazyModel ThreadModel.
Import ListNotations.

Section Spec.
Context {A W fid did : Type}.
Notation value := (val A).
Notation node := (node A fid did).
Notation heap := (heap A).
Notation action := (action A W fid did).
Notation top := (top A fid did).

(** The lazy function of [LazyModel.v] that is at [n] in memory. *)
Fixpoint tree (h : heap) (n : node) : lz A fid did :=
  match n with
  | NValue v ch => LValue v ch
  | NCore g c deps => LCore g (h c) (map (tree h) deps)
  end.

(** A lazy function like [n] at other places. *)
Fixpoint relocate (f : loc -> loc) (n : node) : node :=
  match n with
  | NValue v ch => NValue v ch
  | NCore g c deps => NCore g (f c) (map (relocate f) deps)
  end.

(** Made by [pigro::lazy] (lazy.h:78-103): plain functions are sampled, values are
    constants. *)
Fixpoint made (zero : A) (n : node) : Prop :=
  match n with
  | NValue _ ch => ch = false
  | NCore (FnSample _) _ deps => deps = [NValue (VAtom zero) true]
  | NCore (FnUser _) _ deps => (fix all (ns : list node) : Prop := match ns with [] => True | m :: ns' => made zero m /\ all ns' end) deps
  end.
(** There is no plain function in it. *)
Fixpoint no_plain (n : node) : Prop :=
  match n with
  | NValue _ _ => True
  | NCore (FnSample _) _ _ => False
  | NCore (FnUser _) _ deps => (fix all (ns : list node) : Prop := match ns with [] => True | m :: ns' => no_plain m /\ all ns' end) deps
  end.

(** All values are there, and nothing will report a change. *)
Fixpoint settled (h : heap) (n : node) : bool :=
  match n with
  | NValue _ ch => negb ch
  | NCore _ c deps => is_some (h c) && forallb (settled h) deps
  end.

(** Which caches an operation of a thread uses, and which it may write. *)
Definition uses (o : top) (c : loc) : Prop :=
  match o with TCall n => In c (locs n) | TCopy n m => In c (locs n) \/ In c (locs m) end.
Definition may_write (h : heap) (o : top) (c : loc) : Prop :=
  match o with TCall n => settled h n = false /\ In c (locs n) | TCopy _ m => In c (locs m) end.
Definition calls_settled (h : heap) (o : top) : Prop :=
  match o with TCall n => settled h n = true | TCopy _ _ => False end.

(** No thread writes what another one uses, nor what belongs to a function that is called
    as settled. *)
Definition separate (h : heap) (thr : list (list top)) : Prop :=
  forall i j ops ops' o o' c,
  nth_error thr i = Some ops -> nth_error thr j = Some ops' -> In o ops -> In o' ops' ->
  may_write h o c -> uses o' c -> i = j /\ ~ calls_settled h o'.

(** A data race: two threads use the same cache, one of them writes it.  (Nothing in
    pigro orders the steps of different threads.) *)
Definition accesses (a : action) (c : loc) : Prop :=
  match a with ALoad c' _ | AStore c' _ => c' = c | _ => False end.
Definition racy (tr : list (nat * action)) : Prop :=
  exists i j c o a, i <> j /\ In (i, AStore c o) tr /\ In (j, a) tr /\ accesses a c.

(** What thread [i] has done. *)
Definition acts_of (i : nat) (tr : list (nat * action)) : list action :=
  map snd (filter (fun x => Nat.eqb (fst x) i) tr).

(** [acts] are what [p] does if nobody else uses the memory; the outside world may change. *)
Fixpoint follows {X} (U : user A W fid did) (p : prog A fid did X) (h : heap) (acts : list action)
    (p' : prog A fid did X) (h' : heap) : Prop :=
  match acts with
  | [] => p' = p /\ h' = h
  | a :: acts' => exists w p1 h1 w1, tstep U p h w = Some (a, p1, h1, w1) /\ follows U p1 h1 acts' p' h'
  end.

(** User functions that do not change the outside world. *)
Definition reads_only (U : user A W fid did) : Prop :=
  (forall f args w, snd (sem U f args w) = w) /\ (forall d w, snd (dsem U d w) = w).

(** The threads take turns, and the outside world stays as it is. *)
Definition undisturbed (sched : list (turn W)) : Prop := Forall (fun t => exists i, t = Turn i) sched.

(** A thread that has ended, and how. *)
Definition ended {X} (p : prog A fid did X) : option (res X) :=
  match p with Ret x => Some (Ok x) | Throw => Some Exc | Undefined => Some UB | _ => None end.
End Spec.
