(** Vocabulary for value operations that throw (C58). *)
From Coq Require Import List Bool Arith.
From Verif Require Import Value LazyModel LazySpec ThrowModel.
Import ListNotations.

Section Spec.
Context {A W fid did H : Type}.
Notation value := (val A).

(** Nothing throws, except possibly when a result is copied for the caller; [!=] is the
    one built from [U]'s [==]. *)
Definition never_throws (U : user A W fid did) (O : vops A W H) : Prop :=
  (forall v w h, fst (ocopy O v w h) = true) /\
  (forall c r w h, fst (ocmp O c r w h) = Some (opt_ne (aeq U) (Some c) r)) /\
  (forall v w h, fst (onew O v w h) = true) /\
  (forall c r w h, fst (oassign O c r w h) = None).

(** An assignment that throws leaves the old or the new value. *)
Definition old_or_new (O : vops A W H) : Prop :=
  forall c r w h v, fst (oassign O c r w h) = Some v -> v = c \/ v = r.

(** The same output, or an exception instead of the result. *)
Definition same_or_lost (o o' : output A fid did) : Prop :=
  snd o' = snd o /\ (fst o' = fst o \/ exists v, fst o = Some (Ok v) /\ fst o' = Some Exc).

(** The outside worlds in which the calls of a program happen, if functions do not
    change it. *)
Fixpoint call_worlds (p : list (op A W fid did)) (w : W) : list W :=
  match p with
  | [] => []
  | Call _ :: p' => w :: call_worlds p' w
  | Env h :: p' => call_worlds p' (h w)
  | _ :: p' => call_worlds p' w
  end.

(** The same operations, with a note whether one of them has thrown. *)
Definition watched (O : vops A W H) : vops A W (H * bool) :=
  mkOps (fun v w h => let '(ok, h1) := ocopy O v w (fst h) in (ok, (h1, snd h || negb ok)))
        (fun c r w h => let '(b, h1) := ocmp O c r w (fst h) in
           (b, (h1, match b with Some _ => snd h | None => true end)))
        (fun v w h => let '(ok, h1) := onew O v w (fst h) in (ok, (h1, snd h || negb ok)))
        (fun c r w h => let '(b, h1) := oassign O c r w (fst h) in
           (b, (h1, match b with None => snd h | Some _ => true end)))
        (fun v w h => let '(ok, h1) := oreturn O v w (fst h) in (ok, (h1, snd h || negb ok))).

(** A function has been called. *)
Definition called (g : fnobj fid did) (lg : list (event A fid did)) : Prop :=
  match g with
  | FnUser f => exists args, In (EvCall f args) lg
  | FnSample d => In (EvSample d) lg
  end.

(** From [l] to [l'] only caches are different, only those of functions that have been
    called, and none of them is empty. *)
Inductive refreshed (lg : list (event A fid did)) : lz A fid did -> lz A fid did -> Prop :=
| refreshed_value v ch : refreshed lg (LValue v ch) (LValue v ch)
| refreshed_core g c c' ds ds' :
    c' = c \/ (called g lg /\ c' <> None) ->
    Forall2 (refreshed lg) ds ds' ->
    refreshed lg (LCore g c ds) (LCore g c' ds').

End Spec.
