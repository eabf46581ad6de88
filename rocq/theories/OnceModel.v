(** The first two designs of [pigro::lazy] in docs/walkthrough, for functions without
    dependencies, and the code that they are to replace. *)
From Coq Require Import List Bool Arith.
From Verif Require Import Value LazyModel.
Import ListNotations.

Section Once.
Context {A W fid did : Type}.
Notation value := (val A).
Notation event := (event A fid did).
Variable U : user A W fid did.

(** docs/walkthrough/call_once.md:108-116: a function and a flag. *)
Record once := mkOnce { once_fn : fid; is_called : bool }.

Definition once_new (f : fid) : once := mkOnce f false.

Definition once_call (o : once) (w : W) : res (option value) * once * W * list event :=
  if is_called o then (Ok None, o, w, [])
  else
    let (r, w') := sem U (once_fn o) [] w in
    match r with
    | FThrow => (Exc, o, w', [EvCall (once_fn o) []])
    | FRet _ => (Ok None, mkOnce (once_fn o) true, w', [EvCall (once_fn o) []])
    end.

(** docs/walkthrough/caching.md:23-32: a function and an optional.  A function of type
    [void] does not compile here. *)
Record cached := mkCached { cached_fn : fid; cached_value : option value }.

Definition cached_new (f : fid) : cached := mkCached f None.

Definition cached_call (c : cached) (w : W) : res (option value) * cached * W * list event :=
  match cached_value c with
  | Some v => (Ok (Some v), c, w, [])
  | None =>
      let (r, w') := sem U (cached_fn c) [] w in
      match r with
      | FThrow => (Exc, c, w', [EvCall (cached_fn c) []])
      | FRet None => (UB, c, w', [])
      | FRet (Some v) => (Ok (Some v), mkCached (cached_fn c) (Some v), w', [EvCall (cached_fn c) []])
      end
  end.

(** Programs, as [LazyModel.run]. *)
Section Run.
Context {X : Type}.
Variable new : fid -> X.
Variable call : X -> W -> res (option value) * X * W * list event.

Fixpoint design_run (p : list (op A W fid did)) (vs : list X) (w : W) : option (W * list (output A fid did)) :=
  match p with
  | [] => Some (w, [])
  | o :: p' =>
      match (match o with
             | New f [] => Some (vs ++ [new f], w, (None, []))
             | New f (_ :: _) => None
             | Copy x =>
                 match nth_error vs x with
                 | Some l => Some (vs ++ [l], w, (None, []))
                 | None => None
                 end
             | Call x =>
                 match nth_error vs x with
                 | Some l => let '(r, l', w', lg) := call l w in Some (update x l' vs, w', (Some r, lg))
                 | None => None
                 end
             | Env h => Some (vs, h w, (None, []))
             end) with
      | Some (vs1, w1, out) =>
          match design_run p' vs1 w1 with Some (w2, outs) => Some (w2, out :: outs) | None => None end
      | None => None
      end
  end.
End Run.

Definition once_run := design_run once_new once_call.
Definition cached_run := design_run cached_new cached_call.

End Once.
Arguments once : clear implicits.
Arguments cached : clear implicits.

(** ** call_once.md:35-74: two systems, initialised by hand in two places *)

Inductive system := OpenGL | OpenCL.
Inductive place := Something | SomethingElse.
Inductive action := Initialize (s : system) | Draw (p : place).

(** The flags [is_initialized_opengl], [is_initialized_opencl]. *)
Definition flags := (bool * bool)%type.

(** [if (!flag) { initialize(); ...; }], where [set] is the assignment. *)
Definition unless (flag : bool) (s : system) (set : flags -> flags) (fl : flags) : flags * list action :=
  if flag then (fl, []) else (set fl, [Initialize s]).

Definition set_gl (fl : flags) : flags := (true, snd fl).
Definition set_cl (fl : flags) : flags := (fst fl, true).

(** The two places; [cl_flag] is what the second [if] of the second place assigns. *)
Definition by_hand_with (cl_flag : flags -> flags) (p : place) (fl : flags) : flags * list action :=
  let (fl1, a1) := unless (fst fl) OpenGL set_gl fl in
  let (fl2, a2) := unless (snd fl1) OpenCL (match p with Something => set_cl | SomethingElse => cl_flag end) fl1 in
  (fl2, a1 ++ a2 ++ [Draw p]).

(** As printed, call_once.md:66: [is_initialized_opengl = true;] after [initialize_opencl();] *)
Definition by_hand : place -> flags -> flags * list action := by_hand_with set_gl.
(** As meant. *)
Definition by_hand_right : place -> flags -> flags * list action := by_hand_with set_cl.

Fixpoint places (go : place -> flags -> flags * list action) (ps : list place) (fl : flags) : list action :=
  match ps with
  | [] => []
  | p :: ps' => let (fl', a) := go p fl in a ++ places go ps' fl'
  end.

(** call_once.md:80-102: the same with lazy functions.  The world is what was done so far. *)
Definition initializes : user unit (list action) system unit :=
  mkUser (fun s _ w => (FRet None, w ++ [Initialize s])) (fun _ w => (VThrow, w)) (fun _ _ => true) tt.

Definition lazy_place (p : place) : list (op unit (list action) system unit) :=
  [Call 0; Call 1; Env (fun w => w ++ [Draw p])].
Definition lazy_places (ps : list place) : list (op unit (list action) system unit) :=
  New OpenGL [] :: New OpenCL [] :: flat_map lazy_place ps.

(** ** Specification side *)

(** What is wanted: both systems are initialised once, before they are used. *)
Definition in_order (ps : list place) : list action :=
  match ps with [] => [] | _ => Initialize OpenGL :: Initialize OpenCL :: map Draw ps end.

(** How often a system is initialised. *)
Definition initializations (s : system) (l : list action) : nat :=
  length (filter (fun a => match a, s with
                           | Initialize OpenGL, OpenGL | Initialize OpenCL, OpenCL => true
                           | _, _ => false
                           end) l).
