(** Lazy functions that are moved from, on kept state (as in [LazyModel.v]).

    No class or closure type of pigro declares a move constructor: objects made by
    src/pigro/lazy.h are moved member by member, down to the cache captured at
    lazy.h:50, to the tuples of src/pigro/fwd_capture.h:12-15 that hold functions,
    dependencies and values, and to [engaged] in src/pigro/regular_void.h:47.  Moving a
    [std::optional] moves what it holds and leaves it holding what the move has left
    ([optional.ctor]); it does not become empty. *)
From Coq Require Import List Bool Arith.
From Verif Require Import Value LazyModel.
Import ListNotations.

Section Move.
Context {A W fid did : Type}.
Notation value := (val A).
Notation lz := (lz A fid did).
Variable U : user A W fid did.

(** What moving from the user's objects leaves in their place, for values and for the
    two kinds of function objects: anything of the same type. *)
Record leavings := mkLeavings { left_atom : A -> A; left_fid : fid -> fid; left_did : did -> did }.
Variable L : leavings.

(** Tuples, pairs and optionals are moved element by element; [regular_void] has one
    value. *)
Fixpoint left_value (v : value) : value :=
  match v with
  | VAtom a => VAtom (left_atom L a)
  | VVoid => VVoid
  | VTuple l => VTuple (map left_value l)
  | VPair x y => VPair (left_value x) (left_value y)
  | VOpt o => VOpt (match o with Some x => Some (left_value x) | None => None end)
  end.

Definition left_fn (g : fnobj fid did) : fnobj fid did :=
  match g with FnUser f => FnUser (left_fid L f) | FnSample d => FnSample (left_did L d) end.

(** What is left of a lazy function.  The flags of [lazy_value] (lazy.h:85, 89) are types.*)
Fixpoint moved_from (l : lz) : lz :=
  match l with
  | LValue v ch => LValue (left_value v) ch
  | LCore g cache deps => LCore (left_fn g) (option_map left_value cache) (map moved_from deps)
  end.

(** ** Programs that move, too *)
Inductive mdep :=
| MDep (s : depspec A did)
| MDepMove (x : nat).                       (* std::move(x), as an argument *)

Inductive mop :=
| MNew (f : fid) (deps : list mdep)         (* auto y = pigro::lazy(f, deps...); *)
| MCopy (x : nat)                           (* auto y = x; *)
| MMove (x : nat)                           (* auto y = std::move(x); *)
| MCall (x : nat)                           (* x(); *)
| MEnv (h : W -> W).

(** The parameters [auto... deps] (lazy.h:96), initialised from left to right, which is
    one of the orders that C++ allows; what happens to the variables. *)
Fixpoint mdeps (ss : list mdep) (vs : list lz) : option (list (depobj A fid did) * list lz) :=
  match ss with
  | [] => Some ([], vs)
  | MDep s :: ss' =>
      match dep_of vs s with
      | Some o => option_map (fun r => (o :: fst r, snd r)) (mdeps ss' vs)
      | None => None
      end
  | MDepMove x :: ss' =>
      match nth_error vs x with
      | Some l => option_map (fun r => (ObjLazy l :: fst r, snd r)) (mdeps ss' (update x (moved_from l) vs))
      | None => None
      end
  end.

Definition mexec (o : mop) (s : pstate A W fid did) : option (pstate A W fid did * output A fid did) :=
  match o with
  | MNew f ss =>
      match mdeps ss (vars s) with
      | Some (ds, vs) => Some (mkState (vs ++ [mk_lazy U f ds]) (world s), (None, []))
      | None => None
      end
  | MMove x =>
      match nth_error (vars s) x with
      | Some l => Some (mkState (update x (moved_from l) (vars s) ++ [l]) (world s), (None, []))
      | None => None
      end
  | MCopy x => exec U (Copy x) s
  | MCall x => exec U (Call x) s
  | MEnv h => exec U (Env h) s
  end.

Fixpoint mrun (p : list mop) (s : pstate A W fid did) : option (pstate A W fid did * list (output A fid did)) :=
  match p with
  | [] => Some (s, [])
  | o :: p' =>
      match mexec o s with
      | Some (s1, out) =>
          match mrun p' s1 with
          | Some (s2, outs) => Some (s2, out :: outs)
          | None => None
          end
      | None => None
      end
  end.
End Move.

Arguments leavings : clear implicits.
Arguments mdep : clear implicits.
Arguments mop : clear implicits.
