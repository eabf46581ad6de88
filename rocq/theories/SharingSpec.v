(** Lazy functions that share others by reference (C63): what every call does, read off
    the history of calls.

    The sources are lazy functions built by value, with the expressions [es]; the
    consumers [cs] are lazy functions whose dependencies are references to sources
    ([std::ref]), copies of sources, plain functions and values.  Sources and consumers
    are called in any order. *)
From Coq Require Import List Bool Arith.
From Verif Require Import Value LazyModel LazySpec LazySpec2 SharedModel.
Import ListNotations.

Section Spec.
Context {A W fid did : Type}.
Notation value := (val A).
Notation event := (event A fid did).
Notation expr := (expr A fid did).
Notation sdep := (sdep A did).
Variable pf : fid -> list value -> option value.
Variable rd : did -> W -> value.
Variable eqb : value -> value -> bool.
Variable es : list expr.
Variable cs : list (fid * list sdep).

(** A dependency by value: an expression. *)
Definition dep_expr (s : sdep) : expr :=
  match s with
  | SDRef j | SDep (DVar j) => nth j es (EConst VVoid)
  | SDep (DFun d) => EFun d
  | SDep (DConst v) => EConst v
  end.

(** Consumer [c] with every reference replaced by a copy. *)
Definition consumer_expr (c : fid * list sdep) : expr := EApp (fst c) (map dep_expr (snd c)).

(** The history, latest first: which variable was reached, in which world, and what it
    returned.  Calling a consumer reaches its sources, then itself. *)
Definition history : Type := list (nat * W * value).

Fixpoint last_reached (H : history) (x : nat) : option (W * value) :=
  match H with
  | [] => None
  | (y, w, v) :: H' => if Nat.eqb x y then Some (w, v) else last_reached H' x
  end.

Definition last_world (H : history) (x : nat) : option W := option_map fst (last_reached H x).

(** An expression all of whose parts were last involved in a call at [last]. *)
Fixpoint since (last : option W) (e : expr) : tracked A W fid did :=
  match e with
  | EConst v => TConst v
  | EFun d => TFun d last
  | EApp f es => TApp f last (map (since last) es)
  end.

(** Calling dependency [s] of consumer [x] in the world [w]: its value, whether it reports a
    change, its actions.  A shared source reports a change if it differs from what it was
    when it was last reached, by anyone; any other dependency if it differs from what it was
    at the last call of [x]. *)
Definition reach (H : history) (x : nat) (s : sdep) (w : W) : value * bool * list event * history :=
  let e := dep_expr s in
  let t := since (last_world H (match s with SDRef j => j | _ => x end)) e in
  (eval pf rd e w, differs pf rd eqb t w, expected pf rd eqb t w,
   match s with SDRef j => (j, w, eval pf rd e w) :: H | _ => H end).

Fixpoint reach_all (H : history) (x : nat) (ss : list sdep) (w : W)
    : list (value * bool) * list event * history :=
  match ss with
  | [] => ([], [], H)
  | s :: ss' =>
      let '(v, b, lg1, H1) := reach H x s w in
      let '(rs, lg2, H2) := reach_all H1 x ss' w in
      ((v, b) :: rs, lg1 ++ lg2, H2)
  end.

(** Calling consumer [x]: if no dependency reports a change it returns what it returned
    last. *)
Definition consume (H : history) (x : nat) (c : fid * list sdep) (w : W) : value * list event * history :=
  let '(rs, lg, H1) := reach_all H x (snd c) w in
  let new := fval pf (fst c) (map fst rs) in
  match last_reached H x with
  | None => (new, lg ++ [EvCall (fst c) (map fst rs)], (x, w, new) :: H1)
  | Some (_, old) =>
      if existsb snd rs
      then (new, lg ++ [EvCall (fst c) (map fst rs); EvCmp old new], (x, w, new) :: H1)
      else (old, lg, (x, w, old) :: H1)
  end.

(** Calling variable [x], a source or a consumer. *)
Definition shared_call (H : history) (x : nat) (w : W) : option (value * list event * history) :=
  match nth_error es x with
  | Some e =>
      Some (eval pf rd e w, expected pf rd eqb (since (last_world H x) e) w, (x, w, eval pf rd e w) :: H)
  | None =>
      match nth_error cs (x - length es) with
      | Some c => Some (consume H x c w)
      | None => None
      end
  end.

Fixpoint shared_calls (H : history) (calls : list (nat * W)) : option (list (value * list event) * history) :=
  match calls with
  | [] => Some ([], H)
  | (x, w) :: calls' =>
      match shared_call H x w with
      | None => None
      | Some (v, lg, H1) =>
          match shared_calls H1 calls' with
          | None => None
          | Some (outs, H2) => Some ((v, lg) :: outs, H2)
          end
      end
  end.
End Spec.

Section Programs.
Context {A W fid did : Type}.

(** An operation without references. *)
Definition unshared (o : op A W fid did) : sop A W fid did :=
  match o with
  | New f ss => SNew f (map SDep ss)
  | Copy x => SCopy x
  | Call x => SCall x
  | Env h => SEnv h
  end.

(** The dependencies of a consumer refer to one of [n] sources. *)
Definition of_sources (n : nat) (c : fid * list (sdep A did)) : Prop :=
  Forall (fun s => match s with SDRef j | SDep (DVar j) => j < n | _ => True end) (snd c).

(** Creating the consumers, and the calls, each in its own world. *)
Definition creations (cs : list (fid * list (sdep A did))) : list (sop A W fid did) :=
  map (fun c => SNew (fst c) (snd c)) cs.
Definition calls_in (calls : list (nat * W)) : list (sop A W fid did) :=
  flat_map (fun c => [SEnv (fun _ => snd c); SCall (fst c)]) calls.

(** The sources are created by [p], then the consumers, then all are called. *)
Definition sharing_program (p : list (op A W fid did)) (cs : list (fid * list (sdep A did)))
    (calls : list (nat * W)) : list (sop A W fid did) :=
  map unshared p ++ creations cs ++ calls_in calls.

(** A call of variable [x] reaches source [j]; [n] is the number of sources. *)
Definition reaches (n : nat) (cs : list (fid * list (sdep A did))) (x j : nat) : Prop :=
  x = j \/ exists i c, x = n + i /\ nth_error cs i = Some c /\ In (SDRef j) (snd c).

(** The outputs of [calls_in calls]. *)
Definition outputs_of_calls (outs : list (val A * list (event A fid did))) : list (output A fid did) :=
  flat_map (fun o => [(None, []); (Some (Ok (visible (fst o))), snd o)]) outs.

(** The sources [es] and consumers [cs] are built from each other as described above, return
    no empty optionals (C55) and are not given a single tuple (C19); the calls are of
    existing variables. *)
Definition sharing (pf : fid -> list (val A) -> option (val A)) (rd : did -> W -> val A)
    (p : list (op A W fid did)) (es : list (expr A fid did)) (cs : list (fid * list (sdep A did)))
    (calls : list (nat * W)) : Prop :=
  no_call p /\ shapes p [] = Some es /\ Forall (of_sources (length es)) cs /\
  Forall (regular pf rd) es /\ Forall (never_null pf rd) es /\
  Forall (fun c => regular pf rd (consumer_expr es c)) cs /\
  Forall (fun c => never_null pf rd (consumer_expr es c)) cs /\
  Forall (fun c => fst c < length es + length cs) calls.
End Programs.
