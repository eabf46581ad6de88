(** Lazy functions shared by reference.

    [std::ref(x)] can be called with and without [nullptr] whenever [x] can, so
    [ensure_lazy] (src/pigro/lazy.h:78-80 with src/pigro/concepts.h:14-21) takes
    it as is: calling the dependency calls [x] itself.  Everything else is as in
    LazyModel.v, whose [core] (src/pigro/lazy.h:53-65) is used unchanged. *)
From Coq Require Import List Bool Arith.
From Verif Require Import Value TupleAlg LazyModel LazySpec.
Import ListNotations.

Section Shared.
Context {A W fid did : Type}.
Notation value := (val A).
Notation event := (event A fid did).

(** As [lz], plus references to the variables of the program. *)
Inductive slz :=
| SValue (v : value) (ch : bool)
| SCore (g : fnobj fid did) (cache : option value) (deps : list slz)
| SRef (x : nat).

Variable U : user A W fid did.

(** Calling with [nullptr], src/pigro/lazy.h:50-66 and 70-75.  [vs] are the
    variables of the program; [n] bounds the depth of references ([None] if
    exceeded; variables only refer to earlier ones, so their number suffices). *)
Definition sresult : Type := option (res (value * bool) * slz * list slz * W * list event).

Definition ssteps_with (step : slz -> list slz -> W -> sresult) :=
  fix steps (ds : list slz) (vs : list slz) (w : W)
    : option (res (list (value * bool)) * list slz * list slz * W * list event) :=
    match ds with
    | [] => Some (Ok [], [], vs, w, [])
    | d :: ds' =>
        match step d vs w with
        | None => None
        | Some (Ok x, d', vs1, w1, l1) =>
            match steps ds' vs1 w1 with
            | None => None
            | Some (rs, ds'', vs2, w2, l2) =>
                Some (match rs with Ok xs => Ok (x :: xs) | Exc => Exc | UB => UB end,
                      d' :: ds'', vs2, w2, l1 ++ l2)
            end
        | Some (Exc, d', vs1, w1, l1) => Some (Exc, d' :: ds', vs1, w1, l1)
        | Some (UB, d', vs1, w1, l1) => Some (UB, d' :: ds', vs1, w1, l1)
        end
    end.

(** The values are copied after all dependencies were called ([transform(args, value)],
    src/pigro/lazy.h:57): a result is a reference (lazy.h:23-24), for [std::ref(x)] to
    what the cache of [x] holds by then ([regular_void] excepted, of which there is a
    new one each time, regular_void.h:59).  All other dependencies are owned by one
    caller, nothing calls them in between. *)
Definition read_ref (vs : list slz) (d : slz) (r : value * bool) : value * bool :=
  match d, fst r with
  | SRef x, VVoid => r
  | SRef x, _ => match nth_error vs x with Some (SCore _ (Some c) _) => (c, snd r) | _ => r end
  | _, _ => r
  end.
Fixpoint read_refs (vs : list slz) (ds : list slz) (rs : list (value * bool)) : list (value * bool) :=
  match ds, rs with
  | d :: ds', r :: rs' => read_ref vs d r :: read_refs vs ds' rs'
  | _, _ => rs
  end.

Fixpoint sstep (n : nat) : slz -> list slz -> W -> sresult :=
  fix go (l : slz) (vs : list slz) (w : W) {struct l} : sresult :=
    match l with
    | SValue v ch => Some (Ok (v, ch), SValue v ch, vs, w, [])
    | SRef x =>
        match n with
        | 0 => None
        | S n' =>
            match nth_error vs x with
            | None => None
            | Some l0 =>
                match sstep n' l0 vs w with
                | None => None
                | Some (r, l0', vs', w', lg) => Some (r, SRef x, update x l0' vs', w', lg)
                end
            end
        end
    | SCore g cache deps =>
        match ssteps_with go deps vs w with
        | None => None
        | Some (Ok rs, deps', vs1, w1, l1) =>
            let args := ctad_tuple (fun _ => None) rs in
            let '(r, cache', w2, l2) := core U g cache (read_refs vs1 deps' args) w1 in
            Some (r, SCore g cache' deps', vs1, w2, l1 ++ l2)
        | Some (Exc, deps', vs1, w1, l1) => Some (Exc, SCore g cache deps', vs1, w1, l1)
        | Some (UB, deps', vs1, w1, l1) => Some (UB, SCore g cache deps', vs1, w1, l1)
        end
    end.

(** ** Programs *)
Inductive sdep :=
| SDRef (x : nat)                      (* std::ref(x) *)
| SDep (s : depspec A did).            (* anything else, as in LazyModel.v *)

Inductive sop :=
| SNew (f : fid) (deps : list sdep)
| SCopy (x : nat)
| SCall (x : nat)
| SEnv (h : W -> W).

Record sstate := mkSState { svars : list slz; sworld : W }.

(** src/pigro/lazy.h:78-90 [ensure_lazy], for the kinds of dependencies that
    programs use. *)
Definition sdep_of (vs : list slz) (s : sdep) : option slz :=
  match s with
  | SDRef x => match nth_error vs x with Some _ => Some (SRef x) | None => None end
  | SDep (DVar x) => nth_error vs x
  | SDep (DFun d) => Some (SCore (FnSample d) None [SValue (VAtom (int0 U)) true])
  | SDep (DConst v) => Some (SValue v false)
  end.

Fixpoint sdeps_of (vs : list slz) (ss : list sdep) : option (list slz) :=
  match ss with
  | [] => Some []
  | s :: ss' =>
      match sdep_of vs s, sdeps_of vs ss' with
      | Some o, Some os => Some (o :: os)
      | _, _ => None
      end
  end.

Definition sexec (o : sop) (s : sstate) : option (sstate * output A fid did) :=
  match o with
  | SNew f ss =>
      match sdeps_of (svars s) ss with
      | Some ds => Some (mkSState (svars s ++ [SCore (FnUser f) None ds]) (sworld s), (None, []))
      | None => None
      end
  | SCopy x =>
      match nth_error (svars s) x with
      | Some l => Some (mkSState (svars s ++ [l]) (sworld s), (None, []))
      | None => None
      end
  | SCall x =>
      match nth_error (svars s) x with
      | Some l =>
          match sstep (length (svars s)) l (svars s) (sworld s) with
          | Some (r, l', vs', w', lg) =>
              Some (mkSState (update x l' vs') w', (Some (api_result r), lg))
          | None => None
          end
      | None => None
      end
  | SEnv h => Some (mkSState (svars s) (h (sworld s)), (None, []))
  end.

Fixpoint srun (p : list sop) (s : sstate) : option (sstate * list (output A fid did)) :=
  match p with
  | [] => Some (s, [])
  | o :: p' =>
      match sexec o s with
      | Some (s1, out) =>
          match srun p' s1 with
          | Some (s2, outs) => Some (s2, out :: outs)
          | None => None
          end
      | None => None
      end
  end.

(** ** Specification side *)

(** The same program with every [std::ref(x)] replaced by [x]. *)
Definition by_value_dep (s : sdep) : depspec A did :=
  match s with SDRef x => DVar x | SDep s => s end.
Definition by_value (o : sop) : op A W fid did :=
  match o with
  | SNew f ss => New f (map by_value_dep ss)
  | SCopy x => Copy x
  | SCall x => Call x
  | SEnv h => Env h
  end.

Definition refs (ss : list sdep) : list nat :=
  flat_map (fun s => match s with SDRef x => [x] | _ => [] end) ss.
Definition copied (ss : list sdep) : list nat :=
  flat_map (fun s => match s with SDep (DVar x) => [x] | _ => [] end) ss.

(** Every lazy function has one user: once given away by reference it is not
    used again, and a lazy function that holds references is not copied.  [n]
    is the number of the next variable, [used] the variables given away,
    [holders] those that hold references. *)
Fixpoint single_user (p : list sop) (n : nat) (used holders : list nat) : Prop :=
  match p with
  | [] => True
  | SNew f ss :: p' =>
      NoDup (refs ss) /\
      Forall (fun x => ~ In x used) (refs ss) /\
      Forall (fun x => ~ In x used /\ ~ In x holders) (copied ss) /\
      single_user p' (S n) (refs ss ++ used) (match refs ss with [] => holders | _ => n :: holders end)
  | SCopy x :: p' => ~ In x used /\ ~ In x holders /\ single_user p' (S n) used holders
  | SCall x :: p' => ~ In x used /\ single_user p' n used holders
  | SEnv _ :: p' => single_user p' n used holders
  end.

End Shared.
Arguments slz : clear implicits.
Arguments sdep : clear implicits.
Arguments sop : clear implicits.
Arguments sstate : clear implicits.
