(** The design of docs/walkthrough/dependencies.md:37-50 with lazy functions shared by
    reference: [std::ref(x)] as a dependency is called by [dependencies()...] like anything
    else (syntactic_sugar.md:15-25 leaves it as it is).  Otherwise as [DocModel.v]. *)
From Coq Require Import List Bool Arith.
From Verif Require Import Value TupleAlg LazyModel SharedModel DocModel.
Import ListNotations.

Section SharedDoc.
Context {A W fid did : Type}.
Notation value := (val A).
Notation event := (event A fid did).
Notation sop := (sop A W fid did).
Variable U : user A W fid did.

(** As [wz], plus references to the variables of the program. *)
Inductive xz :=
| XConst (v : value)
| XFun (d : did)
| XNode (f : fid) (cache : option value) (args_cache : option (list value)) (deps : list xz)
| XRef (x : nat).

(** The result, the lazy function and the variables afterwards; [None] as in
    [SharedModel.sstep]. *)
Definition xresult : Type := option (res value * xz * list xz * W * list event).

(** dependencies.md:42 [std::tuple{dependencies()...}], left to right.  A call returns a copy
    ([return *cache], dependencies.md:48). *)
Definition xcalls_with (call : xz -> list xz -> W -> xresult) :=
  fix calls (ds : list xz) (vs : list xz) (w : W) : option (res (list value) * list xz * list xz * W * list event) :=
    match ds with
    | [] => Some (Ok [], [], vs, w, [])
    | d :: ds' =>
        match call d vs w with
        | None => None
        | Some (Ok x, d', vs1, w1, l1) =>
            match calls ds' vs1 w1 with
            | None => None
            | Some (rs, ds'', vs2, w2, l2) =>
                Some (match rs with Ok xs => Ok (x :: xs) | Exc => Exc | UB => UB end,
                      d' :: ds'', vs2, w2, l1 ++ l2)
            end
        | Some (Exc, d', vs1, w1, l1) => Some (Exc, d' :: ds', vs1, w1, l1)
        | Some (UB, d', vs1, w1, l1) => Some (UB, d' :: ds', vs1, w1, l1)
        end
    end.

(** dependencies.md:41-49, a call. *)
Fixpoint xcall (n : nat) : xz -> list xz -> W -> xresult :=
  fix go (l : xz) (vs : list xz) (w : W) {struct l} : xresult :=
    match l with
    | XConst v => Some (Ok v, l, vs, w, [])
    | XFun d =>
        let '(r, w') := dsem U d w in
        Some (match r with VRet v => Ok v | VThrow => Exc end, l, vs, w', [EvSample d])
    | XRef x =>
        match n with
        | 0 => None
        | S n' =>
            match nth_error vs x with
            | None => None
            | Some l0 =>
                match xcall n' l0 vs w with
                | None => None
                | Some (r, l0', vs', w', lg) => Some (r, XRef x, update x l0' vs', w', lg)
                end
            end
        end
    | XNode f cache args_cache deps =>
        match xcalls_with go deps vs w with
        | None => None
        | Some (Ok rs, deps', vs1, w1, l1) =>
            let args := ctad_tuple as_tuple rs in
            if negb (is_some cache) || args_differ U args_cache args then
              let '(r, w2) := sem U f args w1 in
              Some (match regularized r with
                    | VRet v => (Ok v, XNode f (Some v) (Some args) deps', vs1, w2, l1 ++ [EvCall f args])
                    | VThrow => (Exc, XNode f cache args_cache deps', vs1, w2, l1 ++ [EvCall f args])
                    end)
            else
              Some (match cache with Some c => Ok c | None => UB end, XNode f cache args_cache deps', vs1, w1, l1)
        | Some (Exc, deps', vs1, w1, l1) => Some (Exc, XNode f cache args_cache deps', vs1, w1, l1)
        | Some (UB, deps', vs1, w1, l1) => Some (UB, XNode f cache args_cache deps', vs1, w1, l1)
        end
    end.

(** ** Programs, as in SharedModel.v *)
Record xstate := mkXState { xvars : list xz; xworld : W }.

(** syntactic_sugar.md:15-25 *)
Definition xdep_of (vs : list xz) (s : sdep A did) : option xz :=
  match s with
  | SDRef x => match nth_error vs x with Some _ => Some (XRef x) | None => None end
  | SDep (DVar x) => nth_error vs x
  | SDep (DFun d) => Some (XFun d)
  | SDep (DConst v) => Some (XConst v)
  end.
Fixpoint xdeps_of (vs : list xz) (ss : list (sdep A did)) : option (list xz) :=
  match ss with
  | [] => Some []
  | s :: ss' =>
      match xdep_of vs s, xdeps_of vs ss' with
      | Some o, Some os => Some (o :: os)
      | _, _ => None
      end
  end.

Definition xexec (o : sop) (s : xstate) : option (xstate * output A fid did) :=
  match o with
  | SNew f ss =>
      match xdeps_of (xvars s) ss with
      | Some ds => Some (mkXState (xvars s ++ [XNode f None None ds]) (xworld s), (None, []))
      | None => None
      end
  | SCopy x =>
      match nth_error (xvars s) x with
      | Some l => Some (mkXState (xvars s ++ [l]) (xworld s), (None, []))
      | None => None
      end
  | SCall x =>
      match nth_error (xvars s) x with
      | Some l =>
          match xcall (length (xvars s)) l (xvars s) (xworld s) with
          | Some (r, l', vs', w', lg) =>
              Some (mkXState (update x l' vs') w',
                    (Some (api_result match r with Ok v => Ok (v, false) | Exc => Exc | UB => UB end), lg))
          | None => None
          end
      | None => None
      end
  | SEnv h => Some (mkXState (xvars s) (h (xworld s)), (None, []))
  end.
Fixpoint xrun (p : list sop) (s : xstate) : option (xstate * list (output A fid did)) :=
  match p with
  | [] => Some (s, [])
  | o :: p' =>
      match xexec o s with
      | Some (s1, out) =>
          match xrun p' s1 with Some (s2, outs) => Some (s2, out :: outs) | None => None end
      | None => None
      end
  end.

(** The program without references that an ordinary one is. *)
Definition no_refs (o : op A W fid did) : sop :=
  match o with
  | New f ss => SNew f (map SDep ss)
  | Copy x => SCopy x
  | Call x => SCall x
  | Env h => SEnv h
  end.
End SharedDoc.
Arguments xz : clear implicits.
Arguments xstate : clear implicits.
