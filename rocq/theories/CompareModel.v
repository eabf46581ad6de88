(** The comparisons made by the design of docs/walkthrough/dependencies.md:37-50, which
    comparisons.md sets out to avoid (comparisons.md:23-42).  As [DocModel.wcall], with the
    comparisons in the log. *)
From Coq Require Import List Bool Arith.
From Verif Require Import Value TupleAlg LazyModel DocModel.
Import ListNotations.

Section Compare.
Context {A W fid did : Type}.
Notation value := (val A).
Notation event := (event A fid did).
Notation wz := (wz A fid did).
Notation op := (op A W fid did).
Variable U : user A W fid did.

(** dependencies.md:43 [args != dependencies_cache]: [std::tuple] compares the elements from
    left to right up to the first that differ.  An empty optional is not compared. *)
Fixpoint compare_elements (old new : list value) : list event :=
  match old, new with
  | x :: old', y :: new' =>
      EvCmp x y :: (if veq (aeq U) x y then compare_elements old' new' else [])
  | _, _ => []
  end.
Definition compare_args (cache : option value) (args_cache : option (list value)) (args : list value) : list event :=
  match cache, args_cache with
  | Some _, Some old => compare_elements old args      (* [!cache ||] comes first *)
  | _, _ => []
  end.

(** dependencies.md:41-49, a call. *)
Fixpoint kcall (l : wz) (w : W) {struct l} : res value * wz * W * list event :=
  match l with
  | WConst v => (Ok v, l, w, [])
  | WFun d =>
      let '(r, w') := dsem U d w in
      (match r with VRet v => Ok v | VThrow => Exc end, l, w', [EvSample d])
  | WNode f cache args_cache deps =>
      let '(rs, deps', w1, l1) := wcalls_with kcall deps w in
      match rs with
      | Ok vs =>
          let args := ctad_tuple as_tuple vs in
          let lc := compare_args cache args_cache args in
          if negb (is_some cache) || args_differ U args_cache args then
            let '(r, w2) := sem U f args w1 in
            match regularized r with
            | VRet v => (Ok v, WNode f (Some v) (Some args) deps', w2, l1 ++ lc ++ [EvCall f args])
            | VThrow => (Exc, WNode f cache args_cache deps', w2, l1 ++ lc ++ [EvCall f args])
            end
          else
            (match cache with Some c => Ok c | None => UB end, WNode f cache args_cache deps', w1, l1 ++ lc)
      | Exc => (Exc, WNode f cache args_cache deps', w1, l1)
      | UB => (UB, WNode f cache args_cache deps', w1, l1)
      end
  end.

(** Programs, as [DocModel.wrun]; also the variables and the outside world at the end. *)
Definition kexec (o : op) (vs : list wz) (w : W) : option (list wz * W * output A fid did) :=
  match o with
  | New f ss =>
      match wdeps_of vs ss with
      | Some ds => Some (vs ++ [WNode f None None ds], w, (None, []))
      | None => None
      end
  | Copy x =>
      match nth_error vs x with
      | Some l => Some (vs ++ [l], w, (None, []))
      | None => None
      end
  | Call x =>
      match nth_error vs x with
      | Some l =>
          let '(r, l', w', lg) := kcall l w in
          Some (update x l' vs, w',
                (Some (api_result match r with Ok v => Ok (v, false) | Exc => Exc | UB => UB end), lg))
      | None => None
      end
  | Env h => Some (vs, h w, (None, []))
  end.
Fixpoint krun (p : list op) (vs : list wz) (w : W) : option (list wz * W * list (output A fid did)) :=
  match p with
  | [] => Some (vs, w, [])
  | o :: p' =>
      match kexec o vs w with
      | Some (vs1, w1, out) =>
          match krun p' vs1 w1 with Some (vs2, w2, outs) => Some (vs2, w2, out :: outs) | None => None end
      | None => None
      end
  end.
End Compare.
