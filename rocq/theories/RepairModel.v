(** Changes of src/pigro/lazy.h under which C15 and C19 hold, and C01 without exceptions.  They
    are not in /repo; without them this is [LazyModel.v]. *)
From Coq Require Import List Bool Arith.
From Verif Require Import Value TupleAlg LazyModel.
Import ListNotations.

(** - [own]: if the function throws (lazy.h:53-65), [cache] is emptied
      ([catch (...) { cache.reset(); throw; }]);
    - [deps]: if a dependency throws (lazy.h:51), as well;
    - [as_is]: [transform] makes a [std::tuple<decltype(projection(args))...>] instead of
      leaving the type to deduction (tuple_algorithms.h:10);
    - [filled]: lazy.h:58 compares with the value in the cache,
      [changed = !cache || *cache != result]. *)
Record changes := mkChanges { own : bool; deps : bool; as_is : bool; filled : bool }.
Definition no_changes : changes := mkChanges false false false false.
Definition all_changes : changes := mkChanges true true true true.

Section Repair.
Context {A W fid did : Type}.
Notation value := (val A).
Notation event := (event A fid did).
Notation lz := (lz A fid did).
Notation fnobj := (fnobj fid did).
Notation op := (op A W fid did).
Notation pstate := (pstate A W fid did).
Variable U : user A W fid did.
Variable C : changes.

(** As [LazyModel.core]. *)
Definition rcore (g : fnobj) (cache : option value) (args : list (value * bool)) (w : W)
    : res (value * bool) * option value * W * list event :=
  let changed := negb (is_some cache) || fst (any args (pure1 lr_is_changed) tt) in
  if changed then
    let values :=
      fst (transform (if as_is C then fun _ => None else as_tuple) args (pure1 lr_value) tt) in
    match call_fn U g values w with
    | (VThrow, w', lg) => (Exc, if own C then None else cache, w', lg)
    | (VRet result, w', lg) =>
        let '(changed', lc) := opt_neq U cache result in
        let changed'' :=
          if filled C then match cache with Some c => negb (veq (aeq U) c result) | None => true end
          else changed' in
        (Ok (result, changed''), Some result, w', lg ++ lc)
    end
  else
    match cache with
    | Some c => (Ok (c, changed), cache, w, [])
    | None => (UB, cache, w, [])
    end.

(** As [LazyModel.step]. *)
Fixpoint rstep (l : lz) (w : W) {struct l} : res (value * bool) * lz * W * list event :=
  match l with
  | LValue v ch => (Ok (v, ch), LValue v ch, w, [])
  | LCore g cache ds =>
      let '(rs, ds', w1, l1) := steps_with rstep ds w in
      match rs with
      | Ok rs' =>
          let args := ctad_tuple (fun _ => None) rs' in
          let '(r, cache', w2, l2) := rcore g cache args w1 in
          (r, LCore g cache' ds', w2, l1 ++ l2)
      | Exc => (Exc, LCore g (if deps C then None else cache) ds', w1, l1)
      | UB => (UB, LCore g cache ds', w1, l1)
      end
  end.

(** As [LazyModel.exec] and [LazyModel.run]. *)
Definition rexec (o : op) (s : pstate) : option (pstate * output A fid did) :=
  match o with
  | Call x =>
      match nth_error (vars s) x with
      | Some l =>
          let '(r, l', w', lg) := rstep l (world s) in
          Some (mkState (update x l' (vars s)) w', (Some (api_result r), lg))
      | None => None
      end
  | _ => exec U o s
  end.
Fixpoint rrun (p : list op) (s : pstate) : option (pstate * list (output A fid did)) :=
  match p with
  | [] => Some (s, [])
  | o :: p' =>
      match rexec o s with
      | Some (s1, out) =>
          match rrun p' s1 with
          | Some (s2, outs) => Some (s2, out :: outs)
          | None => None
          end
      | None => None
      end
  end.
End Repair.
