(** The algorithm of src/pigro/lazy.h on kept state, as in LazyModel.v, for result types
    whose copying and comparing is user code, too: it may throw. *)
From Coq Require Import List Bool Arith.
From Verif Require Import Value TupleAlg LazyModel.
Import ListNotations.

Section Throw.
Context {A W fid did H : Type}.
Notation value := (val A).
Notation event := (event A fid did).
Notation lz := (lz A fid did).

(** What the operations of the values do.  They may read the outside world; they
    change only a state [H] of their own (so they can fail at any time).
    - [ocopy v]: copying a dependency's value (lazy.h:27-29); [false]: throws;
    - [ocmp c r]: [cache != result] with [c] in the cache (lazy.h:58); [None]: throws;
    - [onew r]: [cache = result] with an empty cache, which copy-constructs (lazy.h:59:
      [result] is const, so [std::move] does not move); [false]: throws;
    - [oassign c r]: the same with [c] in the cache, which copy-assigns; [Some v]: throws
      and leaves [v] in the cache;
    - [oreturn v]: copying the result for the caller (lazy.h:40); [false]: throws. *)
Record vops := mkOps {
  ocopy : value -> W -> H -> bool * H;
  ocmp : value -> value -> W -> H -> option bool * H;
  onew : value -> W -> H -> bool * H;
  oassign : value -> value -> W -> H -> option value * H;
  oreturn : value -> W -> H -> bool * H }.

Variable U : user A W fid did.
Variable O : vops.

(** src/pigro/lazy.h:27-29 [value]: returns a copy.  The state says whether all copies
    so far succeeded; after an exception nothing more is copied. *)
Definition copy_value (w : W) (r : value * bool) (s : bool * H) : value * (bool * H) :=
  match s with
  | (true, h) => (lr_value r, ocopy O (lr_value r) w h)
  | (false, h) => (lr_value r, (false, h))
  end.

(** src/pigro/lazy.h:58-59 [changed = cache != result; cache = std::move(result);]. *)
Definition store (cache : option value) (result : value) (w : W) (h : H)
    : res (value * bool) * option value * H * list event :=
  match cache with
  | None =>
      match onew O result w h with
      | (true, h1) => (Ok (result, opt_ne (aeq U) None result), Some result, h1, [])
      | (false, h1) => (Exc, None, h1, [])
      end
  | Some c =>
      match ocmp O c result w h with
      | (None, h1) => (Exc, cache, h1, [EvCmp c result])
      | (Some changed, h1) =>
          match oassign O c result w h1 with
          | (None, h2) => (Ok (result, changed), Some result, h2, [EvCmp c result])
          | (Some v, h2) => (Exc, Some v, h2, [EvCmp c result])
          end
      end
  end.

(** src/pigro/lazy.h:53-65, as [LazyModel.core]. *)
Definition tcore (g : fnobj fid did) (cache : option value) (args : list (value * bool)) (w : W) (h : H)
    : res (value * bool) * option value * W * H * list event :=
  let changed := negb (is_some cache) || fst (any args (pure1 lr_is_changed) tt) in
  if changed then
    match transform as_tuple args (copy_value w) (true, h) with
    | (_, (false, h1)) => (Exc, cache, w, h1, [])
    | (values, (true, h1)) =>
        match call_fn U g values w with
        | (VThrow, w1, lg) => (Exc, cache, w1, h1, lg)
        | (VRet result, w1, lg) =>
            let '(r, cache', h2, lc) := store cache result w1 h1 in (r, cache', w1, h2, lg ++ lc)
        end
    end
  else
    match cache with
    | Some c => (Ok (c, changed), cache, w, h, [])
    | None => (UB, cache, w, h, [])
    end.

(** src/pigro/lazy.h:51, as [LazyModel.steps_with]. *)
Definition tsteps_with (step : lz -> W -> H -> res (value * bool) * lz * W * H * list event) :=
  fix steps (ds : list lz) (w : W) (h : H)
    : res (list (value * bool)) * list lz * W * H * list event :=
    match ds with
    | [] => (Ok [], [], w, h, [])
    | d :: ds' =>
        let '(r, d', w1, h1, l1) := step d w h in
        match r with
        | Ok x =>
            let '(rs, ds'', w2, h2, l2) := steps ds' w1 h1 in
            (match rs with Ok xs => Ok (x :: xs) | Exc => Exc | UB => UB end,
             d' :: ds'', w2, h2, l1 ++ l2)
        | Exc => (Exc, d' :: ds', w1, h1, l1)
        | UB => (UB, d' :: ds', w1, h1, l1)
        end
    end.

(** src/pigro/lazy.h:50-66 and 70-75, as [LazyModel.step]. *)
Fixpoint tstep (l : lz) (w : W) (h : H) {struct l} : res (value * bool) * lz * W * H * list event :=
  match l with
  | LValue v ch => (Ok (v, ch), LValue v ch, w, h, [])
  | LCore g cache deps =>
      let '(rs, deps', w1, h1, l1) := tsteps_with tstep deps w h in
      match rs with
      | Ok rs' =>
          let args := ctad_tuple (fun _ => None) rs' in
          let '(r, cache', w2, h2, l2) := tcore g cache args w1 h1 in
          (r, LCore g cache' deps', w2, h2, l1 ++ l2)
      | Exc => (Exc, LCore g cache deps', w1, h1, l1)
      | UB => (UB, LCore g cache deps', w1, h1, l1)
      end
  end.

(** src/pigro/lazy.h:39-41 [return self(nullptr).value;], which copies. *)
Definition tcall (l : lz) (w : W) (h : H) : res (value * bool) * lz * W * H * list event :=
  let '(r, l', w1, h1, lg) := tstep l w h in
  match r with
  | Ok (v, ch) =>
      match oreturn O v w1 h1 with
      | (true, h2) => (Ok (v, ch), l', w1, h2, lg)
      | (false, h2) => (Exc, l', w1, h2, lg)
      end
  | _ => (r, l', w1, h1, lg)
  end.

(** ** Programs, as in LazyModel.v *)
Definition texec (o : op A W fid did) (s : pstate A W fid did) (h : H)
    : option (pstate A W fid did * H * output A fid did) :=
  match o with
  | Call x =>
      match nth_error (vars s) x with
      | Some l =>
          let '(r, l', w', h', lg) := tcall l (world s) h in
          Some (mkState (update x l' (vars s)) w', h', (Some (api_result r), lg))
      | None => None
      end
  | _ =>
      match exec U o s with
      | Some (s1, out) => Some (s1, h, out)
      | None => None
      end
  end.

Fixpoint trun (p : list (op A W fid did)) (s : pstate A W fid did) (h : H)
    : option (pstate A W fid did * H * list (output A fid did)) :=
  match p with
  | [] => Some (s, h, [])
  | o :: p' =>
      match texec o s h with
      | Some (s1, h1, out) =>
          match trun p' s1 h1 with
          | Some (s2, h2, outs) => Some (s2, h2, out :: outs)
          | None => None
          end
      | None => None
      end
  end.

End Throw.
Arguments vops : clear implicits.
