(** The two designs of [pigro::lazy] that the documentation explains it with
    (docs/walkthrough), on kept state. *)
From Coq Require Import List Bool Arith.
From Verif Require Import Value TupleAlg LazyModel.
Import ListNotations.

Section Doc.
Context {A W fid did : Type}.
Notation value := (val A).
Notation event := (event A fid did).
Notation lz := (lz A fid did).
Notation op := (op A W fid did).
Variable U : user A W fid did.

(** ** docs/walkthrough/dependencies.md:37-50, syntactic_sugar.md:11-25

    Every lazy function remembers the last result and the last arguments.  A value
    dependency is a function that returns it ([ensure_invocable]); calling that does
    nothing observable.  [void] results are turned into [regular_void] as in the
    library (the walkthrough leaves them out). *)
Inductive wz :=
| WConst (v : value)
| WFun (d : did)
| WNode (f : fid) (cache : option value) (args_cache : option (list value)) (deps : list wz).

(** dependencies.md:42 [std::tuple{dependencies()...}], left to right. *)
Definition wcalls_with (call : wz -> W -> res value * wz * W * list event) :=
  fix calls (ds : list wz) (w : W) : res (list value) * list wz * W * list event :=
    match ds with
    | [] => (Ok [], [], w, [])
    | d :: ds' =>
        let '(r, d', w1, l1) := call d w in
        match r with
        | Ok x =>
            let '(rs, ds'', w2, l2) := calls ds' w1 in
            (match rs with Ok xs => Ok (x :: xs) | Exc => Exc | UB => UB end,
             d' :: ds'', w2, l1 ++ l2)
        | Exc => (Exc, d' :: ds', w1, l1)
        | UB => (UB, d' :: ds', w1, l1)
        end
    end.

(** dependencies.md:43 [args != dependencies_cache] *)
Definition args_differ (args_cache : option (list value)) (args : list value) : bool :=
  match args_cache with
  | None => true
  | Some old => negb (veq (aeq U) (VTuple old) (VTuple args))
  end.

(** dependencies.md:41-49, a call. *)
Fixpoint wcall (l : wz) (w : W) {struct l} : res value * wz * W * list event :=
  match l with
  | WConst v => (Ok v, l, w, [])
  | WFun d =>
      let '(r, w') := dsem U d w in
      (match r with VRet v => Ok v | VThrow => Exc end, l, w', [EvSample d])
  | WNode f cache args_cache deps =>
      let '(rs, deps', w1, l1) := wcalls_with wcall deps w in
      match rs with
      | Ok vs =>
          let args := ctad_tuple as_tuple vs in
          if negb (is_some cache) || args_differ args_cache args then
            let '(r, w2) := sem U f args w1 in
            match regularized r with
            | VRet v => (Ok v, WNode f (Some v) (Some args) deps', w2, l1 ++ [EvCall f args])
            | VThrow => (Exc, WNode f cache args_cache deps', w2, l1 ++ [EvCall f args])
            end
          else
            (match cache with Some c => Ok c | None => UB end, WNode f cache args_cache deps', w1, l1)
      | Exc => (Exc, WNode f cache args_cache deps', w1, l1)
      | UB => (UB, WNode f cache args_cache deps', w1, l1)
      end
  end.

(** syntactic_sugar.md:15-25: what a dependency becomes. *)
Definition wdep_of (vs : list wz) (s : depspec A did) : option wz :=
  match s with
  | DVar x => nth_error vs x
  | DFun d => Some (WFun d)
  | DConst v => Some (WConst v)
  end.

Fixpoint wdeps_of (vs : list wz) (ss : list (depspec A did)) : option (list wz) :=
  match ss with
  | [] => Some []
  | s :: ss' =>
      match wdep_of vs s, wdeps_of vs ss' with
      | Some o, Some os => Some (o :: os)
      | _, _ => None
      end
  end.

(** Programs, as [LazyModel.run]. *)
Fixpoint wrun (p : list op) (vs : list wz) (w : W) : option (list (output A fid did)) :=
  match p with
  | [] => Some []
  | o :: p' =>
      match (match o with
             | New f ss =>
                 match wdeps_of vs ss with
                 | Some ds => Some (vs ++ [WNode f None None ds], w, (None, []))
                 | None => None
                 end
             | Copy x =>
                 match nth_error vs x with
                 | Some l => Some (vs ++ [l], w, (None, []))
                 | None => None
                 end
             | Call x =>
                 match nth_error vs x with
                 | Some l =>
                     let '(r, l', w', lg) := wcall l w in
                     Some (update x l' vs, w',
                           (Some (api_result match r with Ok v => Ok (v, false) | Exc => Exc | UB => UB end), lg))
                 | None => None
                 end
             | Env h => Some (vs, h w, (None, []))
             end) with
      | Some (vs1, w1, out) =>
          match wrun p' vs1 w1 with Some outs => Some (out :: outs) | None => None end
      | None => None
      end
  end.

(** ** docs/walkthrough/final_design.md:23-68, comparisons.md

    The dependencies are asked for changes, from left to right up to the first change,
    and, if there is one, called again for their values (in the order of the arguments;
    C++ leaves it open).  The rest is as in src/pigro/lazy.h. *)

(** final_design.md:27 [(dependencies(nullptr).is_changed || ...)] *)
Definition fany_with (call : lz -> W -> res (value * bool) * lz * W * list event) :=
  fix fany (ds : list lz) (w : W) : res bool * list lz * W * list event :=
    match ds with
    | [] => (Ok false, [], w, [])
    | d :: ds' =>
        let '(r, d', w1, l1) := call d w in
        match r with
        | Ok x =>
            if snd x then (Ok true, d' :: ds', w1, l1)
            else let '(rs, ds'', w2, l2) := fany ds' w1 in (rs, d' :: ds'', w2, l1 ++ l2)
        | Exc => (Exc, d' :: ds', w1, l1)
        | UB => (UB, d' :: ds', w1, l1)
        end
    end.

(** final_design.md:23-36 [lazy_core].  A dependency is called up to twice in a row, so the recursion is on
    [n], a bound on the nesting; too small a bound gives [UB] ([depth] is enough). *)
Fixpoint fcall_n (n : nat) (l : lz) (w : W) {struct n} : res (value * bool) * lz * W * list event :=
  match n, l with
  | _, LValue v ch => (Ok (v, ch), LValue v ch, w, [])
  | O, LCore _ _ _ => (UB, l, w, [])
  | S n', LCore g cache deps =>
      let '(changed, deps1, w1, l1) :=
        match cache with None => (Ok true, deps, w, []) | Some _ => fany_with (fcall_n n') deps w end in
      match changed with
      | Ok true =>
          (* auto result = f(dependencies(nullptr).value...); *)
          let '(rs, deps2, w2, l2) := steps_with (fcall_n n') deps1 w1 in
          match rs with
          | Ok xs =>
              match call_fn U g (map fst xs) w2 with
              | (VThrow, w3, lg) => (Exc, LCore g cache deps2, w3, l1 ++ l2 ++ lg)
              | (VRet result, w3, lg) =>
                  let '(changed', lc) := opt_neq U cache result in
                  (Ok (result, changed'), LCore g (Some result) deps2, w3, l1 ++ l2 ++ lg ++ lc)
              end
          | Exc => (Exc, LCore g cache deps2, w2, l1 ++ l2)
          | UB => (UB, LCore g cache deps2, w2, l1 ++ l2)
          end
      | Ok false =>
          (match cache with Some c => Ok (c, false) | None => UB end, LCore g cache deps1, w1, l1)
      | Exc => (Exc, LCore g cache deps1, w1, l1)
      | UB => (UB, LCore g cache deps1, w1, l1)
      end
  end.

(** How deeply lazy functions are nested. *)
Fixpoint depth (l : lz) : nat :=
  match l with
  | LValue _ _ => 0
  | LCore _ _ deps => S (list_max (map depth deps))
  end.

Definition fcall (l : lz) (w : W) : res (value * bool) * lz * W * list event :=
  fcall_n (depth l) l w.

(** Programs, as [LazyModel.run]. *)
Definition fexec (o : op) (s : pstate A W fid did) : option (pstate A W fid did * output A fid did) :=
  match o with
  | Call x =>
      match nth_error (vars s) x with
      | Some l =>
          let '(r, l', w', lg) := fcall l (world s) in
          Some (mkState (update x l' (vars s)) w', (Some (api_result r), lg))
      | None => None
      end
  | _ => exec U o s
  end.

Fixpoint frun (p : list op) (s : pstate A W fid did) : option (pstate A W fid did * list (output A fid did)) :=
  match p with
  | [] => Some (s, [])
  | o :: p' =>
      match fexec o s with
      | Some (s1, out) =>
          match frun p' s1 with
          | Some (s2, outs) => Some (s2, out :: outs)
          | None => None
          end
      | None => None
      end
  end.

End Doc.
Arguments wz : clear implicits.
