(** A change of src/pigro/lazy.h under which C15 and C20 hold.  It is not in /repo.

    [LazyResult] (lazy.h:14-25) holds a copy of the value and, instead of [is_changed], a
    version number.  The lambda of lazy.h:46-66 keeps the version number of its cache and
    the version numbers of the arguments it was computed from:
<<
      const auto versions = transform(args, version);
      if (!cache || versions != seen) {
        auto result = apply(transform(args, value), f);
        if (cache != result) ++current;
        cache = std::move(result);
        seen = versions;
      }
      return LazyResult{*cache, current};
>>
    A plain function (lazy.h:82-86, there by an argument that always reports a change) is
    called every time. *)
From Coq Require Import List Bool Arith.
From Verif Require Import Value TupleAlg LazyModel SharedModel.
Import ListNotations.

Section Version.
Context {A W fid did : Type}.
Notation value := (val A).
Notation event := (event A fid did).
Notation sop := (sop A W fid did).
Variable U : user A W fid did.

(** As [slz], with version numbers; plain functions by themselves. *)
Inductive vz :=
| VValue (v : value)
| VFun (d : did) (cache : option value) (current : nat)
| VCore (f : fid) (cache : option value) (current : nat) (seen : list nat) (deps : list vz)
| VRef (x : nat).

(** As [SharedModel.sresult]. *)
Definition vresult : Type := option (res (value * nat) * vz * list vz * W * list event).

(** As [SharedModel.ssteps_with]. *)
Definition vsteps_with (step : vz -> list vz -> W -> vresult) :=
  fix steps (ds : list vz) (vs : list vz) (w : W)
    : option (res (list (value * nat)) * list vz * list vz * W * list event) :=
    match ds with
    | [] => Some (Ok [], [], vs, w, [])
    | d :: ds' =>
        match step d vs w with
        | None => None
        | Some (Ok x, d', vs1, w1, l1) =>
            match steps ds' vs1 w1 with
            | None => None
            | Some (rs, ds'', vs2, w2, l2) =>
                Some (match rs with Ok xs => Ok (x :: xs) | Exc => Exc | UB => UB end,
                      d' :: ds'', vs2, w2, l1 ++ l2)
            end
        | Some (Exc, d', vs1, w1, l1) => Some (Exc, d' :: ds', vs1, w1, l1)
        | Some (UB, d', vs1, w1, l1) => Some (UB, d' :: ds', vs1, w1, l1)
        end
    end.

(** The new version number, and the comparison made for it. *)
Definition next_version (cache : option value) (current : nat) (result : value) : nat * list event :=
  let '(changed, lc) := opt_neq U cache result in (if changed then S current else current, lc).

Definition same_versions (xs ys : list nat) : bool := if list_eq_dec Nat.eq_dec xs ys then true else false.

Fixpoint vstep (n : nat) : vz -> list vz -> W -> vresult :=
  fix go (l : vz) (vs : list vz) (w : W) {struct l} : vresult :=
    match l with
    | VValue v => Some (Ok (v, 0), l, vs, w, [])
    | VFun d cache current =>
        let '(r, w') := dsem U d w in
        Some (match r with
              | VRet v =>
                  let '(current', lc) := next_version cache current v in
                  (Ok (v, current'), VFun d (Some v) current', vs, w', EvSample d :: lc)
              | VThrow => (Exc, l, vs, w', [EvSample d])
              end)
    | VRef x =>
        match n with
        | 0 => None
        | S n' =>
            match nth_error vs x with
            | None => None
            | Some l0 =>
                match vstep n' l0 vs w with
                | None => None
                | Some (r, l0', vs', w', lg) => Some (r, VRef x, update x l0' vs', w', lg)
                end
            end
        end
    | VCore f cache current seen deps =>
        match vsteps_with go deps vs w with
        | None => None
        | Some (Ok rs, deps', vs1, w1, l1) =>
            let versions := map snd rs in
            if negb (is_some cache) || negb (same_versions versions seen) then
              let args := ctad_tuple as_tuple (map fst rs) in
              let '(r, w2) := sem U f args w1 in
              Some (match regularized r with
                    | VRet v =>
                        let '(current', lc) := next_version cache current v in
                        (Ok (v, current'), VCore f (Some v) current' versions deps', vs1, w2, l1 ++ EvCall f args :: lc)
                    | VThrow => (Exc, VCore f cache current seen deps', vs1, w2, l1 ++ [EvCall f args])
                    end)
            else
              Some (match cache with Some c => Ok (c, current) | None => UB end,
                    VCore f cache current seen deps', vs1, w1, l1)
        | Some (Exc, deps', vs1, w1, l1) => Some (Exc, VCore f cache current seen deps', vs1, w1, l1)
        | Some (UB, deps', vs1, w1, l1) => Some (UB, VCore f cache current seen deps', vs1, w1, l1)
        end
    end.

(** ** Programs, as in SharedModel.v *)
Record vstate := mkVState { vvars : list vz; vworld : W }.

Definition vdep_of (vs : list vz) (s : sdep A did) : option vz :=
  match s with
  | SDRef x => match nth_error vs x with Some _ => Some (VRef x) | None => None end
  | SDep (DVar x) => nth_error vs x
  | SDep (DFun d) => Some (VFun d None 0)
  | SDep (DConst v) => Some (VValue v)
  end.
Fixpoint vdeps_of (vs : list vz) (ss : list (sdep A did)) : option (list vz) :=
  match ss with
  | [] => Some []
  | s :: ss' =>
      match vdep_of vs s, vdeps_of vs ss' with
      | Some o, Some os => Some (o :: os)
      | _, _ => None
      end
  end.

(** lazy.h:69-75: only the value is returned to the user. *)
Definition vexec (o : sop) (s : vstate) : option (vstate * output A fid did) :=
  match o with
  | SNew f ss =>
      match vdeps_of (vvars s) ss with
      | Some ds => Some (mkVState (vvars s ++ [VCore f None 0 [] ds]) (vworld s), (None, []))
      | None => None
      end
  | SCopy x =>
      match nth_error (vvars s) x with
      | Some l => Some (mkVState (vvars s ++ [l]) (vworld s), (None, []))
      | None => None
      end
  | SCall x =>
      match nth_error (vvars s) x with
      | Some l =>
          match vstep (length (vvars s)) l (vvars s) (vworld s) with
          | Some (r, l', vs', w', lg) =>
              Some (mkVState (update x l' vs') w',
                    (Some (api_result match r with Ok (v, _) => Ok (v, false) | Exc => Exc | UB => UB end), lg))
          | None => None
          end
      | None => None
      end
  | SEnv h => Some (mkVState (vvars s) (h (vworld s)), (None, []))
  end.
Fixpoint vrun (p : list sop) (s : vstate) : option (vstate * list (output A fid did)) :=
  match p with
  | [] => Some (s, [])
  | o :: p' =>
      match vexec o s with
      | Some (s1, out) =>
          match vrun p' s1 with Some (s2, outs) => Some (s2, out :: outs) | None => None end
      | None => None
      end
  end.
End Version.
Arguments vz : clear implicits.
Arguments vstate : clear implicits.
