(** Lazy functions as functions on sequences of moments (C62): what a lazy function
    does when it is called in the outside worlds [ws], one after the other, given by
    what its dependencies do.  No caches and no state: what a part did before is read
    off its own earlier results.  User functions may throw, read the outside world and
    compare as they like. *)
From Coq Require Import List Bool Arith.
From Verif Require Import Value LazyModel LazySpec.
Import ListNotations.

Section Spec.
Context {A W fid did : Type}.
Notation value := (val A).
Notation event := (event A fid did).
Variable U : user A W fid did.

(** One call: its result (value and flag) and its actions. *)
Definition call_record : Type := res (value * bool) * list event.

(** The value of the latest successful call; [past] lists the calls, latest first. *)
Fixpoint latest (past : list call_record) : option value :=
  match past with
  | [] => None
  | (Ok (v, _), _) :: _ => Some v
  | _ :: past' => latest past'
  end.

(** A function of a single tuple or pair gets its elements (C19). *)
Definition spread (vs : list value) : list value :=
  match vs with
  | [VTuple l] => l
  | [VPair x y] => [x; y]
  | _ => vs
  end.

(** A wrapped function, given what its dependencies did at each moment.  It is called
    if all of them returned, and it never returned before or one of them reports a
    change.  A result is reported as a change if it differs from the latest result
    (however old).  If the function is not called, the latest result is returned. *)
Section Node.
Variable call : list value -> W -> option value.
Variable action : list value -> event.

Definition respond (past : list call_record) (w : W) (deps : res (list (value * bool)) * list event)
    : call_record :=
  match deps with
  | (Ok rs, lg) =>
      if match latest past with None => true | Some _ => existsb snd rs end then
        let args := spread (map fst rs) in
        match call args w with
        | Some v =>
            (Ok (v, opt_ne (aeq U) (latest past) v),
             lg ++ action args :: match latest past with None => [] | Some u => [EvCmp u v] end)
        | None => (Exc, lg ++ [action args])
        end
      else (match latest past with Some u => Ok (u, false) | None => Exc end, lg)
  | (_, lg) => (Exc, lg)
  end.

Fixpoint responses (past : list call_record) (ws : list W)
    (deps : list (res (list (value * bool)) * list event)) : list call_record :=
  match ws, deps with
  | w :: ws', d :: deps' =>
      let r := respond past w d in r :: responses (r :: past) ws' deps'
  | _, _ => []
  end.
End Node.

(** The moments at which the calls returned. *)
Fixpoint returned_at (ws : list W) (rs : list call_record) : list W :=
  match ws, rs with
  | w :: ws', (Ok _, _) :: rs' => w :: returned_at ws' rs'
  | _ :: ws', _ :: rs' => returned_at ws' rs'
  | _, _ => []
  end.

(** A dependency and those to its right, which are called only if it returns. *)
Fixpoint followed_by (rs : list call_record) (rest : list (res (list (value * bool)) * list event))
    : list (res (list (value * bool)) * list event) :=
  match rs with
  | [] => []
  | (Ok x, lg) :: rs' =>
      match rest with
      | [] => []
      | (Ok xs, lg2) :: rest' => (Ok (x :: xs), lg ++ lg2) :: followed_by rs' rest'
      | (_, lg2) :: rest' => (Exc, lg ++ lg2) :: followed_by rs' rest'
      end
  | (_, lg) :: rs' => (Exc, lg) :: followed_by rs' rest
  end.

Definition in_turn (behaviour : expr A fid did -> list W -> list call_record) :=
  fix in_turn (es : list (expr A fid did)) (ws : list W) :=
    match es with
    | [] => map (fun _ => (Ok [], [])) ws
    | e :: es' => followed_by (behaviour e ws) (in_turn es' (returned_at ws (behaviour e ws)))
    end.

(** What a lazy function does when it is called in the worlds [ws].  A value reports no
    change; a plain function is called every time. *)
Fixpoint behaviour (e : expr A fid did) (ws : list W) {struct e} : list call_record :=
  match e with
  | EConst v => map (fun _ => (Ok (v, false), [])) ws
  | EFun d =>
      responses (fun _ w => match fst (dsem U d w) with VRet v => Some v | VThrow => None end)
                (fun _ => EvSample d) [] ws
                (map (fun _ => (Ok [(VVoid, true)], [])) ws)
  | EApp f es =>
      responses (fun args w => match fst (sem U f args w) with
                               | FRet (Some v) => Some v
                               | FRet None => Some VVoid
                               | FThrow => None
                               end)
                (EvCall f) [] ws (in_turn behaviour es ws)
  end.

End Spec.
