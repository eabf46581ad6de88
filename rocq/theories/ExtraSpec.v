(** Vocabulary for the programs of docs/walkthrough/extra_laziness.md and
    reactivity_all_the_way_down.md (C70). *)
From Coq Require Import List.
From Verif Require Import Value LazyModel.
Import ListNotations.

Section Spec.
Context {A W fid did : Type}.
Notation value := (val A).
Notation event := (event A fid did).

(** The second log is the first one with [e] inserted in [k] places. *)
Inductive inserted (e : event) : nat -> list event -> list event -> Prop :=
| inserted_nil : inserted e 0 [] []
| inserted_keep k x l m : inserted e k l m -> inserted e k (x :: l) (x :: m)
| inserted_here k l m : inserted e k l m -> inserted e (S k) l (e :: m).

(** What the calls show, one after the other. *)
Definition shown (outs : list (output A fid did)) : list event := concat (map snd outs).

(** One call of variable [x] in each of the worlds [ws]. *)
Definition calls_at (x : nat) (ws : list W) : list (op A W fid did) :=
  flat_map (fun w => [Env (fun _ => w); Call x]) ws.

Definition returned (outs : list (output A fid did)) : list (res (option value)) :=
  flat_map (fun o => match fst o with Some r => [r] | None => [] end) outs.

(** docs/walkthrough/reactivity_all_the_way_down.md:12-15. *)
Definition reactivity (mode name load render : fid) (pos : did) : list (op A W fid did) :=
  [New mode []; New name [DVar 0]; New load [DVar 1]; New render [DFun pos; DVar 2]].

(** The same, with [get_drawing_mode] itself as the dependency of [filename]. *)
Definition reactivity_fun (mode : did) (name load render : fid) (pos : did) : list (op A W fid did) :=
  [New name [DFun mode]; New load [DVar 0]; New render [DFun pos; DVar 1]].

(** What the functions of that document do: two read the world, the others compute. *)
Record reads_and_computes (U : user A W fid did) (name load render : fid) (pos : did)
    (name_of load_of : A -> A) (render_of : A -> A -> A) (pos_of : W -> A) : Prop := {
  does_name : forall a w, sem U name [VAtom a] w = (FRet (Some (VAtom (name_of a))), w);
  does_load : forall a w, sem U load [VAtom a] w = (FRet (Some (VAtom (load_of a))), w);
  does_render : forall a b w, sem U render [VAtom a; VAtom b] w = (FRet (Some (VAtom (render_of a b))), w);
  does_pos : forall w, dsem U pos w = (VRet (VAtom (pos_of w)), w) }.

End Spec.
