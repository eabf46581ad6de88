(** The programs of docs/walkthrough/extra_laziness.md and
    reactivity_all_the_way_down.md, with numbers (C70). *)
From Coq Require Import List Arith.
From Verif Require Import Value LazyModel LazySpec LazySpec2 StreamSpec ExtraSpec.
Import ListNotations.

Inductive doc_fn := get_drawing_mode | get_mouse_icon_filename | load_image | render_mouse_cursor.
Inductive doc_in := drawing_mode | get_mouse_pos.

(** The world: the drawing mode and the position of the mouse. *)
Definition doc_user : user nat (nat * nat) doc_fn doc_in := {|
  sem := fun f args w =>
    (FRet (match f, args with
           | get_drawing_mode, [] => Some (VAtom (fst w))
           | get_mouse_icon_filename, [VAtom m] => Some (VAtom (2 + m))
           | load_image, [VAtom s] => Some (VAtom (5 + s))
           | render_mouse_cursor, [VAtom p; VAtom i] => Some (VAtom (20 * p + i))
           | _, _ => None
           end), w);
  dsem := fun d w => (VRet (VAtom (match d with drawing_mode => fst w | get_mouse_pos => snd w end)), w);
  aeq := Nat.eqb;
  int0 := 0 |}.

Lemma doc_does : reads_and_computes doc_user get_mouse_icon_filename load_image render_mouse_cursor
  get_mouse_pos (fun m => 2 + m) (fun s => 5 + s) (fun p i => 20 * p + i) snd.
Proof. constructor; reflexivity. Qed.

Lemma doc_eq : sound_eq doc_user.
Proof. intros a b. apply Nat.eqb_eq. Qed.

Definition doc_calls : list (op nat (nat * nat) doc_fn doc_in) :=
  [Env (fun _ => (0, 3)); Call 1; Env (fun _ => (0, 4)); Call 1].

Lemma ex_C70 :
  (forall w, sem doc_user load_image (spread [VAtom 7]) w = (FRet (Some (VAtom 12)), w)) /\
  (exists s1, run doc_user (New load_image [DConst (VAtom 7)] ::
       New render_mouse_cursor [DFun get_mouse_pos; DConst (VAtom 12)] :: doc_calls) (mkState [] (0, 0)) =
     Some (s1, [(None, []); (None, []); (None, []);
       (Some (Ok (Some (VAtom 72))), [EvSample get_mouse_pos; EvCall render_mouse_cursor [VAtom 3; VAtom 12]]); (None, []);
       (Some (Ok (Some (VAtom 92))), [EvSample get_mouse_pos; EvCmp (VAtom 3) (VAtom 4); EvCall render_mouse_cursor [VAtom 4; VAtom 12];
          EvCmp (VAtom 72) (VAtom 92)])])) /\
  (exists s1, run doc_user (New load_image [DConst (VAtom 7)] ::
       New render_mouse_cursor [DFun get_mouse_pos; DVar 0] :: doc_calls) (mkState [] (0, 0)) =
     Some (s1, [(None, []); (None, []); (None, []);
       (Some (Ok (Some (VAtom 72))), [EvSample get_mouse_pos; EvCall load_image [VAtom 7]; EvCall render_mouse_cursor [VAtom 3; VAtom 12]]); (None, []);
       (Some (Ok (Some (VAtom 92))), [EvSample get_mouse_pos; EvCmp (VAtom 3) (VAtom 4); EvCall render_mouse_cursor [VAtom 4; VAtom 12];
          EvCmp (VAtom 72) (VAtom 92)])])).
Proof. split; [reflexivity|]. split; eexists; vm_compute; reflexivity. Qed.

(** The drawing mode changes between the calls. *)
Lemma ex_C70_reactivity :
  reads_and_computes doc_user get_mouse_icon_filename load_image render_mouse_cursor
    get_mouse_pos (fun m => 2 + m) (fun s => 5 + s) (fun p i => 20 * p + i) snd /\
  sound_eq doc_user /\
  (exists s outs, run doc_user (reactivity get_drawing_mode get_mouse_icon_filename load_image render_mouse_cursor get_mouse_pos
       ++ calls_at 3 [(0, 3); (1, 3); (1, 4)]) (mkState [] (0, 0)) = Some (s, outs) /\
     returned outs = [Ok (Some (VAtom 67)); Ok (Some (VAtom 67)); Ok (Some (VAtom 87))]) /\
  (exists s outs, run doc_user (reactivity_fun drawing_mode get_mouse_icon_filename load_image render_mouse_cursor get_mouse_pos
       ++ calls_at 2 [(0, 3); (1, 3); (1, 4)]) (mkState [] (0, 0)) = Some (s, outs) /\
     returned outs = [Ok (Some (VAtom 67)); Ok (Some (VAtom 68)); Ok (Some (VAtom 88))]).
Proof.
  split; [exact doc_does|]. split; [exact doc_eq|]. split; eexists _, _; (split; [vm_compute; reflexivity|reflexivity]).
Qed.
