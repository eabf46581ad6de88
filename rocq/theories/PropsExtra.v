(** Constants passed lazily, and what the example of reactivity does (C70): the programs of
    docs/walkthrough/extra_laziness.md and reactivity_all_the_way_down.md.
    Statements only. *)
From Coq Require Import List Arith.
From Verif Require Import Value LazyModel LazySpec LazySpec2 StreamSpec ExtraSpec ExtraThms ExtraExamples.
Import ListNotations.

(** C70: passing [lazy(h, vs...)] instead of the value [v] that [h(vs...)] returns shows
    the same in every continuation of the program, except that [h] is called later: never
    when something is created or copied, and at most once by the lazy function it is
    passed to. *)
Theorem C70_extra_laziness :
  forall (A W fid did : Type) (U : user A W fid did) h vs v,
  (forall w, sem U h (spread vs) w = (FRet (Some v), w)) ->
  forall s f ss1 ss2 q s1 outs1,
  let n := length (vars s) in
  let eager := New h (map DConst vs) :: New f (ss1 ++ DConst v :: ss2) :: q in
  let lazy := New h (map DConst vs) :: New f (ss1 ++ DVar n :: ss2) :: q in
  run U eager s = Some (s1, outs1) ->
  exists s2 outs2, run U lazy s = Some (s2, outs2) /\
    Forall2 (fun o1 o2 => fst o1 = fst o2 /\ exists k, inserted (EvCall h (spread vs)) k (snd o1) (snd o2)) outs1 outs2 /\
    exists k, k <= 1 /\
      inserted (EvCall h (spread vs)) k (shown (outputs_of (1 + n) eager outs1)) (shown (outputs_of (1 + n) lazy outs2)).
Proof. exact @extra_laziness. Qed.
Print Assumptions C70_extra_laziness.

Example C70_case :
  (forall w, sem doc_user load_image (spread [VAtom 7]) w = (FRet (Some (VAtom 12)), w)) /\
  (exists s1, run doc_user (New load_image [DConst (VAtom 7)] ::
       New render_mouse_cursor [DFun get_mouse_pos; DConst (VAtom 12)] :: doc_calls) (mkState [] (0, 0)) =
     Some (s1, [(None, []); (None, []); (None, []);
       (Some (Ok (Some (VAtom 72))), [EvSample get_mouse_pos; EvCall render_mouse_cursor [VAtom 3; VAtom 12]]); (None, []);
       (Some (Ok (Some (VAtom 92))), [EvSample get_mouse_pos; EvCmp (VAtom 3) (VAtom 4); EvCall render_mouse_cursor [VAtom 4; VAtom 12];
          EvCmp (VAtom 72) (VAtom 92)])])) /\
  (exists s1, run doc_user (New load_image [DConst (VAtom 7)] ::
       New render_mouse_cursor [DFun get_mouse_pos; DVar 0] :: doc_calls) (mkState [] (0, 0)) =
     Some (s1, [(None, []); (None, []); (None, []);
       (Some (Ok (Some (VAtom 72))), [EvSample get_mouse_pos; EvCall load_image [VAtom 7]; EvCall render_mouse_cursor [VAtom 3; VAtom 12]]); (None, []);
       (Some (Ok (Some (VAtom 92))), [EvSample get_mouse_pos; EvCmp (VAtom 3) (VAtom 4); EvCall render_mouse_cursor [VAtom 4; VAtom 12];
          EvCmp (VAtom 72) (VAtom 92)])])).
Proof. exact ex_C70. Qed.

(** C70: "reactivity all the way down" as written: the cursor follows the position of
    the mouse, but the drawing mode is read at the first call only: [lazy(get_drawing_mode)]
    has no dependencies. *)
Theorem C70_reactivity_as_written :
  forall (A W fid did : Type) (U : user A W fid did) name load render pos name_of load_of render_of pos_of mode mode_of,
  sound_eq U ->
  reads_and_computes U name load render pos name_of load_of render_of pos_of ->
  (forall w, sem U mode [] w = (FRet (Some (VAtom (mode_of w))), w)) ->
  forall w0 ws w, exists s outs,
    run U (reactivity mode name load render pos ++ calls_at 3 (w0 :: ws)) (mkState [] w) = Some (s, outs) /\
    returned outs = map (fun w => Ok (Some (VAtom (render_of (pos_of w) (load_of (name_of (mode_of w0))))))) (w0 :: ws).
Proof. exact @reactivity_written. Qed.
Print Assumptions C70_reactivity_as_written.

(** C70: with [get_drawing_mode] itself as the dependency it follows both. *)
Theorem C70_reactivity_with_function :
  forall (A W fid did : Type) (U : user A W fid did) name load render pos name_of load_of render_of pos_of mode mode_of,
  sound_eq U ->
  reads_and_computes U name load render pos name_of load_of render_of pos_of ->
  (forall w, dsem U mode w = (VRet (VAtom (mode_of w)), w)) ->
  forall ws w, exists s outs,
    run U (reactivity_fun mode name load render pos ++ calls_at 2 ws) (mkState [] w) = Some (s, outs) /\
    returned outs = map (fun w => Ok (Some (VAtom (render_of (pos_of w) (load_of (name_of (mode_of w))))))) ws.
Proof. exact @reactivity_function. Qed.
Print Assumptions C70_reactivity_with_function.

Example C70_reactivity_case :
  reads_and_computes doc_user get_mouse_icon_filename load_image render_mouse_cursor
    get_mouse_pos (fun m => 2 + m) (fun s => 5 + s) (fun p i => 20 * p + i) snd /\
  sound_eq doc_user /\
  (exists s outs, run doc_user (reactivity get_drawing_mode get_mouse_icon_filename load_image render_mouse_cursor get_mouse_pos
       ++ calls_at 3 [(0, 3); (1, 3); (1, 4)]) (mkState [] (0, 0)) = Some (s, outs) /\
     returned outs = [Ok (Some (VAtom 67)); Ok (Some (VAtom 67)); Ok (Some (VAtom 87))]) /\
  (exists s outs, run doc_user (reactivity_fun drawing_mode get_mouse_icon_filename load_image render_mouse_cursor get_mouse_pos
       ++ calls_at 2 [(0, 3); (1, 3); (1, 4)]) (mkState [] (0, 0)) = Some (s, outs) /\
     returned outs = [Ok (Some (VAtom 67)); Ok (Some (VAtom 68)); Ok (Some (VAtom 88))]).
Proof. exact ex_C70_reactivity. Qed.
