(** regular_void.h (C43). *)
From Coq Require Import List Bool Arith Lia.
From Verif Require Import Value Machine MachineSpec MachineSpec2 MachineLib Composed MachineThms BindSpec SeqThms RegularVoid.
Import ListNotations.

(** ** optional<regular_void> *)
Definition ov_abs (o : opt_void) : option unit := if ov_engaged o then Some tt else None.

Notation cstep := (opt_step ov_none ov_some ov_assign ov_bool (fun o => Some (ov_deref o)) ov_eq ov_neq).
Notation astep := (opt_step None Some opt_assign opt_bool opt_deref (opt_eq regular_void_eq) (opt_neq regular_void_eq)).

Lemma opt_steps op a b :
  match op with Deref l => (if l then ov_abs a else ov_abs b) <> None | _ => True end ->
  snd (cstep (a, b) op) = snd (astep (ov_abs a, ov_abs b) op) /\
  fst (astep (ov_abs a, ov_abs b) op) = (ov_abs (fst (fst (cstep (a, b) op))), ov_abs (snd (fst (cstep (a, b) op)))).
Proof.
  intros H. destruct op as [l|l|l|l|l|l| | |l|l]; try destruct l; destruct a as [[|]], b as [[|]]; cbn in *;
    try (now elim H); auto.
Qed.

Lemma opt_runs : forall ops a b,
  deref_engaged (ov_abs a, ov_abs b) ops ->
  opt_run ov_none ov_some ov_assign ov_bool (fun o => Some (ov_deref o)) ov_eq ov_neq (a, b) ops =
  opt_run None Some opt_assign opt_bool opt_deref (opt_eq regular_void_eq) (opt_neq regular_void_eq) (ov_abs a, ov_abs b) ops.
Proof.
  induction ops as [|op ops IH]; intros a b H; [reflexivity|].
  cbn [deref_engaged] in H. destruct H as [Hd H].
  destruct (opt_steps op a b Hd) as [H1 H2]. cbn [opt_run]. rewrite H2 in H.
  destruct (cstep (a, b) op) as [[a' b'] o]. destruct (astep (ov_abs a, ov_abs b) op) as [s' o'].
  cbn [fst snd] in *. subst o' s'. f_equal. now apply IH.
Qed.

Theorem optional_void ops : deref_engaged (None, None) ops -> run_opt_void ops = run_optional ops.
Proof. intros H. apply (opt_runs ops ov_none ov_none H). Qed.

(** ** Calls *)
Section Calls.
Context {A W F S : Type}.
Notation value := (val A).
Notation obj := (obj A F S).
Notation mstate := (mstate A W F S).
Notation mevent := (mevent A F).
Notation M := (M A W F S).
Notation data := (@Machine.data A F S).
Variable ve : value -> bool.
Variable C : config.
Variable U : muser A W F S.
Hypothesis as_written : byref C = false.
Implicit Type st : mstate.

(** [unregularized_void(g)] for a function object that returns values. *)
Lemma unreg_fn n g G : fn_ok ve C U n g G ->
  forall m st r args vs, 3 + n <= m ->
  holds (store st) r (right_obj (Node KUnreg []) [g]) ->
  Forall2 (fun a v => holds (store st) (aref a) (data v)) args vs ->
  let '(o, w', l) := G vs (mworld st) in
  exists cells,
    invoke ve C U m r args st =
    (match o with Done v => returned (Done v) | Err e => Err e end, mkSt (store st ++ map (@dead A F S) cells) w' (trace st ++ l)).
Proof.
  intros HG m st r args vs Hm Hr Ha.
  destruct m as [|[|[|m]]]; try lia.
  destruct (front_tuple_call ve C U (1 + m) r args st (Node KUnreg []) [g] (map data vs) Hr)
    as (cells & x & es & bs & Hi & Hx & He & Hb & _).
  { now apply Forall2_map_r. }
  cbv zeta in *.
  set (st' := mkSt (store st ++ cells) (mworld st) (trace st)) in *.
  inversion He as [|ua ? es' ? Hua He']; subst. inversion He'; subst.
  change (Datatypes.S (Datatypes.S (Datatypes.S m))) with (2 + (1 + m)).
  rewrite Hi. clear Hi. change (1 + m) with (Datatypes.S m). cbn [app].
  rewrite (invoke_S _ _ _ _ _ _ _ _ Hx). cbn [kind_of call_unreg].
  rewrite scoped_eq. unfold param. rewrite as_written.
  erewrite bind_done by (apply by_value_ok; exact Hua).
  erewrite bind_done.
  2: { apply (by_value_all ve C (LVs bs) (map data vs)). cbn [store]. apply Forall2_holds_app.
       unfold LVs. apply Forall2_map_l. exact Hb. }
  cbn [store mworld trace].
  set (sto := (store st ++ cells) ++ [(true, g)]).
  set (st2 := mkSt (sto ++ map (fun o => (true, o)) (map data vs)) (mworld st) (trace st)).
  assert (Hargs : Forall2 (fun a v => holds (store st2) (aref a) (data v)) (LVs (locals (length sto) (length (map data vs)))) vs).
  { pose proof (locals_hold sto [] (map data vs) (length sto) eq_refl) as H. rewrite app_nil_r in H.
    unfold LVs. apply Forall2_map_l. apply (proj1 (Forall2_map_r _ _ _ _)) in H. exact H. }
  assert (Hg : holds (store st2) (length (store st'), []) g).
  { cbn [st2 store]. apply holds_app. apply holds_new. }
  pose proof (HG m st2 _ _ vs ltac:(lia) Hg Hargs) as H1. change (mworld st2) with (mworld st) in H1.
  change (trace st2) with (trace st) in H1.
  destruct (G vs (mworld st)) as [[o w'] l]. destruct H1 as (c1 & H1).
  assert (Es : store st2 ++ c1 = store st ++ cells ++ [(true, g)] ++ map (fun o => (true, o)) (map data vs) ++ c1).
  { cbn [st2 store]. unfold sto. now rewrite <- !app_assoc. }
  rewrite Es in H1. unfold LVs in H1.
  change (length (store st')) with (length (store st ++ cells)) in *.
  destruct o as [v|e].
  - erewrite bind_done by exact H1.
    destruct v as [y| |y|y z|y]; cbn [Machine.data to_obj returned]; rewrite ?bind_ret; unfold ret;
      rewrite closing_ge, closing_app by (rewrite app_length; lia); eexists; reflexivity.
  - erewrite bind_err by exact H1.
    rewrite closing_ge, closing_app by (rewrite app_length; lia). eexists; reflexivity.
Qed.

(** Called repeatedly, through local variables. *)
Section Repeat.
Variables (n : nat) (o : obj) (f : F) (s : option S) (norm : outcome (option value) -> outcome (option value)).
Hypothesis one_call : forall st r args vs,
  holds (store st) r o ->
  Forall2 (fun a v => holds (store st) (aref a) (data v)) args vs ->
  let '(u, w', l) := ucall U f s vs (mworld st) in
  exists cells res,
    invoke ve C U n r args st = (res, mkSt (store st ++ cells) w' (trace st ++ l)) /\
    forall st', (let (x, st1) := (match res with Done x => observe ve C x st' | Err e => (Err e, st') end) in
                 x = norm u /\ st1 = st').

Lemma repeat_calls : forall vss st r,
  holds (store st) r o ->
  let '(us, w', l) := ucall_each U f s vss (mworld st) in
  exists cells,
    call_each ve C U n r vss st = (map norm us, mkSt (store st ++ map (@dead A F S) cells) w' (trace st ++ l)).
Proof.
  induction vss as [|vs vss IH]; intros st r Hr; cbn [ucall_each call_each].
  - exists []. cbn [map]. now rewrite !app_nil_r, st_eta.
  - unfold call_with. rewrite scoped_eq. erewrite bind_done by apply alloc_all.
    set (L := length (store st)). set (lc := locals L (length vs)).
    set (st1 := mkSt (store st ++ map (fun v => (true, data v)) vs) (mworld st) (trace st)).
    assert (Hargs : Forall2 (fun a v => holds (store st1) (aref a) (data v)) (LVs lc) vs).
    { apply holds_vals. apply locals_LV. }
    assert (Hr1 : holds (store st1) r o) by (now apply holds_app).
    pose proof (one_call st1 r (LVs lc) vs Hr1 Hargs) as H1. change (mworld st1) with (mworld st) in H1.
    change (trace st1) with (trace st) in H1.
    destruct (ucall U f s vs (mworld st)) as [[u w1] l1]. destruct H1 as (c1 & res & E1 & Ho).
    set (st2 := mkSt (store st1 ++ c1) w1 (trace st ++ l1)) in *.
    assert (Eb : bind (invoke ve C U n r (LVs lc)) (fun x => observe ve C x) st1 = (norm u, st2)).
    { unfold bind. rewrite E1. specialize (Ho st2). destruct res as [x|e].
      - destruct (observe ve C x st2). destruct Ho as [-> ->]. reflexivity.
      - destruct Ho as [<- _]. reflexivity. }
    fold st1. rewrite Eb. unfold closing. cbn [fst snd st2 store mworld trace st1].
    unfold L. rewrite <- app_assoc, kill_app.
    set (c2 := map (fun v => (true, data v)) vs ++ c1).
    specialize (IH (mkSt (store st ++ map (@dead A F S) c2) w1 (trace st ++ l1)) r).
    cbn [store mworld trace] in IH. specialize (IH ltac:(now apply holds_app)).
    destruct (ucall_each U f s vss w1) as [[us w2] l2]. destruct IH as (c3 & IH). rewrite IH.
    exists (c2 ++ c3). rewrite map_app, <- !app_assoc. reflexivity.
Qed.
End Repeat.

Lemma observe_value st v : observe ve C (RVal (data v)) st = (Done (Some v), st).
Proof. reflexivity. Qed.

Lemma regular_calls n f s : forall vss st r,
  holds (store st) r (reg_obj (fun_obj f s)) ->
  let '(us, w', l) := ucall_each U f s vss (mworld st) in
  exists cells,
    call_each ve C U (4 + n) r vss st = (map regular us, mkSt (store st ++ map (@dead A F S) cells) w' (trace st ++ l)).
Proof.
  apply repeat_calls. intros st r args vs Hr Ha.
  pose proof (reg_ok ve C U as_written f s (4 + n) st r args vs ltac:(lia) Hr Ha) as H. unfold fcall in H.
  destruct (ucall U f s vs (mworld st)) as [[u w'] l]. destruct H as (cells & H).
  destruct u as [[v|]|e]; (eexists _, _; split; [exact H|]); intros st'; cbn; auto.
Qed.

(** [unregularized_void(f)] for a user's function. *)
Lemma unreg_user n f s : no_void_ref U f s ->
  forall st r args vs,
  holds (store st) r (right_obj (Node KUnreg []) [fun_obj f s]) ->
  Forall2 (fun a v => holds (store st) (aref a) (data v)) args vs ->
  let '(u, w', l) := ucall U f s vs (mworld st) in
  exists cells,
    invoke ve C U (4 + n) r args st =
    (match u with Done None => Done RVoid | Done (Some v) => returned (Done v) | Err e => Err e end,
     mkSt (store st ++ cells) w' (trace st ++ l)).
Proof.
  intros Hnv st r args vs Hr Ha.
  destruct (front_tuple_call ve C U (2 + n) r args st (Node KUnreg []) [fun_obj f s] (map data vs) Hr)
    as (cells & x & es & bs & Hi & Hx & He & Hb & _).
  { now apply Forall2_map_r. }
  cbv zeta in *.
  set (st' := mkSt (store st ++ cells) (mworld st) (trace st)) in *.
  inversion He as [|fa ? es' ? Hfa He']; subst. inversion He'; subst.
  change (4 + n) with (2 + (2 + n)).
  rewrite Hi. clear Hi. cbn [app].
  change (2 + n) with (Datatypes.S (Datatypes.S n)).
  rewrite (invoke_S _ _ _ _ _ _ _ _ Hx). cbn [kind_of]. unfold call_unreg. rewrite scoped_eq.
  unfold param. rewrite as_written.
  erewrite bind_done by (apply by_value_ok; exact Hfa).
  erewrite bind_done.
  2: { apply (by_value_all ve C (LVs bs) (map data vs)). cbn [store]. apply Forall2_holds_app.
       unfold LVs. apply Forall2_map_l. exact Hb. }
  cbn [store mworld trace].
  rewrite map_map. set (sto := (store st ++ cells) ++ [(true, fun_obj f s)]).
  pose proof (call_local ve C U (store st ++ cells) f s vs
                (mkSt (sto ++ map (fun v => (true, data v)) vs) (mworld st) (trace st))
                (LVs (locals (length sto) (length (map data vs)))) n) as HL.
  cbn [store mworld trace] in HL.
  unfold ucall. specialize (Hnv vs (mworld st)).
  destruct (usem U f s vs (mworld st)) as [[[s' vs'] u] w'] eqn:Hu.
  specialize (HL ltac:(unfold sto; now rewrite <- app_assoc)).
  specialize (HL ltac:(unfold sto; rewrite map_length, app_length; cbn; now rewrite Nat.add_1_r)).
  set (pars := LVs (locals (length sto) (length (map data vs)))) in *.
  set (loc := (true, fun_obj f (new_state s s')) :: map (fun v : value => (true, data v)) (overwrite vs vs')) in *.
  assert (G : forall i v, nth_error (overwrite vs vs') i = Some v ->
     exists p, nth_error pars i = Some p /\ holds ((store st ++ cells) ++ loc) (aref p) (data v)).
  { intros i v Hv.
    destruct (local_holds i (overwrite vs vs') v ((store st ++ cells) ++ [(true, fun_obj f (new_state s s'))])
                (length sto)) as [H1 H2].
    { unfold sto. now rewrite !app_length. }
    { exact Hv. }
    rewrite overwrite_length in H1. rewrite <- app_assoc in H2.
    unfold pars. rewrite map_length. eexists; split; [exact H1|exact H2]. }
  assert (El : length pars = length (overwrite vs vs')).
  { unfold pars, LVs, locals. rewrite !map_length, seq_length. symmetry. apply overwrite_length. }
  change (length (store st')) with (length (store st ++ cells)).
  destruct u as [v|i| |].
  - erewrite bind_done by exact HL. cbn [ures_result].
    destruct v as [y| |y|y z|y]; cbn [Machine.data to_obj returned]; rewrite ?bind_ret; unfold ret;
    eexists; rewrite closing_app, <- app_assoc, closing_app; reflexivity.
  - cbn [ures_result] in HL. destruct (nth_error (overwrite vs vs') i) as [v|] eqn:Ev.
    + destruct (G _ _ Ev) as (p & Hp & Hph). rewrite Hp in HL.
      erewrite bind_done by exact HL. cbn [to_obj].
      erewrite bind_done by (apply read_ok; cbn [store]; exact Hph). unfold ret.
      assert (Hv : returned (Done v) = Done (RVal (data v))) by (destruct v; (reflexivity || now elim Hnv)).
      rewrite Hv.
      eexists. rewrite closing_app, <- app_assoc, closing_app. reflexivity.
    + rewrite (proj2 (nth_error_None pars i)) in HL.
      2: { rewrite El. now apply nth_error_None. }
      erewrite bind_err by exact HL.
      eexists. rewrite closing_app, <- app_assoc, closing_app. reflexivity.
  - erewrite bind_done by exact HL. cbn [ures_result]. unfold ret.
    eexists. rewrite closing_app, <- app_assoc, closing_app. reflexivity.
  - erewrite bind_err by exact HL.
    eexists. rewrite closing_app, <- app_assoc, closing_app. reflexivity.
Qed.

Lemma unregular_calls n f s : no_void_ref U f s -> forall vss st r,
  holds (store st) r (right_obj (Node KUnreg []) [fun_obj f s]) ->
  let '(us, w', l) := ucall_each U f s vss (mworld st) in
  exists cells,
    call_each ve C U (4 + n) r vss st = (map unregular us, mkSt (store st ++ map (@dead A F S) cells) w' (trace st ++ l)).
Proof.
  intros Hnv. apply repeat_calls. intros st r args vs Hr Ha.
  pose proof (unreg_user n f s Hnv st r args vs Hr Ha) as H.
  destruct (ucall U f s vs (mworld st)) as [[u w'] l]. destruct H as (cells & H).
  destruct u as [[v|]|e]; (eexists _, _; split; [exact H|]); intros st'; cbn; auto.
  destruct v; cbn; auto.
Qed.

Theorem unregularized_run n st fa f s :
  no_void_ref U f s -> holds (store st) (aref fa) (fun_obj f s) ->
  exists r st1,
    bind (unregularized_void ve C fa) alloc st = (Done r, st1) /\
    (exists cells, st1 = mkSt (store st ++ cells) (mworld st) (trace st)) /\
    forall vss,
    let '(us, w2, l2) := ucall_each U f s vss (mworld st) in
    exists cells,
      call_each ve C U (4 + n) r vss st1 = (map unregular us, mkSt (store st1 ++ map (@dead A F S) cells) w2 (trace st ++ l2)).
Proof.
  intros Hnv Hf. destruct (unregularized_ok ve C st fa _ Hf) as (c & E).
  eexists _, _. split; [|split].
  - erewrite bind_done by exact E. reflexivity.
  - cbn [store mworld trace]. rewrite <- app_assoc. eexists. reflexivity.
  - intros vss. cbn [store].
    match goal with |- context [call_each _ _ _ _ ?r _ ?st1] => pose proof (unregular_calls n f s Hnv vss st1 r) as H end.
    cbn [store mworld trace] in H. apply H. apply holds_new.
Qed.

Lemma round_trip_calls n f s : forall vss st r,
  holds (store st) r (right_obj (Node KUnreg []) [reg_obj (fun_obj f s)]) ->
  let '(us, w', l) := ucall_each U f s vss (mworld st) in
  exists cells,
    call_each ve C U (7 + n) r vss st = (map unregular us, mkSt (store st ++ map (@dead A F S) cells) w' (trace st ++ l)).
Proof.
  apply repeat_calls. intros st r args vs Hr Ha.
  pose proof (unreg_fn 4 _ _ (reg_ok ve C U as_written f s) (7 + n) st r args vs ltac:(lia) Hr Ha) as H. unfold fcall in H.
  destruct (ucall U f s vs (mworld st)) as [[u w'] l]. destruct H as (cells & H).
  destruct u as [[v|]|e]; (eexists _, _; split; [exact H|]); intros st'; cbn; auto.
  destruct v; cbn; auto.
Qed.

(** From construction on. *)
Theorem regularized_run n st fa f s :
  holds (store st) (aref fa) (fun_obj f s) ->
  exists r st1,
    bind (regularized_void ve C fa) alloc st = (Done r, st1) /\
    (exists cells, st1 = mkSt (store st ++ cells) (mworld st) (trace st)) /\
    forall vss,
    let '(us, w2, l2) := ucall_each U f s vss (mworld st) in
    exists cells,
      call_each ve C U (4 + n) r vss st1 = (map regular us, mkSt (store st1 ++ map (@dead A F S) cells) w2 (trace st ++ l2)).
Proof.
  intros Hf. destruct (regularized_ok ve C st fa _ Hf) as (c & E).
  eexists _, _. split; [|split].
  - erewrite bind_done by exact E. reflexivity.
  - cbn [store mworld trace]. rewrite <- app_assoc. eexists. reflexivity.
  - intros vss. cbn [store].
    match goal with |- context [call_each _ _ _ _ ?r _ ?st1] => pose proof (regular_calls n f s vss st1 r) as H end.
    cbn [store mworld trace] in H. apply H. apply holds_new.
Qed.

Theorem round_trip_run n st fa f s :
  holds (store st) (aref fa) (fun_obj f s) ->
  exists r st1,
    bind (regularized_void ve C fa) (fun o => bind (temp o) (fun a => bind (unregularized_void ve C a) alloc)) st = (Done r, st1) /\
    (exists cells, st1 = mkSt (store st ++ cells) (mworld st) (trace st)) /\
    forall vss,
    let '(us, w2, l2) := ucall_each U f s vss (mworld st) in
    exists cells,
      call_each ve C U (7 + n) r vss st1 = (map unregular us, mkSt (store st1 ++ map (@dead A F S) cells) w2 (trace st ++ l2)).
Proof.
  intros Hf. destruct (regularized_ok ve C st fa _ Hf) as (c & E).
  set (st1 := mkSt (store st ++ c) (mworld st) (trace st)) in *.
  set (st2 := mkSt (store st1 ++ [(true, reg_obj (fun_obj f s))]) (mworld st) (trace st)).
  assert (Ha : holds (store st2) (aref (mkArg (length (store st1), []) RV)) (reg_obj (fun_obj f s))).
  { cbn [aref st2 store]. apply holds_new. }
  destruct (unregularized_ok ve C st2 _ _ Ha) as (c2 & E2).
  eexists _, _. split; [|split].
  - erewrite bind_done by exact E. erewrite bind_done by reflexivity. erewrite bind_done by exact E2. reflexivity.
  - cbn [store mworld trace st1 st2]. rewrite <- !app_assoc. eexists. reflexivity.
  - intros vss. 
    match goal with |- context [call_each _ _ _ _ ?r _ ?st1] => pose proof (round_trip_calls n f s vss st1 r) as H end.
    cbn [store mworld trace] in H |- *. apply H. apply holds_new.
Qed.

End Calls.
