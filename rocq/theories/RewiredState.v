(** Proofs for [RewiredStateSpec.v]: with [byref], calls change function objects in place
    exactly as [StateModel] says (C74). *)
From Coq Require Import List Bool Arith Lia.
From Verif Require Import Value Machine MachineSpec MachineLib Composed MachineThms BindSpec Programs
  RewiredSpec Rewired StateModel StateThms RewiredStateSpec.
From Verif Require LazyModel LazyGeneral.
Import ListNotations.

Section RewiredState.
Context {A W F S : Type}.
Notation value := (val A).
Notation obj := (obj A F S).
Notation mstate := (mstate A W F S).
Notation mevent := (mevent A F).
Notation cell := (bool * obj)%type.
Notation slz := (slz A F (option S)).
Notation data := (@Machine.data A F S).
Notation dead := (@MachineLib.dead A F S).
Notation kept_eff := (LazyModel.res (value * bool) * obj * W * list mevent)%type.
Variable ve : value -> bool.
Variable C : config.
Variable U : muser A W F S.
Implicit Type st : mstate.
Implicit Type sto : list cell.
Hypothesis rewired : byref C = true.

Notation invoke := (invoke ve C U).
Notation SU := (state_user U).
Notation state_after f s vs w := (new_state s (fst (fst (fst (usem U f s vs w))))).

(** A call of a function object, with local variables; the object is changed in place. *)
Lemma call_state pre f s vs st args callee n :
  store st = pre ++ map (fun v => (true, data v)) vs ->
  holds pre callee (fun_obj f s) ->
  args = LVs (locals (length pre) (length vs)) ->
  let '(s', vs', r, w') := usem U f s vs (mworld st) in
  invoke (Datatypes.S n) callee args st =
  (ures_result r args,
   mkSt (mset pre callee (fun_obj f (new_state s s')) ++ map (fun v => (true, data v)) (overwrite vs vs'))
     w' (trace st ++ [MCall f vs])).
Proof.
  intros Hs Hc ->.
  destruct (usem U f s vs (mworld st)) as [[[s' vs'] r] w'] eqn:Hu.
  assert (Hh : holds (store st) callee (fun_obj f s)).
  { rewrite Hs. now apply holds_app. }
  rewrite (invoke_S _ _ _ _ _ _ _ _ Hh). cbn [kind_of fun_obj]. unfold call_user.
  erewrite bind_done.
  2: { apply (read_values ve C st _ vs).
       assert (G : Forall2 (holds (store st)) (locals (length pre) (length vs)) (map data vs)).
       { rewrite Hs. rewrite <- (map_length data vs).
         replace (map (fun v : value => (true, data v)) vs)
           with (map (fun o : obj => (true, o)) (map data vs) ++ [])
           by (rewrite app_nil_r, map_map; reflexivity).
         now apply locals_hold. }
       unfold LVs. apply Forall2_map_l. now apply Forall2_map_r. }
  erewrite bind_done by reflexivity.
  erewrite bind_done by (cbn [log mworld store trace]; rewrite Hu; reflexivity).
  cbn [store mworld trace].
  erewrite bind_done by (eapply write_eq; cbn [store]; exact Hh).
  cbn [store mworld trace].
  change (Node (KFun f (new_state s s')) []) with (@fun_obj A F S f (new_state s s')).
  rewrite <- (mset_length pre callee (fun_obj f (new_state s s'))).
  erewrite bind_done.
  2: { apply write_args_locals. cbn [store]. rewrite Hs. apply mset_app. eapply holds_lt. exact Hc. }
  cbn [store mworld trace].
  destruct r as [v|i| |]; try reflexivity.
  cbn [ures_result]. destruct (nth_error _ i); reflexivity.
Qed.

(** [g], called with values, does [G], which says what becomes of [g]. *)
Definition fn_moves (n : nat) (g : obj) (G : list value -> W -> outcome value * obj * W * list mevent) : Prop :=
  forall m st r args vs, n <= m ->
    holds (store st) r g ->
    Forall2 (fun a v => holds (store st) (aref a) (data v)) args vs ->
    let '(o, g', w', l) := G vs (mworld st) in
    exists cells,
      invoke m r args st =
      (match o with Done v => Done (RVal (data v)) | Err e => Err e end,
       mkSt (mset (store st) r g' ++ cells) w' (trace st ++ l)).

Definition wrapping (f : F) (s : option S) (vs : list value) (w : W) : outcome value * obj * W * list mevent :=
  let '(o, w', l) := fcall U f s vs w in (o, reg_obj (fun_obj f (state_after f s vs w)), w', l).
Definition sampling_st (f : F) (s : option S) (vs : list value) (w : W) : outcome value * obj * W * list mevent :=
  match vs with
  | [_] => let '(o, w', l) := dcall U f s w in (o, sample_fn (fun_obj f (state_after f s [] w)), w', l)
  | _ => (Err IllFormed, sample_fn (fun_obj f s), w, [])
  end.

(** The function object in the closure, or a copy of one without state. *)
Lemma fun_place (O : obj -> obj) (base cells : list cell) r f s t a :
  (forall x y, put (O x) [1; 0] y = O y) ->
  holds base r (O (fun_obj f s)) ->
  holds (base ++ cells) a (fun_obj f s) ->
  (obj_empty ve (@fun_obj A F S f s) = false -> a = ext r [1; 0]) ->
  mset (base ++ cells) a (fun_obj f (new_state s t)) = mset base r (O (fun_obj f (new_state s t))) ++ cells.
Proof.
  intros HO Hr Ha He. destruct s as [s|].
  - rewrite (He eq_refl) in *.
    rewrite mset_app by (cbn [ext fst]; eapply holds_lt; exact Hr).
    rewrite (mset_ext _ _ _ _ _ Hr), HO. reflexivity.
  - cbn [new_state]. rewrite (mset_same _ _ _ Ha), (mset_same _ _ _ Hr). reflexivity.
Qed.

Lemma reg_state f s : fn_moves 4 (reg_obj (fun_obj f s)) (wrapping f s).
Proof.
  intros m st r args vs Hm Hr Ha.
  destruct m as [|[|[|[|m]]]]; try lia.
  destruct (front_tuple_call ve C U (2 + m) r args st (Node KReg []) [fun_obj f s] (map data vs) Hr)
    as (cells & x & es & bs & Hi & Hx & He & Hb & _ & _ & Hel & _).
  { now apply Forall2_map_r. }
  cbv zeta in *.
  set (st' := mkSt (store st ++ cells) (mworld st) (trace st)) in *.
  inversion He as [|fa ? es' ? Hfa He']; subst. inversion He'; subst.
  change (Datatypes.S (Datatypes.S (Datatypes.S (Datatypes.S m)))) with (2 + (2 + m)).
  rewrite Hi. clear Hi. cbn [app].
  change (2 + m) with (Datatypes.S (Datatypes.S m)).
  rewrite (invoke_S _ _ _ _ _ _ _ _ Hx). cbn [kind_of]. unfold call_reg. rewrite scoped_eq.
  unfold param. rewrite rewired. rewrite bind_ret.
  erewrite bind_done.
  2: { apply (by_value_all ve C (LVs bs) (map data vs)).
       unfold LVs. apply Forall2_map_l. exact Hb. }
  rewrite map_map, map_length. fold (LVs (locals (length (store st')) (length vs))).
  pose proof (call_state (store st') f s vs
                (mkSt (store st' ++ map (fun v => (true, data v)) vs) (mworld st) (trace st))
                (LVs (locals (length (store st')) (length vs))) (aref fa) m eq_refl Hfa eq_refl) as HL.
  cbn [store mworld trace] in HL |- *.
  unfold wrapping, fcall, ucall.
  destruct (usem U f s vs (mworld st)) as [[[s' vs'] u] w'] eqn:Hu. cbn [fst].
  change (store st') with (store st ++ cells) in *.
  rewrite (fun_place (@reg_obj A F S) (store st) cells r f s s' (aref fa)) in HL; [|reflexivity|exact Hr|exact Hfa|].
  2: { intros Hne. destruct (Hel 0 (fun_obj f s) eq_refl) as [H1 _]. specialize (H1 Hne). cbn in H1.
       injection H1 as ->. cbn [aref]. now rewrite !at_ext, !ext_ext. }
  set (O' := reg_obj (fun_obj f (new_state s s'))) in *.
  assert (El : length (store st) = length (mset (store st) r O')) by (symmetry; apply mset_length).
  assert (El2 : length (store st ++ cells) = length (mset (store st) r O' ++ cells)) by (now rewrite !app_length, <- El).
  assert (Hfin : forall X (y : outcome X) (l : list cell) (w : W) (t : list mevent),
    closing (length (store st)) (closing (length (store st ++ cells))
      (y, mkSt ((mset (store st) r O' ++ cells) ++ l) w t)) =
    (y, mkSt (mset (store st) r O' ++ map dead (cells ++ map dead l)) w t)).
  { intros X y l w t. rewrite (closing_at _ _ _ _ _ _ El2), <- app_assoc, (closing_at _ _ _ _ _ _ El). reflexivity. }
  set (pars := LVs (locals (length (store st ++ cells)) (length vs))) in *.
  assert (G : forall i v, nth_error (overwrite vs vs') i = Some v ->
     exists p, nth_error pars i = Some p /\
       holds ((mset (store st) r O' ++ cells) ++ map (fun v => (true, data v)) (overwrite vs vs')) (aref p) (data v)).
  { intros i v Hv.
    destruct (local_holds i (overwrite vs vs') v (mset (store st) r O' ++ cells) _ eq_refl Hv) as [H1 H2].
    rewrite overwrite_length in H1. unfold pars. rewrite El2. eexists; split; [exact H1|exact H2]. }
  assert (El3 : length pars = length (overwrite vs vs')).
  { unfold pars, LVs, locals. rewrite !map_length, seq_length. symmetry. apply overwrite_length. }
  destruct u as [v|i| |].
  - erewrite bind_done by exact HL. cbn [ures_result to_obj]. rewrite bind_ret. unfold ret.
    eexists. apply Hfin.
  - cbn [ures_result] in HL. destruct (nth_error (overwrite vs vs') i) as [v|] eqn:Ev.
    + destruct (G _ _ Ev) as (p & Hp & Hph). rewrite Hp in HL.
      erewrite bind_done by exact HL. cbn [to_obj].
      erewrite bind_done by (apply read_ok; cbn [store]; exact Hph). unfold ret.
      eexists. apply Hfin.
    + rewrite (proj2 (nth_error_None pars i)) in HL.
      2: { rewrite El3. now apply nth_error_None. }
      erewrite bind_err by exact HL.
      eexists. apply Hfin.
  - erewrite bind_done by exact HL. cbn [ures_result]. unfold ret.
    eexists. apply Hfin.
  - erewrite bind_err by exact HL.
    eexists. apply Hfin.
Qed.

Lemma sample_state f s : fn_moves 4 (sample_fn (fun_obj f s)) (sampling_st f s).
Proof.
  intros m st r args vs Hm Hr Ha.
  destruct m as [|[|[|[|m]]]]; try lia.
  destruct (back_tuple_byref ve C U rewired (2 + m) r args st (Node KSample []) [fun_obj f s] (map data vs) Hr)
    as (cells & x & es & bs & Hi & Hx & He & Hb & _ & Hel).
  { now apply Forall2_map_r. }
  cbv zeta in *.
  set (st' := mkSt (store st ++ cells) (mworld st) (trace st)) in *.
  inversion He as [|fa ? es' ? Hfa He']; subst. inversion He'; subst.
  change (Datatypes.S (Datatypes.S (Datatypes.S (Datatypes.S m)))) with (2 + (2 + m)).
  rewrite Hi. clear Hi.
  change (2 + m) with (Datatypes.S (Datatypes.S m)).
  rewrite (invoke_S _ _ _ _ _ _ _ _ Hx). cbn [kind_of].
  destruct vs as [|v [|v2 vs]]; cbn [map] in Hb.
  - inversion Hb; subst. cbn [RVs map app call_sample sampling_st]. unfold fail.
    exists (map dead cells). unfold st'. rewrite (mset_same _ _ _ Hr), closing_app, app_nil_r. reflexivity.
  - inversion Hb as [|b ? bs' ? Hb1 Hb']; subst. inversion Hb'; subst.
    cbn [RVs map app call_sample sampling_st]. rewrite scoped_eq.
    unfold param. rewrite rewired.
    erewrite bind_done by (apply by_value_ok; exact Hb1).
    rewrite bind_ret.
    set (pre := store st' ++ [(true, data v)]).
    pose proof (call_state pre f s [] (mkSt pre (mworld st) (trace st)) [] (aref fa) m) as HL.
    cbn [store mworld trace map length locals seq LVs] in HL.
    specialize (HL ltac:(now rewrite app_nil_r) ltac:(now apply holds_app) eq_refl).
    unfold dcall, ucall.
    change (mkSt pre (mworld st') (trace st')) with (mkSt pre (mworld st) (trace st)).
    destruct (usem U f s [] (mworld st)) as [[[s' vs'] u] w'] eqn:Hu. cbn [overwrite map] in HL. cbn [fst].
    rewrite app_nil_r in HL. unfold pre in HL. change (store st') with (store st ++ cells) in *.
    rewrite mset_app in HL by (eapply holds_lt; exact Hfa).
    rewrite (fun_place (@sample_fn A F S) (store st) cells r f s s' (aref fa)) in HL; [|reflexivity|exact Hr|exact Hfa|].
    2: { intros Hne. destruct (Hel 0 (fun_obj f s) eq_refl) as [H1 _]. specialize (H1 Hne). cbn in H1.
         injection H1 as ->. cbn [aref]. now rewrite !at_ext, !ext_ext. }
    set (O' := sample_fn (fun_obj f (new_state s s'))) in *.
    assert (El : length (store st) = length (mset (store st) r O')) by (symmetry; apply mset_length).
    assert (El2 : length (store st ++ cells) = length (mset (store st) r O' ++ cells)) by (now rewrite !app_length, <- El).
    assert (Hfin : forall X (y : outcome X) (l : list cell) (w : W) (t : list mevent),
      closing (length (store st)) (closing (length (store st ++ cells))
        (y, mkSt ((mset (store st) r O' ++ cells) ++ l) w t)) =
      (y, mkSt (mset (store st) r O' ++ map dead (cells ++ map dead l)) w t)).
    { intros X y l w t. rewrite (closing_at _ _ _ _ _ _ El2), <- app_assoc, (closing_at _ _ _ _ _ _ El). reflexivity. }
    destruct u as [v'|i| |].
    + erewrite bind_done by exact HL. cbn [ures_result to_obj]. rewrite bind_ret. unfold ret.
      eexists. apply Hfin.
    + cbn [ures_result] in HL. cbn [overwrite].
      assert (E : nth_error (@nil arg) i = None) by (now destruct i).
      rewrite E in HL. assert (E' : nth_error (@nil value) i = None) by (now destruct i).
      rewrite E'. erewrite bind_err by exact HL.
      eexists. apply Hfin.
    + erewrite bind_done by exact HL. cbn [ures_result to_obj]. unfold bind, fail.
      eexists. apply Hfin.
    + erewrite bind_err by exact HL.
      eexists. apply Hfin.
  - inversion Hb as [|b ? bs' ? Hb1 Hb']; subst. inversion Hb' as [|b2 ? bs'' ? Hb2 Hb'']; subst.
    assert (E : call_sample ve C (invoke (Datatypes.S m)) (RVs (b :: b2 :: bs'') ++ [fa]) st' = (Err IllFormed, st')).
    { cbn [RVs map app call_sample]. destruct bs''; reflexivity. }
    rewrite E. cbn [sampling_st].
    exists (map dead cells). unfold st'. rewrite (mset_same _ _ _ Hr), closing_app, app_nil_r. reflexivity.
Qed.

(** ** Nodes *)
Definition sstate (l : slz) (w : W) : kept_eff :=
  let '(r, l', w', lg) := sstep SU l w in (r, state_obj U l', w', map state_event lg).

(** A dependency of empty class has no state. *)
Lemma empty_sdep (l : slz) : obj_empty ve (state_obj U l) = true -> exists v ch, l = SValue v ch.
Proof.
  destruct l as [v ch|f t c ds|f t c]; intros H; [eauto| |]; exfalso; cbn in H;
    repeat rewrite ?andb_false_r, ?andb_false_l in H; discriminate.
Qed.

Lemma sstep_value v ch w : sstep SU (SValue v ch) w = (LazyModel.Ok (v, ch), SValue v ch, w, []).
Proof. reflexivity. Qed.

Lemma state_steps n m base rn x0 c g : n <= m -> holds base rn x0 -> forall ds pre rs st cells,
  Forall (fun l => kdep ve C U n (state_obj U l) (sstate l)) ds ->
  store st = mset base rn (node_obj c g (map (state_obj U) (pre ++ ds))) ++ cells ->
  length rs = length ds ->
  (forall i l r, nth_error ds i = Some l -> nth_error rs i = Some r ->
     holds (store st) r (state_obj U l) /\ place base rn (Datatypes.S (length pre + i)) r /\
     (obj_empty ve (state_obj U l) = false -> r = ext rn [1; Datatypes.S (length pre + i)])) ->
  let '(res, ds', w', lg) := ssteps SU ds (mworld st) in
  length ds' = length ds /\
  exists more,
    let sto' := mset base rn (node_obj c g (map (state_obj U) (pre ++ ds'))) ++ cells ++ more in
    match res with
    | LazyModel.Ok xs => exists os,
        mapM (fun d => scoped (bind (call_null (invoke m) d) (to_obj ve C))) rs st =
          (Done os, mkSt sto' w' (trace st ++ map state_event lg)) /\
        Forall2 (result_ok ve sto') os xs
    | LazyModel.Exc =>
        mapM (fun d => scoped (bind (call_null (invoke m) d) (to_obj ve C))) rs st =
          (Err Throw, mkSt sto' w' (trace st ++ map state_event lg))
    | LazyModel.UB => False
    end.
Proof.
  intros Hm Hbase. induction ds as [|d ds IH]; intros pre rs st cells HD Hst Hlen Hloc.
  - destruct rs; [|discriminate]. cbn. split; [reflexivity|]. exists [], [].
    rewrite !app_nil_r. rewrite app_nil_r in Hst. rewrite <- Hst, st_eta. split; [reflexivity|constructor].
  - destruct rs as [|r rs]; [discriminate|]. injection Hlen as Hlen.
    inversion HD as [|? ? HD1 HD2]; subst.
    destruct (Hloc 0 d r eq_refl eq_refl) as (Hr & Hpl & Hne). rewrite Nat.add_0_r in Hpl, Hne.
    rewrite ssteps_cons. cbn [mapM].
    set (N := node_obj c g (map (state_obj U) (pre ++ d :: ds))) in *.
    set (st1 := mkSt (store st ++ [(true, null)]) (mworld st) (trace st)).
    assert (Hnull : holds (store st1) (length (store st), []) null) by apply holds_new.
    pose proof (HD1 m st1 r (mkArg (length (store st), []) RV) Hm (holds_app _ _ _ _ Hr) Hnull) as H1.
    unfold sstate in H1. cbn [st1 store mworld trace] in H1.
    destruct (sstep SU d (mworld st)) as [[[res1 d'] w1] lg1] eqn:E1.
    cbv zeta in H1. destruct H1 as (c1 & H1).
    (* the store after the call *)
    assert (Eset : mset (store st) r (state_obj U d') =
                   mset base rn (node_obj c g (map (state_obj U) (pre ++ d' :: ds))) ++ cells).
    { destruct (obj_empty ve (state_obj U d)) eqn:Ee.
      - destruct (empty_sdep d Ee) as (v & ch & ->). rewrite sstep_value in E1. injection E1 as _ <- _ _.
        rewrite (mset_same _ _ _ Hr). exact Hst.
      - rewrite (Hne eq_refl), Hst.
        rewrite mset_app by (cbn [ext fst]; rewrite mset_length; eapply holds_lt; exact Hbase).
        rewrite (mset_mset _ _ _ _ _ _ Hbase). unfold N. f_equal. f_equal.
        rewrite !map_app. cbn [map]. rewrite <- (map_length (state_obj U) pre). apply put_dep. }
    assert (Esto : mset (store st ++ [(true, null)]) r (state_obj U d') =
                   (mset base rn (node_obj c g (map (state_obj U) (pre ++ d' :: ds))) ++ cells) ++ [(true, null)]).
    { rewrite mset_app by (eapply holds_lt; exact Hr). now rewrite Eset. }
    rewrite Esto in H1.
    set (N1 := node_obj c g (map (state_obj U) (pre ++ d' :: ds))) in *.
    assert (El : length (store st) = length (mset base rn N1 ++ cells)).
    { rewrite Hst, !app_length, !mset_length. reflexivity. }
    (* the rest of the list sees the new state *)
    set (st2 := mkSt ((mset base rn N1 ++ cells) ++ map dead ([(true, null)] ++ map dead c1)) w1
                  (trace st ++ map state_event lg1)).
    assert (Hcall : forall (o : outcome (result A F S)) (k : obj) (E : outcome obj),
      invoke m r [mkArg (length (store st), []) RV] st1 =
        (o, mkSt (((mset base rn N1 ++ cells) ++ [(true, null)]) ++ map dead c1) w1 (trace st ++ map state_event lg1)) ->
      E = (match o with Done (RVal x) => Done x | Done _ => Done k | Err e => Err e end) ->
      (forall x, o = Done x -> exists y, x = RVal y) ->
      scoped (bind (call_null (invoke m) r) (to_obj ve C)) st = (E, st2)).
    { intros o k E Hinv -> Ho. rewrite scoped_eq. unfold call_null. rewrite bind_assoc.
      erewrite bind_done by reflexivity. fold st1.
      destruct o as [x|e].
      - destruct (Ho x eq_refl) as (y & ->). erewrite bind_done by exact Hinv.
        cbn [to_obj]. unfold ret. rewrite El, <- app_assoc, closing_app. reflexivity.
      - erewrite bind_err by exact Hinv. rewrite El, <- app_assoc, closing_app. reflexivity. }
    assert (Hloc2 : forall i l r', nth_error ds i = Some l -> nth_error rs i = Some r' ->
       holds (store st2) r' (state_obj U l) /\ place base rn (Datatypes.S (length (pre ++ [d']) + i)) r' /\
       (obj_empty ve (state_obj U l) = false -> r' = ext rn [1; Datatypes.S (length (pre ++ [d']) + i)])).
    { intros i l r' Hi Hri. destruct (Hloc (Datatypes.S i) l r' Hi Hri) as (Hh & Hp & Hn').
      assert (Ei : length pre + Datatypes.S i = length (pre ++ [d']) + i) by (rewrite app_length; cbn; lia).
      rewrite Ei in Hp, Hn'. split; [|split; assumption].
      cbn [st2 store]. apply holds_app. destruct Hp as [-> | Hp].
      - apply holds_app. eapply holds_sub; [eapply holds_mset; exact Hbase|].
        rewrite <- (app_nil_r [1; Datatypes.S (length (pre ++ [d']) + i)]).
        unfold N1. erewrite sub_dep; [reflexivity|].
        rewrite nth_error_map. change (pre ++ d' :: ds) with (pre ++ [d'] ++ ds). rewrite app_assoc.
        rewrite nth_error_app2 by lia. replace (length (pre ++ [d']) + i - length (pre ++ [d'])) with i by lia.
        now rewrite Hi.
      - rewrite Hst in Hh. pose proof (holds_tail _ (mset base rn N1) cells [] r' _ Hh) as HT.
        rewrite app_nil_r in HT. apply HT; rewrite !mset_length; [exact Hp|reflexivity]. }
    destruct res1 as [[v b]| |].
    + destruct H1 as (rr & H1 & Href).
      assert (E : scoped (bind (call_null (invoke m) r) (to_obj ve C)) st = (Done (result_obj rr b), st2)).
      { eapply (Hcall _ null); [exact H1|reflexivity|]. intros x Ex. injection Ex as <-. eauto. }
      erewrite bind_done by exact E.
      specialize (IH (pre ++ [d']) rs st2 (cells ++ map dead ([(true, null)] ++ map dead c1)) HD2).
      assert (Ep : forall l : list slz, (pre ++ [d']) ++ l = pre ++ d' :: l) by (intros l; now rewrite <- app_assoc).
      rewrite Ep in IH. specialize (IH ltac:(cbn [st2 store]; now rewrite <- app_assoc) Hlen Hloc2).
      change (mworld st2) with w1 in IH. change (trace st2) with (trace st ++ map state_event lg1) in IH.
      destruct (ssteps SU ds w1) as [[[res2 ds2] w2] lg2].
      destruct IH as (Hl2 & more & IH). cbv zeta in IH. rewrite Ep in IH.
      split; [cbn; now rewrite Hl2|].
      exists (map dead ([(true, null)] ++ map dead c1) ++ more). cbv zeta.
      rewrite (map_app state_event lg1 lg2), (app_assoc (trace st)). rewrite <- (app_assoc cells) in IH.
      destruct res2 as [xs| |]; [| |contradiction].
      * destruct IH as (os & Em & Hos). exists (result_obj rr b :: os).
        erewrite bind_done by exact Em. split; [reflexivity|]. constructor; [|exact Hos].
        exists rr. split; [reflexivity|]. cbn [fst].
        destruct Href as [(q & -> & Hq)|(He & Hge & Hd)].
        -- left. destruct Hpl as [-> | Hpl].
           ++ apply holds_app. rewrite ext_ext. eapply holds_sub; [eapply holds_mset; exact Hbase|].
              replace (length pre) with (length (map (state_obj U) pre)) by apply map_length.
              unfold N1. erewrite sub_dep; [exact Hq|]. rewrite map_app, nth_error_app2, Nat.sub_diag by lia. reflexivity.
           ++ assert (Hd' : d' = d).
              { destruct (obj_empty ve (state_obj U d)) eqn:Ee.
                - destruct (empty_sdep d Ee) as (v0 & ch & ->). rewrite sstep_value in E1. now injection E1.
                - exfalso. rewrite (Hne eq_refl) in Hpl. cbn [ext fst] in Hpl.
                  pose proof (holds_lt _ _ _ Hbase). lia. }
              subst d'. apply (holds_tail (mset base rn N)).
              ** rewrite <- Hst. eapply holds_sub; [exact Hr|exact Hq].
              ** rewrite mset_length. exact Hpl.
              ** now rewrite !mset_length.
        -- right. split; [exact He|].
           rewrite app_length in Hge. cbn [length] in Hge.
           assert (Hd2 : dangles (mset base rn N1 ++ cells ++ map dead ([(true, null)] ++ map dead c1)) rr (data v)).
           { assert (EK : kill_from (length (mset base rn N1 ++ cells))
                            (((mset base rn N1 ++ cells) ++ [(true, null)]) ++ map dead c1) =
                          mset base rn N1 ++ cells ++ map dead ([(true, null)] ++ map dead c1)).
             { generalize (mset base rn N1), (map dead c1). clear. intros X Y.
               rewrite <- (app_assoc (X ++ cells)), kill_app, <- app_assoc. reflexivity. }
             rewrite <- EK. apply dangles_kill; [|exact Hd].
             clear. rewrite !app_length. lia. }
           rewrite !(app_assoc cells).
           eapply dangles_tail; [exact Hd2| |now rewrite !mset_length].
           rewrite mset_length. rewrite El, app_length, mset_length in Hge. lia.
      * erewrite bind_err by exact IH. reflexivity.
    + assert (E : scoped (bind (call_null (invoke m) r) (to_obj ve C)) st = (Err Throw, st2)).
      { eapply (Hcall _ null); [exact H1|reflexivity|]. intros x Ex. discriminate. }
      erewrite bind_err by exact E. split; [reflexivity|].
      exists (map dead ([(true, null)] ++ map dead c1)). unfold st2. rewrite <- (app_assoc (mset base rn N1)). reflexivity.
    + contradiction.
Qed.


(** [lazy.h:50-66] on objects: the function object is at [g] and does [G]. *)
Definition snode (gobj : obj) (G : list value -> W -> outcome value * obj * W * list mevent)
    (c : option value) (ds : list slz) (w : W) : kept_eff :=
  let '(rs, ds', w1, l1) := ssteps SU ds w in
  match rs with
  | LazyModel.Exc => (LazyModel.Exc, node_obj c gobj (map (state_obj U) ds'), w1, map state_event l1)
  | LazyModel.UB => (LazyModel.UB, node_obj c gobj (map (state_obj U) ds'), w1, map state_event l1)
  | LazyModel.Ok rs' =>
      if negb (LazyModel.is_some c) || existsb snd rs' then
        let '(o, g', w2, l2) := G (ctad_tuple as_tuple (map fst rs')) w1 in
        match o with
        | Err _ => (LazyModel.Exc, node_obj c g' (map (state_obj U) ds'), w2, map state_event l1 ++ l2)
        | Done v =>
            (LazyModel.Ok (v, opt_ne (ueq U) c v), node_obj (Some v) g' (map (state_obj U) ds'), w2,
             map state_event l1 ++ l2 ++ match c with None => [] | Some c0 => [MCmp c0 v] end)
        end
      else
        match c with
        | Some v => (LazyModel.Ok (v, false), node_obj c gobj (map (state_obj U) ds'), w1, map state_event l1)
        | None => (LazyModel.UB, node_obj c gobj (map (state_obj U) ds'), w1, map state_event l1)
        end
  end.

Lemma node_state n gobj G c ds :
  fn_moves n gobj G ->
  (obj_empty ve gobj = true -> forall vs w, snd (fst (fst (G vs w))) = gobj) ->
  (forall w rs ds' w1 l1, ssteps SU ds w = (LazyModel.Ok rs, ds', w1, l1) ->
     forall w' e, fst (fst (fst (G (ctad_tuple as_tuple (map fst rs)) w'))) = Err e -> e = Throw) ->
  Forall (fun l => kdep ve C U n (state_obj U l) (sstate l)) ds ->
  kdep ve C U (3 + n) (node_obj c gobj (map (state_obj U) ds)) (snode gobj G c ds).
Proof.
  intros HG Hempty Hsame HD m st r a Hm Hr Ha.
  destruct m as [|[|[|m]]]; try lia.
  destruct (back_tuple_byref ve C U rewired (1 + m) r [a] st (core_obj c) (gobj :: map (state_obj U) ds) [null] Hr)
    as (cells & x & es & bs & Hi & Hx & He & Hb & Hxe & Hel).
  { repeat constructor. exact Ha. }
  cbv zeta in *. rewrite (Hxe eq_refl) in *. clear Hxe x.
  set (st' := mkSt (store st ++ cells) (mworld st) (trace st)) in *.
  inversion He as [|ga ? das ? Hga He']; subst.
  inversion Hb as [|b ? bs' ? Hb1 Hb']; subst. inversion Hb'; subst.
  change (Datatypes.S (Datatypes.S (Datatypes.S m))) with (2 + (1 + m)).
  rewrite Hi. clear Hi. change (1 + m) with (Datatypes.S m).
  rewrite (invoke_S _ _ _ _ _ _ _ _ Hx). cbn [kind_of core_obj RVs map app call_core].
  rewrite scoped_eq. erewrite bind_done by (apply param_byref; exact rewired).
  erewrite bind_done by (apply params_byref; exact rewired).
  set (N := node_obj c gobj (map (state_obj U) ds)) in *.
  assert (Hlen : length (map aref das) = length ds).
  { rewrite map_length. apply F2_length in He'. now rewrite map_length in He'. }
  pose proof (state_steps n m (store st) r N c gobj ltac:(lia) Hr ds [] (map aref das) st' cells HD) as HS.
  cbn [app] in HS. fold N in HS. rewrite (mset_same _ _ _ Hr) in HS.
  specialize (HS eq_refl Hlen).
  assert (Hloc : forall i l r', nth_error ds i = Some l -> nth_error (map aref das) i = Some r' ->
     holds (store st') r' (state_obj U l) /\ place (store st) r (Datatypes.S (length (@nil slz) + i)) r' /\
     (obj_empty ve (state_obj U l) = false -> r' = ext r [1; Datatypes.S (length (@nil slz) + i)])).
  { intros i l r' Hl Hr'. cbn [length plus].
    rewrite nth_error_map in Hr'. destruct (nth_error das i) as [da|] eqn:Eda; [|discriminate].
    injection Hr' as <-.
    assert (Hk : nth_error (map (state_obj U) ds) i = Some (state_obj U l)) by (now rewrite nth_error_map, Hl).
    split; [|].
    - destruct (F2_nth _ _ _ He' i da Eda) as (o & Ho & Hh). rewrite Hk in Ho. injection Ho as <-. exact Hh.
    - destruct (Hel (Datatypes.S i) (state_obj U l) Hk) as [H1 H2]. cbn [nth_error] in H1, H2. split.
      + destruct (obj_empty ve (state_obj U l)) eqn:Ee.
        * right. destruct (H2 eq_refl) as (a' & Ea & Hge). rewrite Eda in Ea. injection Ea as <-. exact Hge.
        * left. specialize (H1 eq_refl). rewrite Eda in H1. injection H1 as ->. cbn [aref].
          now rewrite !at_ext, ext_ext.
      + intros Ee. specialize (H1 Ee). rewrite Eda in H1. injection H1 as ->. cbn [aref].
        now rewrite !at_ext, ext_ext. }
  specialize (HS Hloc). clear Hloc.
  unfold snode. cbn [st' mworld trace] in HS |- *.
  destruct (ssteps SU ds (mworld st)) as [[[rs ds'] w1] l1] eqn:Esteps.
  destruct HS as (_ & more & HS). cbv zeta in HS.
  set (N1 := node_obj c gobj (map (state_obj U) ds')) in *.
  assert (El : forall o', length (mset (store st) r o') = length (store st)) by (intros; apply mset_length).
  assert (El2 : forall o', length (store st ++ cells) = length (mset (store st) r o' ++ cells))
    by (intros; now rewrite !app_length, El).
  assert (Hfin : forall X (o : outcome X) o' rest (w : W) (t : list mevent),
    closing (length (store st)) (closing (length (store st ++ cells)) (o, mkSt (mset (store st) r o' ++ cells ++ rest) w t)) =
    (o, mkSt (mset (store st) r o' ++ map dead (cells ++ map dead rest)) w t)).
  { intros X o o' rest w t. rewrite app_assoc, (closing_at _ _ _ _ _ _ (El2 o')), <- app_assoc.
    rewrite (closing_at _ _ _ _ _ _ (eq_sym (El o'))). reflexivity. }
  change (length (store st')) with (length (store st ++ cells)).
  destruct rs as [xs| |]; [| |contradiction].
  2: { erewrite bind_err by exact HS. eexists. apply Hfin. }
  destruct HS as (os & HS & Hos). erewrite bind_done by exact HS. clear HS.
  set (sto2 := mset (store st) r N1 ++ cells ++ more) in *.
  assert (HN1 : holds sto2 r N1) by (apply holds_app; eapply holds_mset; exact Hr).
  assert (Hc : holds sto2 (at_ (at_ r 0) 0) (cache_obj c)).
  { rewrite !at_ext, ext_ext. eapply holds_sub; [exact HN1|reflexivity]. }
  erewrite bind_done by (apply read_ok; exact Hc).
  erewrite bind_done by (eapply flags_kept; exact Hos).
  rewrite existsb_snd.
  assert (Ee : engaged (@cache_obj A F S c) = LazyModel.is_some c) by (now destruct c).
  rewrite Ee.
  destruct (negb (LazyModel.is_some c) || existsb snd xs) eqn:Ech.
  2: { (* the kept result *)
       destruct c as [v|]; [|discriminate]. rewrite bind_ret.
       destruct (give_cache_ok ve C (store st) r N v gobj (map (state_obj U) ds') cells more false w1
                   (trace st ++ map state_event l1) Hr) as (rr & cells' & Hg & Hrf).
       cbv zeta in Hg, Hrf. exists cells', rr. split; [exact Hg|exact Hrf]. }
  specialize (Hsame _ _ _ _ _ Esteps).
  set (vs := ctad_tuple as_tuple (map fst xs)) in *.
  assert (Hempty_vs : forall w, obj_empty ve gobj = true -> snd (fst (fst (G vs w))) = gobj) by (intros w He0; now apply Hempty).
  set (tup := Node KTuple (map SVal (map data vs))).
  set (st3 := mkSt (sto2 ++ [(true, tup)]) w1 (trace st ++ map state_event l1)).
  assert (Hg3 : holds (store st3) (aref ga) gobj).
  { cbn [st3 store]. apply holds_app.
    destruct (Hel 0 gobj eq_refl) as [H1 H2]. cbn [nth_error] in H1, H2.
    destruct (obj_empty ve gobj) eqn:Eg.
    - destruct (H2 eq_refl) as (a' & Ea & Hge). injection Ea as <-.
      eapply holds_tail; [exact Hga|exact Hge|apply El].
    - specialize (H1 eq_refl). injection H1 as ->. cbn [aref].
      rewrite !at_ext, ext_ext. eapply holds_sub; [exact HN1|reflexivity]. }
  assert (Htup : holds (store st3) (length sto2, []) tup) by apply holds_new.
  destruct (access_all st3 (length sto2, []) tup (map SVal (map data vs)) [] (map data vs) Htup eq_refl)
    as (ys & Hys & Hysf & _).
  { generalize (map data vs). intros l. clear. induction l; constructor; auto. reflexivity. }
  cbn [length] in Hys. rewrite map_length in Hys.
  pose proof (HG m st3 (aref ga) (map (fun e => mkArg e CLV) ys) vs ltac:(lia) Hg3) as HG3.
  specialize (HG3 ltac:(apply Forall2_map_l; exact (proj1 (Forall2_map_r (holds (store st3)) data ys _) Hysf))).
  specialize (Hsame w1).
  cbn [st3 mworld trace] in HG3.
  specialize (Hempty_vs w1).
  destruct (G vs w1) as [[[o4 g'] w4] l4] eqn:EG. cbn [fst snd] in Hsame, Hempty_vs.
  destruct HG3 as (c4 & HG3).
  set (Ng := node_obj c g' (map (state_obj U) ds')) in *.
  assert (Emove : mset (store st3) (aref ga) g' = (mset (store st) r Ng ++ cells ++ more) ++ [(true, tup)]).
  { cbn [st3 store]. destruct (Hel 0 gobj eq_refl) as [H1 H2]. cbn [nth_error] in H1, H2.
    destruct (obj_empty ve gobj) eqn:Eg.
    - unfold Ng. rewrite (Hempty_vs eq_refl) in *. pose proof (mset_same _ _ _ Hg3) as E3. cbn [st3 store] in E3. rewrite E3. reflexivity.
    - specialize (H1 eq_refl). injection H1 as ->. cbn [aref].
      rewrite !at_ext, ext_ext. unfold sto2. rewrite <- app_assoc.
      rewrite mset_app by (cbn [ext fst]; rewrite El; eapply holds_lt; exact Hr).
      rewrite (mset_mset _ _ _ _ _ _ Hr). now rewrite <- !app_assoc. }
  rewrite Emove in HG3. clear Emove.
  assert (Hpre : forall K : list obj -> Machine.M A W F S bool,
    bind (mapM (result_value ve C) os) K (mkSt sto2 w1 (trace st ++ map state_event l1)) =
    K (map data (map fst xs)) (mkSt sto2 w1 (trace st ++ map state_event l1))).
  { intros K. apply bind_done. apply values_kept. exact Hos. }
  assert (El3 : forall o', length sto2 = length (mset (store st) r o' ++ cells ++ more)).
  { intros o'. unfold sto2. now rewrite !app_length, !El. }
  destruct o4 as [v|e].
  - (* returned *)
    set (N2 := node_obj (Some v) g' (map (state_obj U) ds')).
    set (sto4 := mset (store st) r Ng ++ cells ++ more) in *.
    assert (Hset : forall l, mset (sto4 ++ l) (at_ (at_ r 0) 0) (Node KOpt [SVal (data v)]) =
                   (mset (store st) r N2 ++ cells ++ more) ++ l).
    { intros l. rewrite !at_ext, ext_ext. unfold sto4.
      rewrite <- app_assoc, mset_app by (cbn [ext fst]; rewrite El; eapply holds_lt; exact Hr).
      rewrite (mset_mset _ _ _ _ _ _ Hr). cbn [app]. unfold Ng. rewrite put_cache. now rewrite <- !app_assoc. }
    set (fl := opt_ne (ueq U) c v).
    set (lc := match c with None => [] | Some c0 => [@MCmp A F c0 v] end).
    assert (Ein : forall K : bool -> Machine.M A W F S (result A F S),
      bind (scoped (bind (mapM (result_value ve C) os) (fun vs0 =>
               bind (alloc (Node KTuple (map SVal (ctad_tuple (@look A F S) vs0)))) (fun t =>
               bind (mapM (access t) (seq 0 (length (ctad_tuple (@look A F S) vs0)))) (fun es0 =>
               bind (invoke m (aref ga) (map (fun e => mkArg e CLV) es0)) (fun r0 =>
               bind (to_obj ve C r0) (fun result =>
               bind (cache_neq U (cache_obj c) result) (fun ch =>
               bind (write C (at_ (at_ r 0) 0) (Node KOpt [SVal result])) (fun _ => ret ch)))))))))
        K (mkSt sto2 w1 (trace st ++ map state_event l1)) =
      K fl (mkSt (mset (store st) r N2 ++ cells ++ more ++ map dead ((true, tup) :: c4)) w4
                 (trace st ++ map state_event l1 ++ l4 ++ lc))).
    { assert (Hc4 : holds sto4 (at_ (at_ r 0) 0) (cache_obj c)).
      { rewrite !at_ext, ext_ext. eapply holds_sub; [apply holds_app; eapply holds_mset; exact Hr|reflexivity]. }
      intros K. apply bind_done. rewrite scoped_eq, Hpre. erewrite bind_done by reflexivity.
      rewrite ctad_data, map_length. rewrite map_length in Hys.
      erewrite bind_done by exact Hys. erewrite bind_done by exact HG3.
      cbn [to_obj]. rewrite bind_ret.
      assert (Ecn : cache_neq U (cache_obj c) (data v) (mkSt ((sto4 ++ [(true, tup)]) ++ c4) w4 ((trace st ++ map state_event l1) ++ l4)) =
                    (Done fl, mkSt ((sto4 ++ [(true, tup)]) ++ c4) w4 (trace st ++ map state_event l1 ++ l4 ++ lc))).
      { rewrite !app_assoc. unfold fl, lc. destruct c as [c0|].
        - reflexivity.
        - cbn. now rewrite app_nil_r. }
      erewrite bind_done by exact Ecn.
      erewrite bind_done by (eapply write_eq; cbn [store]; do 2 apply holds_app; exact Hc4).
      cbn [store mworld trace]. unfold ret.
      rewrite <- (app_assoc sto4), Hset. cbn [app].
      rewrite (closing_at _ _ _ _ _ _ (El3 N2)). now rewrite <- !app_assoc. }
    rewrite Ein.
    destruct (give_cache_ok ve C (store st) r N v g' (map (state_obj U) ds') cells
                (more ++ map dead ((true, tup) :: c4)) fl w4
                (trace st ++ map state_event l1 ++ l4 ++ lc) Hr) as (rr & cells' & Hg & Hrf).
    cbv zeta in Hg, Hrf. exists cells', rr. split; [exact Hg|exact Hrf].
  - (* thrown *)
    rewrite (Hsame e eq_refl) in *.
    erewrite bind_err.
    2: { rewrite scoped_eq, Hpre. erewrite bind_done by reflexivity.
         rewrite ctad_data, map_length. rewrite map_length in Hys.
         erewrite bind_done by exact Hys. erewrite bind_err by exact HG3.
         rewrite <- app_assoc.
         rewrite (closing_at _ _ _ _ _ _ (El3 Ng)). rewrite <- !app_assoc. reflexivity. }
    eexists. rewrite Hfin. rewrite (app_assoc (trace st)). reflexivity.
Qed.



End RewiredState.
