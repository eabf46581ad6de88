(** What a lazy function object built by [pigro::lazy] does, as the code is written
    ([byref] off): every layer, from the wrapped function outwards. *)
From Coq Require Import List Bool Arith Lia.
From Verif Require Import Value Machine MachineSpec MachineLib.
Import ListNotations.

Section Composed.
Context {A W F S : Type}.
Notation value := (val A).
Notation obj := (obj A F S).
Notation mstate := (mstate A W F S).
Notation mevent := (mevent A F).
Notation cell := (bool * obj)%type.
Notation eff X := (outcome X * W * list mevent)%type.
Variable ve : value -> bool.
Variable C : config.
Variable U : muser A W F S.
Implicit Type st : mstate.
Hypothesis as_written : byref C = false.

(** What else is known of the store: an invariant that survives new objects ([True],
    if nothing; where the lazy functions that are passed by reference live, in
    RefThms). *)
Variable I : list cell -> Prop.
Hypothesis I_app : forall sto l, I sto -> I (sto ++ l).

Notation invoke := (invoke ve C U).
Notation data := (@Machine.data A F S).

(** [g], called with values, does [G] and nothing else: everything that existed
    before is unchanged. *)
Definition fn_ok (n : nat) (g : obj) (G : list value -> W -> eff value) : Prop :=
  forall m st r args vs, n <= m ->
    holds (store st) r g ->
    Forall2 (fun a v => holds (store st) (aref a) (data v)) args vs ->
    let '(o, w', l) := G vs (mworld st) in
    exists cells,
      invoke m r args st =
      (match o with Done v => Done (RVal (data v)) | Err e => Err e end,
       mkSt (store st ++ cells) w' (trace st ++ l)).

(** [d], called with [nullptr], does [D]; the [LazyResult] refers to a dead object
    that held the value. *)
Definition result_obj (rr : ref) (b : bool) : obj :=
  Node KResult [SRef rr; SVal (Node (KBool b) [])].

Definition dep_ok (n : nat) (d : obj) (D : W -> eff value) : Prop :=
  forall m st r a, n <= m ->
    holds (store st) r d -> holds (store st) (aref a) null -> I (store st) ->
    let '(o, w', l) := D (mworld st) in
    exists cells,
      match o with
      | Done v => exists rr b,
          invoke m r [a] st = (Done (RVal (result_obj rr b)),
                               mkSt (store st ++ cells) w' (trace st ++ l)) /\
          length (store st) <= fst rr /\ dangles (store st ++ cells) rr (data v)
      | Err e => invoke m r [a] st = (Err e, mkSt (store st ++ cells) w' (trace st ++ l))
      end.

Lemma Forall2_map_r {X Y Z} (R : X -> Z -> Prop) (f : Y -> Z) xs ys :
  Forall2 R xs (map f ys) <-> Forall2 (fun x y => R x (f y)) xs ys.
Proof.
  split; revert ys; induction xs as [|x xs IH]; intros [|y ys] H; cbn in *; inversion H; subst;
    constructor; auto.
Qed.

Lemma Forall2_map_l {X Y Z} (R : Z -> Y -> Prop) (f : X -> Z) xs ys :
  Forall2 R (map f xs) ys <-> Forall2 (fun x y => R (f x) y) xs ys.
Proof.
  split; revert ys; induction xs as [|x xs IH]; intros [|y ys] H; cbn in *; inversion H; subst;
    constructor; auto.
Qed.

Lemma closing_app {X} base cells (o : outcome X) (w : W) (t : list mevent) :
  closing (length base) (o, mkSt (base ++ cells) w t) = (o, mkSt (base ++ map (@dead A F S) cells) w t).
Proof. unfold closing. cbn [fst snd store mworld trace]. now rewrite kill_app. Qed.

Lemma closing_ge {X} (base cells : list cell) n (o : outcome X) (w : W) (t : list mevent) :
  length base <= n ->
  closing n (o, mkSt (base ++ cells) w t) =
  (o, mkSt (base ++ kill_from (n - length base) cells) w t).
Proof. intros H. unfold closing. cbn [fst snd store mworld trace]. now rewrite kill_ge. Qed.

(** [regularized_void(f)] *)
Lemma reg_ok f s : fn_ok 4 (reg_obj (fun_obj f s)) (fcall U f s).
Proof.
  intros m st r args vs Hm Hr Ha.
  destruct m as [|[|[|[|m]]]]; try lia.
  destruct (front_tuple_call ve C U (2 + m) r args st (Node KReg []) [fun_obj f s] (map data vs) Hr)
    as (cells & x & es & bs & Hi & Hx & He & Hb & _).
  { now apply Forall2_map_r. }
  cbv zeta in *.
  set (st' := mkSt (store st ++ cells) (mworld st) (trace st)) in *.
  inversion He as [|fa ? es' ? Hfa He']; subst. inversion He'; subst.
  change (Datatypes.S (Datatypes.S (Datatypes.S (Datatypes.S m)))) with (2 + (2 + m)).
  rewrite Hi. clear Hi. cbn [app].
  change (2 + m) with (Datatypes.S (Datatypes.S m)).
  rewrite (invoke_S _ _ _ _ _ _ _ _ Hx). cbn [kind_of]. unfold call_reg. rewrite scoped_eq.
  unfold param. rewrite as_written.
  erewrite bind_done by (apply by_value_ok; exact Hfa).
  erewrite bind_done.
  2: { apply (by_value_all ve C (LVs bs) (map data vs)). cbn [store]. apply Forall2_holds_app.
       unfold LVs. apply Forall2_map_l. exact Hb. }
  cbn [store mworld trace].
  rewrite map_map. set (sto := (store st ++ cells) ++ [(true, fun_obj f s)]).
  pose proof (call_local ve C U (store st ++ cells) f s vs
                (mkSt (sto ++ map (fun v => (true, data v)) vs) (mworld st) (trace st))
                (LVs (locals (length sto) (length (map data vs)))) m) as HL.
  cbn [store mworld trace] in HL.
  unfold fcall, ucall.
  destruct (usem U f s vs (mworld st)) as [[[s' vs'] u] w'] eqn:Hu.
  specialize (HL ltac:(unfold sto; now rewrite <- app_assoc)).
  specialize (HL ltac:(unfold sto; rewrite map_length, app_length; cbn; now rewrite Nat.add_1_r)).
  set (pars := LVs (locals (length sto) (length (map data vs)))) in *.
  set (loc := (true, fun_obj f (new_state s s')) :: map (fun v : value => (true, data v)) (overwrite vs vs')) in *.
  assert (G : forall i v, nth_error (overwrite vs vs') i = Some v ->
     exists p, nth_error pars i = Some p /\ holds ((store st ++ cells) ++ loc) (aref p) (data v)).
  { intros i v Hv.
    destruct (local_holds i (overwrite vs vs') v ((store st ++ cells) ++ [(true, fun_obj f (new_state s s'))])
                (length sto)) as [H1 H2].
    { unfold sto. now rewrite !app_length. }
    { exact Hv. }
    rewrite overwrite_length in H1. rewrite <- app_assoc in H2.
    unfold pars. rewrite map_length. eexists; split; [exact H1|exact H2]. }
  assert (El : length pars = length (overwrite vs vs')).
  { unfold pars, LVs, locals. rewrite !map_length, seq_length. symmetry. apply overwrite_length. }
  change (length (store st')) with (length (store st ++ cells)).
  destruct u as [v|i| |].
  - erewrite bind_done by exact HL. cbn [ures_result to_obj]. rewrite bind_ret. unfold ret.
    eexists. rewrite closing_app, <- app_assoc, closing_app. reflexivity.
  - cbn [ures_result] in HL. destruct (nth_error (overwrite vs vs') i) as [v|] eqn:Ev.
    + destruct (G _ _ Ev) as (p & Hp & Hph). rewrite Hp in HL.
      erewrite bind_done by exact HL. cbn [to_obj].
      erewrite bind_done by (apply read_ok; cbn [store]; exact Hph). unfold ret.
      eexists. rewrite closing_app, <- app_assoc, closing_app. reflexivity.
    + rewrite (proj2 (nth_error_None pars i)) in HL.
      2: { rewrite El. now apply nth_error_None. }
      erewrite bind_err by exact HL.
      eexists. rewrite closing_app, <- app_assoc, closing_app. reflexivity.
  - erewrite bind_done by exact HL. cbn [ures_result]. unfold ret.
    eexists. rewrite closing_app, <- app_assoc, closing_app. reflexivity.
  - erewrite bind_err by exact HL.
    eexists. rewrite closing_app, <- app_assoc, closing_app. reflexivity.
Qed.


(** [compressed_tuple{ g } << [](auto, auto dep) mutable { return dep(); }] *)
Definition sampling (f : F) (s : option S) (vs : list value) (w : W) : eff value :=
  match vs with [_] => dcall U f s w | _ => (Err IllFormed, w, []) end.

Lemma sample_ok f s : fn_ok 4 (sample_fn (fun_obj f s)) (sampling f s).
Proof.
  intros m st r args vs Hm Hr Ha.
  destruct m as [|[|[|[|m]]]]; try lia.
  destruct (back_tuple_call ve C U (2 + m) r args st (Node KSample []) [fun_obj f s] (map data vs) as_written Hr)
    as (cells & x & es & bs & Hi & Hx & He & Hb & _).
  { now apply Forall2_map_r. }
  cbv zeta in *.
  set (st' := mkSt (store st ++ cells) (mworld st) (trace st)) in *.
  inversion He as [|fa ? es' ? Hfa He']; subst. inversion He'; subst.
  change (Datatypes.S (Datatypes.S (Datatypes.S (Datatypes.S m)))) with (2 + (2 + m)).
  rewrite Hi. clear Hi.
  change (2 + m) with (Datatypes.S (Datatypes.S m)).
  rewrite (invoke_S _ _ _ _ _ _ _ _ Hx). cbn [kind_of].
  destruct vs as [|v [|v2 vs]]; cbn [map] in Hb.
  - inversion Hb; subst. cbn [RVs map app call_sample sampling]. unfold fail.
    exists (map (@dead A F S) cells). unfold st'. rewrite closing_app, app_nil_r. reflexivity.
  - inversion Hb as [|b ? bs' ? Hb1 Hb']; subst. inversion Hb'; subst.
    cbn [RVs map app call_sample sampling]. rewrite scoped_eq.
    unfold param. rewrite as_written.
    erewrite bind_done by (apply by_value_ok; exact Hb1).
    erewrite bind_done.
    2: { apply by_value_ok. cbn [store]. apply holds_app. exact Hfa. }
    cbn [store mworld trace].
    set (pre := (store st ++ cells) ++ [(true, data v)]).
    pose proof (call_local ve C U pre f s []
                  (mkSt (pre ++ [(true, fun_obj f s)]) (mworld st) (trace st)) [] m) as HL.
    cbn [store mworld trace] in HL. unfold dcall, ucall.
    destruct (usem U f s [] (mworld st)) as [[[s' vs'] u] w'] eqn:Hu.
    specialize (HL eq_refl eq_refl). cbn [overwrite map] in HL.
    change (length (store st')) with (length (store st ++ cells)).
    unfold pre in HL at 1 3. fold pre in HL.
    assert (Epre : pre ++ [(true, fun_obj f (new_state s s'))] =
                   (store st ++ cells) ++ [(true, data v); (true, fun_obj f (new_state s s'))]).
    { unfold pre. now rewrite <- app_assoc. }
    rewrite Epre in HL. clear Epre.
    destruct u as [v'|i| |].
    + erewrite bind_done by exact HL. cbn [ures_result to_obj]. rewrite bind_ret. unfold ret.
      eexists. rewrite closing_app, <- app_assoc, closing_app. reflexivity.
    + cbn [ures_result] in HL. cbn [overwrite].
      assert (E : nth_error (@nil arg) i = None) by (now destruct i).
      rewrite E in HL. assert (E' : nth_error (@nil value) i = None) by (now destruct i).
      rewrite E'. erewrite bind_err by exact HL.
      eexists. rewrite closing_app, <- app_assoc, closing_app. reflexivity.
    + erewrite bind_done by exact HL. cbn [ures_result to_obj]. unfold bind, fail.
      eexists. rewrite closing_app, <- app_assoc, closing_app. reflexivity.
    + erewrite bind_err by exact HL.
      eexists. rewrite closing_app, <- app_assoc, closing_app. reflexivity.
  - inversion Hb as [|b ? bs' ? Hb1 Hb']; subst. inversion Hb' as [|b2 ? bs'' ? Hb2 Hb'']; subst.
    assert (E : call_sample ve C (invoke (Datatypes.S m)) (RVs (b :: b2 :: bs'') ++ [fa]) st' = (Err IllFormed, st')).
    { cbn [RVs map app call_sample]. destruct bs''; reflexivity. }
    rewrite E. cbn [sampling].
    exists (map (@dead A F S) cells). unfold st'. rewrite closing_app, app_nil_r. reflexivity.
Qed.

(** [lazy_value(v, ch)] *)
Lemma lazy_value_ok v ch : dep_ok 3 (lazy_value_obj v ch) (fun w => (Done v, w, [])).
Proof.
  intros m st r a Hm Hr Ha HI.
  destruct m as [|[|[|m]]]; try lia.
  destruct (back_tuple_call ve C U (1 + m) r [a] st (Node KLazyVal []) [data v; Node (KFlag ch) []] [null] as_written Hr)
    as (cells & x & es & bs & Hi & Hx & He & Hb & _).
  { repeat constructor. exact Ha. }
  cbv zeta in *.
  set (st' := mkSt (store st ++ cells) (mworld st) (trace st)) in *.
  inversion He as [|va ? es' ? Hva He']; subst. inversion He' as [|ca ? es'' ? Hca He'']; subst.
  inversion He''; subst. inversion Hb as [|b ? bs' ? Hb1 Hb']; subst. inversion Hb'; subst.
  change (Datatypes.S (Datatypes.S (Datatypes.S m))) with (2 + (1 + m)).
  rewrite Hi. clear Hi. change (1 + m) with (Datatypes.S m).
  rewrite (invoke_S _ _ _ _ _ _ _ _ Hx). cbn [kind_of RVs map app call_lazy_val].
  rewrite scoped_eq. unfold param. rewrite as_written.
  erewrite bind_done by (apply by_value_ok; exact Hva).
  erewrite bind_done.
  2: { apply by_value_ok. cbn [store]. apply holds_app. exact Hca. }
  cbn [store mworld trace].
  erewrite bind_done.
  2: { apply read_ok. cbn [store]. apply holds_new. }
  cbn [kind_of]. unfold ret.
  rewrite <- app_assoc. cbn [app].
  change (length (store st')) with (length (store st ++ cells)). rewrite closing_app.
  set (K := map (@dead A F S) [(true, data v); (true, Node (KFlag ch) [])]).
  exists (map (@dead A F S) (cells ++ K)).
  exists (length (store st ++ cells), []), ch. split; [|split].
  - unfold st'. cbn [store mworld trace]. rewrite <- app_assoc, closing_app, app_nil_r. reflexivity.
  - cbn. rewrite app_length. lia.
  - assert (E : store st ++ map (@dead A F S) (cells ++ K) =
               kill_from (length (store st)) ((store st ++ cells) ++ K)).
    { rewrite <- app_assoc. now rewrite kill_app. }
    rewrite E. apply dangles_kill; [rewrite !app_length; lia|].
    exists (data v). cbn [fst snd sub]. split; [|reflexivity].
    rewrite nth_error_app2, Nat.sub_diag; [reflexivity|lia].
Qed.

(** ** Nodes *)

Lemma seqs_nil {D} (ev : D -> W -> eff value) w : seqs ev [] w = (Done [], w, []).
Proof. reflexivity. Qed.

(** The results of the dependencies refer to dead objects. *)
Definition dep_result (sto : list cell) (o : obj) (v : value) : Prop :=
  exists rr b, o = result_obj rr b /\ dangles sto rr (data v).

Lemma dep_result_app sto l o v : dep_result sto o v -> dep_result (sto ++ l) o v.
Proof. intros (rr & b & -> & H). exists rr, b. split; [reflexivity|now apply dangles_app]. Qed.

Lemma deps_run n m : forall ds Ds rs st,
  n <= m ->
  Forall2 (dep_ok n) ds Ds -> Forall2 (holds (store st)) rs ds -> I (store st) ->
  let '(o, w', l) := seqs (fun (D : W -> eff value) w => D w) Ds (mworld st) in
  exists cells,
    match o with
    | Done vs => exists os,
        mapM (fun d => scoped (bind (call_null (invoke m) d) (to_obj ve C))) rs st =
          (Done os, mkSt (store st ++ cells) w' (trace st ++ l)) /\
        Forall2 (dep_result (store st ++ cells)) os vs
    | Err e =>
        mapM (fun d => scoped (bind (call_null (invoke m) d) (to_obj ve C))) rs st =
          (Err e, mkSt (store st ++ cells) w' (trace st ++ l))
    end.
Proof.
  induction ds as [|d ds IH]; intros Ds rs st Hm HD Hr HI; inversion HD as [|? D ? Ds' HD1 HD2]; subst;
    inversion Hr as [|r ? rs' ? Hr1 Hr2]; subst.
  - exists [], []. rewrite !app_nil_r, st_eta. split; [reflexivity|constructor].
  - cbn [seqs mapM].
    assert (Hnull : holds (store st ++ [(true, null)]) (length (store st), []) null) by apply holds_new.
    pose proof (HD1 m (mkSt (store st ++ [(true, null)]) (mworld st) (trace st)) r
                  (mkArg (length (store st), []) RV) Hm) as H1.
    cbn [store mworld trace aref] in H1.
    specialize (H1 ltac:(now apply holds_app) Hnull ltac:(now apply I_app)).
    destruct (D (mworld st)) as [[o1 w1] l1] eqn:E1.
    destruct H1 as (c1 & H1). destruct o1 as [v|e].
    + destruct H1 as (rr & b & H1 & Hlen & Hd).
      assert (E : scoped (bind (call_null (invoke m) r) (to_obj ve C)) st =
                  (Done (result_obj rr b), mkSt (store st ++ map (@dead A F S) ([(true, null)] ++ c1)) w1 (trace st ++ l1))).
      { rewrite scoped_eq. unfold call_null. rewrite bind_assoc.
        erewrite bind_done by reflexivity.
        erewrite bind_done by exact H1. cbn [to_obj]. unfold ret.
        rewrite <- app_assoc. apply closing_app. }
      erewrite bind_done by exact E.
      specialize (IH Ds' rs' (mkSt (store st ++ map (@dead A F S) ([(true, null)] ++ c1)) w1 (trace st ++ l1)) Hm HD2).
      cbn [store mworld trace] in IH.
      specialize (IH ltac:(clear - Hr2; induction Hr2; constructor; auto; now apply holds_app) ltac:(now apply I_app)).
      cbn [seqs] in IH.
      destruct (seqs (fun (D : W -> eff value) w => D w) Ds' w1) as [[o2 w2] l2] eqn:E2.
      destruct IH as (c2 & IH). destruct o2 as [vs|e].
      * destruct IH as (os & Hos & Hf).
        exists (map (@dead A F S) ([(true, null)] ++ c1) ++ c2), (result_obj rr b :: os).
        erewrite bind_done by exact Hos. unfold ret. rewrite !app_assoc. split; [reflexivity|].
        constructor; [|exact Hf].
        exists rr, b. split; [reflexivity|]. apply dangles_app.
        rewrite <- kill_app. rewrite app_assoc. apply dangles_kill; [rewrite !app_length; lia|exact Hd].
      * exists (map (@dead A F S) ([(true, null)] ++ c1) ++ c2).
        erewrite bind_err by exact IH. now rewrite !app_assoc.
    + assert (E : scoped (bind (call_null (invoke m) r) (to_obj ve C)) st =
                  (Err e, mkSt (store st ++ map (@dead A F S) ([(true, null)] ++ c1)) w1 (trace st ++ l1))).
      { rewrite scoped_eq. unfold call_null. rewrite bind_assoc.
        erewrite bind_done by reflexivity.
        erewrite bind_err by exact H1. rewrite <- app_assoc. apply closing_app. }
      exists (map (@dead A F S) ([(true, null)] ++ c1)).
      erewrite bind_err by exact E. reflexivity.
Qed.

Lemma flags_ok st sto : forall os vs,
  Forall2 (dep_result sto) os vs ->
  exists bs, mapM (@result_flag A W F S) os st = (Done bs, st).
Proof.
  induction os as [|o os IH]; intros vs H; inversion H; subst; [now exists []|].
  destruct H2 as (rr & b & -> & _). destruct (IH _ H4) as (bs & Hbs).
  exists (b :: bs). cbn [mapM]. erewrite bind_done by reflexivity.
  erewrite bind_done by exact Hbs. reflexivity.
Qed.

Definition readable (v : value) : Prop := strict C = false \/ obj_empty ve (data v) = true.

Lemma values_ok st : forall os vs,
  Forall2 (dep_result (store st)) os vs -> Forall readable vs ->
  mapM (result_value ve C) os st = (Done (map data vs), st).
Proof.
  induction os as [|o os IH]; intros vs H Hv; inversion H; subst; [reflexivity|].
  inversion Hv; subst. destruct H2 as (rr & b & -> & Hd).
  cbn [mapM result_obj result_value map].
  erewrite bind_done by (apply read_dead; [exact Hd|assumption]).
  erewrite bind_done by (apply IH; eassumption). reflexivity.
Qed.

Lemma ctad_data (vs : list value) :
  ctad_tuple (@look A F S) (map data vs) = map data (ctad_tuple as_tuple vs).
Proof.
  destruct vs as [|v [|v2 vs]]; try reflexivity.
  cbn [map ctad_tuple look Machine.data]. destruct (as_tuple v); reflexivity.
Qed.

Lemma write_local base x st r (o : obj) :
  holds (store st) r o -> length base <= fst r -> firstn (length base) (store st) = base ->
  exists cells,
    write C r x st = (Done tt, mkSt (base ++ cells) (mworld st) (trace st)) /\
    holds (base ++ cells) r x /\ length (base ++ cells) = length (store st) /\
    forall i, i <> fst r -> nth_error (base ++ cells) i = nth_error (store st) i.
Proof.
  intros H Hl Hb. destruct (write_ok C st r o x H) as (sto' & Hw & Hh & Hlen & Hn).
  assert (E : sto' = base ++ skipn (length base) sto').
  { rewrite <- (firstn_skipn (length base) sto') at 1. f_equal.
    rewrite <- Hb at 2.
    assert (Hx : forall i, i < length base -> nth_error sto' i = nth_error (store st) i).
    { intros i Hi. apply Hn. lia. }
    clear - Hx Hlen. revert Hx Hlen. generalize (length base) as n, (store st) as s2. clear.
    intros n. revert sto'. induction n as [|n IH]; intros s1 s2 Hx Hl; [reflexivity|].
    destruct s1 as [|a s1], s2 as [|b s2]; try discriminate; [reflexivity|].
    cbn [firstn]. pose proof (Hx 0 ltac:(lia)) as H0. cbn in H0. injection H0 as <-. f_equal.
    apply IH; [|now injection Hl].
    intros i Hi. exact (Hx (Datatypes.S i) ltac:(lia)). }
  exists (skipn (length base) sto'). rewrite <- E. auto.
Qed.

Lemma firstn_app_l {X} (l l' : list X) : firstn (length l) (l ++ l') = l.
Proof. rewrite firstn_app, Nat.sub_diag, firstn_all. cbn. apply app_nil_r. Qed.

Definition readableb (v : value) : bool := negb (strict C) || obj_empty ve (data v).
Lemma readableb_spec v : readableb v = true <-> readable v.
Proof. unfold readableb, readable. destruct (strict C), (obj_empty ve (data v)); cbn; intuition discriminate. Qed.

Lemma values_dead st : forall os vs,
  Forall2 (dep_result (store st)) os vs -> forallb readableb vs = false ->
  mapM (result_value ve C) os st = (Err Undefined, st).
Proof.
  induction os as [|o os IH]; intros vs H Hv; inversion H as [|? v ? vs' H1 H2]; subst; [discriminate|].
  cbn [forallb] in Hv. destruct H1 as (rr & b & -> & Hd). cbn [mapM result_obj result_value].
  destruct (readableb v) eqn:Ev.
  - erewrite bind_done by (apply read_dead; [exact Hd|now apply readableb_spec]).
    erewrite bind_err by (eapply IH; [exact H2|exact Hv]). reflexivity.
  - unfold readableb in Ev. apply orb_false_iff in Ev. destruct Ev as [E1 E2].
    apply negb_false_iff in E1. erewrite bind_err by (eapply read_dead_strict; eassumption). reflexivity.
Qed.

Lemma node_ok n g G ds Ds :
  fn_ok n g G -> Forall2 (dep_ok n) ds Ds ->
  dep_ok (3 + n) (node_obj None g ds) (apply_read readableb G (fun (D : W -> eff value) w => D w) Ds).
Proof.
  intros HG HD m st r a Hm Hr Ha HI.
  destruct m as [|[|[|m]]]; try lia.
  destruct (back_tuple_call ve C U (1 + m) r [a] st (core_obj None) (g :: ds) [null] as_written Hr)
    as (cells & x & es & bs & Hi & Hx & He & Hb & Hxl & _).
  { repeat constructor. exact Ha. }
  cbv zeta in *.
  set (st' := mkSt (store st ++ cells) (mworld st) (trace st)) in *.
  inversion He as [|ga ? es' ? Hga He']; subst.
  inversion Hb as [|b ? bs' ? Hb1 Hb']; subst. inversion Hb'; subst.
  change (Datatypes.S (Datatypes.S (Datatypes.S m))) with (2 + (1 + m)).
  rewrite Hi. clear Hi. change (1 + m) with (Datatypes.S m).
  rewrite (invoke_S _ _ _ _ _ _ _ _ Hx). cbn [kind_of core_obj RVs map app call_core].
  rewrite scoped_eq. unfold param. rewrite as_written.
  erewrite bind_done by (apply by_value_ok; exact Hga).
  erewrite bind_done.
  2: { apply (by_value_all ve C es' ds). cbn [store]. apply Forall2_holds_app. exact He'. }
  cbn [store mworld trace].
  set (st1 := mkSt (((store st ++ cells) ++ [(true, g)]) ++ map (fun o => (true, o)) ds) (mworld st) (trace st)).
  assert (Hds : Forall2 (holds (store st1)) (locals (length ((store st ++ cells) ++ [(true, g)])) (length ds)) ds).
  { pose proof (locals_hold ((store st ++ cells) ++ [(true, g)]) [] ds _ eq_refl) as HL.
    rewrite app_nil_r in HL. exact HL. }
  pose proof (deps_run n m ds Ds _ st1 ltac:(lia) HD Hds ltac:(cbn [st1 store]; now repeat apply I_app)) as HR1.
  unfold apply_read. cbn [st1 mworld] in HR1.
  destruct (seqs (fun (D : W -> eff value) w => D w) Ds (mworld st)) as [[o1 w1] l1] eqn:E1.
  destruct HR1 as (c1 & HR1).
  assert (Est1 : store st1 ++ c1 = store st ++ (cells ++ [(true, g)] ++ map (fun o => (true, o)) ds ++ c1)).
  { cbn [st1 store]. now rewrite <- !app_assoc. }
  change (length (store st')) with (length (store st ++ cells)).
  destruct o1 as [vs|e].
  2: { erewrite bind_err by exact HR1. cbn [st1 trace store].
       eexists. rewrite <- !app_assoc.
       rewrite (app_assoc (store st) cells).
       rewrite closing_app. rewrite <- app_assoc. rewrite closing_app. reflexivity. }
  destruct HR1 as (os & HR1 & Hos).
  erewrite bind_done by exact HR1. cbn [st1 trace]. clear HR1.
  set (st2 := mkSt (store st1 ++ c1) w1 (trace st ++ l1)).
  assert (Hx1 : holds (store st1) x (core_obj None)).
  { cbn [st1 store]. do 2 apply holds_app. exact Hx. }
  assert (Hc : holds (store st2) (at_ x 0) (Node KOpt [])).
  { cbn [st2 store]. apply holds_app. eapply holds_member; [exact Hx1|reflexivity]. }
  erewrite bind_done by (apply read_ok; exact Hc).
  destruct (flags_ok st2 _ os vs Hos) as (fl & Hfl).
  erewrite bind_done by exact Hfl.
  cbn [engaged members negb orb].
  destruct (forallb readableb vs) eqn:Evs.
  2: { assert (Hval : mapM (result_value ve C) os st2 = (Err Undefined, st2)) by (now apply (values_dead st2 os vs)).
       erewrite bind_err.
       2: { rewrite scoped_eq. erewrite bind_err by exact Hval. unfold st2. rewrite Est1.
            rewrite closing_ge by (unfold st2, st1; cbn [store]; rewrite ?app_length; lia). reflexivity. }
       eexists. rewrite closing_ge by (rewrite app_length; lia). rewrite closing_app. reflexivity. }
  set (tup := Node KTuple (map SVal (map data (ctad_tuple as_tuple vs)))).
  set (st3 := mkSt (store st2 ++ [(true, tup)]) w1 (trace st ++ l1)).
  assert (Hg3 : holds (store st3) (length (store st'), []) g).
  { cbn [st3 st2 st1 store]. do 3 apply holds_app. apply holds_new. }
  assert (Htup : holds (store st3) (length (store st2), []) tup) by apply holds_new.
  destruct (access_all st3 (length (store st2), []) tup (map SVal (map data (ctad_tuple as_tuple vs))) []
              (map data (ctad_tuple as_tuple vs)) Htup eq_refl) as (xs & Hxs & Hxsf & _).
  { generalize (map data (ctad_tuple as_tuple vs)). intros l. clear. induction l; constructor; auto. reflexivity. }
  cbn [length] in Hxs. rewrite map_length in Hxs.
  pose proof (HG m st3 (length (store st'), []) (map (fun e => mkArg e CLV) xs) (ctad_tuple as_tuple vs)
                ltac:(lia) Hg3) as HG3.
  specialize (HG3 ltac:(apply Forall2_map_l; exact (proj1 (Forall2_map_r (holds (store st3)) data xs _) Hxsf))).
  cbn [st3 mworld trace] in HG3.
  destruct (G (ctad_tuple as_tuple vs) w1) as [[o4 w4] l4] eqn:EG.
  destruct HG3 as (c4 & HG3).
  (* the evaluation of [f] *)
  assert (Hpre : forall K : list obj -> Machine.M A W F S bool,
    bind (mapM (result_value ve C) os) K st2 = K (map data vs) st2).
  { intros K. apply bind_done. apply values_ok; [exact Hos|].
    rewrite forallb_forall in Evs. rewrite Forall_forall. intros v Hv. now apply readableb_spec, Evs. }
  destruct o4 as [v|e].
  - (* returned *)
    destruct (write_local (store st) (Node KOpt [SVal (data v)])
                (mkSt (store st3 ++ c4) w4 ((trace st ++ l1) ++ l4)) (at_ x 0) (Node KOpt []))
      as (c5 & Hw & Hwh & Hwl & Hwn).
    { cbn [st3 store]. do 2 apply holds_app. exact Hc. }
    { exact Hxl. }
    { cbn [st3 st2 st1 store]. rewrite <- !app_assoc. apply firstn_app_l. }
    cbn [store mworld trace] in *.
    erewrite bind_done.
    2: { rewrite scoped_eq, Hpre. erewrite bind_done by reflexivity.
         rewrite ctad_data, map_length. rewrite map_length in Hxs.
         erewrite bind_done by exact Hxs. erewrite bind_done by exact HG3.
         cbn [to_obj]. rewrite bind_ret. cbn [cache_neq]. rewrite bind_ret.
         erewrite bind_done by exact Hw. unfold ret, closing. cbn [fst snd store mworld trace].
         reflexivity. }
    assert (Hl12 : length (store st ++ cells) <= length (store st2)).
    { cbn [st2 st1 store]. rewrite !app_length. lia. }
    assert (Hl2 : length (store st) <= length (store st2)).
    { rewrite app_length in Hl12. lia. }
    assert (Hxlt : fst x < length (store st ++ cells)) by exact (holds_lt _ _ _ Hx).
    assert (Hl5 : length (store st2) <= length (store st ++ c5)).
    { rewrite Hwl. cbn [st3 store]. rewrite !app_length. lia. }
    assert (Hwk : holds (kill_from (length (store st2)) (store st ++ c5)) (at_ x 0) (Node KOpt [SVal (data v)])).
    { apply holds_kill; [cbn [at_ fst]; lia|exact Hwh]. }
    erewrite bind_done by (apply read_ok; cbn [store]; exact Hwk).
    assert (Hval : holds (kill_from (length (store st2)) (store st ++ c5)) (at_ (at_ x 0) 0) (data v)).
    { eapply holds_member; [exact Hwk|reflexivity]. }
    assert (Ek : kill_from (length (store st2)) (store st ++ c5) =
                 store st ++ kill_from (length (store st2) - length (store st)) c5) by (now apply kill_ge).
    assert (Ht : trace st ++ l1 ++ l4 = (trace st ++ l1) ++ l4) by apply app_assoc.
    assert (Hfin : forall bb rr sto6, sto6 = kill_from (length (store st2)) (store st ++ c5) \/
                     sto6 = kill_from (length (store st2)) (store st ++ c5) ++ [(true, data VVoid)] ->
              holds sto6 rr (data v) -> length (store st) <= fst rr ->
      exists cells0 rr' b,
        closing (length (store st)) (closing (length (store st ++ cells))
          (Done (RVal (Node KResult [SRef rr; SVal (Node (KBool bb) [])])), mkSt sto6 w4 ((trace st ++ l1) ++ l4))) =
        (Done (RVal (result_obj rr' b)), mkSt (store st ++ cells0) w4 (trace st ++ l1 ++ l4)) /\
        length (store st) <= fst rr' /\ dangles (store st ++ cells0) rr' (data v)).
    { intros bb rr sto6 H6 Hh Hge.
      assert (E6 : exists c6, sto6 = store st ++ c6).
      { destruct H6 as [-> | ->]; rewrite Ek; [eexists; reflexivity|].
        rewrite <- app_assoc. eexists; reflexivity. }
      destruct E6 as (c6 & ->).
      unfold closing. cbn [fst snd store mworld trace].
      assert (El : length (store st ++ cells) <= length (store st ++ c6)).
      { destruct H6 as [H6|H6]; rewrite H6, ?app_length, ?kill_length; rewrite ?app_length in *; lia. }
      rewrite (kill_ge (store st) c6) by (rewrite app_length; lia).
      rewrite kill_app. eexists _, rr, bb. rewrite Ht. split; [reflexivity|]. split; [exact Hge|].
      rewrite <- kill_app, <- kill_ge by (rewrite app_length; lia).
      destruct (lt_dec (fst rr) (length (store st ++ cells))) as [Hlt|Hlt].
      - apply holds_dies; [exact Hge|]. now apply holds_kill.
      - apply dangles_kill; [rewrite kill_length, app_length; lia|].
        apply holds_dies; [lia|exact Hh]. }
    destruct v as [y| |y|y z|y]; cbn [Machine.data].
    1, 3, 4, 5: rewrite bind_ret; unfold ret;
      apply (Hfin _ _ _ (or_introl eq_refl) Hval); cbn [at_ fst]; lia.
    erewrite bind_done by reflexivity. unfold ret. cbn [store mworld trace].
    apply (Hfin _ _ _ (or_intror eq_refl)).
    + apply holds_new.
    + cbn [fst]. rewrite kill_length. lia.
  - (* thrown *)
    erewrite bind_err.
    2: { rewrite scoped_eq, Hpre. erewrite bind_done by reflexivity.
         rewrite ctad_data, map_length. rewrite map_length in Hxs.
         erewrite bind_done by exact Hxs. erewrite bind_err by exact HG3.
         assert (E6 : store st3 ++ c4 = store st ++ (cells ++ [(true, g)] ++ map (fun o => (true, o)) ds ++ c1) ++ [(true, tup)] ++ c4).
         { cbn [st3 st2 store]. rewrite Est1. now rewrite <- !app_assoc. }
         rewrite E6, closing_ge. { reflexivity. }
         cbn [st2 st1 store]. rewrite !app_length. lia. }
    eexists. rewrite closing_ge by (rewrite app_length; lia). rewrite closing_app, (app_assoc (trace st) l1 l4). reflexivity.
Qed.

(** ** [unwrap_value] and [unregularized_void] *)

Lemma unwrap_null_ok n d D : dep_ok n d D -> dep_ok (4 + n) (unwrap_obj d) D.
Proof.
  intros HD m st r a Hm Hr Ha HI.
  destruct m as [|[|[|[|m]]]]; try lia.
  rewrite (invoke_S _ _ _ _ _ _ _ _ Hr). cbn [kind_of unwrap_obj call_unwrap].
  assert (Hl : holds (store st) (at_ r 0) (left_obj (Node KUnwrapCall []) [d])).
  { eapply holds_member; [exact Hr|reflexivity]. }
  destruct (back_tuple_call ve C U (1 + m) (at_ r 0) [mkArg r LV; a] st (Node KUnwrapCall []) [d]
              [unwrap_obj d; null] as_written Hl) as (cells & x & es & bs & Hi & Hx & He & Hb & _).
  { repeat constructor; assumption. }
  cbv zeta in *.
  set (st' := mkSt (store st ++ cells) (mworld st) (trace st)) in *.
  inversion He as [|da ? es' ? Hda He']; subst. inversion He'; subst.
  inversion Hb as [|b1 ? bs' ? Hb1 Hb']; subst. inversion Hb' as [|b2 ? bs'' ? Hb2 Hb'']; subst.
  inversion Hb''; subst.
  change (Datatypes.S (Datatypes.S (Datatypes.S m))) with (2 + (1 + m)).
  rewrite Hi. clear Hi. change (1 + m) with (Datatypes.S m).
  rewrite (invoke_S _ _ _ _ _ _ _ _ Hx). cbn [kind_of RVs map app call_unwrap_call].
  rewrite scoped_eq. unfold param. rewrite as_written.
  erewrite bind_done by (apply by_value_ok; exact Hda).
  unfold call_null. rewrite bind_assoc. erewrite bind_done by reflexivity.
  cbn [store mworld trace].
  pose proof (HD m (mkSt (((store st ++ cells) ++ [(true, d)]) ++ [(true, null)]) (mworld st) (trace st))
                (length (store st'), []) (mkArg (length ((store st ++ cells) ++ [(true, d)]), []) RV) ltac:(lia)) as H1.
  cbn [store mworld trace aref] in H1.
  specialize (H1 ltac:(apply holds_app; apply holds_new) ltac:(apply holds_new) ltac:(now repeat apply I_app)).
  destruct (D (mworld st)) as [[o w'] l] eqn:ED. destruct H1 as (c1 & H1).
  assert (Es : (((store st ++ cells) ++ [(true, d)]) ++ [(true, null)]) ++ c1 =
               store st ++ cells ++ [(true, d)] ++ [(true, null)] ++ c1).
  { now rewrite <- !app_assoc. }
  change (length (store st')) with (length (store st ++ cells)) in *.
  destruct o as [v|e].
  - destruct H1 as (rr & b & H1 & Hge & Hd). rewrite Es in H1, Hd.
    erewrite bind_done by exact H1. cbn [to_obj]. rewrite bind_ret. unfold ret.
    eexists _, rr, b. rewrite closing_ge, closing_app by (rewrite app_length; lia).
    split; [reflexivity|]. split; [rewrite !app_length in Hge; lia|].
    rewrite <- kill_app, <- kill_ge by (rewrite app_length; lia).
    apply dangles_kill; [rewrite kill_length, app_length; lia|].
    apply dangles_kill; [rewrite !app_length; lia|exact Hd].
  - rewrite Es in H1. erewrite bind_err by exact H1.
    eexists. rewrite closing_ge, closing_app by (rewrite app_length; lia). reflexivity.
Qed.

(** What is left of a value read through the [LazyResult]. *)
Definition seen (v : value) : outcome (result A F S) :=
  if strict C && negb (obj_empty ve (data v)) then Err Undefined else Done (RVal (data v)).

Lemma read_result st rr b v :
  dangles (store st) rr (data v) ->
  bind (result_value ve C (result_obj rr b)) (fun v => ret (RVal v)) st = (seen v, st).
Proof.
  intros H. cbn [result_value result_obj]. unfold seen.
  destruct (strict C) eqn:Es, (obj_empty ve (data v)) eqn:Ee; cbn [andb negb];
    try (erewrite bind_done by (apply read_dead; [exact H|auto]); reflexivity).
  erewrite bind_err by (eapply read_dead_strict; eassumption). reflexivity.
Qed.

(** A function object called without arguments. *)
Definition nullary_ok (n : nat) (d : obj) (R : value -> outcome (result A F S)) (D : W -> eff value) : Prop :=
  forall m st r, n <= m ->
    holds (store st) r d -> I (store st) ->
    let '(o, w', l) := D (mworld st) in
    exists cells,
      invoke m r [] st =
      (match o with Done v => R v | Err e => Err e end,
       mkSt (store st ++ map (@dead A F S) cells) w' (trace st ++ l)).

Lemma unwrap_ok n d D : dep_ok n d D -> nullary_ok (5 + n) (unwrap_obj d) seen D.
Proof.
  intros HD m st r Hm Hr HI. destruct m as [|m]; [lia|].
  rewrite (invoke_S _ _ _ _ _ _ _ _ Hr). cbn [kind_of unwrap_obj call_unwrap].
  rewrite scoped_eq. unfold call_null. rewrite bind_assoc. erewrite bind_done by reflexivity.
  pose proof (unwrap_null_ok n d D HD m (mkSt (store st ++ [(true, null)]) (mworld st) (trace st)) r
                (mkArg (length (store st), []) RV) ltac:(lia)) as H1.
  cbn [store mworld trace aref] in H1.
  specialize (H1 ltac:(now apply holds_app) ltac:(apply holds_new) ltac:(now apply I_app)).
  destruct (D (mworld st)) as [[o w'] l] eqn:ED. destruct H1 as (c1 & H1).
  destruct o as [v|e].
  - destruct H1 as (rr & b & H1 & Hge & Hd).
    erewrite bind_done by exact H1. cbn [to_obj]. rewrite bind_ret.
    rewrite (read_result (mkSt ((store st ++ [(true, null)]) ++ c1) w' (trace st ++ l)) rr b v Hd).
    rewrite <- app_assoc. rewrite closing_app. eexists; reflexivity.
  - erewrite bind_err by exact H1. rewrite <- app_assoc, closing_app. eexists; reflexivity.
Qed.

(** [unregularized_void], called with [nullptr] (as a dependency) and without
    arguments. *)
Lemma unreg_null_ok n u D : dep_ok n u D -> dep_ok (3 + n) (right_obj (Node KUnreg []) [u]) D.
Proof.
  intros HD m st r a Hm Hr Ha HI.
  destruct m as [|[|[|m]]]; try lia.
  destruct (front_tuple_call ve C U (1 + m) r [a] st (Node KUnreg []) [u] [null] Hr)
    as (cells & x & es & bs & Hi & Hx & He & Hb & _).
  { repeat constructor. exact Ha. }
  cbv zeta in *.
  set (st' := mkSt (store st ++ cells) (mworld st) (trace st)) in *.
  inversion He as [|ua ? es' ? Hua He']; subst. inversion He'; subst.
  inversion Hb as [|b ? bs' ? Hb1 Hb']; subst. inversion Hb'; subst.
  change (Datatypes.S (Datatypes.S (Datatypes.S m))) with (2 + (1 + m)).
  rewrite Hi. clear Hi. change (1 + m) with (Datatypes.S m).
  rewrite (invoke_S _ _ _ _ _ _ _ _ Hx). cbn [kind_of LVs map app call_unreg].
  rewrite scoped_eq. unfold param. rewrite as_written.
  erewrite bind_done by (apply by_value_ok; exact Hua).
  erewrite bind_done.
  2: { apply (by_value_all ve C [mkArg b LV] [null]). cbn [store].
       constructor; [|constructor]. cbn [aref]. apply holds_app. exact Hb1. }
  cbn [store mworld trace length locals seq map].
  pose proof (HD m (mkSt (((store st ++ cells) ++ [(true, u)]) ++ [(true, null)]) (mworld st) (trace st))
                (length (store st'), []) (mkArg (length ((store st ++ cells) ++ [(true, u)]), []) LV) ltac:(lia)) as H1.
  cbn [store mworld trace aref] in H1.
  specialize (H1 ltac:(apply holds_app; apply holds_new) ltac:(apply holds_new) ltac:(now repeat apply I_app)).
  destruct (D (mworld st)) as [[o w'] l] eqn:ED. destruct H1 as (c1 & H1).
  assert (Es : (((store st ++ cells) ++ [(true, u)]) ++ [(true, null)]) ++ c1 =
               store st ++ cells ++ [(true, u)] ++ [(true, null)] ++ c1).
  { now rewrite <- !app_assoc. }
  change (length (store st')) with (length (store st ++ cells)) in *.
  destruct o as [v|e].
  - destruct H1 as (rr & b0 & H1 & Hge & Hd). rewrite Es in H1, Hd.
    erewrite bind_done by exact H1. cbn [to_obj result_obj]. rewrite bind_ret. unfold ret.
    eexists _, rr, b0. rewrite closing_ge, closing_app by (rewrite app_length; lia).
    split; [reflexivity|]. split; [rewrite !app_length in Hge; lia|].
    rewrite <- kill_app, <- kill_ge by (rewrite app_length; lia).
    apply dangles_kill; [rewrite kill_length, app_length; lia|].
    apply dangles_kill; [rewrite !app_length; lia|exact Hd].
  - rewrite Es in H1. erewrite bind_err by exact H1.
    eexists. rewrite closing_ge, closing_app by (rewrite app_length; lia). reflexivity.
Qed.

(** What the caller of a lazy function gets for a value. *)
Definition shown (v : value) : outcome (result A F S) :=
  match v with VVoid => Done RVoid | _ => seen v end.

Lemma unreg_ok n u D : nullary_ok n u seen D -> nullary_ok (3 + n) (right_obj (Node KUnreg []) [u]) shown D.
Proof.
  intros HD m st r Hm Hr HI.
  destruct m as [|[|[|m]]]; try lia.
  destruct (front_tuple_call ve C U (1 + m) r [] st (Node KUnreg []) [u] [] Hr)
    as (cells & x & es & bs & Hi & Hx & He & Hb & _).
  { constructor. }
  cbv zeta in *.
  set (st' := mkSt (store st ++ cells) (mworld st) (trace st)) in *.
  inversion He as [|ua ? es' ? Hua He']; subst. inversion He'; subst.
  inversion Hb; subst.
  change (Datatypes.S (Datatypes.S (Datatypes.S m))) with (2 + (1 + m)).
  rewrite Hi. clear Hi. change (1 + m) with (Datatypes.S m).
  rewrite (invoke_S _ _ _ _ _ _ _ _ Hx). cbn [kind_of LVs map app call_unreg].
  rewrite scoped_eq. unfold param. rewrite as_written.
  erewrite bind_done by (apply by_value_ok; exact Hua).
  cbn [mapM]. rewrite bind_ret.
  pose proof (HD m (mkSt ((store st ++ cells) ++ [(true, u)]) (mworld st) (trace st))
                (length (store st'), []) ltac:(lia)) as H1.
  cbn [store mworld trace map] in H1 |- *.
  specialize (H1 ltac:(apply holds_new) ltac:(now repeat apply I_app)).
  destruct (D (mworld st)) as [[o w'] l] eqn:ED. destruct H1 as (c1 & H1).
  assert (Es : ((store st ++ cells) ++ [(true, u)]) ++ map (@dead A F S) c1 =
               store st ++ cells ++ [(true, u)] ++ map (@dead A F S) c1).
  { now rewrite <- !app_assoc. }
  rewrite Es in H1.
  change (length (store st')) with (length (store st ++ cells)) in *.
  destruct o as [v|e].
  - unfold shown. unfold seen in *.
    destruct (strict C && negb (obj_empty ve (data v))) eqn:Ev.
    + erewrite bind_err by exact H1.
      rewrite closing_ge, closing_app by (rewrite app_length; lia).
      destruct v as [y| |y|y z|y]; [eexists; reflexivity| |eexists; reflexivity|eexists; reflexivity|eexists; reflexivity].
      exfalso. cbn in Ev. now rewrite andb_false_r in Ev.
    + erewrite bind_done by exact H1.
      destruct v as [y| |y|y z|y]; cbn [Machine.data to_obj]; rewrite ?bind_ret; unfold ret;
        rewrite closing_ge, closing_app by (rewrite app_length; lia); eexists; reflexivity.
  - erewrite bind_err by exact H1.
    rewrite closing_ge, closing_app by (rewrite app_length; lia). eexists; reflexivity.
Qed.

(** ** Lazy functions *)

(** Everything that is read through a [LazyResult] inside the tree can be read. *)
Fixpoint readable_deps (e : lexp A F S) : Prop :=
  match e with
  | LExp _ _ deps =>
      (fix all (ds : list (ldep A F S)) : Prop :=
         match ds with
         | [] => True
         | d :: ds' =>
             (forall w v w' l, dep_call U d w = (Done v, w', l) -> readable v) /\
             match d with
             | DepLazy e' => readable_deps e'
             | DepFun _ _ => readable (VAtom (uint0 U))
             | DepValue _ => True
             end /\ all ds'
         end) deps
  end.

Definition fuel_for (e : lexp A F S) : nat := 10 * height e.

Lemma fn_ok_mono n m g G : n <= m -> fn_ok n g G -> fn_ok m g G.
Proof. intros H HG k st r args vs Hk. apply HG. lia. Qed.

Lemma dep_ok_mono n m d D : n <= m -> dep_ok n d D -> dep_ok m d D.
Proof. intros H HD k st r a Hk. apply HD. lia. Qed.

Lemma dep_ok_ext n d (D D' : W -> eff value) : (forall w, D w = D' w) -> dep_ok n d D -> dep_ok n d D'.
Proof. intros E H m st r a Hm Hr Ha HI. specialize (H m st r a Hm Hr Ha HI). now rewrite E in H. Qed.

Lemma seqs_ext {D D'} (ev : D -> W -> eff value) (ev' : D' -> W -> eff value) (f : D -> D') ds w :
  (forall d w, ev d w = ev' (f d) w) -> seqs ev ds w = seqs ev' (map f ds) w.
Proof.
  intros H. revert w. induction ds as [|d ds IH]; intros w; [reflexivity|].
  cbn [map seqs]. rewrite H. destruct (ev' (f d) w) as [[[v|e] w1] l1]; [|reflexivity].
  now rewrite IH.
Qed.

Lemma scall_eq ok e w :
  scall U ok e w = match e with LExp f s deps => apply_read ok (fcall U f s) (sdep_call U ok) deps w end.
Proof. destruct e as [f s deps]. reflexivity. Qed.

Lemma node_call f s deps n :
  4 <= n ->
  Forall (fun d => dep_ok n (dep_obj U d) (sdep_call U readableb d)) deps ->
  dep_ok (3 + n) (inner_obj U (LExp f s deps)) (scall U readableb (LExp f s deps)).
Proof.
  intros Hn Hd.
  eapply dep_ok_ext.
  2: { apply (node_ok n (reg_obj (fun_obj f s)) (fcall U f s) (map (dep_obj U) deps) (map (sdep_call U readableb) deps)).
       - eapply fn_ok_mono; [exact Hn|]. apply reg_ok.
       - apply Forall2_map_l, Forall2_map_r. induction Hd; constructor; auto. }
  intros w. rewrite scall_eq. unfold apply_read.
  now rewrite (seqs_ext (sdep_call U readableb) (fun (D : W -> eff value) w => D w) (sdep_call U readableb)).
Qed.

Lemma sample_dep_ok g s :
  dep_ok 7 (sample_obj U None (fun_obj g s)) (sdep_call U readableb (DepFun g s)).
Proof.
  eapply dep_ok_ext.
  2: { apply (node_ok 4 (sample_fn (fun_obj g s)) (sampling g s) [lazy_value_obj (VAtom (uint0 U)) true]
                [fun w => (Done (VAtom (uint0 U)), w, [])]).
       - apply sample_ok.
       - constructor; [|constructor]. apply (dep_ok_mono 3); [lia|]. apply lazy_value_ok. }
  intros w. unfold apply_read. cbn [seqs ctad_tuple as_tuple app sampling forallb sdep_call].
  rewrite andb_true_r. destruct (readableb (VAtom (uint0 U))); [|reflexivity].
  destruct (dcall U g s w) as [[o w'] l]. reflexivity.
Qed.

Lemma dep_obj_eq (e : lexp A F S) : lazy_obj U e = wrap_obj (inner_obj U e).
Proof. destruct e as [f s deps]. reflexivity. Qed.

Lemma inner_ok : forall e, dep_ok (fuel_for e) (inner_obj U e) (scall U readableb e).
Proof.
  induction e as [f s deps IH] using lexp_ind'.
  set (h := list_max (map (fun d => match d with DepLazy e' => height e' | _ => 0 end) deps)).
  assert (Ef : fuel_for (LExp f s deps) = 3 + (10 * h + 7)).
  { unfold fuel_for. cbn [height]. fold h. lia. }
  rewrite Ef. clear Ef.
  assert (Hmax : Forall (fun d => match d with DepLazy e' => height e' | _ => 0 end <= h) deps).
  { rewrite Forall_forall. intros d Hd.
    assert (Hle : h <= h) by lia. unfold h in Hle at 1. apply list_max_le in Hle.
    rewrite Forall_forall in Hle. apply Hle.
    apply (in_map (fun d => match d with DepLazy e' => height e' | _ => 0 end)). exact Hd. }
  apply node_call; [lia|].
  rewrite Forall_forall in *. intros d Hd. specialize (IH d Hd). specialize (Hmax d Hd).
  destruct d as [e'|g t|v]; cbn [dep_obj].
  - cbn [Pdep] in IH. rewrite dep_obj_eq.
    unfold wrap_obj. apply (dep_ok_mono (3 + (4 + fuel_for e'))); [unfold fuel_for; lia|].
    apply unreg_null_ok. apply unwrap_null_ok. exact IH.
  - apply (dep_ok_mono 7); [lia|]. apply sample_dep_ok.
  - apply (dep_ok_mono 3); [lia|]. apply lazy_value_ok.
Qed.

(** A call of the object built by [pigro::lazy]: the whole tree is evaluated from
    scratch, nothing that existed before has changed, nothing new is alive; values
    are read from dead objects. *)
Theorem lazy_call_exact e : nullary_ok (8 + fuel_for e) (lazy_obj U e) shown (scall U readableb e).
Proof.
  rewrite dep_obj_eq. unfold wrap_obj.
  change (8 + fuel_for e) with (3 + (5 + fuel_for e)).
  apply unreg_ok. apply unwrap_ok. apply inner_ok.
Qed.

Lemma ecall_eq e w :
  ecall U e w = match e with LExp f s deps => apply_all (fcall U f s) (dep_call U) deps w end.
Proof. destruct e as [f s deps]. reflexivity. Qed.

Lemma seqs_same {D} (ev ev' : D -> W -> eff value) ds w :
  Forall (fun d => forall w, ev d w = ev' d w) ds -> seqs ev ds w = seqs ev' ds w.
Proof.
  intros H. revert w. induction H as [|d ds H _ IH]; intros w; [reflexivity|].
  cbn [seqs]. rewrite H. destruct (ev' d w) as [[[v|e] w1] l1]; [|reflexivity]. now rewrite IH.
Qed.

Lemma scall_ok_ext ok ok' : (forall v, ok v = ok' v) -> forall e w, scall U ok e w = scall U ok' e w.
Proof.
  intros H. induction e as [f s deps IH] using lexp_ind'. intros w. rewrite !scall_eq. unfold apply_read.
  rewrite (seqs_same _ (sdep_call U ok')).
  2: { rewrite Forall_forall in *. intros d Hd w'. specialize (IH d Hd). destruct d; cbn; rewrite ?H; auto. }
  destruct (seqs (sdep_call U ok') deps w) as [[[vs|x] w1] l1]; [|reflexivity].
  now replace (forallb ok' vs) with (forallb ok vs) by (clear - H; induction vs; cbn; rewrite ?H, ?IHvs; reflexivity).
Qed.

Lemma seqs_values {D} (ev : D -> W -> eff value) (P : value -> Prop) : forall ds w vs w' l,
  Forall (fun d => forall w v w' l, ev d w = (Done v, w', l) -> P v) ds ->
  seqs ev ds w = (Done vs, w', l) -> Forall P vs.
Proof.
  induction ds as [|d ds IH]; intros w vs w' l H E; cbn [seqs] in E.
  - injection E as <- _ _. constructor.
  - inversion H as [|? ? H1 H2]; subst.
    destruct (ev d w) as [[[v|e] w1] l1] eqn:E1; [|discriminate].
    fold (seqs ev) in E.
    destruct (seqs ev ds w1) as [[[vs2|e] w2] l2] eqn:E2; [|discriminate].
    injection E as <- _ _. constructor; [eapply H1; exact E1|]. eapply IH; eassumption.
Qed.

Lemma readable_deps_all f s deps :
  readable_deps (LExp f s deps) ->
  Forall (fun d =>
    (forall w v w' l, dep_call U d w = (Done v, w', l) -> readable v) /\
    match d with
    | DepLazy e' => readable_deps e'
    | DepFun _ _ => readable (VAtom (uint0 U))
    | DepValue _ => True
    end) deps.
Proof.
  cbn [readable_deps]. induction deps as [|d deps IH]; intros H; [constructor|].
  destruct H as (H1 & H2 & H3). constructor; [split; assumption|]. now apply IH.
Qed.

Lemma scall_ecall : forall e w, readable_deps e -> scall U readableb e w = ecall U e w.
Proof.
  induction e as [f s deps IH] using lexp_ind'. intros w Hr. apply readable_deps_all in Hr.
  rewrite scall_eq, ecall_eq. unfold apply_read, apply_all.
  rewrite (seqs_same _ (dep_call U)).
  2: { rewrite Forall_forall in *. intros d Hd w'. specialize (IH d Hd). destruct (Hr d Hd) as [_ Hr2].
       destruct d as [e'|g t|v]; cbn [sdep_call dep_call].
       - now apply IH.
       - apply readableb_spec in Hr2. now rewrite Hr2.
       - reflexivity. }
  destruct (seqs (dep_call U) deps w) as [[[vs|x] w1] l1] eqn:E; [|reflexivity].
  assert (Hv : Forall readable vs).
  { eapply seqs_values; [|exact E]. eapply Forall_impl; [|exact Hr]. intros d [H _]. exact H. }
  replace (forallb readableb vs) with true; [reflexivity|].
  symmetry. apply forallb_forall. intros v Hin. apply readableb_spec. rewrite Forall_forall in Hv. auto.
Qed.

Theorem lazy_call e :
  readable_deps e -> nullary_ok (8 + fuel_for e) (lazy_obj U e) shown (ecall U e).
Proof.
  intros Hr m st r Hm H HI. rewrite <- (scall_ecall e (mworld st) Hr). now apply lazy_call_exact.
Qed.

Lemma inner_ok_readable e : readable_deps e -> dep_ok (fuel_for e) (inner_obj U e) (ecall U e).
Proof. intros Hr. eapply dep_ok_ext; [|apply inner_ok]. intros w. now apply scall_ecall. Qed.

End Composed.
