(** Proofs for [RewiredSpec.v]: with [byref], calls update the objects in place exactly
    as [LazyModel] says (C54). *)
From Coq Require Import List Bool Arith Lia.
From Verif Require Import Value Machine MachineSpec MachineLib Composed MachineThms BindSpec Programs
  RewiredSpec.
From Verif Require LazyModel LazyGeneral.
Import ListNotations.

(** ** Replacing a part of a living object *)
Section Store.
Context {A F S : Type}.
Notation obj := (obj A F S).
Notation cell := (bool * obj)%type.
Implicit Type sto : list cell.

Definition ext (r : ref) (q : list nat) : ref := (fst r, snd r ++ q).

Definition mset sto (r : ref) (o : obj) : list cell :=
  match nth_error sto (fst r) with
  | Some (b, root) => update (fst r) (b, put root (snd r) o) sto
  | None => sto
  end.

Lemma sub_app : forall p q (o : obj),
  sub o (p ++ q) = match sub o p with Some x => sub x q | None => None end.
Proof.
  induction p as [|i p IH]; intros q o; cbn [app sub]; [reflexivity|].
  destruct (nth_error (members o) i) as [[y|y]|]; auto.
Qed.

Lemma holds_sub sto r o q x : holds sto r o -> sub o q = Some x -> holds sto (ext r q) x.
Proof.
  intros (root & H1 & H2) Hq. exists root. split; [exact H1|].
  unfold ext; cbn [snd]. now rewrite sub_app, H2.
Qed.

Lemma at_ext r i : at_ r i = ext r [i].
Proof. reflexivity. Qed.

Lemma ext_ext r p q : ext (ext r p) q = ext r (p ++ q).
Proof. unfold ext; cbn [fst snd]. now rewrite app_assoc. Qed.

Lemma ext_nil r : ext r [] = r.
Proof. unfold ext. rewrite app_nil_r. now destruct r. Qed.

Lemma put_app : forall p q (o x y : obj),
  sub o p = Some y -> put o (p ++ q) x = put o p (put y q x).
Proof.
  induction p as [|i p IH]; intros q o x y H; cbn [app put sub] in *; [now injection H as <-|].
  destruct (nth_error (members o) i) as [[z|z]|] eqn:E; try discriminate.
  now rewrite (IH q z x y H).
Qed.

Lemma update_update {X} n (a b : X) l : update n a (update n b l) = update n a l.
Proof. revert n; induction l; intros [|n]; cbn; f_equal; auto. Qed.

Lemma update_same {X} n (a : X) l : nth_error l n = Some a -> update n a l = l.
Proof.
  revert n; induction l; intros [|n] H; cbn in *; try discriminate; f_equal; auto. now injection H.
Qed.

Lemma put_put : forall p (o x y z : obj), sub o p = Some z -> put (put o p x) p y = put o p y.
Proof.
  induction p as [|i p IH]; intros o x y z H; cbn [put sub] in *; [reflexivity|].
  destruct (nth_error (members o) i) as [[w|w]|] eqn:E; try discriminate.
  cbn [members kind_of]. rewrite nth_update_eq by (apply nth_error_Some; congruence).
  now rewrite update_update, (IH w x y z H).
Qed.

Lemma put_same : forall p (o x : obj), sub o p = Some x -> put o p x = o.
Proof.
  induction p as [|i p IH]; intros o x H; cbn [put sub] in *; [now injection H|].
  destruct (nth_error (members o) i) as [[w|w]|] eqn:E; try discriminate.
  rewrite (IH w x H), update_same by exact E. now destruct o.
Qed.

Lemma mset_length sto r o : length (mset sto r o) = length sto.
Proof.
  unfold mset. destruct (nth_error sto (fst r)) as [[b root]|]; [apply update_length|reflexivity].
Qed.

Lemma mset_app sto l r o : fst r < length sto -> mset (sto ++ l) r o = mset sto r o ++ l.
Proof.
  intros H. unfold mset. rewrite nth_error_app1 by exact H.
  destruct (nth_error sto (fst r)) as [[b root]|] eqn:E; [|reflexivity].
  now rewrite update_app_lt.
Qed.

Lemma holds_mset sto r x o : holds sto r x -> holds (mset sto r o) r o.
Proof.
  intros H. pose proof (holds_lt _ _ _ H). destruct H as (root & H1 & H2).
  unfold mset. rewrite H1. exists (put root (snd r) o). split.
  - now apply nth_update_eq.
  - eapply sub_put; exact H2.
Qed.

Lemma nth_mset sto r o i : i <> fst r -> nth_error (mset sto r o) i = nth_error sto i.
Proof.
  intros H. unfold mset. destruct (nth_error sto (fst r)) as [[b root]|]; [|reflexivity].
  apply nth_update_neq. congruence.
Qed.

Lemma holds_mset_other sto r o r' x : fst r' <> fst r -> holds sto r' x -> holds (mset sto r o) r' x.
Proof. intros Hn (root & H1 & H2). exists root. split; [|exact H2]. now rewrite nth_mset. Qed.

Lemma dangles_mset_other sto r o r' x : fst r' <> fst r -> dangles sto r' x -> dangles (mset sto r o) r' x.
Proof. intros Hn (root & H1 & H2). exists root. split; [|exact H2]. now rewrite nth_mset. Qed.

Lemma mset_same sto r o : holds sto r o -> mset sto r o = sto.
Proof.
  intros (root & H1 & H2). unfold mset. rewrite H1, put_same by exact H2. now apply update_same.
Qed.

Lemma mset_mset sto r x a q b : holds sto r x -> mset (mset sto r a) (ext r q) b = mset sto r (put a q b).
Proof.
  intros H. pose proof (holds_lt _ _ _ H). destruct H as (root & H1 & H2).
  unfold mset, ext. cbn [fst snd]. rewrite H1, nth_update_eq by assumption.
  rewrite update_update. do 2 f_equal.
  rewrite (put_app _ _ _ _ a) by (eapply sub_put; exact H2).
  eapply put_put; exact H2.
Qed.

Lemma mset_ext sto r o q b : holds sto r o -> mset sto (ext r q) b = mset sto r (put o q b).
Proof. intros H. rewrite <- (mset_mset sto r o o q b H). now rewrite (mset_same _ _ _ H). Qed.

(** Objects that came later are not affected. *)
Lemma holds_tail (X X' c more : list cell) r o :
  holds (X ++ c) r o -> length X <= fst r -> length X' = length X -> holds (X' ++ c ++ more) r o.
Proof.
  intros (root & H1 & H2) Hl He. exists root. split; [|exact H2].
  rewrite nth_error_app2 in H1 by exact Hl. rewrite nth_error_app2, He by lia.
  rewrite nth_error_app1; [exact H1|]. apply nth_error_Some. congruence.
Qed.

Lemma dangles_tail (X X' c more : list cell) r o :
  dangles (X ++ c) r o -> length X <= fst r -> length X' = length X -> dangles (X' ++ c ++ more) r o.
Proof.
  intros (root & H1 & H2) Hl He. exists root. split; [|exact H2].
  rewrite nth_error_app2 in H1 by exact Hl. rewrite nth_error_app2, He by lia.
  rewrite nth_error_app1; [exact H1|]. apply nth_error_Some. congruence.
Qed.

End Store.

Lemma F2_length {X Y} (R : X -> Y -> Prop) xs ys : Forall2 R xs ys -> length xs = length ys.
Proof. induction 1; cbn; congruence. Qed.

Lemma F2_nth {X Y} (R : X -> Y -> Prop) xs ys : Forall2 R xs ys ->
  forall i x, nth_error xs i = Some x -> exists y, nth_error ys i = Some y /\ R x y.
Proof.
  induction 1 as [|x y xs ys H _ IH]; intros [|i] z Hz; try discriminate.
  - injection Hz as <-. exists y. auto.
  - apply IH. exact Hz.
Qed.

(** ** Functions *)
Section Rewired.
Context {A W F S : Type}.
Notation value := (val A).
Notation obj := (obj A F S).
Notation mstate := (mstate A W F S).
Notation mevent := (mevent A F).
Notation cell := (bool * obj)%type.
Notation fn := (F * option S)%type.
Notation lz := (LazyModel.lz A fn fn).
Notation data := (@Machine.data A F S).
Notation dead := (@MachineLib.dead A F S).
Variable ve : value -> bool.
Variable C : config.
Variable U : muser A W F S.
Implicit Type st : mstate.
Implicit Type sto : list cell.
Hypothesis rewired : byref C = true.

Notation invoke := (invoke ve C U).
Notation KU := (kept_user U).

Lemma write_eq st r (o x : obj) :
  holds (store st) r o ->
  write C r x st = (Done tt, mkSt (mset (store st) r x) (mworld st) (trace st)).
Proof.
  intros H. unfold write.
  erewrite bind_done by (eapply alive_ok; eassumption).
  erewrite bind_done by (eapply peek_ok; eassumption).
  destruct H as (root & H1 & H2). unfold mset. now rewrite H1.
Qed.

(** A call of a function object that is not changed by it, with local variables. *)
Lemma call_kept pre f s vs st args callee n :
  store st = pre ++ map (fun v => (true, data v)) vs ->
  holds pre callee (fun_obj f s) ->
  args = LVs (locals (length pre) (length vs)) ->
  steady U f s ->
  let '(s', vs', r, w') := usem U f s vs (mworld st) in
  invoke (Datatypes.S n) callee args st =
  (ures_result r args,
   mkSt (pre ++ map (fun v => (true, data v)) (overwrite vs vs')) w' (trace st ++ [MCall f vs])).
Proof.
  intros Hs Hc -> Hst.
  specialize (Hst vs (mworld st)).
  destruct (usem U f s vs (mworld st)) as [[[s' vs'] r] w'] eqn:Hu. cbn [fst] in Hst.
  assert (Hh : holds (store st) callee (fun_obj f s)).
  { rewrite Hs. now apply holds_app. }
  rewrite (invoke_S _ _ _ _ _ _ _ _ Hh). cbn [kind_of fun_obj]. unfold call_user.
  erewrite bind_done.
  2: { apply (read_values ve C st _ vs).
       assert (G : Forall2 (holds (store st)) (locals (length pre) (length vs)) (map data vs)).
       { rewrite Hs. rewrite <- (map_length data vs).
         replace (map (fun v : value => (true, data v)) vs)
           with (map (fun o : obj => (true, o)) (map data vs) ++ [])
           by (rewrite app_nil_r, map_map; reflexivity).
         now apply locals_hold. }
       unfold LVs. apply Forall2_map_l. now apply Forall2_map_r. }
  erewrite bind_done by reflexivity.
  erewrite bind_done by (cbn [log mworld store trace]; rewrite Hu; reflexivity).
  cbn [store mworld trace].
  erewrite bind_done by (eapply write_eq; cbn [store]; exact Hh).
  cbn [store mworld trace]. rewrite Hst.
  change (Node (KFun f s) []) with (@fun_obj A F S f s). rewrite (mset_same (store st) callee _ Hh).
  erewrite bind_done by (apply write_args_locals; cbn [store]; exact Hs).
  cbn [store mworld trace].
  destruct r as [v|i| |]; try reflexivity.
  cbn [ures_result]. destruct (nth_error _ i); reflexivity.
Qed.

(** [t << f], by reference. *)
Lemma back_tuple_byref n r args st f os avs :
  holds (store st) r (left_obj f os) ->
  Forall2 (fun a o => holds (store st) (aref a) o) args avs ->
  exists cells x es bs,
    let st' := mkSt (store st ++ cells) (mworld st) (trace st) in
    invoke (2 + n) r args st =
      closing (length (store st)) (invoke n x (RVs bs ++ es) st') /\
    holds (store st') x f /\
    Forall2 (fun a o => holds (store st') (aref a) o) es os /\
    Forall2 (holds (store st')) bs avs /\
    (obj_empty ve f = false -> x = at_ r 0) /\
    elem_args ve r (length (store st)) os es.
Proof.
  intros H Ha. change (2 + n) with (Datatypes.S (1 + n)).
  rewrite (invoke_S _ _ _ _ _ _ _ _ H). cbn [kind_of left_obj members length].
  unfold call_back_tuple. rewrite scoped_eq.
  destruct (bind_elem_ok ve C st r _ f 0 H eq_refl) as (x & c1 & Hx & Hxh & Hxe & Hxe').
  erewrite bind_done by exact Hx.
  set (st1 := mkSt (store st ++ c1) (mworld st) (trace st)).
  assert (H1 : holds (store st1) r (left_obj f os)) by (now apply holds_app).
  destruct (bind_elem_ok ve C st1 r _ (ct os) 1 H1 eq_refl) as (t & c2 & Ht & Hth & Hte & Hte').
  erewrite bind_done by exact Ht.
  set (st2 := mkSt (store st1 ++ c2) (mworld st1) (trace st1)).
  assert (Ha2 : Forall2 (fun a o => holds (store st2) (aref a) o) args avs).
  { cbn [st2 st1 store]. apply Forall2_holds_app. apply Forall2_holds_app; auto. }
  rewrite rewired. destruct (capture_all ve C st2 args avs Ha2) as (cs & Hcs & Hcf).
  erewrite bind_done by (erewrite bind_done by exact Hcs; reflexivity).
  erewrite bind_done by reflexivity.
  set (B := Node KBindFront (SRef x :: cs)).
  set (st3 := mkSt (store st2 ++ [(true, B)]) (mworld st2) (trace st2)).
  assert (Ht3 : holds (store st3) t (ct os)) by (now apply holds_app).
  destruct (elements_ok ve C st3 t os Ht3) as (es & c4 & Hes & Hef & Hee).
  erewrite bind_done by exact Hes.
  set (st4 := mkSt (store st3 ++ c4) (mworld st3) (trace st3)).
  assert (Hb : holds (store st4) (length (store st2), []) B).
  { cbn [st4 store]. apply holds_app. apply holds_new. }
  assert (Hx4 : holds (store st4) x f).
  { cbn [st4 st3 st2 st1 store]. do 3 apply holds_app. exact Hxh. }
  assert (Hcf4 : Forall2 (slot_holds (store st4)) cs avs).
  { cbn [st4 st3 store]. do 2 apply Forall2_slots_app. exact Hcf. }
  destruct (bind_front_call ve C U n _ es st4 (SRef x) cs f avs Hb Hx4 Hcf4)
    as (x' & bs & Hi & Hx'h & Hbf & Hx'). subst x'.
  exists (c1 ++ c2 ++ [(true, B)] ++ c4), x, es, bs.
  assert (Est : mkSt (store st ++ c1 ++ c2 ++ [(true, B)] ++ c4)
                  (mworld st) (trace st) = st4).
  { unfold st4, st3, st2, st1. cbn [store mworld trace]. f_equal. now rewrite <- !app_assoc. }
  cbv zeta. rewrite Est. split; [|split; [|split; [|split; [|split]]]].
  - f_equal. exact Hi.
  - exact Hx4.
  - exact Hef.
  - exact Hbf.
  - exact Hxe.
  - apply (elem_refs ve st3 r t).
    + cbn [st3 st2 st1 store]. rewrite !app_length. lia.
    + exact Hte.
    + exact Hee.
Qed.

Lemma reg_kept f s : steady U f s -> fn_ok ve C U 4 (reg_obj (fun_obj f s)) (fcall U f s).
Proof.
  intros Hst m st r args vs Hm Hr Ha.
  destruct m as [|[|[|[|m]]]]; try lia.
  destruct (front_tuple_call ve C U (2 + m) r args st (Node KReg []) [fun_obj f s] (map data vs) Hr)
    as (cells & x & es & bs & Hi & Hx & He & Hb & _).
  { now apply Forall2_map_r. }
  cbv zeta in *.
  set (st' := mkSt (store st ++ cells) (mworld st) (trace st)) in *.
  inversion He as [|fa ? es' ? Hfa He']; subst. inversion He'; subst.
  change (Datatypes.S (Datatypes.S (Datatypes.S (Datatypes.S m)))) with (2 + (2 + m)).
  rewrite Hi. clear Hi. cbn [app].
  change (2 + m) with (Datatypes.S (Datatypes.S m)).
  rewrite (invoke_S _ _ _ _ _ _ _ _ Hx). cbn [kind_of]. unfold call_reg. rewrite scoped_eq.
  unfold param. rewrite rewired. rewrite bind_ret.
  erewrite bind_done.
  2: { apply (by_value_all ve C (LVs bs) (map data vs)).
       unfold LVs. apply Forall2_map_l. exact Hb. }
  rewrite map_map, map_length. fold (LVs (locals (length (store st')) (length vs))).
  pose proof (call_kept (store st') f s vs
                (mkSt (store st' ++ map (fun v => (true, data v)) vs) (mworld st) (trace st))
                (LVs (locals (length (store st')) (length vs))) (aref fa) m eq_refl Hfa eq_refl Hst) as HL.
  cbn [store mworld trace] in HL |- *.
  unfold fcall, ucall.
  destruct (usem U f s vs (mworld st)) as [[[s' vs'] u] w'] eqn:Hu.
  change (store st') with (store st ++ cells) in *.
  set (pars := LVs (locals (length (store st ++ cells)) (length vs))) in *.
  assert (G : forall i v, nth_error (overwrite vs vs') i = Some v ->
     exists p, nth_error pars i = Some p /\
       holds ((store st ++ cells) ++ map (fun v => (true, data v)) (overwrite vs vs')) (aref p) (data v)).
  { intros i v Hv.
    destruct (local_holds i (overwrite vs vs') v (store st ++ cells) _ eq_refl Hv) as [H1 H2].
    rewrite overwrite_length in H1. eexists; split; [exact H1|exact H2]. }
  assert (El : length pars = length (overwrite vs vs')).
  { unfold pars, LVs, locals. rewrite !map_length, seq_length. symmetry. apply overwrite_length. }
  destruct u as [v|i| |].
  - erewrite bind_done by exact HL. cbn [ures_result to_obj]. rewrite bind_ret. unfold ret.
    eexists. rewrite closing_app, <- app_assoc, closing_app. reflexivity.
  - cbn [ures_result] in HL. destruct (nth_error (overwrite vs vs') i) as [v|] eqn:Ev.
    + destruct (G _ _ Ev) as (p & Hp & Hph). rewrite Hp in HL.
      erewrite bind_done by exact HL. cbn [to_obj].
      erewrite bind_done by (apply read_ok; cbn [store]; exact Hph). unfold ret.
      eexists. rewrite closing_app, <- app_assoc, closing_app. reflexivity.
    + rewrite (proj2 (nth_error_None pars i)) in HL.
      2: { rewrite El. now apply nth_error_None. }
      erewrite bind_err by exact HL.
      eexists. rewrite closing_app, <- app_assoc, closing_app. reflexivity.
  - erewrite bind_done by exact HL. cbn [ures_result]. unfold ret.
    eexists. rewrite closing_app, <- app_assoc, closing_app. reflexivity.
  - erewrite bind_err by exact HL.
    eexists. rewrite closing_app, <- app_assoc, closing_app. reflexivity.
Qed.

Lemma sample_kept f s : steady U f s -> fn_ok ve C U 4 (sample_fn (fun_obj f s)) (sampling U f s).
Proof.
  intros Hst m st r args vs Hm Hr Ha.
  destruct m as [|[|[|[|m]]]]; try lia.
  destruct (back_tuple_byref (2 + m) r args st (Node KSample []) [fun_obj f s] (map data vs) Hr)
    as (cells & x & es & bs & Hi & Hx & He & Hb & _).
  { now apply Forall2_map_r. }
  cbv zeta in *.
  set (st' := mkSt (store st ++ cells) (mworld st) (trace st)) in *.
  inversion He as [|fa ? es' ? Hfa He']; subst. inversion He'; subst.
  change (Datatypes.S (Datatypes.S (Datatypes.S (Datatypes.S m)))) with (2 + (2 + m)).
  rewrite Hi. clear Hi.
  change (2 + m) with (Datatypes.S (Datatypes.S m)).
  rewrite (invoke_S _ _ _ _ _ _ _ _ Hx). cbn [kind_of].
  destruct vs as [|v [|v2 vs]]; cbn [map] in Hb.
  - inversion Hb; subst. cbn [RVs map app call_sample sampling]. unfold fail.
    exists (map dead cells). unfold st'. rewrite closing_app, app_nil_r. reflexivity.
  - inversion Hb as [|b ? bs' ? Hb1 Hb']; subst. inversion Hb'; subst.
    cbn [RVs map app call_sample sampling]. rewrite scoped_eq.
    unfold param. rewrite rewired.
    erewrite bind_done by (apply by_value_ok; exact Hb1).
    rewrite bind_ret.
    set (pre := store st' ++ [(true, data v)]).
    pose proof (call_kept pre f s [] (mkSt pre (mworld st) (trace st)) [] (aref fa) m) as HL.
    cbn [store mworld trace map length locals seq LVs] in HL.
    specialize (HL ltac:(now rewrite app_nil_r) ltac:(now apply holds_app) eq_refl Hst).
    unfold dcall, ucall.
    change (mkSt pre (mworld st') (trace st')) with (mkSt pre (mworld st) (trace st)).
    destruct (usem U f s [] (mworld st)) as [[[s' vs'] u] w'] eqn:Hu. cbn [overwrite map] in HL.
    rewrite app_nil_r in HL. change (store st') with (store st ++ cells) in *.
    destruct u as [v'|i| |].
    + erewrite bind_done by exact HL. cbn [ures_result to_obj]. rewrite bind_ret. unfold ret.
      eexists. unfold pre. rewrite closing_app, <- app_assoc, closing_app. reflexivity.
    + cbn [ures_result] in HL. cbn [overwrite].
      assert (E : nth_error (@nil arg) i = None) by (now destruct i).
      rewrite E in HL. assert (E' : nth_error (@nil value) i = None) by (now destruct i).
      rewrite E'. erewrite bind_err by exact HL.
      eexists. unfold pre. rewrite closing_app, <- app_assoc, closing_app. reflexivity.
    + erewrite bind_done by exact HL. cbn [ures_result to_obj]. unfold bind, fail.
      eexists. unfold pre. rewrite closing_app, <- app_assoc, closing_app. reflexivity.
    + erewrite bind_err by exact HL.
      eexists. unfold pre. rewrite closing_app, <- app_assoc, closing_app. reflexivity.
  - inversion Hb as [|b ? bs' ? Hb1 Hb']; subst. inversion Hb' as [|b2 ? bs'' ? Hb2 Hb'']; subst.
    assert (E : call_sample ve C (invoke (Datatypes.S m)) (RVs (b :: b2 :: bs'') ++ [fa]) st' = (Err IllFormed, st')).
    { cbn [RVs map app call_sample]. destruct bs''; reflexivity. }
    rewrite E. cbn [sampling].
    exists (map dead cells). unfold st'. rewrite closing_app, app_nil_r. reflexivity.
Qed.


(** ** Lazy functions as dependencies *)

(** What a call with [nullptr] does to an object: result, the object afterwards, the
    world, the actions. *)
Notation kept_eff := (LazyModel.res (value * bool) * obj * W * list mevent)%type.

(** Where the value of a [LazyResult] is: in the object that was called, or in a dead
    object of empty class. *)
Definition refers sto (n : nat) (r : ref) (o : obj) (rr : ref) (v : value) : Prop :=
  (exists q, rr = ext r q /\ sub o q = Some (data v)) \/
  (obj_empty ve (data v) = true /\ n <= fst rr /\ dangles sto rr (data v)).

Definition kdep (n : nat) (o : obj) (D : W -> kept_eff) : Prop :=
  forall m st r a, n <= m ->
    holds (store st) r o -> holds (store st) (aref a) null ->
    let '(res, o', w', l) := D (mworld st) in
    exists cells,
      let sto' := mset (store st) r o' ++ map dead cells in
      match res with
      | LazyModel.Ok (v, b) => exists rr,
          invoke m r [a] st = (Done (RVal (result_obj rr b)), mkSt sto' w' (trace st ++ l)) /\
          refers sto' (length (store st)) r o' rr v
      | LazyModel.Exc => invoke m r [a] st = (Err Throw, mkSt sto' w' (trace st ++ l))
      | LazyModel.UB => False
      end.

Lemma map_dead_dead (c : list cell) : map dead (map dead c) = map dead c.
Proof. rewrite map_map. reflexivity. Qed.

Lemma closing_mset {X} base r o (cells : list cell) (x : outcome X) (w : W) (t : list mevent) :
  closing (length base) (x, mkSt (mset base r o ++ cells) w t) =
  (x, mkSt (mset base r o ++ map dead cells) w t).
Proof. rewrite <- (mset_length base r o). apply closing_app. Qed.

(** A scope that began when there were more objects. *)
Lemma closing_mset_more {X} base more r o (cells : list cell) (x : outcome X) (w : W) (t : list mevent) :
  closing (length (base ++ more)) (x, mkSt (mset base r o ++ more ++ cells) w t) =
  (x, mkSt (mset base r o ++ more ++ map dead cells) w t).
Proof.
  rewrite !app_assoc.
  replace (length (base ++ more)) with (length (mset base r o ++ more))
    by (now rewrite !app_length, mset_length).
  apply closing_app.
Qed.

(** [lazy_value(v, ch)] *)
Lemma value_kept v ch :
  kdep 3 (lazy_value_obj v ch) (fun w => (LazyModel.Ok (v, ch), lazy_value_obj v ch, w, [])).
Proof.
  intros m st r a Hm Hr Ha.
  destruct m as [|[|[|m]]]; try lia.
  destruct (back_tuple_byref (1 + m) r [a] st (Node KLazyVal []) [data v; Node (KFlag ch) []] [null] Hr)
    as (cells & x & es & bs & Hi & Hx & He & Hb & _ & Hel).
  { repeat constructor. exact Ha. }
  cbv zeta in *.
  set (st' := mkSt (store st ++ cells) (mworld st) (trace st)) in *.
  inversion He as [|va ? es' ? Hva He']; subst. inversion He' as [|ca ? es'' ? Hca He'']; subst.
  inversion He''; subst. inversion Hb as [|b ? bs' ? Hb1 Hb']; subst. inversion Hb'; subst.
  change (Datatypes.S (Datatypes.S (Datatypes.S m))) with (2 + (1 + m)).
  rewrite Hi. clear Hi. change (1 + m) with (Datatypes.S m).
  rewrite (invoke_S _ _ _ _ _ _ _ _ Hx). cbn [kind_of RVs map app call_lazy_val].
  rewrite scoped_eq. unfold param. rewrite rewired, bind_ret.
  erewrite bind_done by (apply by_value_ok; exact Hca).
  erewrite bind_done by (apply read_ok; cbn [store]; apply holds_new).
  cbn [kind_of]. unfold ret.
  rewrite closing_app. cbn [map].
  rewrite (mset_same _ _ _ Hr).
  exists (cells ++ [(false, Node (KFlag ch) [])]).
  exists (aref va). rewrite app_nil_r. split.
  - cbn [st' store mworld trace]. rewrite <- app_assoc. rewrite closing_app. reflexivity.
  - destruct (Hel 0 (data v) eq_refl) as [H1 H2]. cbn [nth_error] in H1, H2.
    destruct (obj_empty ve (data v)) eqn:Ee.
    + right. split; [exact Ee|]. destruct (H2 eq_refl) as (a' & Ea & Hge). injection Ea as <-.
      split; [exact Hge|].
      rewrite <- kill_app. apply holds_dies; [exact Hge|].
      rewrite app_assoc. apply holds_app. exact Hva.
    + left. specialize (H1 eq_refl). injection H1 as ->. cbn [aref].
      exists [1; 0]. split; [|reflexivity]. now rewrite !at_ext, ext_ext.
Qed.

(** ** Nodes *)
Definition kstep (l : lz) (w : W) : kept_eff :=
  let '(r, l', w', lg) := LazyModel.step KU l w in (r, kept_obj l', w', map kept_event lg).

(** Where the dependencies of the node at [rn] are while it runs: in the node, or, if of
    an empty class, in a temporary. *)
Definition place (base : list cell) (rn : ref) (j : nat) (r : ref) : Prop :=
  r = ext rn [1; j] \/ length base <= fst r.

Lemma put_dep c g (os os' : list obj) o x :
  put (node_obj c g (os ++ o :: os')) [1; Datatypes.S (length os)] x = node_obj c g (os ++ x :: os').
Proof.
  cbn [put node_obj left_obj members nth_error kind_of ct map].
  assert (E : nth_error (map (@SVal A F S) (os ++ o :: os')) (length os) = Some (SVal o)).
  { rewrite nth_error_map, nth_error_app2, Nat.sub_diag by lia. reflexivity. }
  rewrite E. cbn [LazyModel.update]. unfold node_obj, left_obj, ct. cbn [map].
  do 5 f_equal. rewrite !map_app. cbn [map].
  rewrite update_app_ge by (rewrite map_length; lia).
  rewrite map_length, Nat.sub_diag. reflexivity.
Qed.

Lemma sub_dep c g (os : list obj) i o q :
  nth_error os i = Some o -> sub (node_obj c g os) ([1; Datatypes.S i] ++ q) = sub o q.
Proof.
  intros H. cbn [app sub node_obj left_obj members nth_error ct map].
  rewrite nth_error_map, H. reflexivity.
Qed.

(** A dependency of empty class has no state. *)
Lemma empty_dep (l : lz) : obj_empty ve (kept_obj l) = true -> exists v ch, l = LazyModel.LValue v ch.
Proof.
  destruct l as [v ch|[p|p] c ds]; intros H; [eauto| |]; exfalso; cbn in H;
    repeat rewrite ?andb_false_r, ?andb_false_l in H; discriminate.
Qed.

Lemma step_value v ch w : LazyModel.step KU (LazyModel.LValue v ch) w =
  (LazyModel.Ok (v, ch), LazyModel.LValue v ch, w, []).
Proof. reflexivity. Qed.

(** The results while the node runs. *)
Definition result_ok sto (o : obj) (x : value * bool) : Prop :=
  exists rr, o = result_obj rr (snd x) /\
    (holds sto rr (data (fst x)) \/ (obj_empty ve (data (fst x)) = true /\ dangles sto rr (data (fst x)))).

Lemma kept_steps n m base rn x0 c g : n <= m -> holds base rn x0 -> forall ds pre rs st cells,
  Forall (fun l => kdep n (kept_obj l) (kstep l)) ds ->
  store st = mset base rn (node_obj c g (map (@kept_obj A F S) (pre ++ ds))) ++ cells ->
  length rs = length ds ->
  (forall i l r, nth_error ds i = Some l -> nth_error rs i = Some r ->
     holds (store st) r (kept_obj l) /\ place base rn (Datatypes.S (length pre + i)) r /\
     (obj_empty ve (kept_obj l) = false -> r = ext rn [1; Datatypes.S (length pre + i)])) ->
  let '(res, ds', w', lg) := LazyModel.steps KU ds (mworld st) in
  length ds' = length ds /\
  exists more,
    let sto' := mset base rn (node_obj c g (map (@kept_obj A F S) (pre ++ ds'))) ++ cells ++ more in
    match res with
    | LazyModel.Ok xs => exists os,
        mapM (fun d => scoped (bind (call_null (invoke m) d) (to_obj ve C))) rs st =
          (Done os, mkSt sto' w' (trace st ++ map kept_event lg)) /\
        Forall2 (result_ok sto') os xs
    | LazyModel.Exc =>
        mapM (fun d => scoped (bind (call_null (invoke m) d) (to_obj ve C))) rs st =
          (Err Throw, mkSt sto' w' (trace st ++ map kept_event lg))
    | LazyModel.UB => False
    end.
Proof.
  intros Hm Hbase. induction ds as [|d ds IH]; intros pre rs st cells HD Hst Hlen Hloc.
  - destruct rs; [|discriminate]. cbn. split; [reflexivity|]. exists [], [].
    rewrite !app_nil_r. rewrite app_nil_r in Hst. rewrite <- Hst, st_eta. split; [reflexivity|constructor].
  - destruct rs as [|r rs]; [discriminate|]. injection Hlen as Hlen.
    inversion HD as [|? ? HD1 HD2]; subst.
    destruct (Hloc 0 d r eq_refl eq_refl) as (Hr & Hpl & Hne). rewrite Nat.add_0_r in Hpl, Hne.
    rewrite LazyGeneral.steps_cons. cbn [mapM].
    set (N := node_obj c g (map (@kept_obj A F S) (pre ++ d :: ds))) in *.
    set (st1 := mkSt (store st ++ [(true, null)]) (mworld st) (trace st)).
    assert (Hnull : holds (store st1) (length (store st), []) null) by apply holds_new.
    pose proof (HD1 m st1 r (mkArg (length (store st), []) RV) Hm (holds_app _ _ _ _ Hr) Hnull) as H1.
    unfold kstep in H1. cbn [st1 store mworld trace] in H1.
    destruct (LazyModel.step KU d (mworld st)) as [[[res1 d'] w1] lg1] eqn:E1.
    cbv zeta in H1. destruct H1 as (c1 & H1).
    (* the store after the call *)
    assert (Eset : mset (store st) r (kept_obj d') =
                   mset base rn (node_obj c g (map (@kept_obj A F S) (pre ++ d' :: ds))) ++ cells).
    { destruct (obj_empty ve (kept_obj d)) eqn:Ee.
      - destruct (empty_dep d Ee) as (v & ch & ->). rewrite step_value in E1. injection E1 as _ <- _ _.
        rewrite (mset_same _ _ _ Hr). exact Hst.
      - rewrite (Hne eq_refl), Hst.
        rewrite mset_app by (cbn [ext fst]; rewrite mset_length; eapply holds_lt; exact Hbase).
        rewrite (mset_mset _ _ _ _ _ _ Hbase). unfold N. f_equal. f_equal.
        rewrite !map_app. cbn [map]. rewrite <- (map_length (@kept_obj A F S) pre). apply put_dep. }
    assert (Esto : mset (store st ++ [(true, null)]) r (kept_obj d') =
                   (mset base rn (node_obj c g (map (@kept_obj A F S) (pre ++ d' :: ds))) ++ cells) ++ [(true, null)]).
    { rewrite mset_app by (eapply holds_lt; exact Hr). now rewrite Eset. }
    rewrite Esto in H1.
    set (N1 := node_obj c g (map (@kept_obj A F S) (pre ++ d' :: ds))) in *.
    assert (El : length (store st) = length (mset base rn N1 ++ cells)).
    { rewrite Hst, !app_length, !mset_length. reflexivity. }
    (* the rest of the list sees the new state *)
    set (st2 := mkSt ((mset base rn N1 ++ cells) ++ map dead ([(true, null)] ++ map dead c1)) w1
                  (trace st ++ map kept_event lg1)).
    assert (Hcall : forall (o : outcome (result A F S)) (k : obj) (E : outcome obj),
      invoke m r [mkArg (length (store st), []) RV] st1 =
        (o, mkSt (((mset base rn N1 ++ cells) ++ [(true, null)]) ++ map dead c1) w1 (trace st ++ map kept_event lg1)) ->
      E = (match o with Done (RVal x) => Done x | Done _ => Done k | Err e => Err e end) ->
      (forall x, o = Done x -> exists y, x = RVal y) ->
      scoped (bind (call_null (invoke m) r) (to_obj ve C)) st = (E, st2)).
    { intros o k E Hinv -> Ho. rewrite scoped_eq. unfold call_null. rewrite bind_assoc.
      erewrite bind_done by reflexivity. fold st1.
      destruct o as [x|e].
      - destruct (Ho x eq_refl) as (y & ->). erewrite bind_done by exact Hinv.
        cbn [to_obj]. unfold ret. rewrite El, <- app_assoc, closing_app. reflexivity.
      - erewrite bind_err by exact Hinv. rewrite El, <- app_assoc, closing_app. reflexivity. }
    assert (Hloc2 : forall i l r', nth_error ds i = Some l -> nth_error rs i = Some r' ->
       holds (store st2) r' (kept_obj l) /\ place base rn (Datatypes.S (length (pre ++ [d']) + i)) r' /\
       (obj_empty ve (kept_obj l) = false -> r' = ext rn [1; Datatypes.S (length (pre ++ [d']) + i)])).
    { intros i l r' Hi Hri. destruct (Hloc (Datatypes.S i) l r' Hi Hri) as (Hh & Hp & Hn').
      assert (Ei : length pre + Datatypes.S i = length (pre ++ [d']) + i) by (rewrite app_length; cbn; lia).
      rewrite Ei in Hp, Hn'. split; [|split; assumption].
      cbn [st2 store]. apply holds_app. destruct Hp as [-> | Hp].
      - apply holds_app. eapply holds_sub; [eapply holds_mset; exact Hbase|].
        rewrite <- (app_nil_r [1; Datatypes.S (length (pre ++ [d']) + i)]).
        unfold N1. erewrite sub_dep; [reflexivity|].
        rewrite nth_error_map. change (pre ++ d' :: ds) with (pre ++ [d'] ++ ds). rewrite app_assoc.
        rewrite nth_error_app2 by lia. replace (length (pre ++ [d']) + i - length (pre ++ [d'])) with i by lia.
        now rewrite Hi.
      - rewrite Hst in Hh. pose proof (holds_tail _ (mset base rn N1) cells [] r' _ Hh) as HT.
        rewrite app_nil_r in HT. apply HT; rewrite !mset_length; [exact Hp|reflexivity]. }
    destruct res1 as [[v b]| |].
    + destruct H1 as (rr & H1 & Href).
      assert (E : scoped (bind (call_null (invoke m) r) (to_obj ve C)) st = (Done (result_obj rr b), st2)).
      { eapply (Hcall _ null); [exact H1|reflexivity|]. intros x Ex. injection Ex as <-. eauto. }
      erewrite bind_done by exact E.
      specialize (IH (pre ++ [d']) rs st2 (cells ++ map dead ([(true, null)] ++ map dead c1)) HD2).
      assert (Ep : forall l : list lz, (pre ++ [d']) ++ l = pre ++ d' :: l) by (intros l; now rewrite <- app_assoc).
      rewrite Ep in IH. specialize (IH ltac:(cbn [st2 store]; now rewrite <- app_assoc) Hlen Hloc2).
      change (mworld st2) with w1 in IH. change (trace st2) with (trace st ++ map kept_event lg1) in IH.
      destruct (LazyModel.steps KU ds w1) as [[[res2 ds2] w2] lg2].
      destruct IH as (Hl2 & more & IH). cbv zeta in IH. rewrite Ep in IH.
      split; [cbn; now rewrite Hl2|].
      exists (map dead ([(true, null)] ++ map dead c1) ++ more). cbv zeta.
      rewrite (map_app kept_event lg1 lg2), (app_assoc (trace st)). rewrite <- (app_assoc cells) in IH.
      destruct res2 as [xs| |]; [| |contradiction].
      * destruct IH as (os & Em & Hos). exists (result_obj rr b :: os).
        erewrite bind_done by exact Em. split; [reflexivity|]. constructor; [|exact Hos].
        exists rr. split; [reflexivity|]. cbn [fst].
        destruct Href as [(q & -> & Hq)|(He & Hge & Hd)].
        -- left. destruct Hpl as [-> | Hpl].
           ++ apply holds_app. rewrite ext_ext. eapply holds_sub; [eapply holds_mset; exact Hbase|].
              replace (length pre) with (length (map (@kept_obj A F S) pre)) by apply map_length.
              unfold N1. erewrite sub_dep; [exact Hq|]. rewrite map_app, nth_error_app2, Nat.sub_diag by lia. reflexivity.
           ++ assert (Hd' : d' = d).
              { destruct (obj_empty ve (kept_obj d)) eqn:Ee.
                - destruct (empty_dep d Ee) as (v0 & ch & ->). rewrite step_value in E1. now injection E1.
                - exfalso. rewrite (Hne eq_refl) in Hpl. cbn [ext fst] in Hpl.
                  pose proof (holds_lt _ _ _ Hbase). lia. }
              subst d'. apply (holds_tail (mset base rn N)).
              ** rewrite <- Hst. eapply holds_sub; [exact Hr|exact Hq].
              ** rewrite mset_length. exact Hpl.
              ** now rewrite !mset_length.
        -- right. split; [exact He|].
           rewrite app_length in Hge. cbn [length] in Hge.
           assert (Hd2 : dangles (mset base rn N1 ++ cells ++ map dead ([(true, null)] ++ map dead c1)) rr (data v)).
           { assert (EK : kill_from (length (mset base rn N1 ++ cells))
                            (((mset base rn N1 ++ cells) ++ [(true, null)]) ++ map dead c1) =
                          mset base rn N1 ++ cells ++ map dead ([(true, null)] ++ map dead c1)).
             { generalize (mset base rn N1), (map dead c1). clear. intros X Y.
               rewrite <- (app_assoc (X ++ cells)), kill_app, <- app_assoc. reflexivity. }
             rewrite <- EK. apply dangles_kill; [|exact Hd].
             clear. rewrite !app_length. lia. }
           rewrite !(app_assoc cells).
           eapply dangles_tail; [exact Hd2| |now rewrite !mset_length].
           rewrite mset_length. rewrite El, app_length, mset_length in Hge. lia.
      * erewrite bind_err by exact IH. reflexivity.
    + assert (E : scoped (bind (call_null (invoke m) r) (to_obj ve C)) st = (Err Throw, st2)).
      { eapply (Hcall _ null); [exact H1|reflexivity|]. intros x Ex. discriminate. }
      erewrite bind_err by exact E. split; [reflexivity|].
      exists (map dead ([(true, null)] ++ map dead c1)). unfold st2. rewrite <- (app_assoc (mset base rn N1)). reflexivity.
    + contradiction.
Qed.


Lemma closing_at {X} k base (cells : list cell) (o : outcome X) (w : W) (t : list mevent) :
  k = length base ->
  closing k (o, mkSt (base ++ cells) w t) = (o, mkSt (base ++ map dead cells) w t).
Proof. intros ->. apply closing_app. Qed.

Lemma param_byref a st : param ve C a st = (Done (aref a), st).
Proof. unfold param. now rewrite rewired. Qed.

Lemma params_byref args st : mapM (param ve C) args st = (Done (map aref args), st).
Proof.
  induction args as [|a args IH]; [reflexivity|]. cbn [mapM map]. unfold param at 1. rewrite rewired, bind_ret.
  erewrite bind_done by exact IH. reflexivity.
Qed.

Lemma flags_kept st sto : forall os xs, Forall2 (result_ok sto) os xs ->
  mapM (@result_flag A W F S) os st = (Done (map snd xs), st).
Proof.
  induction os as [|o os IH]; intros xs H; inversion H; subst; [reflexivity|].
  destruct H2 as (rr & -> & _). cbn [mapM map]. erewrite bind_done by reflexivity.
  erewrite bind_done by (apply IH; eassumption). reflexivity.
Qed.

Lemma values_kept st : forall os xs, Forall2 (result_ok (store st)) os xs ->
  mapM (result_value ve C) os st = (Done (map data (map fst xs)), st).
Proof.
  induction os as [|o os IH]; intros xs H; inversion H; subst; [reflexivity|].
  destruct H2 as (rr & -> & Hr). cbn [mapM map result_obj result_value].
  erewrite bind_done.
  2: { destruct Hr as [Hr|[He Hr]]; [apply read_ok; exact Hr|apply read_dead; [exact Hr|now right]]. }
  erewrite bind_done by (apply IH; eassumption). reflexivity.
Qed.

Lemma existsb_snd {X} (xs : list (X * bool)) : existsb (fun b => b) (map snd xs) = existsb snd xs.
Proof. induction xs as [|[x b] xs IH]; cbn; [reflexivity|now rewrite IH]. Qed.

Lemma put_cache c g os v :
  put (node_obj c g os) [0; 0] (Node KOpt [SVal (data v)]) = @node_obj A F S (Some v) g os.
Proof. reflexivity. Qed.

(** [return LazyResult{ *cache, changed };] *)
Definition give_cache (x : ref) (b : bool) : Machine.M A W F S (result A F S) :=
  bind (read ve C (at_ x 0)) (fun c' =>
  bind (match c' with
        | Node KOpt [SVal (Node (KData VVoid) _)] => alloc (data VVoid)
        | Node KOpt [SVal _] => ret (at_ (at_ x 0) 0)
        | _ => fail Undefined
        end) (fun v =>
  ret (RVal (Node KResult [SRef v; SVal (Node (KBool b) [])])))).

Lemma give_cache_ok base r x0 v g os (cells rest : list cell) b w t :
  holds base r x0 ->
  let sto := mset base r (node_obj (Some v) g os) in
  exists rr cells',
    closing (length base) (closing (length (base ++ cells))
      (give_cache (at_ r 0) b (mkSt (sto ++ cells ++ rest) w t))) =
    (Done (@RVal A F S (result_obj rr b)), mkSt (sto ++ map dead cells') w t) /\
    refers (sto ++ map dead cells') (length base) r (node_obj (Some v) g os) rr v.
Proof.
  intros Hb sto.
  assert (Hn : holds sto r (node_obj (Some v) g os)) by (eapply holds_mset; exact Hb).
  assert (Hc : holds (sto ++ cells ++ rest) (at_ (at_ r 0) 0) (cache_obj (Some v))).
  { apply holds_app. rewrite !at_ext, ext_ext. eapply holds_sub; [exact Hn|reflexivity]. }
  assert (El : length sto = length base) by apply mset_length.
  assert (El2 : length (base ++ cells) = length (sto ++ cells)) by (rewrite !app_length; lia).
  unfold give_cache.
  assert (Hnv : forall rest', closing (length base) (closing (length (base ++ cells))
      (Done (@RVal A F S (result_obj (at_ (at_ (at_ r 0) 0) 0) b)), mkSt (sto ++ cells ++ rest') w t)) =
      (Done (@RVal A F S (result_obj (at_ (at_ (at_ r 0) 0) 0) b)), mkSt (sto ++ map dead (cells ++ map dead rest')) w t)).
  { intros rest'. rewrite app_assoc, (closing_at _ _ _ _ _ _ El2), <- app_assoc, (closing_at _ _ _ _ _ _ (eq_sym El)).
    reflexivity. }
  erewrite bind_done by (apply read_ok; exact Hc). cbn [cache_obj].
  destruct v as [y| |y|y z|y]; cbn [Machine.data].
  1, 3, 4, 5: rewrite bind_ret; unfold ret; exists (at_ (at_ (at_ r 0) 0) 0), (cells ++ map dead rest);
    (split; [apply Hnv|]); left; exists [0; 0; 0]; (split; [|reflexivity]);
    now rewrite !at_ext, !ext_ext.
  erewrite bind_done by reflexivity. unfold ret. cbn [store mworld trace].
  exists (length (sto ++ cells ++ rest), []), (cells ++ map dead (rest ++ [(true, data VVoid)])). split.
  - replace ((sto ++ cells ++ rest) ++ [(true, data VVoid)]) with ((sto ++ cells) ++ rest ++ [(true, data VVoid)])
      by (now rewrite <- !app_assoc).
    rewrite (closing_at _ _ _ _ _ _ El2), <- app_assoc, (closing_at _ _ _ _ _ _ (eq_sym El)). reflexivity.
  - right. split; [reflexivity|]. split; [cbn [fst]; rewrite !app_length; lia|].
    rewrite map_app, map_dead_dead, map_app, app_assoc, app_assoc.
    exists (data VVoid). cbn [fst snd sub map dead]. split; [|reflexivity].
    rewrite nth_error_app2 by (rewrite !app_length, !map_length; lia).
    match goal with |- nth_error _ ?k = _ => replace k with 0 by (rewrite !app_length, !map_length; lia) end.
    reflexivity.
Qed.

Definition same_fn (g : LazyModel.fnobj fn fn) (G : list value -> W -> outcome value * W * list mevent)
    (vs : list value) : Prop :=
  forall w, let '(o, w', l) := G vs w in
    (forall e, o = Err e -> e = Throw) /\
    exists lg, map kept_event lg = l /\
      LazyModel.call_fn KU g vs w =
      (match o with Done v => LazyModel.VRet v | Err _ => LazyModel.VThrow end, w', lg).

Definition knode (gobj : obj) (g : LazyModel.fnobj fn fn) (c : option value) (ds : list lz) (w : W) : kept_eff :=
  let '(r, l', w', lg) := LazyModel.step KU (LazyModel.LCore g c ds) w in
  (r, match l' with
      | LazyModel.LCore _ c' ds' => node_obj c' gobj (map (@kept_obj A F S) ds')
      | LazyModel.LValue _ _ => null
      end, w', map kept_event lg).

Lemma node_kept n gobj g G c ds :
  fn_ok ve C U n gobj G ->
  (forall w rs ds' w1 l1, LazyModel.steps KU ds w = (LazyModel.Ok rs, ds', w1, l1) ->
     same_fn g G (ctad_tuple as_tuple (map fst rs))) ->
  Forall (fun l => kdep n (kept_obj l) (kstep l)) ds ->
  kdep (3 + n) (node_obj c gobj (map (@kept_obj A F S) ds)) (knode gobj g c ds).
Proof.
  intros HG Hsame HD m st r a Hm Hr Ha.
  destruct m as [|[|[|m]]]; try lia.
  destruct (back_tuple_byref (1 + m) r [a] st (core_obj c) (gobj :: map (@kept_obj A F S) ds) [null] Hr)
    as (cells & x & es & bs & Hi & Hx & He & Hb & Hxe & Hel).
  { repeat constructor. exact Ha. }
  cbv zeta in *. rewrite (Hxe eq_refl) in *. clear Hxe x.
  set (st' := mkSt (store st ++ cells) (mworld st) (trace st)) in *.
  inversion He as [|ga ? das ? Hga He']; subst.
  inversion Hb as [|b ? bs' ? Hb1 Hb']; subst. inversion Hb'; subst.
  change (Datatypes.S (Datatypes.S (Datatypes.S m))) with (2 + (1 + m)).
  rewrite Hi. clear Hi. change (1 + m) with (Datatypes.S m).
  rewrite (invoke_S _ _ _ _ _ _ _ _ Hx). cbn [kind_of core_obj RVs map app call_core].
  rewrite scoped_eq. erewrite bind_done by apply param_byref.
  erewrite bind_done by apply params_byref.
  set (N := node_obj c gobj (map (@kept_obj A F S) ds)) in *.
  assert (Hlen : length (map aref das) = length ds).
  { rewrite map_length. apply F2_length in He'. now rewrite map_length in He'. }
  pose proof (kept_steps n m (store st) r N c gobj ltac:(lia) Hr ds [] (map aref das) st' cells HD) as HS.
  cbn [app] in HS. fold N in HS. rewrite (mset_same _ _ _ Hr) in HS.
  specialize (HS eq_refl Hlen).
  assert (Hloc : forall i l r', nth_error ds i = Some l -> nth_error (map aref das) i = Some r' ->
     holds (store st') r' (kept_obj l) /\ place (store st) r (Datatypes.S (length (@nil lz) + i)) r' /\
     (obj_empty ve (kept_obj l) = false -> r' = ext r [1; Datatypes.S (length (@nil lz) + i)])).
  { intros i l r' Hl Hr'. cbn [length plus].
    rewrite nth_error_map in Hr'. destruct (nth_error das i) as [da|] eqn:Eda; [|discriminate].
    injection Hr' as <-.
    assert (Hk : nth_error (map (@kept_obj A F S) ds) i = Some (kept_obj l)) by (now rewrite nth_error_map, Hl).
    split; [|].
    - destruct (F2_nth _ _ _ He' i da Eda) as (o & Ho & Hh). rewrite Hk in Ho. injection Ho as <-. exact Hh.
    - destruct (Hel (Datatypes.S i) (kept_obj l) Hk) as [H1 H2]. cbn [nth_error] in H1, H2. split.
      + destruct (obj_empty ve (kept_obj l)) eqn:Ee.
        * right. destruct (H2 eq_refl) as (a' & Ea & Hge). rewrite Eda in Ea. injection Ea as <-. exact Hge.
        * left. specialize (H1 eq_refl). rewrite Eda in H1. injection H1 as ->. cbn [aref].
          now rewrite !at_ext, ext_ext.
      + intros Ee. specialize (H1 Ee). rewrite Eda in H1. injection H1 as ->. cbn [aref].
        now rewrite !at_ext, ext_ext. }
  specialize (HS Hloc). clear Hloc.
  unfold knode. rewrite LazyGeneral.step_core. cbn [st' mworld trace] in HS |- *.
  destruct (LazyModel.steps KU ds (mworld st)) as [[[rs ds'] w1] l1] eqn:Esteps.
  destruct HS as (_ & more & HS). cbv zeta in HS.
  set (N1 := node_obj c gobj (map (@kept_obj A F S) ds')) in *.
  assert (El : forall o', length (mset (store st) r o') = length (store st)) by (intros; apply mset_length).
  assert (El2 : forall o', length (store st ++ cells) = length (mset (store st) r o' ++ cells))
    by (intros; now rewrite !app_length, El).
  assert (Hfin : forall X (o : outcome X) o' rest (w : W) (t : list mevent),
    closing (length (store st)) (closing (length (store st ++ cells)) (o, mkSt (mset (store st) r o' ++ cells ++ rest) w t)) =
    (o, mkSt (mset (store st) r o' ++ map dead (cells ++ map dead rest)) w t)).
  { intros X o o' rest w t. rewrite app_assoc, (closing_at _ _ _ _ _ _ (El2 o')), <- app_assoc.
    rewrite (closing_at _ _ _ _ _ _ (eq_sym (El o'))). reflexivity. }
  change (length (store st')) with (length (store st ++ cells)).
  destruct rs as [xs| |]; [| |contradiction].
  2: { erewrite bind_err by exact HS. eexists. apply Hfin. }
  destruct HS as (os & HS & Hos). erewrite bind_done by exact HS. clear HS.
  set (sto2 := mset (store st) r N1 ++ cells ++ more) in *.
  assert (HN1 : holds sto2 r N1) by (apply holds_app; eapply holds_mset; exact Hr).
  assert (Hc : holds sto2 (at_ (at_ r 0) 0) (cache_obj c)).
  { rewrite !at_ext, ext_ext. eapply holds_sub; [exact HN1|reflexivity]. }
  erewrite bind_done by (apply read_ok; exact Hc).
  erewrite bind_done by (eapply flags_kept; exact Hos).
  rewrite existsb_snd. rewrite LazyGeneral.core_eq.
  assert (Ee : engaged (@cache_obj A F S c) = LazyModel.is_some c) by (now destruct c).
  rewrite Ee.
  destruct (negb (LazyModel.is_some c) || existsb snd xs) eqn:Ech.
  2: { (* the kept result *)
       destruct c as [v|]; [|discriminate]. rewrite bind_ret.
       destruct (give_cache_ok (store st) r N v gobj (map (@kept_obj A F S) ds') cells more false w1
                   (trace st ++ map kept_event l1) Hr) as (rr & cells' & Hg & Hrf).
       cbv zeta in Hg, Hrf. exists cells', rr. rewrite app_nil_r. split; [exact Hg|exact Hrf]. }
  specialize (Hsame _ _ _ _ _ Esteps).
  set (vs := ctad_tuple as_tuple (map fst xs)) in *.
  set (tup := Node KTuple (map SVal (map data vs))).
  set (st3 := mkSt (sto2 ++ [(true, tup)]) w1 (trace st ++ map kept_event l1)).
  assert (Hg3 : holds (store st3) (aref ga) gobj).
  { cbn [st3 store]. apply holds_app.
    destruct (Hel 0 gobj eq_refl) as [H1 H2]. cbn [nth_error] in H1, H2.
    destruct (obj_empty ve gobj) eqn:Eg.
    - destruct (H2 eq_refl) as (a' & Ea & Hge). injection Ea as <-.
      eapply holds_tail; [exact Hga|exact Hge|apply El].
    - specialize (H1 eq_refl). injection H1 as ->. cbn [aref].
      rewrite !at_ext, ext_ext. eapply holds_sub; [exact HN1|reflexivity]. }
  assert (Htup : holds (store st3) (length sto2, []) tup) by apply holds_new.
  destruct (access_all st3 (length sto2, []) tup (map SVal (map data vs)) [] (map data vs) Htup eq_refl)
    as (ys & Hys & Hysf & _).
  { generalize (map data vs). intros l. clear. induction l; constructor; auto. reflexivity. }
  cbn [length] in Hys. rewrite map_length in Hys.
  pose proof (HG m st3 (aref ga) (map (fun e => mkArg e CLV) ys) vs ltac:(lia) Hg3) as HG3.
  specialize (HG3 ltac:(apply Forall2_map_l; exact (proj1 (Forall2_map_r (holds (store st3)) data ys _) Hysf))).
  specialize (Hsame w1).
  cbn [st3 mworld trace] in HG3.
  destruct (G vs w1) as [[o4 w4] l4] eqn:EG.
  destruct Hsame as (Hthrow & lg & Elg & Ecall). rewrite Ecall. clear Ecall.
  destruct HG3 as (c4 & HG3).
  assert (Hpre : forall K : list obj -> Machine.M A W F S bool,
    bind (mapM (result_value ve C) os) K (mkSt sto2 w1 (trace st ++ map kept_event l1)) =
    K (map data (map fst xs)) (mkSt sto2 w1 (trace st ++ map kept_event l1))).
  { intros K. apply bind_done. apply values_kept. exact Hos. }
  assert (El3 : forall o', length sto2 = length (mset (store st) r o' ++ cells ++ more)).
  { intros o'. unfold sto2. now rewrite !app_length, !El. }
  destruct o4 as [v|e].
  - (* returned *)
    set (N2 := node_obj (Some v) gobj (map (@kept_obj A F S) ds')).
    assert (Hset : forall l, mset (sto2 ++ l) (at_ (at_ r 0) 0) (Node KOpt [SVal (data v)]) =
                   (mset (store st) r N2 ++ cells ++ more) ++ l).
    { intros l. rewrite !at_ext, ext_ext. unfold sto2.
      rewrite <- app_assoc, mset_app by (cbn [ext fst]; rewrite El; eapply holds_lt; exact Hr).
      rewrite (mset_mset _ _ _ _ _ _ Hr). cbn [app]. unfold N1. rewrite put_cache. now rewrite <- !app_assoc. }
    set (fl := opt_ne (ueq U) c v).
    set (lc := match c with None => [] | Some c0 => [@LazyModel.EvCmp A fn fn c0 v] end).
    assert (Ein : forall K : bool -> Machine.M A W F S (result A F S),
      bind (scoped (bind (mapM (result_value ve C) os) (fun vs0 =>
               bind (alloc (Node KTuple (map SVal (ctad_tuple (@look A F S) vs0)))) (fun t =>
               bind (mapM (access t) (seq 0 (length (ctad_tuple (@look A F S) vs0)))) (fun es0 =>
               bind (invoke m (aref ga) (map (fun e => mkArg e CLV) es0)) (fun r0 =>
               bind (to_obj ve C r0) (fun result =>
               bind (cache_neq U (cache_obj c) result) (fun ch =>
               bind (write C (at_ (at_ r 0) 0) (Node KOpt [SVal result])) (fun _ => ret ch)))))))))
        K (mkSt sto2 w1 (trace st ++ map kept_event l1)) =
      K fl (mkSt (mset (store st) r N2 ++ cells ++ more ++ map dead ((true, tup) :: c4)) w4
                 (trace st ++ map kept_event (l1 ++ lg ++ lc)))).
    { intros K. apply bind_done. rewrite scoped_eq, Hpre. erewrite bind_done by reflexivity.
      rewrite ctad_data, map_length. rewrite map_length in Hys.
      erewrite bind_done by exact Hys. erewrite bind_done by exact HG3.
      cbn [to_obj]. rewrite bind_ret.
      assert (Ecn : cache_neq U (cache_obj c) (data v) (mkSt (store st3 ++ c4) w4 ((trace st ++ map kept_event l1) ++ l4)) =
                    (Done fl, mkSt (store st3 ++ c4) w4 (trace st ++ map kept_event (l1 ++ lg ++ lc)))).
      { rewrite !map_app, Elg, !app_assoc. unfold fl, lc. destruct c as [c0|].
        - reflexivity.
        - cbn. now rewrite app_nil_r. }
      cbn [st3 store] in Ecn |- *. erewrite bind_done by exact Ecn.
      erewrite bind_done by (eapply write_eq; cbn [store]; do 2 apply holds_app; exact Hc).
      cbn [store mworld trace]. unfold ret.
      rewrite <- (app_assoc sto2), Hset. cbn [app].
      rewrite (closing_at _ _ _ _ _ _ (El3 N2)). now rewrite <- !app_assoc. }
    rewrite Ein.
    destruct (give_cache_ok (store st) r N v gobj (map (@kept_obj A F S) ds') cells
                (more ++ map dead ((true, tup) :: c4)) fl w4
                (trace st ++ map kept_event (l1 ++ lg ++ lc)) Hr) as (rr & cells' & Hg & Hrf).
    cbv zeta in Hg, Hrf. exists cells', rr. split; [exact Hg|exact Hrf].
  - (* thrown *)
    rewrite (Hthrow e eq_refl) in *.
    erewrite bind_err.
    2: { rewrite scoped_eq, Hpre. erewrite bind_done by reflexivity.
         rewrite ctad_data, map_length. rewrite map_length in Hys.
         erewrite bind_done by exact Hys. erewrite bind_err by exact HG3.
         cbn [st3 store]. rewrite <- app_assoc. unfold sto2 at 2.
         rewrite (closing_at _ _ _ _ _ _ (El3 N1)). rewrite <- !app_assoc. reflexivity. }
    eexists. rewrite Hfin. rewrite (map_app kept_event), Elg, (app_assoc (trace st)). reflexivity.
Qed.


(** ** [unwrap_value] and [unregularized_void] *)

Definition within (f : obj -> obj) (D : W -> kept_eff) (w : W) : kept_eff :=
  let '(r, o', w', l) := D w in (r, f o', w', l).

Lemma refers_within sto sto' n n' r p o' O' rr v :
  refers sto n (ext r p) o' rr v -> n' <= n ->
  (forall q, sub O' (p ++ q) = sub o' q) ->
  (dangles sto rr (data v) -> dangles sto' rr (data v)) ->
  refers sto' n' r O' rr v.
Proof.
  intros [(q & -> & Hq)|(He & Hge & Hd)] Hn Hs Hdd.
  - left. exists (p ++ q). split; [apply ext_ext|]. now rewrite Hs.
  - right. split; [exact He|]. split; [lia|auto].
Qed.

Lemma unwrap_null_kept n d D : obj_empty ve d = false ->
  kdep n d D -> kdep (4 + n) (unwrap_obj d) (within (@unwrap_obj A F S) D).
Proof.
  intros Hne HD m st r a Hm Hr Ha.
  destruct m as [|[|[|[|m]]]]; try lia.
  rewrite (invoke_S _ _ _ _ _ _ _ _ Hr). cbn [kind_of unwrap_obj call_unwrap].
  assert (Hl : holds (store st) (at_ r 0) (left_obj (Node KUnwrapCall []) [d])).
  { eapply holds_member; [exact Hr|reflexivity]. }
  destruct (back_tuple_byref (1 + m) (at_ r 0) [mkArg r LV; a] st (Node KUnwrapCall []) [d]
              [unwrap_obj d; null] Hl) as (cells & x & es & bs & Hi & Hx & He & Hb & _ & Hel).
  { repeat constructor; assumption. }
  cbv zeta in *.
  set (st' := mkSt (store st ++ cells) (mworld st) (trace st)) in *.
  inversion He as [|da ? es' ? Hda He']; subst. inversion He'; subst.
  inversion Hb as [|b1 ? bs' ? Hb1 Hb']; subst. inversion Hb' as [|b2 ? bs'' ? Hb2 Hb'']; subst.
  inversion Hb''; subst.
  change (Datatypes.S (Datatypes.S (Datatypes.S m))) with (2 + (1 + m)).
  rewrite Hi. clear Hi. change (1 + m) with (Datatypes.S m).
  rewrite (invoke_S _ _ _ _ _ _ _ _ Hx). cbn [kind_of RVs map app call_unwrap_call].
  rewrite scoped_eq. erewrite bind_done by apply param_byref.
  unfold call_null. rewrite bind_assoc. erewrite bind_done by reflexivity.
  cbn [st' store mworld trace].
  assert (Eda : aref da = ext r [0; 1; 0]).
  { destruct (Hel 0 d eq_refl) as [H1 _]. specialize (H1 Hne). cbn in H1. injection H1 as ->. cbn [aref].
    now rewrite !at_ext, !ext_ext. }
  rewrite Eda in *.
  pose proof (HD m (mkSt ((store st ++ cells) ++ [(true, null)]) (mworld st) (trace st))
                (ext r [0; 1; 0]) (mkArg (length (store st ++ cells), []) RV) ltac:(lia)) as H1.
  cbn [store mworld trace aref] in H1.
  specialize (H1 ltac:(apply holds_app; exact Hda) ltac:(apply holds_new)).
  unfold within. destruct (D (mworld st)) as [[[o d'] w'] l] eqn:ED. destruct H1 as (c1 & H1). cbv zeta in H1.
  assert (Es : mset ((store st ++ cells) ++ [(true, null)]) (ext r [0; 1; 0]) d' ++ map dead c1 =
               (mset (store st) r (unwrap_obj d') ++ cells) ++ [(true, null)] ++ map dead c1).
  { assert (Hlt : fst r < length (store st)) by (eapply holds_lt; exact Hr).
    rewrite <- (app_assoc (store st)), mset_app by exact Hlt.
    rewrite (mset_ext _ _ _ _ _ Hr). cbn [put unwrap_obj]. rewrite <- !app_assoc. reflexivity. }
  rewrite Es in H1.
  set (sto := mset (store st) r (unwrap_obj d')) in *.
  assert (El : length sto = length (store st)) by apply mset_length.
  assert (El2 : length (store st ++ cells) = length (sto ++ cells)) by (rewrite !app_length; lia).
  assert (Hfin : forall X (y : outcome X),
    closing (length (store st)) (closing (length (store st ++ cells))
      (y, mkSt ((sto ++ cells) ++ [(true, null)] ++ map dead c1) w' (trace st ++ l))) =
    (y, mkSt (sto ++ map dead (cells ++ map dead ([(true, null)] ++ map dead c1))) w' (trace st ++ l))).
  { intros X y. rewrite (closing_at _ _ _ _ _ _ El2), <- app_assoc, (closing_at _ _ _ _ _ _ (eq_sym El)).
    reflexivity. }
  exists (cells ++ map dead ([(true, null)] ++ map dead c1)). cbv zeta. fold sto.
  destruct o as [[v b]| |]; [| |exact H1].
  - destruct H1 as (rr & H1 & Href). exists rr.
    erewrite bind_done by exact H1. cbn [to_obj]. rewrite bind_ret. unfold ret. split; [apply Hfin|].
    eapply refers_within; [exact Href|rewrite !app_length; lia|intros q; reflexivity|].
    intros Hd.
    assert (EK : kill_from (length sto) (kill_from (length (sto ++ cells)) ((sto ++ cells) ++ [(true, null)] ++ map dead c1)) =
                 sto ++ map dead (cells ++ map dead ([(true, null)] ++ map dead c1))).
    { rewrite kill_app, <- app_assoc, kill_app. reflexivity. }
    rewrite <- EK. apply dangles_kill; [rewrite kill_length, !app_length; lia|].
    apply dangles_kill; [rewrite !app_length; lia|exact Hd].
  - erewrite bind_err by exact H1. apply Hfin.
Qed.

Lemma unreg_null_kept n u D : obj_empty ve u = false ->
  kdep n u D -> kdep (3 + n) (right_obj (Node KUnreg []) [u])
                  (within (fun u' => right_obj (Node KUnreg []) [u']) D).
Proof.
  intros Hne HD m st r a Hm Hr Ha.
  destruct m as [|[|[|m]]]; try lia.
  destruct (front_tuple_call ve C U (1 + m) r [a] st (Node KUnreg []) [u] [null] Hr)
    as (cells & x & es & bs & Hi & Hx & He & Hb & _ & _ & Hel & _).
  { repeat constructor. exact Ha. }
  cbv zeta in *.
  set (st' := mkSt (store st ++ cells) (mworld st) (trace st)) in *.
  inversion He as [|ua ? es' ? Hua He']; subst. inversion He'; subst.
  inversion Hb as [|b ? bs' ? Hb1 Hb']; subst. inversion Hb'; subst.
  change (Datatypes.S (Datatypes.S (Datatypes.S m))) with (2 + (1 + m)).
  rewrite Hi. clear Hi. change (1 + m) with (Datatypes.S m).
  rewrite (invoke_S _ _ _ _ _ _ _ _ Hx). cbn [kind_of LVs map app call_unreg].
  rewrite scoped_eq. erewrite bind_done by apply param_byref.
  erewrite bind_done.
  2: { apply (by_value_all ve C [mkArg b LV] [null]). constructor; [|constructor]. exact Hb1. }
  cbn [st' store mworld trace length locals seq map].
  assert (Eua : aref ua = ext r [1; 0]).
  { destruct (Hel 0 u eq_refl) as [H1 _]. specialize (H1 Hne). cbn in H1. injection H1 as ->. cbn [aref].
    now rewrite !at_ext, !ext_ext. }
  rewrite Eua in *.
  pose proof (HD m (mkSt ((store st ++ cells) ++ [(true, null)]) (mworld st) (trace st))
                (ext r [1; 0]) (mkArg (length (store st ++ cells), []) LV) ltac:(lia)) as H1.
  cbn [store mworld trace aref] in H1.
  specialize (H1 ltac:(apply holds_app; exact Hua) ltac:(apply holds_new)).
  unfold within. destruct (D (mworld st)) as [[[o d'] w'] l] eqn:ED. destruct H1 as (c1 & H1). cbv zeta in H1.
  set (O' := right_obj (Node KUnreg []) [d']) in *.
  assert (Es : mset ((store st ++ cells) ++ [(true, null)]) (ext r [1; 0]) d' ++ map dead c1 =
               (mset (store st) r O' ++ cells) ++ [(true, null)] ++ map dead c1).
  { assert (Hlt : fst r < length (store st)) by (eapply holds_lt; exact Hr).
    rewrite <- (app_assoc (store st)), mset_app by exact Hlt.
    rewrite (mset_ext _ _ _ _ _ Hr). cbn [put right_obj]. rewrite <- !app_assoc. reflexivity. }
  rewrite Es in H1.
  set (sto := mset (store st) r O') in *.
  assert (El : length sto = length (store st)) by apply mset_length.
  assert (El2 : length (store st ++ cells) = length (sto ++ cells)) by (rewrite !app_length; lia).
  assert (Hfin : forall X (y : outcome X),
    closing (length (store st)) (closing (length (store st ++ cells))
      (y, mkSt ((sto ++ cells) ++ [(true, null)] ++ map dead c1) w' (trace st ++ l))) =
    (y, mkSt (sto ++ map dead (cells ++ map dead ([(true, null)] ++ map dead c1))) w' (trace st ++ l))).
  { intros X y. rewrite (closing_at _ _ _ _ _ _ El2), <- app_assoc, (closing_at _ _ _ _ _ _ (eq_sym El)).
    reflexivity. }
  exists (cells ++ map dead ([(true, null)] ++ map dead c1)). cbv zeta. fold sto.
  destruct o as [[v b0]| |]; [| |exact H1].
  - destruct H1 as (rr & H1 & Href). exists rr.
    erewrite bind_done by exact H1. cbn [to_obj result_obj]. rewrite bind_ret. unfold ret. split; [apply Hfin|].
    eapply refers_within; [exact Href|rewrite !app_length; lia|intros q; reflexivity|].
    intros Hd.
    assert (EK : kill_from (length sto) (kill_from (length (sto ++ cells)) ((sto ++ cells) ++ [(true, null)] ++ map dead c1)) =
                 sto ++ map dead (cells ++ map dead ([(true, null)] ++ map dead c1))).
    { rewrite kill_app, <- app_assoc, kill_app. reflexivity. }
    rewrite <- EK. apply dangles_kill; [rewrite kill_length, !app_length; lia|].
    apply dangles_kill; [rewrite !app_length; lia|exact Hd].
  - erewrite bind_err by exact H1. apply Hfin.
Qed.

(** Calls without arguments. *)
Definition kcall (R : value -> result A F S) (n : nat) (o : obj) (D : W -> kept_eff) : Prop :=
  forall m st r, n <= m -> holds (store st) r o ->
    let '(res, o', w', l) := D (mworld st) in
    exists cells,
      invoke m r [] st =
      (match res with
       | LazyModel.Ok (v, _) => Done (R v)
       | LazyModel.Exc => Err Throw
       | LazyModel.UB => Err Undefined
       end, mkSt (mset (store st) r o' ++ map dead cells) w' (trace st ++ l)).

Lemma unwrap_kept n d D : obj_empty ve d = false ->
  kdep n d D -> kcall (fun v => RVal (data v)) (5 + n) (unwrap_obj d) (within (@unwrap_obj A F S) D).
Proof.
  intros Hne HD m st r Hm Hr. destruct m as [|m]; [lia|].
  rewrite (invoke_S _ _ _ _ _ _ _ _ Hr). cbn [kind_of unwrap_obj call_unwrap].
  rewrite scoped_eq. unfold call_null. rewrite bind_assoc. erewrite bind_done by reflexivity.
  pose proof (unwrap_null_kept n d D Hne HD m (mkSt (store st ++ [(true, null)]) (mworld st) (trace st)) r
                (mkArg (length (store st), []) RV) ltac:(lia)) as H1.
  cbn [store mworld trace aref] in H1.
  specialize (H1 ltac:(now apply holds_app) ltac:(apply holds_new)).
  unfold within in *. destruct (D (mworld st)) as [[[o d'] w'] l] eqn:ED. destruct H1 as (c1 & H1). cbv zeta in H1.
  assert (Es : mset (store st ++ [(true, null)]) r (unwrap_obj d') ++ map dead c1 =
               mset (store st) r (unwrap_obj d') ++ [(true, null)] ++ map dead c1).
  { rewrite mset_app by (eapply holds_lt; exact Hr). now rewrite <- app_assoc. }
  rewrite Es in H1. set (sto := mset (store st) r (unwrap_obj d')) in *.
  assert (El : length (store st) = length sto) by (symmetry; apply mset_length).
  exists ([(true, null)] ++ map dead c1).
  destruct o as [[v b]| |]; [| |contradiction].
  - destruct H1 as (rr & H1 & Href).
    erewrite bind_done by exact H1. cbn [to_obj]. rewrite bind_ret. cbn [result_value result_obj].
    erewrite bind_done.
    2: { destruct Href as [(q & -> & Hq)|(He & _ & Hd)].
         - apply read_ok. cbn [store]. apply holds_app. eapply holds_sub; [eapply holds_mset; exact Hr|exact Hq].
         - apply read_dead; [exact Hd|now right]. }
    unfold ret. apply closing_at. exact El.
  - erewrite bind_err by exact H1. apply closing_at. exact El.
Qed.

Definition api_value (v : value) : result A F S := match v with VVoid => RVoid | _ => RVal (data v) end.

Lemma unreg_kept n u D : obj_empty ve u = false ->
  kcall (fun v => RVal (data v)) n u D ->
  kcall api_value (3 + n) (right_obj (Node KUnreg []) [u])
    (within (fun u' => right_obj (Node KUnreg []) [u']) D).
Proof.
  intros Hne HD m st r Hm Hr.
  destruct m as [|[|[|m]]]; try lia.
  destruct (front_tuple_call ve C U (1 + m) r [] st (Node KUnreg []) [u] [] Hr)
    as (cells & x & es & bs & Hi & Hx & He & Hb & _ & _ & Hel & _).
  { constructor. }
  cbv zeta in *.
  set (st' := mkSt (store st ++ cells) (mworld st) (trace st)) in *.
  inversion He as [|ua ? es' ? Hua He']; subst. inversion He'; subst.
  inversion Hb; subst.
  change (Datatypes.S (Datatypes.S (Datatypes.S m))) with (2 + (1 + m)).
  rewrite Hi. clear Hi. change (1 + m) with (Datatypes.S m).
  rewrite (invoke_S _ _ _ _ _ _ _ _ Hx). cbn [kind_of LVs map app call_unreg].
  rewrite scoped_eq. erewrite bind_done by apply param_byref.
  cbn [mapM]. rewrite bind_ret.
  assert (Eua : aref ua = ext r [1; 0]).
  { destruct (Hel 0 u eq_refl) as [H1 _]. specialize (H1 Hne). cbn in H1. injection H1 as ->. cbn [aref].
    now rewrite !at_ext, !ext_ext. }
  rewrite Eua in *.
  pose proof (HD m st' (ext r [1; 0]) ltac:(lia) Hua) as H1.
  cbn [st' store mworld trace map] in H1 |- *.
  unfold within. destruct (D (mworld st)) as [[[o d'] w'] l] eqn:ED. destruct H1 as (c1 & H1).
  set (O' := right_obj (Node KUnreg []) [d']) in *.
  assert (Es : mset (store st ++ cells) (ext r [1; 0]) d' ++ map dead c1 =
               (mset (store st) r O' ++ cells) ++ map dead c1).
  { assert (Hlt : fst r < length (store st)) by (eapply holds_lt; exact Hr).
    rewrite mset_app by exact Hlt.
    rewrite (mset_ext _ _ _ _ _ Hr). cbn [put right_obj]. rewrite <- !app_assoc. reflexivity. }
  rewrite Es in H1.
  set (sto := mset (store st) r O') in *.
  assert (El : length sto = length (store st)) by apply mset_length.
  assert (El2 : length (store st ++ cells) = length (sto ++ cells)) by (rewrite !app_length; lia).
  assert (Hfin : forall X (y : outcome X),
    closing (length (store st)) (closing (length (store st ++ cells))
      (y, mkSt ((sto ++ cells) ++ map dead c1) w' (trace st ++ l))) =
    (y, mkSt (sto ++ map dead (cells ++ map dead (map dead c1))) w' (trace st ++ l))).
  { intros X y. rewrite (closing_at _ _ _ _ _ _ El2), <- app_assoc, (closing_at _ _ _ _ _ _ (eq_sym El)).
    reflexivity. }
  exists (cells ++ map dead (map dead c1)). fold sto. rewrite <- Hfin. do 2 f_equal.
  destruct o as [[v b]| |].
  - erewrite bind_done by exact H1.
    destruct v as [y| |y|y z|y]; cbn [Machine.data to_obj api_value]; rewrite ?bind_ret; reflexivity.
  - erewrite bind_err by exact H1. reflexivity.
  - erewrite bind_err by exact H1. reflexivity.
Qed.

End Rewired.
