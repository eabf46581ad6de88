(** Proofs for C92. *)
From Coq Require Import List Bool Arith Lia.
From Verif Require Import Value TupleAlg LazyModel LazyProofs SharedModel ThreadModel ThreadSpec ThreadThms ThreadShareSpec ThreadShareThms
  GuardModel GuardSpec.
Import ListNotations.

Section Guard.
Context {A W fid did : Type}.
Notation value := (val A).
Notation heap := (heap A).
Notation prog := (prog A fid did).
Notation obj := (obj A fid did).
Notation gevent := (gevent A W fid did).
Notation gconf := (gconf A W fid did).
Notation sop := (@sop A W fid did).
Variable U : user A W fid did.
Variable P : list obj.

(** ** Who holds the mutex *)
Definition allowed (o : option nat) (e : gevent) : Prop :=
  match e with
  | GAcquire _ | GOutside _ => o = None
  | GAccess i _ | GRelease i _ => o = Some i
  end.
Definition next (o : option nat) (e : gevent) : option nat :=
  match e with GAcquire i => Some i | GRelease _ _ => None | _ => o end.
Fixpoint legal (o : option nat) (tr : list gevent) : Prop :=
  match tr with [] => True | e :: tr' => allowed o e /\ legal (next o e) tr' end.

Lemma legal_app t1 : forall o t2, legal o (t1 ++ t2) <-> legal o t1 /\ legal (fold_left next t1 o) t2.
Proof. induction t1 as [|e t1 IH]; intros o t2; cbn [app legal fold_left]; [tauto|]. rewrite IH. tauto. Qed.
Lemma held_app (t1 t2 : list gevent) : held (t1 ++ t2) = fold_left next t2 (held t1).
Proof. unfold held. now rewrite fold_left_app. Qed.

Lemma legal_passes t : forall i j, i <> j -> legal (Some i) t -> fold_left next t (Some i) = Some j ->
  exists u1 u2 u3 x, t = u1 ++ GRelease i x :: u2 ++ GAcquire j :: u3.
Proof.
  assert (H2 : forall t j, legal None t -> fold_left next t None = Some j -> exists u1 u2, t = u1 ++ GAcquire j :: u2).
  { clear t. intros t. induction t as [|e t IH] using rev_ind; intros j L E; [discriminate|].
    apply legal_app in L. destruct L as [L _]. rewrite fold_left_app in E. cbn [fold_left] in E. destruct e as [k|k a|k x|f]; cbn [next] in E.
    - injection E as ->. exists t, []. reflexivity.
    - destruct (IH j L E) as (u1 & u2 & ->). exists u1, (u2 ++ [GAccess k a]). now rewrite <- app_assoc.
    - discriminate.
    - destruct (IH j L E) as (u1 & u2 & ->). exists u1, (u2 ++ [GOutside f]). now rewrite <- app_assoc. }
  induction t as [|e t IH]; intros i j Hij L E; cbn [fold_left legal] in *; [congruence|].
  destruct L as [La L]. destruct e as [k|k a|k x|f]; cbn [allowed next] in *.
  - discriminate.
  - destruct (IH i j Hij L E) as (u1 & u2 & u3 & y & ->). exists (GAccess k a :: u1), u2, u3, y. reflexivity.
  - injection La as ->. destruct (H2 t j L E) as (u1 & u2 & ->). exists [], u1, u2, x. reflexivity.
  - discriminate.
Qed.

(** ** One step of a call *)
Lemma tstep_alone {X} (p : prog X) h w a p' h' w' : tstep U p h w = Some (a, p', h', w') ->
  exists l, let '(r, h2, w2, l2) := alone U p' h' w' in alone U p h w = (r, h2, w2, l ++ l2).
Proof.
  destruct p as [x| | |c k|c o p|g args k|x y k]; cbn [tstep alone]; try discriminate.
  - intros E. injection E as <- <- <- <-. exists []. now destruct (alone U (k (h c)) h w) as [[[? ?] ?] ?].
  - intros E. injection E as <- <- <- <-. exists []. now destruct (alone U p (put h c o) w) as [[[? ?] ?] ?].
  - destruct (call_fn U g args w) as [[r w1] lg]. intros E. injection E as <- <- <- <-. exists lg.
    now destruct (alone U (k r) h w1) as [[[? ?] ?] ?].
  - intros E. injection E as <- <- <- <-. exists [EvCmp x y]. now destruct (alone U (k (opt_ne (aeq U) (Some x) y)) h w) as [[[? ?] ?] ?].
Qed.
Lemma ended_alone {X} (p : prog X) r h w : ended p = Some r -> alone U p h w = (r, h, w, []).
Proof. destruct p; cbn; try discriminate; intros E; injection E as <-; reflexivity. Qed.
Lemma not_ended {X} (p : prog X) h w : ended p = None -> exists a p' h' w', tstep U p h w = Some (a, p', h', w').
Proof.
  destruct p as [x| | |c k|c o p|g args k|x y k]; cbn [ended tstep]; try discriminate; intros _.
  - eauto 6.
  - eauto 6.
  - destruct (call_fn U g args w) as [[r w1] lg]. eauto 6.
  - eauto 6.
Qed.

(** ** Histories *)
Lemma srun_snoc (ops : list sop) o : forall s, srun U (ops ++ [o]) s =
  match srun U ops s with
  | Some (s1, outs) => match sexec U o s1 with Some (s2, out) => Some (s2, outs ++ [out]) | None => None end
  | None => None
  end.
Proof.
  induction ops as [|o' ops IH]; intros s; cbn [app srun].
  - destruct (sexec U o s) as [[s1 out]|]; reflexivity.
  - destruct (sexec U o' s) as [[s1 out]|]; [|reflexivity]. rewrite IH. destruct (srun U ops s1) as [[s2 outs]|]; [|reflexivity].
    destruct (sexec U o s2) as [[s3 out']|]; reflexivity.
Qed.
Lemma srun_outs (ops : list sop) : forall s s' outs, srun U ops s = Some (s', outs) -> length outs = length ops.
Proof.
  induction ops as [|o ops IH]; intros s s' outs E; cbn [srun] in E; [injection E as <- <-; reflexivity|].
  destruct (sexec U o s) as [[s1 out]|]; [|discriminate]. destruct (srun U ops s1) as [[s2 outs2]|] eqn:E2; [|discriminate].
  injection E as <- <-. cbn. f_equal. eauto.
Qed.
Lemma by_thread_snoc {X} i (ops : list (option nat * sop)) (outs : list X) k o out : length outs = length ops ->
  by_thread i (ops ++ [(k, o)]) (outs ++ [out]) =
  by_thread i ops outs ++ (match k with Some j => if Nat.eqb j i then [out] else [] | None => [] end).
Proof.
  intros Hl. unfold by_thread.
  assert (E : combine (ops ++ [(k, o)]) (outs ++ [out]) = combine ops outs ++ [((k, o), out)]).
  { revert outs Hl. induction ops as [|o' ops IH]; intros [|out' outs] Hl; cbn in *; try discriminate; [reflexivity|]. f_equal. apply IH. lia. }
  rewrite E, filter_app, map_app. f_equal. cbn [filter fst]. destruct k as [j|]; [|reflexivity]. destruct (Nat.eqb j i); reflexivity.
Qed.
Lemma history_app (t1 t2 : list gevent) : history (t1 ++ t2) = history t1 ++ history t2.
Proof. unfold history. apply flat_map_app. Qed.

(** ** The invariant *)
Variable vf : fnobj fid did -> bool.
Hypothesis HP : laid_out P.
Hypothesis Hvf : steady U vf.
Variables (thr : list (list nat)) (hs : heap) (ws : W).
Hypothesis Hthr : Forall (Forall (fun x => x < length P)) thr.
Hypothesis Hst : steady_caches vf P hs.

Definition at_work (s : gconf) (tr : list gevent) (h0 : heap) (w0 : W) (outs : list (output A fid did)) (i : nat) (xs : list nat) : Prop :=
  exists rs ph, nth_error (gthreads s) i = Some (rs, ph) /\ ~ In UB rs /\
    map fst (by_thread i (history tr) outs) = map Some rs /\
    by_thread i (history tr) (map snd (history tr)) = map SCall (firstn (length rs) xs) /\
    match ph with
    | Waiting ys => skipn (length rs) xs = ys /\ holder s <> Some i
    | Within x p ys => skipn (length rs) xs = x :: ys /\ holder s = Some i /\
        exists l, let '(r, h', w', l2) := alone U p (gmem s) (gworld s) in
                  alone U (call_api U (node_at P x)) h0 w0 = (r, h', w', l ++ l2)
    end.
Definition ginv (s : gconf) (tr : list gevent) : Prop :=
  legal None tr /\ holder s = held tr /\ length (gthreads s) = length thr /\
  (forall i, holder s = Some i -> i < length thr) /\
  exists h0 w0 outs,
  srun U (map snd (history tr)) (mkSState (map (state_at hs) P) ws) = Some (mkSState (map (state_at h0) P) w0, outs) /\
  steady_caches vf P h0 /\ (forall i xs, nth_error thr i = Some xs -> at_work s tr h0 w0 outs i xs) /\
  (holder s = None -> gmem s = h0 /\ gworld s = w0).

Lemma skipn_next {X} (xs : list X) n x ys : skipn n xs = x :: ys -> firstn (S n) xs = firstn n xs ++ [x] /\ skipn (S n) xs = ys /\ In x xs.
Proof.
  revert n. induction xs as [|a xs IH]; intros [|n] E; cbn in E; try discriminate.
  - injection E as -> ->. cbn. auto.
  - destruct (IH n E) as (E1 & E2 & E3). cbn [firstn]. rewrite <- E2. cbn in E1. rewrite E1. cbn. auto.
Qed.

Lemma ginv_start : ginv (gstart thr hs ws) [].
Proof.
  split; [exact I|]. split; [reflexivity|]. split; [cbn; apply map_length|]. split; [discriminate|].
  exists hs, ws, []. split; [reflexivity|]. split; [exact Hst|]. split; [|auto].
  intros i xs Ei. exists [], (Waiting xs). cbn. split; [now rewrite nth_error_map, Ei|]. repeat split; auto. discriminate.
Qed.

Lemma at_work_other s tr h0 w0 outs i xs s1 : at_work s tr h0 w0 outs i xs ->
  nth_error (gthreads s1) i = nth_error (gthreads s) i -> holder s <> Some i -> holder s1 <> Some i -> at_work s1 tr h0 w0 outs i xs.
Proof.
  intros (rs & ph & E1 & E2 & E3 & E4 & E5) En Hh Hh1. exists rs, ph. rewrite En. repeat (split; [assumption|]).
  destruct ph as [ys|x p ys]; [tauto|]. destruct E5 as (_ & E5 & _). contradiction.
Qed.

Lemma ginv_turn s tr t s1 tr1 : ginv s tr -> gturn U P t s = (s1, tr1) -> ginv s1 (tr ++ tr1).
Proof.
  intros HI E. assert (Hsame : (s, []) = (s1, tr1) -> ginv s1 (tr ++ tr1)).
  { intros E'. injection E' as <- <-. now rewrite app_nil_r. }
  pose proof HI as HI0. destruct HI as (L & Hh & Hl & Hb & h0 & w0 & outs & Er & Hs & Hw & Hn).
  pose proof (srun_outs _ _ _ _ Er) as Hlo. rewrite map_length in Hlo.
  destruct t as [i|f]; cbn [gturn] in E.
  - destruct (nth_error (gthreads s) i) as [[rs ph]|] eqn:Ei; [|auto].
    assert (Hi : i < length thr) by (rewrite <- Hl; apply nth_error_Some; congruence).
    destruct (nth_error thr i) as [xs|] eqn:Ex; [|apply nth_error_None in Ex; lia].
    destruct (Hw i xs Ex) as (rs' & ph' & Ei' & Hub & A1 & A2 & A3). rewrite Ei in Ei'. injection Ei' as <- <-.
    assert (Hlg : i < length (gthreads s)) by lia.
    assert (Eup : forall t, nth_error (update i t (gthreads s)) i = Some t).
    { intros t. rewrite nth_error_update, Nat.eqb_refl. destruct (Nat.ltb_spec i (length (gthreads s))); [reflexivity|lia]. }
    assert (Eot : forall t j, j <> i -> nth_error (update i t (gthreads s)) j = nth_error (gthreads s) j).
    { intros t j Hj. rewrite nth_error_update. destruct (Nat.eqb_spec i j); [congruence|]. destruct (Nat.eqb_spec j i); [congruence|reflexivity]. }
    destruct ph as [[|x ys]|x p ys]; [auto| |].
    + destruct (holder s) as [k|] eqn:Eh; [auto|]. injection E as <- <-. destruct (Hn eq_refl) as [Em Ew]. destruct A3 as [A3 _].
      split; [apply legal_app; split; [exact L|]; change (fold_left next tr None) with (held tr); rewrite <- Hh; cbn; auto|].
      split; [rewrite held_app, <- Hh; reflexivity|]. cbn [gthreads holder gmem gworld]. split; [now rewrite update_length|].
      split; [intros k Ek; injection Ek as <-; exact Hi|].
      exists h0, w0, outs. assert (Ehist : history (tr ++ [GAcquire i]) = history tr) by (rewrite history_app; apply app_nil_r).
      rewrite Ehist. split; [exact Er|]. split; [exact Hs|]. split; [|discriminate].
      intros j xs' Ej. destruct (Nat.eq_dec j i) as [->|Hj].
      * rewrite Ex in Ej. injection Ej as <-. exists rs, (Within x (call_api U (node_at P x)) ys). cbn [gthreads holder gmem gworld].
        rewrite Ehist. split; [apply Eup|]. split; [exact Hub|]. split; [exact A1|]. split; [exact A2|]. split; [exact A3|]. split; [reflexivity|]. exists [].
        rewrite Em, Ew. now destruct (alone U (call_api U (node_at P x)) h0 w0) as [[[? ?] ?] ?].
      * pose proof (Hw j xs' Ej) as Hj'. unfold at_work in *. rewrite Ehist.
        eapply (at_work_other s tr h0 w0 outs j xs'); [exact Hj'| | |]; cbn [gthreads holder]; [now apply Eot|congruence|congruence].
    + destruct A3 as (A3 & Eh & l & A4). destruct (ended p) as [r|] eqn:Ee.
      * injection E as <- <-. rewrite (ended_alone p r _ _ Ee) in A4. rewrite app_nil_r in A4.
        destruct (skipn_next _ _ _ _ A3) as (F1 & F2 & F3).
        assert (Hx : x < length P).
        { rewrite Forall_forall in Hthr. pose proof (Hthr _ (nth_error_In _ _ Ex)) as Hxs. rewrite Forall_forall in Hxs. auto. }
        pose proof (api_shared U P vf HP Hvf x h0 w0 Hx Hs) as HA. rewrite A4 in HA. destruct HA as (HA & Hr & Hs1).
        split; [apply legal_app; split; [exact L|]; change (fold_left next tr None) with (held tr); rewrite <- Hh; cbn; auto|].
        split; [now rewrite held_app|]. cbn [gthreads holder gmem gworld]. split; [now rewrite update_length|]. split; [discriminate|].
        assert (Ehist : history (tr ++ [GRelease i x]) = history tr ++ [(Some i, SCall x)]) by now rewrite history_app.
        exists (gmem s), (gworld s), (outs ++ [(Some r, l)]). rewrite Ehist, map_app. cbn [map snd]. rewrite srun_snoc, Er, HA.
        split; [reflexivity|]. split; [exact Hs1|]. split; [|auto].
        intros j xs' Ej. unfold at_work. rewrite Ehist, map_app. cbn [map snd].
        rewrite !by_thread_snoc by (rewrite ?map_length; auto). destruct (Nat.eq_dec j i) as [->|Hj].
        -- rewrite Ex in Ej. injection Ej as <-. exists (rs ++ [r]), (Waiting ys). cbn [gthreads holder]. rewrite Nat.eqb_refl.
           split; [apply Eup|]. split. { intros Hin. apply in_app_or in Hin. destruct Hin as [Hin|[Hin|[]]]; auto. }
           replace (length (rs ++ [r])) with (S (length rs)) by (rewrite app_length; cbn; lia). rewrite F1.
           split; [rewrite !map_app; f_equal; exact A1|].
           split; [rewrite map_app; f_equal; exact A2|]. split; [exact F2|discriminate].
        -- destruct (Hw j xs' Ej) as (rs2 & ph2 & B1 & B2 & B3 & B4 & B5). exists rs2, ph2. cbn [gthreads holder gmem gworld].
           destruct (Nat.eqb_spec i j); [congruence|]. rewrite !app_nil_r. rewrite Eot by exact Hj. repeat (split; [assumption|]).
           destruct ph2 as [ys2|x2 p2 ys2]; [split; [tauto|discriminate]|]. destruct B5 as (_ & B5 & _). congruence.
      * destruct (not_ended p (gmem s) (gworld s) Ee) as (a & p' & h' & w' & Et). rewrite Et in E. injection E as <- <-.
        destruct (tstep_alone p _ _ _ _ _ _ Et) as [l' Hl'].
        split; [apply legal_app; split; [exact L|]; change (fold_left next tr None) with (held tr); rewrite <- Hh; cbn; auto|].
        split; [rewrite held_app, <- Hh; reflexivity|]. cbn [gthreads holder gmem gworld]. split; [now rewrite update_length|]. split; [exact Hb|].
        exists h0, w0, outs. assert (Ehist : history (tr ++ [GAccess i a]) = history tr) by (rewrite history_app; apply app_nil_r).
        rewrite Ehist. split; [exact Er|]. split; [exact Hs|]. split; [|congruence].
        intros j xs' Ej. destruct (Nat.eq_dec j i) as [->|Hj].
        -- rewrite Ex in Ej. injection Ej as <-. exists rs, (Within x p' ys). cbn [gthreads holder gmem gworld].
           rewrite Ehist. split; [apply Eup|]. split; [exact Hub|]. split; [exact A1|]. split; [exact A2|]. split; [exact A3|]. split; [exact Eh|].
           exists (l ++ l'). destruct (alone U p' h' w') as [[[r2 h2] w2] l2]. rewrite Hl' in A4. now rewrite <- app_assoc.
        -- pose proof (Hw j xs' Ej) as Hj'. unfold at_work in *. rewrite Ehist.
           eapply (at_work_other s tr h0 w0 outs j xs'); [exact Hj'| | |]; cbn [gthreads holder]; [now apply Eot|congruence|congruence].
  - destruct (holder s) as [k|] eqn:Eh; [auto|]. injection E as <- <-. destruct (Hn eq_refl) as [Em Ew].
    split; [apply legal_app; split; [exact L|]; change (fold_left next tr None) with (held tr); rewrite <- Hh; cbn; auto|].
    split; [rewrite held_app, <- Hh; reflexivity|]. cbn [gthreads holder gmem gworld]. split; [exact Hl|]. split; [discriminate|].
    assert (Ehist : history (tr ++ [GOutside f]) = history tr ++ [(None, SEnv f)]) by now rewrite history_app.
    exists h0, (f w0), (outs ++ [(None, [])]). rewrite Ehist, map_app. cbn [map snd]. rewrite srun_snoc, Er. cbn [sexec svars sworld].
    split; [reflexivity|]. split; [exact Hs|]. split; [|split; [exact Em|now rewrite Ew]].
    intros j xs' Ej. unfold at_work. rewrite Ehist, map_app. cbn [map snd]. rewrite !by_thread_snoc by (rewrite ?map_length; auto). rewrite !app_nil_r.
    destruct (Hw j xs' Ej) as (rs2 & ph2 & B1 & B2 & B3 & B4 & B5). exists rs2, ph2. cbn [gthreads holder gmem gworld].
    repeat (split; [assumption|]). destruct ph2 as [ys2|x2 p2 ys2]; [split; [tauto|discriminate]|]. destruct B5 as (_ & B5 & _). congruence.
Qed.

Lemma ginv_run sched : forall s tr s' tr', ginv s tr -> grun U P sched s = (s', tr') -> ginv s' (tr ++ tr').
Proof.
  induction sched as [|t sched IH]; intros s tr s' tr' HI E; cbn [grun] in E.
  - injection E as <- <-. now rewrite app_nil_r.
  - destruct (gturn U P t s) as [s1 tr1] eqn:E1. destruct (grun U P sched s1) as [s2 tr2] eqn:E2.
    injection E as <- <-. rewrite app_assoc. eapply IH; [|exact E2]. eapply ginv_turn; eauto.
Qed.
Lemma ginv_all sched s tr : grun U P sched (gstart thr hs ws) = (s, tr) -> ginv s tr.
Proof. intros E. exact (ginv_run _ _ _ _ _ ginv_start E). Qed.

(** Every run is a sequence of calls. *)
Theorem guard_linear sched s tr : grun U P sched (gstart thr hs ws) = (s, tr) ->
  exists st outs, srun U (map snd (history tr)) (mkSState (map (state_at hs) P) ws) = Some (st, outs) /\
    (forall i xs, nth_error thr i = Some xs -> exists t, nth_error (gthreads s) i = Some t /\ ~ In UB (results t) /\
       map fst (by_thread i (history tr) outs) = map Some (results t) /\
       by_thread i (history tr) (map snd (history tr)) = map SCall (firstn (length (results t)) xs)) /\
    (holder s = None -> svars st = map (state_at (gmem s)) P /\ sworld st = gworld s).
Proof.
  intros E. destruct (ginv_all _ _ _ E) as (_ & _ & _ & _ & h0 & w0 & outs & Er & _ & Hw & Hn).
  exists (mkSState (map (state_at h0) P) w0), outs. split; [exact Er|]. split.
  - intros i xs Ei. destruct (Hw i xs Ei) as (rs & ph & E1 & E2 & E3 & E4 & _). exists (rs, ph). auto.
  - intros Hh. destruct (Hn Hh) as [-> ->]. auto.
Qed.

(** Accesses are ordered by the mutex. *)
Theorem guard_ordered sched s tr : grun U P sched (gstart thr hs ws) = (s, tr) ->
  forall t1 i a t2 j b t3, i <> j -> tr = t1 ++ GAccess i a :: t2 ++ GAccess j b :: t3 ->
  exists u1 u2 u3 x, t2 = u1 ++ GRelease i x :: u2 ++ GAcquire j :: u3.
Proof.
  intros E t1 i a t2 j b t3 Hij Et. destruct (ginv_all _ _ _ E) as (L & _). subst tr.
  apply legal_app in L. destruct L as [_ L]. cbn [legal allowed next] in L. destruct L as [L1 L]. rewrite L1 in L.
  apply legal_app in L. destruct L as [L2 L]. cbn [legal allowed] in L. destruct L as [L3 _]. now apply legal_passes.
Qed.

(** ** Progress *)
Lemma grun_app s1 s2 : forall s, grun U P (s1 ++ s2) s =
  let '(s', tr) := grun U P s1 s in let '(s'', tr') := grun U P s2 s' in (s'', tr ++ tr').
Proof.
  induction s1 as [|t s1 IH]; intros s; cbn [app grun].
  - now destruct (grun U P s2 s).
  - destruct (gturn U P t s) as [sa ta]. rewrite IH. destruct (grun U P s1 sa) as [sb tb]. destruct (grun U P s2 sb) as [sc tc].
    now rewrite app_assoc.
Qed.

Lemma finish_call i x ys (p : prog (option value)) : forall s rs, nth_error (gthreads s) i = Some (rs, Within x p ys) ->
  exists sched r h w, fst (grun U P sched s) = mkG (update i (rs ++ [r], Waiting ys) (gthreads s)) None h w.
Proof.
  assert (Hup : forall (l : list (gthread A fid did)) t u, update i t (update i u l) = update i t l).
  { clear. revert i. intros i l. revert i. induction l as [|a l IH]; intros [|i] t u; cbn [update]; auto. now rewrite IH. }
  assert (Hin : forall (s : gconf) t u, nth_error (gthreads s) i = Some u -> nth_error (update i t (gthreads s)) i = Some t).
  { intros s t u Hu. rewrite nth_error_update, Nat.eqb_refl. destruct (Nat.ltb_spec i (length (gthreads s))) as [_|H]; [reflexivity|].
    apply nth_error_None in H. congruence. }
  assert (Hstep : forall (q : prog (option value)), (forall s rs, nth_error (gthreads s) i = Some (rs, Within x q ys) ->
             exists sched r h w, fst (grun U P sched s) = mkG (update i (rs ++ [r], Waiting ys) (gthreads s)) None h w) ->
           forall s rs p' a h' w', nth_error (gthreads s) i = Some (rs, Within x p' ys) -> ended p' = None ->
             tstep U p' (gmem s) (gworld s) = Some (a, q, h', w') ->
             exists sched r h w, fst (grun U P sched s) = mkG (update i (rs ++ [r], Waiting ys) (gthreads s)) None h w).
  { intros q IH s rs p' a h' w' En Ee Et. set (s1 := mkG (update i (rs, Within x q ys) (gthreads s)) (holder s) h' w').
    destruct (IH s1 rs) as (sched & r & h & w & E); [cbn; eapply Hin; eauto|].
    exists (Turn i :: sched), r, h, w. cbn [grun gturn]. rewrite En, Ee, Et. fold s1. destruct (grun U P sched s1) as [s2 tr2]. cbn [fst] in *.
    rewrite E. unfold s1. cbn [gthreads]. now rewrite Hup. }
  assert (Hend : forall (q : prog (option value)) r, ended q = Some r -> forall s rs, nth_error (gthreads s) i = Some (rs, Within x q ys) ->
             exists sched r h w, fst (grun U P sched s) = mkG (update i (rs ++ [r], Waiting ys) (gthreads s)) None h w).
  { intros q r Ee s rs En. exists [Turn i], r, (gmem s), (gworld s). cbn [grun gturn]. rewrite En, Ee. reflexivity. }
  induction p as [v| | |c k IH|c o p IH|g args k IH|a b k IH]; intros s rs En.
  - eapply Hend; eauto. reflexivity.
  - eapply Hend; eauto. reflexivity.
  - eapply Hend; eauto. reflexivity.
  - eapply (Hstep _ (IH (gmem s c))); [exact En|reflexivity|reflexivity].
  - eapply (Hstep _ IH); [exact En|reflexivity|reflexivity].
  - destruct (call_fn U g args (gworld s)) as [[r w'] lg] eqn:Ec.
    eapply (Hstep _ (IH r)); [exact En|reflexivity|]. cbn [tstep]. rewrite Ec. reflexivity.
  - eapply (Hstep _ (IH _)); [exact En|reflexivity|reflexivity].
Qed.

Definition todo (t : gthread A fid did) : nat := match snd t with Waiting xs => length xs | Within _ _ xs => S (length xs) end.
Lemma todo_update (l : list (gthread A fid did)) i t u : nth_error l i = Some u ->
  list_sum (map todo (update i t l)) + todo u = list_sum (map todo l) + todo t.
Proof.
  revert i. induction l as [|a l IH]; intros [|i] E; cbn in E; try discriminate.
  - injection E as ->. cbn. lia.
  - specialize (IH i E). cbn [update map list_sum fold_right] in *. unfold list_sum in *. lia.
Qed.

Lemma complete_all n : forall s, list_sum (map todo (gthreads s)) <= n ->
  (forall i rs x p xs, nth_error (gthreads s) i = Some (rs, Within x p xs) -> holder s = Some i) ->
  (forall i, holder s = Some i -> exists rs x p xs, nth_error (gthreads s) i = Some (rs, Within x p xs)) ->
  exists sched, Forall finished (gthreads (fst (grun U P sched s))).
Proof.
  induction n as [n IH] using lt_wf_ind. intros s Hn H1 H2.
  (* a call that ends *)
  assert (HC : forall i rs x p ys, nth_error (gthreads s) i = Some (rs, Within x p ys) -> exists sched, Forall finished (gthreads (fst (grun U P sched s)))).
  { intros i rs x p ys En. destruct (finish_call i x ys p s rs En) as (sched & r & h & w & E).
    pose proof (todo_update (gthreads s) i (rs ++ [r], Waiting ys) _ En) as Hm.
    change (todo (rs ++ [r], Waiting ys)) with (length ys) in Hm. change (todo (rs, Within x p ys)) with (S (length ys)) in Hm.
    assert (Hlt : list_sum (map todo (@update (gthread A fid did) i (rs ++ [r], Waiting ys) (gthreads s))) < n) by lia.
    pose proof (IH _ Hlt (mkG (@update (gthread A fid did) i (rs ++ [r], Waiting ys) (gthreads s)) None h w) (le_n _)) as IH'. cbn [gthreads holder] in IH'.
    destruct IH' as [sched' E']; [|discriminate|].
    - intros j rs' x' p' xs' Ej. rewrite nth_error_update in Ej. exfalso.
      pose proof (H1 _ _ _ _ _ En) as Hi. destruct (Nat.eqb_spec i j) as [<-|Hne].
      + destruct (Nat.ltb i (length (gthreads s))); discriminate.
      + pose proof (H1 _ _ _ _ _ Ej). congruence.
    - exists (sched ++ sched'). rewrite grun_app. destruct (grun U P sched s) as [s1 tr1]. cbn [fst] in E. subst s1.
      destruct (grun U P sched' _) as [s2 tr2]. exact E'. }
  destruct (holder s) as [i|] eqn:Eh.
  - destruct (H2 i eq_refl) as (rs & x & p & xs & En). eapply HC; eauto.
  - destruct (Forall_Exists_dec (fun t : gthread A fid did => snd t = Waiting [])) with (l := gthreads s) as [HF|HE].
    { intros [rs [[|x xs]|x p xs]]; cbn; [now left|right; discriminate|right; discriminate]. }
    { exists []. exact HF. }
    apply Exists_exists in HE. destruct HE as (t & Ht & Hf). apply In_nth_error in Ht. destruct Ht as [i Ei].
    destruct t as [rs [[|x xs]|x p xs]].
    + destruct Hf. reflexivity.
    + set (s1 := mkG (update i (rs, Within x (call_api U (node_at P x)) xs) (gthreads s)) (Some i) (gmem s) (gworld s)).
      assert (En1 : nth_error (gthreads s1) i = Some (rs, Within x (call_api U (node_at P x)) xs)).
      { cbn. rewrite nth_error_update, Nat.eqb_refl. destruct (Nat.ltb_spec i (length (gthreads s))) as [_|H]; [reflexivity|].
        apply nth_error_None in H. congruence. }
      destruct (finish_call i x xs _ s1 rs En1) as (sched & r & h & w & E). cbn [s1 gthreads] in E.
      assert (Hup : forall (l : list (gthread A fid did)) t u, update i t (update i u l) = update i t l).
      { clear. intros l. revert i. induction l as [|a l IH]; intros [|i] t u; cbn [update]; auto. now rewrite IH. }
      rewrite Hup in E.
      pose proof (todo_update (gthreads s) i (rs ++ [r], Waiting xs) _ Ei) as Hm.
      change (todo (rs ++ [r], Waiting xs)) with (length xs) in Hm. change (todo (rs, Waiting (x :: xs))) with (S (length xs)) in Hm.
      assert (Hlt : list_sum (map todo (@update (gthread A fid did) i (rs ++ [r], Waiting xs) (gthreads s))) < n) by lia.
      pose proof (IH _ Hlt (mkG (@update (gthread A fid did) i (rs ++ [r], Waiting xs) (gthreads s)) None h w) (le_n _)) as IH'. cbn [gthreads holder] in IH'.
      destruct IH' as [sched' E']; [|discriminate|].
      * intros j rs' x' p' xs' Ej. rewrite nth_error_update in Ej. exfalso. destruct (Nat.eqb_spec i j) as [<-|Hne].
        -- destruct (Nat.ltb i (length (gthreads s))); discriminate.
        -- pose proof (H1 _ _ _ _ _ Ej). discriminate.
      * exists ([Turn i] ++ sched ++ sched'). rewrite grun_app. cbn [grun gturn]. rewrite Ei, Eh. fold s1. rewrite grun_app.
        destruct (grun U P sched s1) as [s2 tr2]. cbn [fst] in E. subst s2. destruct (grun U P sched' _) as [s3 tr3]. exact E'.
    + pose proof (H1 _ _ _ _ _ Ei). discriminate.
Qed.

(** Whatever happened, all calls can still be completed. *)
Theorem guard_progress sched s tr : grun U P sched (gstart thr hs ws) = (s, tr) ->
  exists sched', Forall finished (gthreads (fst (grun U P sched' s))).
Proof.
  intros E. destruct (ginv_all _ _ _ E) as (_ & _ & Hl & Hb & h0 & w0 & outs & _ & _ & Hw & _).
  apply (complete_all (list_sum (map todo (gthreads s)))); [lia| |].
  - intros i rs x p xs En. assert (Hi : i < length thr) by (rewrite <- Hl; apply nth_error_Some; congruence).
    destruct (nth_error thr i) as [zs|] eqn:Ex; [|apply nth_error_None in Ex; lia].
    destruct (Hw i zs Ex) as (rs' & ph & En' & _ & _ & _ & H). rewrite En in En'. injection En' as <- <-. tauto.
  - intros i Hi. destruct (nth_error thr i) as [zs|] eqn:Ex; [|apply nth_error_None in Ex; specialize (Hb _ Hi); lia].
    destruct (Hw i zs Ex) as (rs & ph & En & _ & _ & _ & H). destruct ph as [ys|x p ys]; [tauto|]. eauto 6.
Qed.
End Guard.
