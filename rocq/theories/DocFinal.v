(** The final design of the walkthrough and the library, with functions that throw and
    change the world (C59). *)
From Coq Require Import List Bool Arith Lia.
From Verif Require Import Value TupleAlg TupleAlgProofs LazyModel LazySpec LazySpec2 LazyGeneral LazyProofs
  DocModel DocSpec.
Import ListNotations.

Section Final.
Context {A W fid did : Type}.
Notation value := (val A).
Notation lz := (lz A fid did).
Notation event := (event A fid did).
Variable U : user A W fid did.

Definition plainv (v : value) : Prop := as_tuple v = None /\ has_nullopt v = false.
Definition oplain (c : option value) : Prop := match c with Some v => plainv v | None => True end.

Hypothesis Hkeep : forall d w, snd (dsem U d w) = w.
Hypothesis Hblind : forall d f args w, fst (dsem U d (snd (sem U f args w))) = fst (dsem U d w).
Hypothesis Hrefl : forall a, aeq U a a = true.
Hypothesis Hsem : forall f args w v, fst (sem U f args w) = FRet (Some v) -> plainv v.
Hypothesis Hdsem : forall d w v, fst (dsem U d w) = VRet v -> plainv v.

Lemma dsem_eq d w : dsem U d w = (fst (dsem U d w), w).
Proof. rewrite <- (Hkeep d w) at 3. now destruct (dsem U d w). Qed.

Lemma veq_refl (v : value) : veq (aeq U) v v = true.
Proof.
  induction v as [a| |l IH|x y IHx IHy| |x IHx] using val_ind'; cbn; auto.
  - induction IH as [|x l Hx _ IH]; [reflexivity|]. now rewrite Hx, IH.
  - now rewrite IHx, IHy.
Qed.

Lemma ne_refl v : has_nullopt v = false -> opt_ne (aeq U) (Some v) v = false.
Proof. intros H. rewrite opt_ne_nonnull by exact H. cbn. now rewrite veq_refl. Qed.

(** What the plain functions read is the same. *)
Definition same_reads (w w' : W) : Prop := forall d, fst (dsem U d w) = fst (dsem U d w').

Lemma reads_trans w1 w2 w3 : same_reads w1 w2 -> same_reads w2 w3 -> same_reads w1 w3.
Proof. intros H1 H2 d. now rewrite H1. Qed.

Inductive shaped : lz -> Prop :=
| sh_value v : plainv v -> shaped (LValue v false)
| sh_sample d c : oplain c -> shaped (LCore (FnSample d) c [LValue (VAtom (int0 U)) true])
| sh_user f c ds : oplain c -> Forall shaped ds -> shaped (LCore (FnUser f) c ds).

(** Another call returns [v] again and finds nothing changed. *)
Inductive settled (w : W) : value -> lz -> Prop :=
| se_value v : settled w v (LValue v false)
| se_sample d v : fst (dsem U d w) = VRet v -> plainv v ->
    settled w v (LCore (FnSample d) (Some v) [LValue (VAtom (int0 U)) true])
| se_user f v ds : Forall (fun d => exists u, settled w u d) ds -> settled w v (LCore (FnUser f) (Some v) ds).

Lemma settled_reads (l : lz) : forall w w' v, same_reads w w' -> settled w v l -> settled w' v l.
Proof.
  induction l as [u ch|g c ds IH] using lz_ind'; intros w w' v Hr H; inversion H; subst.
  - constructor.
  - constructor; auto. now rewrite <- Hr.
  - constructor. match goal with H : Forall (fun d => exists u, settled w u d) ds |- _ => revert H end.
    clear - IH Hr. induction IH as [|d ds Hd _ IHds]; intros H; inversion H as [|? ? (u & Hu) Hs]; subst; constructor; eauto.
Qed.

Lemma list_max_cons n x l : list_max (x :: l) <= n -> x <= n /\ list_max l <= n.
Proof. cbn. fold (list_max l). lia. Qed.

Lemma settled_call n : forall l w v, depth l <= n -> settled w v l ->
  exists lg, fcall_n U n l w = (Ok (v, false), l, w, lg) /\ function_calls lg = [].
Proof.
  induction n as [|n IH]; intros l w v Hn H; inversion H as [u E1 E2|d u Er Hp E1 E2|f u ds Hds E1 E2]; subst.
  - exists []. split; reflexivity.
  - cbn in Hn. lia.
  - cbn in Hn. lia.
  - exists []. split; reflexivity.
  - exists [EvSample d; EvCmp v v]. split; [|reflexivity]. cbn [fcall_n].
    assert (Hv : forall m u ch w, fcall_n U m (LValue u ch) w = (Ok (u, ch), LValue u ch, w, [])) by (now intros [|m]).
    unfold fany_with, steps_with. rewrite Hv. cbn [snd]. rewrite Hv. cbn [call_fn map fst].
    rewrite dsem_eq, Er. unfold opt_neq. rewrite ne_refl by apply Hp. reflexivity.
  - cbn [fcall_n]. cbn [depth] in Hn.
    assert (G : exists lg, fany_with (fcall_n U n) ds w = (Ok false, ds, w, lg) /\ function_calls lg = []).
    { assert (Hm : list_max (map (@depth A fid did) ds) <= n) by lia. clear - IH Hds Hm.
      induction Hds as [|d ds (u & Hu) _ IHds].
      - exists []. split; reflexivity.
      - cbn [map] in Hm. apply list_max_cons in Hm. destruct Hm as [H1 H2].
        destruct (IH d w u H1 Hu) as (l1 & E1 & F1). destruct (IHds H2) as (l2 & E2 & F2).
        exists (l1 ++ l2). split; [|unfold function_calls in *; now rewrite flat_map_app, F1, F2].
        unfold fany_with in *. rewrite E1. cbn [snd]. rewrite E2. reflexivity. }
    destruct G as (lg & E & F). rewrite E. eauto.
Qed.

(** The logs of the library and of the design. *)
Definition slog (l l' : list event) : Prop :=
  function_calls l' = function_calls l /\ subseq (samples l) (samples l').

Lemma slog_refl l : slog l l.
Proof. split; [reflexivity|]. induction (samples l); [constructor|]. now apply subseq_take. Qed.

Lemma slog_app a a' b b' : slog a a' -> slog b b' -> slog (a ++ b) (a' ++ b').
Proof.
  intros [H1 H2] [H3 H4]. split.
  - unfold function_calls in *. rewrite !flat_map_app. now rewrite H1, H3.
  - unfold samples in *. rewrite !flat_map_app. now apply subseq_app.
Qed.

Lemma slog_more l : function_calls l = [] -> slog [] l.
Proof. intros H. split; [exact H|]. apply subseq_nil_l. Qed.

Definition same_values (r r' : res (list (value * bool))) : Prop :=
  match r, r' with
  | Ok xs, Ok ys => map fst xs = map fst ys
  | Exc, Exc => True
  | _, _ => False
  end.

(** What is shown for every lazy function [l]. *)
Definition agrees (n : nat) (l : lz) : Prop := shaped l -> depth l <= n -> forall w r l' w' lg,
  step U l w = (r, l', w', lg) ->
  (exists lg', fcall_n U n l w = (r, l', w', lg') /\ slog lg lg') /\
  shaped l' /\ depth l' = depth l /\ same_reads w w' /\
  match r with Ok (v, _) => settled w' v l' /\ plainv v | Exc => True | UB => False end.

Lemma subseq_insert {X} (c : list X) : forall a l b, subseq l (a ++ b) -> subseq l (a ++ c ++ b).
Proof.
  induction a as [|x a IH]; intros l b H; cbn [app] in *.
  - induction c; [exact H|]. now apply subseq_skip.
  - inversion H; subst; [apply subseq_skip|apply subseq_take]; auto.
Qed.

Lemma slog_insert l a b c : function_calls c = [] -> slog l (a ++ b) -> slog l (a ++ c ++ b).
Proof.
  intros Hc [H1 H2]. split.
  - unfold function_calls in *. rewrite !flat_map_app in *. now rewrite Hc.
  - unfold samples in *. rewrite !flat_map_app in *. now apply subseq_insert.
Qed.

Definition dmax (ds : list lz) : nat := list_max (map (@depth A fid did) ds).

Lemma fsteps_cons (f : lz -> W -> res (value * bool) * lz * W * list event) d ds w :
  steps_with f (d :: ds) w =
  let '(r, d', w1, l1) := f d w in
  match r with
  | Ok x =>
      let '(rs, ds'', w2, l2) := steps_with f ds w1 in
      (match rs with Ok xs => Ok (x :: xs) | Exc => Exc | UB => UB end, d' :: ds'', w2, l1 ++ l2)
  | Exc => (Exc, d' :: ds, w1, l1)
  | UB => (UB, d' :: ds, w1, l1)
  end.
Proof. reflexivity. Qed.

Lemma fany_cons (f : lz -> W -> res (value * bool) * lz * W * list event) d ds w :
  fany_with f (d :: ds) w =
  let '(r, d', w1, l1) := f d w in
  match r with
  | Ok x =>
      if snd x then (Ok true, d' :: ds, w1, l1)
      else let '(rs, ds'', w2, l2) := fany_with f ds w1 in (rs, d' :: ds'', w2, l1 ++ l2)
  | Exc => (Exc, d' :: ds, w1, l1)
  | UB => (UB, d' :: ds, w1, l1)
  end.
Proof. reflexivity. Qed.

Lemma steps_agree n (ds : list lz) : Forall (agrees n) ds -> Forall shaped ds -> dmax ds <= n ->
  forall w rs ds' w' lg, steps U ds w = (rs, ds', w', lg) ->
  (exists lg', steps_with (fcall_n U n) ds w = (rs, ds', w', lg') /\ slog lg lg') /\
  Forall shaped ds' /\ map (@depth A fid did) ds' = map (@depth A fid did) ds /\ same_reads w w' /\
  match rs with Ok xs => Forall2 (fun x d => settled w' (fst x) d /\ plainv (fst x)) xs ds' | Exc => True | UB => False end.
Proof.
  induction 1 as [|d ds Hd _ IH]; intros Hs Hm w rs ds' w' lg E.
  - rewrite steps_nil in E. injection E as <- <- <- <-. split; [|repeat split; constructor].
    exists []. split; [reflexivity|apply slog_refl].
  - inversion Hs as [|? ? Hsd Hss]; subst. unfold dmax in Hm. cbn [map] in Hm. apply list_max_cons in Hm. destruct Hm as [Hm1 Hm2].
    rewrite steps_cons in E. destruct (step U d w) as [[[r d'] w1] l1] eqn:Ed.
    destruct (Hd Hsd Hm1 w r d' w1 l1 Ed) as ((l1' & F1 & S1) & Hsd' & Hdd & Hr1 & Hok).
    rewrite fsteps_cons, F1. destruct r as [x| |]; [| |easy].
    + destruct (steps U ds w1) as [[[rs2 ds2] w2] l2] eqn:Es. injection E as <- <- <- <-.
      destruct (IH Hss Hm2 w1 rs2 ds2 w2 l2 Es) as ((l2' & F2 & S2) & Hs2 & Hdd2 & Hr2 & Hok2). rewrite F2.
      split; [eexists; split; [reflexivity|now apply slog_app]|].
      split; [constructor; auto|]. split; [cbn [map]; congruence|]. split; [eapply reads_trans; eassumption|].
      destruct rs2 as [xs| |]; auto. constructor; auto. destruct x as [v b]. destruct Hok as [Hv Hp].
      split; [|exact Hp]. eapply settled_reads; eassumption.
    + injection E as <- <- <- <-. split; [eexists; split; [reflexivity|exact S1]|].
      split; [constructor; auto|]. split; [cbn [map]; congruence|]. auto.
Qed.

Lemma any_agree n (ds : list lz) : Forall (agrees n) ds -> Forall shaped ds -> dmax ds <= n ->
  forall w rs ds' w' lg, steps U ds w = (rs, ds', w', lg) ->
  exists r ds1 wm lm, fany_with (fcall_n U n) ds w = (r, ds1, wm, lm) /\ same_reads w wm /\
  match r with
  | Ok false => ds1 = ds' /\ wm = w' /\ slog lg lm /\ exists xs, rs = Ok xs /\ existsb snd xs = false
  | Ok true => exists rs' l2, steps_with (fcall_n U n) ds1 wm = (rs', ds', w', l2) /\ slog lg (lm ++ l2) /\
      same_values rs rs' /\ match rs with Ok xs => existsb snd xs = true | _ => True end
  | Exc => rs = Exc /\ ds1 = ds' /\ wm = w' /\ slog lg lm
  | UB => False
  end.
Proof.
  induction 1 as [|d ds Hd Hds IH]; intros Hs Hm w rs ds' w' lg E.
  - rewrite steps_nil in E. injection E as <- <- <- <-. exists (Ok false), [], w, [].
    split; [reflexivity|]. split; [easy|]. split; [reflexivity|]. split; [reflexivity|]. split; [apply slog_refl|]. exists []. auto.
  - inversion Hs as [|? ? Hsd Hss]; subst. unfold dmax in Hm. cbn [map] in Hm. apply list_max_cons in Hm. destruct Hm as [Hm1 Hm2].
    rewrite steps_cons in E. destruct (step U d w) as [[[r d'] w1] l1] eqn:Ed.
    destruct (Hd Hsd Hm1 w r d' w1 l1 Ed) as ((l1' & F1 & S1) & Hsd' & Hdd & Hr1 & Hok).
    rewrite fany_cons, F1. destruct r as [[v b]| |]; [| |easy].
    + destruct Hok as [Hv Hp]. cbn [snd].
      destruct (steps U ds w1) as [[[rs2 ds2] w2] l2] eqn:Es. injection E as <- <- <- <-. destruct b.
      * destruct (steps_agree n ds Hds Hss Hm2 w1 rs2 ds2 w2 l2 Es) as ((l2' & F2 & S2) & Hs2 & Hdd2 & Hr2 & Hok2).
        exists (Ok true), (d' :: ds), w1, l1'. split; [reflexivity|]. split; [exact Hr1|].
        destruct (settled_call n d' w1 v) as (lc & Ec & Fc); [lia|exact Hv|].
        rewrite fsteps_cons, Ec, F2. eexists _, _. split; [reflexivity|].
        split; [apply slog_insert; [exact Fc|now apply slog_app]|]. destruct rs2; cbn in *; auto.
      * destruct (IH Hss Hm2 w1 rs2 ds2 w2 l2 Es) as (r & ds1 & wm & lm & F2 & Hrm & Hc). rewrite F2.
        exists r, (d' :: ds1), wm, (l1' ++ lm). split; [reflexivity|]. split; [eapply reads_trans; eassumption|].
        destruct r as [[]| |]; [| | |easy].
        -- destruct Hc as (rs' & l2' & F3 & S3 & Hsv & Hex).
           destruct (settled_call n d' wm v) as (lc & Ec & Fc); [lia|eapply settled_reads; eassumption|].
           rewrite fsteps_cons, Ec, F3. eexists _, _. split; [reflexivity|].
           split; [rewrite <- app_assoc; apply slog_app; [exact S1|]; now apply slog_insert|].
           destruct rs2, rs'; cbn in *; auto; try easy. split; [congruence|exact Hex].
        -- destruct Hc as (-> & -> & S3 & xs & -> & Hex). split; [reflexivity|]. split; [reflexivity|].
           split; [now apply slog_app|]. eexists. split; [reflexivity|exact Hex].
        -- destruct Hc as (-> & -> & -> & S3). split; [reflexivity|]. split; [reflexivity|]. split; [reflexivity|]. now apply slog_app.
    + injection E as <- <- <- <-. eexists Exc, _, _, _. split; [reflexivity|]. auto.
Qed.

Lemma fcall_value n v ch w : fcall_n U n (LValue v ch) w = (Ok (v, ch), LValue v ch, w, []).
Proof. now destruct n. Qed.

Lemma ctad_plain (xs : list (value * bool)) (ds : list lz) w :
  Forall2 (fun x d => settled w (fst x) d /\ plainv (fst x)) xs ds ->
  ctad_tuple as_tuple (map fst xs) = map fst xs.
Proof.
  intros H. destruct H as [|x d xs ds [_ [Hx _]] H]; [reflexivity|]. destruct H; [|reflexivity].
  cbn [map ctad_tuple]. now rewrite Hx.
Qed.

Theorem all_agree (l : lz) : forall n, agrees n l.
Proof.
  induction l as [v ch|g c ds IH] using lz_ind'; intros n Hs Hn w r l' w' lg E.
  - rewrite step_value in E. injection E as <- <- <- <-. inversion Hs; subst.
    rewrite fcall_value. split; [eexists; split; [reflexivity|apply slog_refl]|].
    split; [exact Hs|]. split; [reflexivity|]. split; [easy|]. split; [constructor|assumption].
  - destruct n as [|n]; [cbn in Hn; lia|]. inversion Hs as [|d c0 Hc|f c0 ds0 Hc Hds]; subst.
    + clear IH. rewrite step_core, steps_cons, step_value, steps_nil, core_eq in E.
      cbn [existsb snd orb] in E. rewrite orb_true_r in E. cbn [call_fn map fst app] in E. rewrite dsem_eq in E.
      cbn [fcall_n].
      assert (G : forall lg0 : list event, exists l1, match c with
                | None => (Ok true, [LValue (VAtom (int0 U)) true], w, [])
                | Some _ => fany_with (fcall_n U n) [LValue (VAtom (int0 U)) true] w
                end = (Ok true, [LValue (VAtom (int0 U)) true : lz], w, l1) /\ l1 = []).
      { intros _. destruct c; eexists; (split; [|reflexivity]); [|reflexivity]. rewrite fany_cons, fcall_value. reflexivity. }
      destruct (G []) as (l1 & E1 & ->). rewrite E1. rewrite fsteps_cons, fcall_value. cbn [steps_with map fst call_fn].
      rewrite dsem_eq. destruct (fst (dsem U d w)) as [v|] eqn:Er.
      * injection E as <- <- <- <-. unfold opt_neq. cbn [app].
        split; [eexists; split; [reflexivity|apply slog_refl]|].
        assert (Hp : plainv v) by (eapply Hdsem; exact Er).
        split; [now constructor|]. split; [reflexivity|]. split; [easy|]. split; [now constructor|exact Hp].
      * injection E as <- <- <- <-. cbn [app]. split; [eexists; split; [reflexivity|apply slog_refl]|].
        split; [exact Hs|]. split; [reflexivity|]. split; easy.
    + assert (Hag : Forall (agrees n) ds) by (clear - IH; induction IH; constructor; auto).
      assert (Hm : dmax ds <= n) by (cbn [depth] in Hn; unfold dmax; lia).
      rewrite step_core in E. destruct (steps U ds w) as [[[rs ds'] w1] l1] eqn:Es.
      destruct (steps_agree n ds Hag Hds Hm w rs ds' w1 l1 Es) as ((l1' & F1 & S1) & Hs1 & Hdd & Hr1 & Hok).
      assert (Hdep : forall c', depth (LCore (FnUser f) c' ds' : lz) = depth (LCore (FnUser f) c ds : lz))
        by (intros c'; cbn [depth]; now rewrite Hdd).
      assert (Hset : forall v w2 (xs : list (value * bool)), same_reads w1 w2 ->
                Forall2 (fun x d => settled w1 (fst x) d /\ plainv (fst x)) xs ds' ->
                settled w2 v (LCore (FnUser f) (Some v) ds')).
      { intros v w2 xs Hr H. constructor. clear - H Hr Hkeep Hblind. induction H as [|x d xs ds' [Hx _] _ IH]; constructor; auto.
        exists (fst x). eapply settled_reads; eassumption. }
      cbn [fcall_n].
      (* the call of the function, after the dependencies have been called for their values *)
      assert (Hcall : forall (xs ys : list (value * bool)) (lp : list event), Forall2 (fun x d => settled w1 (fst x) d /\ plainv (fst x)) xs ds' ->
                map fst xs = map fst ys -> slog l1 lp ->
                core U (FnUser f) c xs w1 = core U (FnUser f) c xs w1 ->
                (negb (is_some c) || existsb snd xs = true) ->
                forall r0 c0 w0 lg0, core U (FnUser f) c xs w1 = (r0, c0, w0, lg0) ->
                (exists lg', match call_fn U (FnUser f) (map fst ys) w1 with
                  | (VThrow, w3, lg) => (Exc, LCore (FnUser f) c ds', w3, lp ++ lg)
                  | (VRet result, w3, lg) =>
                      let '(changed', lc) := opt_neq U c result in
                      (Ok (result, changed'), LCore (FnUser f) (Some result) ds', w3, lp ++ lg ++ lc)
                  end = (r0, LCore (FnUser f) c0 ds', w0, lg') /\ slog (l1 ++ lg0) lg') /\
                oplain c0 /\ same_reads w1 w0 /\
                match r0 with Ok (v, _) => c0 = Some v /\ plainv v | Exc => True | UB => False end).
      { intros xs ys lp HF Exy Hlp _ Hch r0 c0 w0 lg0 Ec. rewrite core_eq, Hch in Ec.
        rewrite (ctad_plain _ _ _ HF), Exy in Ec. cbn [call_fn] in *.
        pose proof (Hblind) as Hb. pose proof (Hsem f (map fst ys) w1) as Hp.
        assert (Hrd : same_reads w1 (snd (sem U f (map fst ys) w1))) by (intros d; now rewrite Hblind).
        destruct (sem U f (map fst ys) w1) as [[o|] w3] eqn:Esem; cbn [fst snd regularized] in *.
        - set (v := match o with Some v => v | None => VVoid end).
          assert (Ev : match o with Some v => VRet v | None => VRet (@VVoid A) end = VRet v) by (now destruct o).
          assert (Hv : plainv v). { unfold v. destruct o as [u|]; [now apply Hp|now split]. }
          destruct o as [u|]; cbn [v] in *; injection Ec as <- <- <- <-; unfold opt_neq;
            (split; [eexists; split; [reflexivity|apply slog_app; [exact Hlp|apply slog_refl]]|]);
            (split; [exact Hv|]); (split; [exact Hrd|]); (split; [reflexivity|exact Hv]).
        - injection Ec as <- <- <- <-. split; [eexists; split; [reflexivity|apply slog_app; [exact Hlp|apply slog_refl]]|].
          auto. }
      assert (Hfin : forall r0 c0 w0 l2, oplain c0 -> same_reads w1 w0 ->
                match r0 with Ok (v, _) => c0 = Some v /\ plainv v | Exc => True | UB => False end ->
                (r0, LCore (FnUser f) c0 ds', w0, l1 ++ l2) = (r, l', w', lg) ->
                (exists xs, rs = Ok xs) ->
                shaped l' /\ depth l' = depth (LCore (FnUser f) c ds : lz) /\ same_reads w w' /\
                match r with Ok (v, _) => settled w' v l' /\ plainv v | Exc => True | UB => False end).
      { intros r0 c0 w0 l2 Hc0 Hr0 Hres Eq (xs & ->). injection Eq as <- <- <- <-. 
        split; [constructor; auto|]. split; [apply Hdep|]. split; [eapply reads_trans; eassumption|].
        destruct r0 as [[v b]| |]; auto. destruct Hres as [-> Hp]. split; [|exact Hp]. eapply Hset; eassumption. }
      destruct c as [c|].
      * destruct (any_agree n ds Hag Hds Hm w rs ds' w1 l1 Es) as (ra & ds1 & wm & lm & F2 & Hrm & Hcase). rewrite F2.
        destruct ra as [[]| |]; [| | |easy].
        -- destruct Hcase as (rs' & l2 & F3 & S3 & Hsv & Hex). rewrite F3.
           destruct rs as [xs| |], rs' as [ys| |]; cbn [same_values] in Hsv; try easy.
           ++ destruct (core U (FnUser f) (Some c) xs w1) as [[[r0 c0] w0] lg0] eqn:Ec.
              destruct (Hcall xs ys (lm ++ l2) Hok Hsv S3 eq_refl) with (2 := Ec) as ((lg' & E' & S') & Hc0 & Hr0 & Hres);
                [cbn [is_some negb orb]; exact Hex|].
              split; [|eapply Hfin; eauto]. injection E as <- <- <- <-. exists lg'. split; [|exact S'].
              rewrite <- E'. destruct (call_fn U (FnUser f) (map fst ys) w1) as [[[res|] w3] lgf]; [|now rewrite <- !app_assoc].
              destruct (opt_neq U (Some c) res). now rewrite <- !app_assoc.
           ++ injection E as <- <- <- <-. split; [eexists; split; [reflexivity|exact S3]|].
              split; [constructor; auto|]. split; [apply Hdep|]. auto.
        -- destruct Hcase as (-> & -> & S3 & xs & -> & Hex).
           rewrite core_eq in E. cbn [is_some negb orb] in E. rewrite Hex in E. injection E as <- <- <- <-.
           rewrite app_nil_r. split; [eexists; split; [reflexivity|exact S3]|].
           split; [constructor; auto|]. split; [apply Hdep|]. split; [exact Hr1|]. split; [|exact Hc].
           eapply Hset; [easy|exact Hok].
        -- destruct Hcase as (-> & -> & -> & S3). injection E as <- <- <- <-.
           split; [eexists; split; [reflexivity|exact S3]|]. split; [constructor; auto|]. split; [apply Hdep|]. auto.
      * rewrite F1. destruct rs as [xs| |]; [| |easy].
        -- destruct (core U (FnUser f) None xs w1) as [[[r0 c0] w0] lg0] eqn:Ec.
           destruct (Hcall xs xs l1' Hok eq_refl S1 eq_refl eq_refl _ _ _ _ Ec) as ((lg' & E' & S') & Hc0 & Hr0 & Hres).
           split; [|eapply Hfin; eauto]. injection E as <- <- <- <-. exists lg'. split; [exact E'|exact S'].
        -- injection E as <- <- <- <-. split; [eexists; split; [reflexivity|exact S1]|].
           split; [constructor; auto|]. split; [apply Hdep|]. auto.
Qed.

(** ** Programs *)
Definition op_plain (o : op A W fid did) : Prop :=
  match o with
  | New _ ss => Forall (fun s => match s with DConst v => plainv v | _ => True end) ss
  | _ => True
  end.

Lemma deps_shaped ss : forall vs ds, Forall shaped vs ->
  Forall (fun s => match s with DConst v => plainv v | _ => True end) ss ->
  deps_of vs ss = Some ds -> Forall shaped (map (ensure_lazy U) ds).
Proof.
  induction ss as [|s ss IH]; intros vs ds Hv Hss E; cbn [deps_of] in E.
  - injection E as <-. constructor.
  - inversion Hss as [|? ? Hs Hss']; subst.
    destruct (dep_of vs s) as [o|] eqn:Es; [|discriminate]. destruct (deps_of vs ss) as [os|] eqn:Ess; [|discriminate].
    injection E as <-. cbn [map]. constructor; [|eapply IH; eassumption].
    destruct s as [x|d|v]; cbn [dep_of] in Es.
    + destruct (nth_error vs x) as [l|] eqn:Ex; [|discriminate]. injection Es as <-. cbn.
      rewrite Forall_forall in Hv. apply Hv. eapply nth_error_In; exact Ex.
    + injection Es as <-. cbn. now constructor.
    + injection Es as <-. cbn. now constructor.
Qed.

Lemma update_shaped (vs : list lz) x l : Forall shaped vs -> shaped l -> Forall shaped (update x l vs).
Proof. intros H Hl. revert x. induction H; intros [|x']; cbn; constructor; auto. Qed.

Theorem final_runs p : forall s s' outs, Forall shaped (vars s) -> Forall op_plain p ->
  run U p s = Some (s', outs) ->
  exists outs', frun U p s = Some (s', outs') /\
    Forall2 (fun o o' => fst o' = fst o /\ slog (snd o) (snd o')) outs outs'.
Proof.
  induction p as [|o p IH]; intros s s' outs Hv Hp E; cbn [run frun] in *.
  - injection E as <- <-. exists []. split; [reflexivity|constructor].
  - inversion Hp as [|? ? Ho Hp']; subst.
    assert (G : match exec U o s with
                | Some (s1, out) => exists out', fexec U o s = Some (s1, out') /\ Forall shaped (vars s1) /\
                    fst out' = fst out /\ slog (snd out) (snd out')
                | None => True
                end).
    { destruct o as [f ss|x|x|h]; cbn [exec fexec].
      - destruct (deps_of (vars s) ss) as [ds|] eqn:Ed; [|exact I]. eexists. split; [reflexivity|].
        split; [|split; [reflexivity|apply slog_refl]]. cbn [vars]. apply Forall_app. split; [exact Hv|].
        constructor; [|constructor]. constructor; [exact I|]. eapply deps_shaped; eassumption.
      - destruct (nth_error (vars s) x) as [l|] eqn:Ex; [|exact I]. eexists. split; [reflexivity|].
        split; [|split; [reflexivity|apply slog_refl]]. cbn [vars]. apply Forall_app. split; [exact Hv|].
        constructor; [|constructor]. rewrite Forall_forall in Hv. apply Hv. eapply nth_error_In; exact Ex.
      - destruct (nth_error (vars s) x) as [l|] eqn:Ex; [|exact I].
        destruct (step U l (world s)) as [[[r l'] w'] lg] eqn:El.
        assert (Hl : shaped l) by (rewrite Forall_forall in Hv; apply Hv; eapply nth_error_In; exact Ex).
        destruct (all_agree l (depth l) Hl (le_n _) _ _ _ _ _ El) as ((lg' & E' & S') & Hs' & _).
        unfold fcall. rewrite E'. eexists. split; [reflexivity|]. split; [|split; [reflexivity|exact S']].
        cbn [vars]. now apply update_shaped.
      - eexists. split; [reflexivity|]. split; [exact Hv|]. split; [reflexivity|apply slog_refl]. }
    destruct (exec U o s) as [[s1 out]|]; [|discriminate]. destruct G as (out' & E1 & Hv1 & Ef & Sl). rewrite E1.
    destruct (run U p s1) as [[s2 outs2]|] eqn:Er; [|discriminate]. injection E as <- <-.
    destruct (IH s1 s2 outs2 Hv1 Hp' Er) as (outs' & E2 & HF). rewrite E2. eexists. split; [reflexivity|].
    constructor; auto.
Qed.
End Final.

Theorem doc_final_effects (A W fid did : Type) (U : user A W fid did) :
  (forall d w, snd (dsem U d w) = w) ->
  (forall d f args w, fst (dsem U d (snd (sem U f args w))) = fst (dsem U d w)) ->
  (forall a, aeq U a a = true) ->
  (forall f args w v, fst (sem U f args w) = FRet (Some v) -> as_tuple v = None /\ has_nullopt v = false) ->
  (forall d w v, fst (dsem U d w) = VRet v -> as_tuple v = None /\ has_nullopt v = false) ->
  forall p,
  Forall (fun o => match o with
                   | New _ ss => Forall (fun s => match s with
                                                  | DConst v => as_tuple v = None /\ has_nullopt v = false
                                                  | _ => True
                                                  end) ss
                   | _ => True
                   end) p ->
  forall w s outs,
    run U p (mkState [] w) = Some (s, outs) ->
    exists outs',
      frun U p (mkState [] w) = Some (s, outs') /\
      Forall2 (fun o o' =>
        fst o' = fst o /\
        function_calls (snd o') = function_calls (snd o) /\
        subseq (samples (snd o)) (samples (snd o'))) outs outs'.
Proof.
  intros H1 H2 H3 H4 H5 p Hp w s outs E.
  exact (final_runs U H1 H2 H3 H4 H5 p (mkState [] w) s outs (Forall_nil _) Hp E).
Qed.
