(** With version numbers, a call brings everything up to date that it refers to (C96). *)
From Coq Require Import List Bool Arith Lia.
From Verif Require Import Value TupleAlg LazyModel LazySpec LazyProofs SharedModel DocSpec DocThms
  VersionModel VersionSpec VersionThms.
Import ListNotations.

Section Settled.
Context {A W fid did : Type}.
Notation value := (val A).
Notation vz := (vz A fid did).
Variable U : user A W fid did.
Notation vsteps n := (vsteps_with (vstep U n)).
Variable pf : fid -> list value -> option value.
Variable rd : did -> W -> value.
Hypothesis Hpure : pure_user U pf rd.
Hypothesis Hrefl : forall a, aeq U a a = true.
Hypothesis Hnull : forall d w, has_nullopt (rd d w) = false.

(** A call in [w] would evaluate no wrapped function. *)
Inductive settled (vs : list vz) (w : W) : vz -> Prop :=
| se_value v : settled vs w (VValue v)
| se_fun d n : settled vs w (VFun d (Some (rd d w)) n)
| se_core f c n s ds :
    settled_all vs w ds -> s = map (fun d => snd (look vs d)) ds -> settled vs w (VCore f (Some c) n s ds)
| se_ref x l : nth_error vs x = Some l -> settled vs w l -> settled vs w (VRef x)
with settled_all (vs : list vz) (w : W) : list vz -> Prop :=
| sa_nil : settled_all vs w []
| sa_cons d ds : settled vs w d -> settled_all vs w ds -> settled_all vs w (d :: ds).
Scheme settled_min := Minimality for settled Sort Prop
  with settled_all_min := Minimality for settled_all Sort Prop.
Combined Scheme settled_mut from settled_min, settled_all_min.

Definition kept (w : W) (vs vs' : list vz) : Prop :=
  forall x l, nth_error vs x = Some l -> settled vs w l -> nth_error vs' x = Some l.

Lemma settled_kept_mut w vs vs' : kept w vs vs' ->
  (forall l, settled vs w l -> settled vs' w l /\ look vs' l = look vs l) /\
  (forall ls, settled_all vs w ls -> settled_all vs' w ls /\ map (look vs') ls = map (look vs) ls).
Proof.
  intros Hk. apply settled_mut.
  - intros v. split; [constructor|reflexivity].
  - intros d n. split; [constructor|reflexivity].
  - intros f c n s ds _ [IH IHl] ->. split; [|reflexivity]. constructor; [exact IH|].
    rewrite <- (map_map (look vs) snd), <- IHl, map_map. reflexivity.
  - intros x l Hx Hl [IH _]. pose proof (Hk _ _ Hx Hl) as Hx'. split; [econstructor; eauto|]. cbn. now rewrite Hx, Hx'.
  - split; [constructor|reflexivity].
  - intros d ds _ [IH1 IH2] _ [IH3 IH4]. split; [now constructor|]. cbn. now rewrite IH2, IH4.
Qed.
Lemma settled_kept w vs vs' l : kept w vs vs' -> settled vs w l -> settled vs' w l /\ look vs' l = look vs l.
Proof. intros H. exact (proj1 (settled_kept_mut w vs vs' H) l). Qed.
Lemma kept_refl w vs : kept w vs vs.
Proof. intros x l H _. exact H. Qed.
Lemma kept_trans w vs vs1 vs2 : kept w vs vs1 -> kept w vs1 vs2 -> kept w vs vs2.
Proof. intros H1 H2 x l Hx Hl. apply H2; [now apply H1|]. now apply (settled_kept w vs vs1 l H1). Qed.

(** References are to variables before [k]. *)
Inductive below (k : nat) : vz -> Prop :=
| be_value v : below k (VValue v)
| be_fun d c n : below k (VFun d c n)
| be_core f c n s ds : Forall (below k) ds -> below k (VCore f c n s ds)
| be_ref x : x < k -> below k (VRef x).

Lemma below_le k k2 l : k <= k2 -> below k l -> below k2 l.
Proof.
  intros Hk. induction l as [v|d c n|f c n s ds IH|x] using vz_ind'; intros H; inversion H; subst; constructor; try lia.
  match goal with Hd : Forall (below k) ds |- _ => clear - IH Hd; induction Hd; constructor; inversion IH; subst; auto end.
Qed.

Definition ordered (vs : list vz) : Prop :=
  forall x l, nth_error vs x = Some l -> is_core l = true /\ below x l.

(** What only refers to variables before [x] does not notice that [x] changes. *)
Lemma look_before vs x l' d : below x d -> look (update x l' vs) d = look vs d.
Proof.
  intros H. inversion H; subst; try reflexivity. cbn. rewrite nth_error_update.
  now replace (x =? x0) with false by (symmetry; apply Nat.eqb_neq; lia).
Qed.
Lemma settled_before_mut w vs x l' : ordered vs ->
  (forall l, settled vs w l -> below x l -> settled (update x l' vs) w l) /\
  (forall ls, settled_all vs w ls -> Forall (below x) ls -> settled_all (update x l' vs) w ls).
Proof.
  intros Ho. apply settled_mut.
  - constructor.
  - constructor.
  - intros f c n s ds _ IH -> Hb. inversion Hb as [| |? ? ? ? ? Hds|]; subst. constructor; [auto|].
    apply map_ext_in. intros d Hd. rewrite look_before; [reflexivity|]. rewrite Forall_forall in Hds. auto.
  - intros y l Hy Hl IH Hb. inversion Hb; subst. econstructor.
    + rewrite nth_error_update. replace (x =? y) with false by (symmetry; apply Nat.eqb_neq; lia). exact Hy.
    + apply IH. apply below_le with (k := y); [lia|]. apply (Ho _ _ Hy).
  - constructor.
  - intros d ds _ IH1 _ IH2 Hb. inversion Hb; subst. constructor; auto.
Qed.

Definition brings (n : nat) (l : vz) : Prop := forall k vs w,
  ordered vs -> below k l -> k <= n -> k <= length vs ->
  exists v l' vs' lg, vstep U n l vs w = Some (Ok (v, snd (look vs' l')), l', vs', w, lg) /\
    ordered vs' /\ below k l' /\ is_core l' = is_core l /\ length vs' = length vs /\ untouched k vs vs' /\
    kept w vs vs' /\ settled vs' w l' /\ (settled vs w l -> l' = l /\ vs' = vs /\ function_calls lg = []).

Lemma steps_bring n ds : Forall (brings n) ds -> forall k vs w,
  ordered vs -> Forall (below k) ds -> k <= n -> k <= length vs ->
  exists rs ds' vs' lg, vsteps n ds vs w = Some (Ok rs, ds', vs', w, lg) /\
    map snd rs = map (fun d => snd (look vs' d)) ds' /\
    ordered vs' /\ Forall (below k) ds' /\ length vs' = length vs /\ untouched k vs vs' /\
    kept w vs vs' /\ settled_all vs' w ds' /\ (settled_all vs w ds -> ds' = ds /\ vs' = vs /\ function_calls lg = []).
Proof.
  induction 1 as [|d ds Hd Hds IH]; intros k vs w Ho Hb Hn Hl.
  - exists [], [], vs, []. split; [reflexivity|]. split; [reflexivity|]. split; [exact Ho|]. split; [constructor|].
    split; [reflexivity|]. split; [intros y _; reflexivity|]. split; [apply kept_refl|]. split; [constructor|]. auto.
  - inversion Hb as [|? ? Hb1 Hb2]; subst. rewrite vsteps_cons.
    destruct (Hd k vs w Ho Hb1 Hn Hl) as (v & d' & vs1 & lg & -> & Ho1 & Hb1' & _ & Hlen & Hun & Hke & Hse & Hq).
    destruct (IH k vs1 w Ho1 Hb2 Hn ltac:(lia)) as (rs & ds' & vs2 & lg2 & -> & Hv & Ho2 & Hb2' & Hlen2 & Hun2 & Hke2 & Hse2 & Hq2).
    destruct (settled_kept w vs1 vs2 d' Hke2 Hse) as [Hse' Hlook].
    do 4 eexists. split; [reflexivity|]. split; [cbn; now rewrite Hlook, Hv|]. split; [exact Ho2|]. split; [now constructor|].
    split; [lia|]. split; [intros y Hy; rewrite Hun2, Hun; auto|]. split; [eapply kept_trans; eauto|].
    split; [now constructor|]. intros Hs. inversion Hs as [|? ? Hs1 Hs2]; subst.
    destruct (Hq Hs1) as (-> & -> & Hf1). destruct (Hq2 Hs2) as (-> & -> & Hf2).
    rewrite function_calls_app, Hf1, Hf2. auto.
Qed.

Lemma step_brings n : forall l, brings n l.
Proof.
  destruct Hpure as [Hsem Hdsem]. induction n as [n IHn] using lt_wf_ind.
  induction l as [v|d c m|f c m s ds IH|x] using vz_ind'; intros k vs w Ho Hb Hn Hl; rewrite vstep_eq.
  - exists v, (VValue v), vs, []. split; [reflexivity|]. split; [exact Ho|]. split; [constructor|]. split; [reflexivity|].
    split; [reflexivity|]. split; [intros y _; reflexivity|]. split; [apply kept_refl|]. split; [constructor|]. auto.
  - rewrite Hdsem. destruct (next_version U c m (rd d w)) as [m' lc] eqn:En.
    exists (rd d w), (VFun d (Some (rd d w)) m'), vs, (EvSample d :: lc). split; [reflexivity|]. split; [exact Ho|]. split; [constructor|]. split; [reflexivity|].
    split; [reflexivity|]. split; [intros y _; reflexivity|]. split; [apply kept_refl|]. split; [constructor|].
    intros Hs. inversion Hs; subst. rewrite next_version_eq, opt_ne_nonnull in En by apply Hnull.
    rewrite veq_refl in En by exact Hrefl. injection En as <- <-. auto.
  - inversion Hb as [| |? ? ? ? ? Hbd|]; subst.
    destruct (steps_bring n ds IH k vs w Ho Hbd Hn Hl) as (rs & ds' & vs1 & lg & -> & Hv & Ho1 & Hb1 & Hlen & Hun & Hke & Hse & Hq).
    cbv zeta. destruct (negb (is_some c) || negb (same_versions (map snd rs) s)) eqn:E.
    + rewrite Hsem.
      assert (Hreg : forall o, exists v, regularized (FRet o) = @VRet A v) by (intros [v|]; eexists; reflexivity).
      destruct (Hreg (pf f (ctad_tuple as_tuple (map fst rs)))) as [v ->].
      destruct (next_version U c m v) as [m' lc].
      exists v, (VCore f (Some v) m' (map snd rs) ds'), vs1, (lg ++ EvCall f (ctad_tuple as_tuple (map fst rs)) :: lc). split; [reflexivity|]. split; [exact Ho1|]. split; [now constructor|]. split; [reflexivity|].
      split; [exact Hlen|]. split; [exact Hun|]. split; [exact Hke|]. split; [now constructor|].
      intros Hs. exfalso. inversion Hs; subst. destruct (Hq ltac:(assumption)) as (-> & -> & _).
      cbn [is_some negb orb] in E. apply negb_true_iff in E. rewrite Hv in E.
      assert (same_versions (map (fun d => snd (look vs d)) ds) (map (fun d => snd (look vs d)) ds) = true)
        by now apply same_versions_spec. congruence.
    + apply orb_false_iff in E as [Ec Es]. destruct c as [c|]; [|discriminate].
      apply negb_false_iff in Es. apply same_versions_spec in Es.
      exists c, (VCore f (Some c) m s ds'), vs1, lg. split; [reflexivity|]. split; [exact Ho1|]. split; [now constructor|]. split; [reflexivity|].
      split; [exact Hlen|]. split; [exact Hun|]. split; [exact Hke|]. split; [constructor; [exact Hse|congruence]|].
      intros Hs. inversion Hs; subst. destruct (Hq ltac:(assumption)) as (-> & -> & Hf). auto.
  - inversion Hb as [| | |? Hx]; subst. destruct n as [|n]; [lia|].
    destruct (nth_error vs x) as [l0|] eqn:El.
    2: { apply nth_error_None in El. lia. }
    destruct (Ho _ _ El) as [Hc0 Hb0].
    destruct (IHn n (Nat.lt_succ_diag_r n) l0 x vs w Ho Hb0 ltac:(lia) ltac:(lia))
      as (v & l1 & vs1 & lg & -> & Ho1 & Hb1 & Hc1 & Hlen & Hun & Hke & Hse & Hq).
    assert (El1 : nth_error vs1 x = Some l0) by (rewrite Hun; auto).
    assert (Hxl : x <? length vs1 = true) by (apply Nat.ltb_lt, nth_error_Some; congruence).
    assert (Enew : nth_error (update x l1 vs1) x = Some l1) by (rewrite nth_error_update, Nat.eqb_refl, Hxl; reflexivity).
    assert (Ho2 : ordered (update x l1 vs1)).
    { intros y l Hy. rewrite nth_error_update in Hy. destruct (x =? y) eqn:E; [|eauto].
      apply Nat.eqb_eq in E as <-. rewrite Hxl in Hy. injection Hy as <-. split; [congruence|exact Hb1]. }
    assert (Hlook : look (update x l1 vs1) (VRef x) = look vs1 l1).
    { cbn [look]. rewrite Enew. rewrite Hc0 in Hc1. destruct l1; try discriminate. reflexivity. }
    exists v, (VRef x), (update x l1 vs1), lg. rewrite Hlook. split; [reflexivity|]. split; [exact Ho2|].
    split; [now constructor|]. split; [reflexivity|]. split; [rewrite update_length; lia|].
    split.
    { intros y Hy. rewrite nth_error_update. replace (x =? y) with false by (symmetry; apply Nat.eqb_neq; lia). apply Hun. lia. }
    split.
    { intros y l Hy Hs. rewrite nth_error_update. destruct (x =? y) eqn:E; [|exact (Hke _ _ Hy Hs)].
      apply Nat.eqb_eq in E as <-. rewrite Hxl. assert (l = l0) as -> by congruence. f_equal. now apply Hq. }
    split.
    { econstructor; [exact Enew|]. exact (proj1 (settled_before_mut w vs1 x l1 Ho1) l1 Hse Hb1). }
    intros Hs. inversion Hs as [| | |? l Hl0 Hs0]; subst. assert (l = l0) as -> by congruence.
    destruct (Hq Hs0) as (-> & -> & Hf). split; [reflexivity|]. split; [now apply update_same|exact Hf].
Qed.

(** ** Programs *)

(** [l] refers to [ys] at most through settled things: all of [ys] are settled if [l] is. *)
Inductive reaches (us : list (list nat)) : vz -> list nat -> Prop :=
| re_value v : reaches us (VValue v) []
| re_fun d c n : reaches us (VFun d c n) []
| re_core f c n s ds ys : reaches_all us ds ys -> reaches us (VCore f c n s ds) ys
| re_ref x : reaches us (VRef x) (x :: nth x us [])
with reaches_all (us : list (list nat)) : list vz -> list nat -> Prop :=
| ra_nil : reaches_all us [] []
| ra_cons d ds ys zs : reaches us d ys -> reaches_all us ds zs -> reaches_all us (d :: ds) (ys ++ zs).
Scheme reaches_min := Minimality for reaches Sort Prop
  with reaches_all_min := Minimality for reaches_all Sort Prop.
Combined Scheme reaches_mut from reaches_min, reaches_all_min.

Definition described (us : list (list nat)) (vs : list vz) : Prop :=
  length us = length vs /\ forall x l, nth_error vs x = Some l -> reaches us l (nth x us []).

Lemma settled_reached vs w us : described us vs ->
  (forall l, settled vs w l -> forall ys, reaches us l ys -> forall y, In y ys -> settled vs w (VRef y)) /\
  (forall ls, settled_all vs w ls -> forall ys, reaches_all us ls ys -> forall y, In y ys -> settled vs w (VRef y)).
Proof.
  intros [Hlen Hd]. apply settled_mut.
  - intros v ys H y Hy. inversion H; subst. destruct Hy.
  - intros d n ys H y Hy. inversion H; subst. destruct Hy.
  - intros f c n s ds _ IH _ ys H y Hy. inversion H; subst. eauto.
  - intros x l Hx Hl IH ys H y Hy. inversion H; subst. destruct Hy as [<-|Hy]; [econstructor; eauto|]. eauto.
  - intros ys H y Hy. inversion H; subst. destruct Hy.
  - intros d ds _ IH1 _ IH2 ys H y Hy. inversion H; subst. apply in_app_or in Hy as [Hy|Hy]; eauto.
Qed.

(** A call changes no references. *)
Lemma steps_reach n ds : Forall (fun l => forall us vs w r l' vs' w' lg, (forall x l, nth_error vs x = Some l -> reaches us l (nth x us [])) ->
    vstep U n l vs w = Some (r, l', vs', w', lg) ->
    (forall ys, reaches us l ys -> reaches us l' ys) /\ (forall x l, nth_error vs' x = Some l -> reaches us l (nth x us []))) ds ->
  forall us vs w r ds' vs' w' lg, (forall x l, nth_error vs x = Some l -> reaches us l (nth x us [])) ->
  vsteps n ds vs w = Some (r, ds', vs', w', lg) ->
  (forall ys, reaches_all us ds ys -> reaches_all us ds' ys) /\ (forall x l, nth_error vs' x = Some l -> reaches us l (nth x us [])).
Proof.
  induction 1 as [|d ds Hd Hds IH]; intros us vs w r ds' vs' w' lg Hv Hs.
  - cbn in Hs. injection Hs as <- <- <- <- <-. auto.
  - rewrite vsteps_cons in Hs. destruct (vstep U n d vs w) as [[[[[r1 d1] vs1] w1] lg1]|] eqn:E1; [|discriminate].
    destruct (Hd us _ _ _ _ _ _ _ Hv E1) as [H1 Hv1]. destruct r1 as [x| |].
    + destruct (vsteps n ds vs1 w1) as [[[[[rs ds2] vs2] w2] lg2]|] eqn:E2; [|discriminate]. injection Hs as <- <- <- <- <-.
      destruct (IH us _ _ _ _ _ _ _ Hv1 E2) as [H2 Hv2]. split; [|exact Hv2].
      intros ys H. inversion H; subst. constructor; auto.
    + injection Hs as <- <- <- <- <-. split; [|exact Hv1]. intros ys H. inversion H; subst. constructor; auto.
    + injection Hs as <- <- <- <- <-. split; [|exact Hv1]. intros ys H. inversion H; subst. constructor; auto.
Qed.

Lemma step_reach n : forall l us vs w r l' vs' w' lg,
  (forall x l, nth_error vs x = Some l -> reaches us l (nth x us [])) ->
  vstep U n l vs w = Some (r, l', vs', w', lg) ->
  (forall ys, reaches us l ys -> reaches us l' ys) /\ (forall x l, nth_error vs' x = Some l -> reaches us l (nth x us [])).
Proof.
  induction n as [n IHn] using lt_wf_ind.
  induction l as [v|d c m|f c m s ds IH|x] using vz_ind'; intros us vs w r l' vs' w' lg Hv Hs; rewrite vstep_eq in Hs.
  - injection Hs as <- <- <- <- <-. auto.
  - destruct (dsem U d w) as [[v|] w1].
    + destruct (next_version U c m v). injection Hs as <- <- <- <- <-. split; [|exact Hv]. intros ys H; inversion H; constructor.
    + injection Hs as <- <- <- <- <-. auto.
  - destruct (vsteps n ds vs w) as [[[[[rs ds1] vs1] w1] lg1]|] eqn:E; [|discriminate].
    destruct (steps_reach n ds IH us _ _ _ _ _ _ _ Hv E) as [Hds Hv1].
    assert (Hall : forall c' m' s' ys, reaches us (VCore f c m s ds) ys -> reaches us (VCore f c' m' s' ds1) ys).
    { intros c' m' s' ys H. inversion H; subst. constructor. auto. }
    destruct rs as [rs| |].
    + cbv zeta in Hs. destruct (negb (is_some c) || _).
      * destruct (sem U f _ w1) as [o w2]. destruct (regularized o) as [v|].
        -- destruct (next_version U c m v). injection Hs as <- <- <- <- <-. split; [apply Hall|exact Hv1].
        -- injection Hs as <- <- <- <- <-. split; [apply Hall|exact Hv1].
      * injection Hs as <- <- <- <- <-. split; [apply Hall|exact Hv1].
    + injection Hs as <- <- <- <- <-. split; [apply Hall|exact Hv1].
    + injection Hs as <- <- <- <- <-. split; [apply Hall|exact Hv1].
  - destruct n as [|n]; [discriminate|]. destruct (nth_error vs x) as [l0|] eqn:El; [|discriminate].
    destruct (vstep U n l0 vs w) as [[[[[r1 l1] vs1] w1] lg1]|] eqn:E; [|discriminate]. injection Hs as <- <- <- <- <-.
    destruct (IHn n (Nat.lt_succ_diag_r n) l0 us _ _ _ _ _ _ _ Hv E) as [Hl Hv1]. split; [auto|].
    intros y l Hy. rewrite nth_error_update in Hy. destruct (x =? y) eqn:Exy; [|eauto].
    apply Nat.eqb_eq in Exy as <-. destruct (x <? length vs1); [|discriminate]. injection Hy as <-. apply Hl. eauto.
Qed.

Lemma reaches_more us us2 :
  (forall l ys, reaches us l ys -> below (length us) l -> reaches (us ++ us2) l ys) /\
  (forall ls ys, reaches_all us ls ys -> Forall (below (length us)) ls -> reaches_all (us ++ us2) ls ys).
Proof.
  apply reaches_mut; try (intros; constructor; fail).
  - intros f c n s ds ys _ IH Hb. inversion Hb; subst. constructor. auto.
  - intros x Hb. inversion Hb; subst. rewrite <- (app_nth1 us us2 []) by assumption. constructor.
  - intros d ds ys zs _ IH1 _ IH2 Hb. inversion Hb; subst. constructor; auto.
Qed.

Lemma vdeps_reach us vs ss ds : ordered vs -> described us vs -> vdeps_of vs ss = Some ds ->
  Forall (below (length vs)) ds /\ reaches_all us ds (flat_map (dep_refers us) ss).
Proof.
  intros Ho [Hlen Hd]. revert ds. induction ss as [|s ss IH]; intros ds H; cbn in H.
  - injection H as <-. split; constructor.
  - destruct (vdep_of vs s) as [d|] eqn:E; [|discriminate]. destruct (vdeps_of vs ss) as [ds'|]; [|discriminate].
    injection H as <-. destruct (IH _ eq_refl) as [H1 H2]. cbn [flat_map].
    assert (Hs : below (length vs) d /\ reaches us d (dep_refers us s)).
    { destruct s as [x|[x|f|v]]; cbn in E |- *.
      - destruct (nth_error vs x) eqn:Ex; [|discriminate]. injection E as <-. split; [|constructor].
        constructor. apply nth_error_Some. congruence.
      - split; [|eauto]. apply below_le with (k := x); [|apply (Ho _ _ E)].
        apply Nat.lt_le_incl, nth_error_Some. congruence.
      - injection E as <-. split; constructor.
      - injection E as <-. split; constructor. }
    destruct Hs as [Hs1 Hs2]. split; constructor; auto.
Qed.

Lemma described_add us vs l ys : ordered vs -> described us vs -> is_core l = true -> below (length vs) l -> reaches us l ys ->
  ordered (vs ++ [l]) /\ described (us ++ [ys]) (vs ++ [l]).
Proof.
  intros Ho [Hlen Hd] Hc Hb Hr.
  assert (Hcase : forall x l0, nth_error (vs ++ [l]) x = Some l0 ->
    nth_error vs x = Some l0 /\ x < length vs \/ x = length vs /\ l0 = l).
  { intros x l0 H. destruct (lt_dec x (length vs)) as [Hx|Hx].
    - left. rewrite nth_error_app1 in H by assumption. auto.
    - right. assert (x < length (vs ++ [l])) by (apply nth_error_Some; congruence). rewrite app_length in *; cbn in *.
      assert (x = length vs) as -> by lia. rewrite nth_error_app2, Nat.sub_diag in H by lia. cbn in H. split; congruence. }
  split; [|split].
  - intros x l0 H. destruct (Hcase _ _ H) as [[H1 _]|[-> ->]]; auto.
  - rewrite !app_length. cbn. lia.
  - intros x l0 H. destruct (Hcase _ _ H) as [[H1 H2]|[-> ->]].
    + rewrite app_nth1 by lia. apply reaches_more; [auto|]. apply below_le with (k := x); [lia|]. apply (Ho _ _ H1).
    + rewrite app_nth2, Hlen, Nat.sub_diag by lia. cbn. apply reaches_more; [exact Hr|]. now rewrite Hlen.
Qed.

Lemma call_described us vs x l w : ordered vs -> described us vs -> nth_error vs x = Some l ->
  exists v l' vs' lg, vstep U (length vs) l vs w = Some (Ok v, l', vs', w, lg) /\
    ordered (update x l' vs') /\ described us (update x l' vs') /\ settled (update x l' vs') w (VRef x) /\
    (settled vs w (VRef x) -> function_calls lg = []).
Proof.
  intros Ho [Hlen Hd] Hx. assert (Hlt : x < length vs) by (apply nth_error_Some; congruence).
  destruct (Ho _ _ Hx) as [Hc Hb].
  destruct (step_brings (length vs) l x vs w Ho Hb ltac:(lia) ltac:(lia))
    as (v & l' & vs' & lg & E & Ho1 & Hb1 & Hc1 & Hl1 & Hun & Hke & Hse & Hq).
  destruct (step_reach _ _ us _ _ _ _ _ _ _ Hd E) as [Hre Hd1].
  assert (Hxl : x <? length vs' = true) by (apply Nat.ltb_lt; lia).
  do 4 eexists. split; [exact E|]. split.
  { intros y l0 Hy. rewrite nth_error_update in Hy. destruct (x =? y) eqn:Exy; [|eauto].
    apply Nat.eqb_eq in Exy as <-. rewrite Hxl in Hy. injection Hy as <-. split; [congruence|exact Hb1]. }
  split.
  { split; [rewrite update_length; lia|]. intros y l0 Hy. rewrite nth_error_update in Hy. destruct (x =? y) eqn:Exy; [|eauto].
    apply Nat.eqb_eq in Exy as <-. rewrite Hxl in Hy. injection Hy as <-. eauto. }
  split.
  { econstructor; [rewrite nth_error_update, Nat.eqb_refl, Hxl; reflexivity|].
    exact (proj1 (settled_before_mut w vs' x l' Ho1) l' Hse Hb1). }
  intros Hs. inversion Hs as [| | |? l0 Hx0 Hs0]; subst. assert (l0 = l) as -> by congruence. now apply Hq.
Qed.

Lemma run_described p : forall us s s' outs, ordered (vvars s) -> described us (vvars s) ->
  vrun U p s = Some (s', outs) -> ordered (vvars s') /\ described (referred p us) (vvars s').
Proof.
  induction p as [|o p IH]; intros us s s' outs Ho Hd Hr.
  - cbn in Hr. injection Hr as <- <-. auto.
  - cbn [vrun] in Hr. destruct (vexec U o s) as [[s1 out]|] eqn:Ex; [|discriminate].
    destruct (vrun U p s1) as [[s2 outs']|] eqn:Er; [|discriminate]. injection Hr as <- <-.
    destruct o as [f ss|x|x|h]; cbn [vexec] in Ex; cbn [referred].
    + destruct (vdeps_of (vvars s) ss) as [ds|] eqn:E; [|discriminate]. injection Ex as <- <-.
      destruct (vdeps_reach us _ ss ds Ho Hd E) as [H1 H2].
      destruct (described_add us (vvars s) (VCore f None 0 [] ds) _ Ho Hd eq_refl (be_core _ _ _ _ _ _ H1) (re_core _ _ _ _ _ _ _ H2)) as [Ho1 Hd1].
      eapply (IH _ (mkVState _ _)); eauto.
    + destruct (nth_error (vvars s) x) as [l|] eqn:E; [|discriminate]. injection Ex as <- <-.
      destruct (Ho _ _ E) as [Hc Hb]. assert (x < length (vvars s)) by (apply nth_error_Some; congruence).
      destruct (described_add us (vvars s) l (nth x us []) Ho Hd Hc) as [Ho1 Hd1].
      { apply below_le with (k := x); [lia|exact Hb]. }
      { now apply Hd. }
      eapply (IH _ (mkVState _ _)); eauto.
    + destruct (nth_error (vvars s) x) as [l|] eqn:E; [|discriminate].
      destruct (call_described us (vvars s) x l (vworld s) Ho Hd E) as (v & l' & vs' & lg & Es & Ho1 & Hd1 & _).
      rewrite Es in Ex. injection Ex as <- <-. eapply (IH _ (mkVState _ _)); eauto.
    + injection Ex as <- <-. eapply (IH _ (mkVState _ _)); eauto.
Qed.

Lemma versions_bring_up_to_date p w s outs x y :
  vrun U (p ++ [SCall x]) (mkVState [] w) = Some (s, outs) ->
  y = x \/ In y (nth x (referred p []) []) ->
  exists s' r lg, vexec U (SCall y) s = Some (s', (r, lg)) /\ function_calls lg = [].
Proof.
  intros Hr Hy.
  assert (Hsplit : exists s1 outs1 out, vrun U p (mkVState [] w) = Some (s1, outs1) /\ vexec U (SCall x) s1 = Some (s, out)).
  { clear Hy. revert Hr. generalize (@mkVState A W fid did [] w). revert outs. induction p as [|o p IH]; intros outs s0 Hr; cbn [app vrun] in Hr.
    - destruct (vexec U (SCall x) s0) as [[s1 out]|] eqn:E; [|discriminate]. injection Hr as <- <-. do 3 eexists. split; [reflexivity|exact E].
    - destruct (vexec U o s0) as [[s1 out]|] eqn:E; [|discriminate].
      destruct (vrun U (p ++ [SCall x]) s1) as [[s2 outs2]|] eqn:E2; [|discriminate]. injection Hr as <- <-.
      destruct (IH _ _ E2) as (s3 & outs3 & out3 & H1 & H2). cbn [vrun]. rewrite E, H1. do 3 eexists. split; [reflexivity|exact H2]. }
  destruct Hsplit as (s1 & outs1 & out & Hp & Hc).
  destruct (run_described p [] (mkVState [] w) s1 outs1) as [Ho Hd]; auto.
  { intros [|z]; discriminate. }
  { split; [reflexivity|]. intros [|z]; discriminate. }
  cbn [vexec] in Hc. destruct (nth_error (vvars s1) x) as [l|] eqn:E; [|discriminate].
  destruct (call_described _ (vvars s1) x l (vworld s1) Ho Hd E) as (v & l' & vs' & lg & Es & Ho1 & Hd1 & Hse & _).
  rewrite Es in Hc. injection Hc as <- <-.
  assert (Hsy : settled (update x l' vs') (vworld s1) (VRef y)).
  { destruct Hy as [->|Hy]; [exact Hse|].
    refine (proj1 (settled_reached _ _ _ Hd1) (VRef x) Hse _ (re_ref _ x) y _). now right. }
  inversion Hsy as [| | |? ly Hly Hsly]; subst.
  destruct (call_described _ _ y ly (vworld s1) Ho1 Hd1 Hly) as (v2 & l2 & vs2 & lg2 & Es2 & _ & _ & _ & Hq).
  cbn [vexec vvars vworld]. rewrite Hly, Es2. do 3 eexists. split; [reflexivity|]. now apply Hq.
Qed.
End Settled.
