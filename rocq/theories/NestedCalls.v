(** Functions that call lazy functions: enough fuel, and calls that stay (C72). *)
From Coq Require Import List Bool Arith Lia.
From Verif Require Import Value TupleAlg LazyModel LazySpec DocSpec NestedModel NestedSpec NestedThms.
Import ListNotations.

Section Calls.
Context {A W fid did : Type}.
Notation value := (val A).
Notation event := (event A fid did).
Notation script := (script A W).
Notation nvar := (nvar A fid did).
Notation ndep := (ndep A did).
Notation nop := (nop A W fid did).
Notation def := (@def A fid did).
Variable U : nuser A W fid did.
Notation caller := (nat -> list nvar -> W -> option (res (value * bool) * list nvar * W * list event)).

(** ** More fuel changes nothing *)

Definition extends {X} (a b : option X) : Prop := forall r, a = Some r -> b = Some r.

Lemma script_more (c1 c2 : caller) : (forall x vs w, extends (c1 x vs w) (c2 x vs w)) ->
  forall (s : script) vs w, extends (run_script c1 s vs w) (run_script c2 s vs w).
Proof.
  intros Hc. induction s as [o| |k IH|h s IH|x k IH]; intros vs w r E; cbn [run_script] in *; auto;
    [now apply IH|now apply IH|].
  destruct (c1 x vs w) as [[[[r1 vs1] w1] l1]|] eqn:E1; [|discriminate]. rewrite (Hc _ _ _ _ E1).
  destruct (api_result r1) as [o| |]; auto.
  - destruct (run_script c1 (k (Some o)) vs1 w1) as [[[[r2 vs2] w2] l2]|] eqn:E2; [|discriminate].
    now rewrite (IH _ _ _ _ E2).
  - destruct (run_script c1 (k None) vs1 w1) as [[[[r2 vs2] w2] l2]|] eqn:E2; [|discriminate].
    now rewrite (IH _ _ _ _ E2).
Qed.

Lemma dep_more (c1 c2 : caller) : (forall x vs w, extends (c1 x vs w) (c2 x vs w)) ->
  forall x i d vs w, extends (call_dep U c1 x i d vs w) (call_dep U c2 x i d vs w).
Proof.
  intros Hc x i d vs w r E. destruct d as [v|d o|y]; cbn [call_dep] in *; auto; [|now apply Hc].
  destruct (run_script c1 (plain U d) vs w) as [[[[r1 vs1] w1] l1]|] eqn:E1; [|discriminate].
  now rewrite (script_more _ _ Hc _ _ _ _ E1).
Qed.

Lemma deps_more (c1 c2 : caller) : (forall x vs w, extends (c1 x vs w) (c2 x vs w)) ->
  forall ds x i vs w, extends (call_deps U c1 x i ds vs w) (call_deps U c2 x i ds vs w).
Proof.
  intros Hc. induction ds as [|d ds IH]; intros x i vs w r E; cbn [call_deps] in *; auto.
  destruct (call_dep U c1 x i d vs w) as [[[[r1 vs1] w1] l1]|] eqn:E1; [|discriminate].
  rewrite (dep_more _ _ Hc _ _ _ _ _ _ E1). destruct r1 as [r1| |]; auto.
  destruct (call_deps U c1 x (S i) ds vs1 w1) as [[[[r2 vs2] w2] l2]|] eqn:E2; [|discriminate].
  now rewrite (IH _ _ _ _ _ E2).
Qed.

Lemma ncall_more n : forall x vs w, extends (ncall U n x vs w) (ncall U (S n) x vs w).
Proof.
  induction n as [|n IH]; intros x vs w r E; [discriminate|].
  remember (S n) as m. cbn [ncall]. subst m. cbn [ncall] in E. destruct (nth_error vs x) as [v|]; [|discriminate].
  destruct (call_deps U (ncall U n) x 0 (ndeps v) vs w) as [[[[rs vs1] w1] l1]|] eqn:E1; [|discriminate].
  rewrite (deps_more _ _ IH _ _ _ _ _ _ E1). destruct rs as [rs| |]; auto.
  destruct (negb (is_some (cache_of vs1 x)) || existsb snd rs); auto.
  destruct (run_script (ncall U n) (body U (nfn v) (ctad_tuple as_tuple (read_deps vs1 x 0 (ndeps v) rs))) vs1 w1)
    as [[[[r2 vs2] w2] l2]|] eqn:E2; [|discriminate].
  rewrite (script_more _ _ IH _ _ _ _ E2). exact E.
Qed.

Lemma ncall_mono n m x vs w : n <= m -> extends (ncall U n x vs w) (ncall U m x vs w).
Proof. induction 1 as [|m Hm IH]; intros r E; auto. apply ncall_more. now apply IH. Qed.

Theorem nrun_mono n m p : n <= m -> forall vs w, extends (nrun U n p vs w) (nrun U m p vs w).
Proof.
  intros Hm. induction p as [|o p IH]; intros vs w r E; cbn [nrun] in *; auto.
  destruct (nexec U n o vs w) as [[[vs1 w1] out]|] eqn:E1; [|discriminate].
  assert (E1' : nexec U m o vs w = Some (vs1, w1, out)).
  { destruct o as [f ss|x|x|h]; cbn [nexec] in *; auto.
    destruct (ncall U n x vs w) as [[[[r1 vs2] w2] lg]|] eqn:E2; [|discriminate]. now rewrite (ncall_mono n m _ _ _ Hm _ E2). }
  rewrite E1'. destruct (nrun U n p vs1 w1) as [[[vs2 w2] outs]|] eqn:E2; [|discriminate]. now rewrite (IH _ _ _ E2).
Qed.

(** ** What calls do to the state *)
Section Preserve.
Variable R : list nvar -> list nvar -> Prop.
Hypothesis Rrefl : forall vs, R vs vs.
Hypothesis Rtrans : forall a b c, R a b -> R b c -> R a c.
Hypothesis Rdep : forall vs x i c, R vs (set_dep_cache x i c vs).
Variable call : caller.
Hypothesis Hcall : forall x vs w r vs' w' lg, call x vs w = Some (r, vs', w', lg) -> R vs vs'.

Lemma script_keeps (s : script) : forall vs w r vs' w' lg,
  run_script call s vs w = Some (r, vs', w', lg) -> R vs vs'.
Proof.
  induction s as [o| |k IH|h s IH|x k IH]; intros vs w r vs' w' lg E; cbn [run_script] in E; eauto;
    try (injection E as <- <- <- <-; auto; fail).
  destruct (call x vs w) as [[[[r1 vs1] w1] l1]|] eqn:E1; [|discriminate]. apply Hcall in E1.
  destruct (api_result r1) as [o| |].
  - destruct (run_script call (k (Some o)) vs1 w1) as [[[[r2 vs2] w2] l2]|] eqn:E2; [|discriminate].
    injection E as <- <- <- <-. eauto.
  - destruct (run_script call (k None) vs1 w1) as [[[[r2 vs2] w2] l2]|] eqn:E2; [|discriminate].
    injection E as <- <- <- <-. eauto.
  - now injection E as <- <- <- <-.
Qed.

Lemma deps_keep ds : forall x i vs w r vs' w' lg,
  call_deps U call x i ds vs w = Some (r, vs', w', lg) -> R vs vs'.
Proof.
  induction ds as [|d ds IH]; intros x i vs w r vs' w' lg E; cbn [call_deps] in E.
  - injection E as <- <- <- <-. auto.
  - destruct (call_dep U call x i d vs w) as [[[[r1 vs1] w1] l1]|] eqn:E1; [|discriminate].
    assert (H1 : R vs vs1).
    { destruct d as [v|d o|y]; cbn [call_dep] in E1.
      - injection E1 as <- <- <- <-. auto.
      - destruct (run_script call (plain U d) vs w) as [[[[r2 vs2] w2] l2]|] eqn:E2; [|discriminate].
        apply script_keeps in E2. destruct r2; [|injection E1 as <- <- <- <-; auto..].
        destruct (compare U (dep_cache vs2 x i) x0). injection E1 as <- <- <- <-. eauto.
      - eauto. }
    destruct r1; [|injection E as <- <- <- <-; auto..].
    destruct (call_deps U call x (S i) ds vs1 w1) as [[[[r2 vs2] w2] l2]|] eqn:E2; [|discriminate].
    injection E as <- <- <- <-. eauto.
Qed.
End Preserve.

Definition defs_of (vs : list nvar) : list def := map (fun v => (nfn v, map spec_of (ndeps v))) vs.

Lemma update_id {X} (l : list X) : forall n x, nth_error l n = Some x -> update n x l = l.
Proof. induction l as [|y l IH]; intros [|n] x E; cbn in *; try discriminate; [congruence|]. now rewrite IH. Qed.

Lemma map_update {X Y} (f : X -> Y) x l : forall n, map f (update n x l) = update n (f x) (map f l).
Proof. induction l as [|y l IH]; intros [|n]; cbn; auto. now rewrite IH. Qed.

Lemma defs_update vs x v v' : nth_error vs x = Some v -> nfn v' = nfn v -> map spec_of (ndeps v') = map spec_of (ndeps v) ->
  defs_of (update x v' vs) = defs_of vs.
Proof.
  intros Hv E1 E2. unfold defs_of. rewrite map_update. apply update_id. rewrite E1, E2. now apply map_nth_error with (f := fun v => (nfn v, map spec_of (ndeps v))) in Hv.
Qed.

Lemma defs_set_cache vs x c : defs_of (set_cache x c vs) = defs_of vs.
Proof.
  unfold set_cache. destruct (nth_error vs x) as [v|] eqn:E; auto. now apply (defs_update vs x v).
Qed.

Lemma defs_set_dep vs x i c : defs_of (set_dep_cache x i c vs) = defs_of vs.
Proof.
  unfold set_dep_cache. destruct (nth_error vs x) as [v|] eqn:E; auto. destruct (nth_error (ndeps v) i) as [[u|d o|y]|] eqn:Ed; auto.
  apply (defs_update vs x v); auto. cbn [ndeps]. rewrite map_update. apply update_id.
  now apply (map_nth_error spec_of) in Ed.
Qed.

Lemma ncall_defs n : forall x vs w r vs' w' lg, ncall U n x vs w = Some (r, vs', w', lg) -> defs_of vs' = defs_of vs.
Proof.
  induction n as [|n IH]; intros x vs w r vs' w' lg E; [discriminate|]. cbn [ncall] in E.
  assert (IH' : forall x vs w r vs' w' lg, ncall U n x vs w = Some (r, vs', w', lg) -> defs_of vs = defs_of vs')
    by (intros; symmetry; eapply IH; eassumption).
  destruct (nth_error vs x) as [v|]; [|discriminate].
  destruct (call_deps U (ncall U n) x 0 (ndeps v) vs w) as [[[[rs vs1] w1] l1]|] eqn:E1; [|discriminate].
  apply (deps_keep (fun a b => defs_of a = defs_of b)) in E1; [|auto|congruence|intros; symmetry; apply defs_set_dep|exact IH'].
  destruct rs as [rs| |]; [|injection E as <- <- <- <-; auto..].
  destruct (negb (is_some (cache_of vs1 x)) || existsb snd rs).
  - destruct (run_script (ncall U n) (body U (nfn v) (ctad_tuple as_tuple (read_deps vs1 x 0 (ndeps v) rs))) vs1 w1)
      as [[[[r2 vs2] w2] l2]|] eqn:E2; [|discriminate].
    apply (script_keeps (fun a b => defs_of a = defs_of b)) in E2; [|auto|congruence|exact IH'].
    destruct r2 as [c| |]; [|injection E as <- <- <- <-; congruence..].
    destruct (compare U (cache_of vs2 x) c). injection E as <- <- <- <-. rewrite defs_set_cache. congruence.
  - destruct (cache_of vs1 x); injection E as <- <- <- <-; auto.
Qed.

(** ** Enough fuel *)
Definition finishes (call : caller) (ds : list def) (x : nat) : Prop :=
  forall vs w, defs_of vs = ds -> exists r vs' w' lg, call x vs w = Some (r, vs', w', lg) /\ defs_of vs' = ds.

Lemma script_finishes call ds i (s : script) : calls_below i s -> (forall x, x < i -> finishes call ds x) ->
  forall vs w, defs_of vs = ds -> exists r vs' w' lg, run_script call s vs w = Some (r, vs', w', lg) /\ defs_of vs' = ds.
Proof.
  intros Hs Hc. induction Hs as [o| |k Hk IH|h s Hs IH|x k Hx Hk IH]; intros vs w Hd; cbn [run_script]; eauto 8.
  destruct (Hc x Hx vs w Hd) as (r & vs1 & w1 & l1 & E & Hd1). rewrite E.
  destruct (api_result r) as [o| |]; [| |eauto 8].
  - destruct (IH (Some o) vs1 w1 Hd1) as (r2 & vs2 & w2 & l2 & E2 & Hd2). rewrite E2. eauto 8.
  - destruct (IH None vs1 w1 Hd1) as (r2 & vs2 & w2 & l2 & E2 & Hd2). rewrite E2. eauto 8.
Qed.

Lemma deps_finish call ds x : (forall y, y < x -> finishes call ds y) ->
  forall deps i vs w, Forall (fun s => match s with PValue _ => True | PFun d => calls_below x (plain U d) | PRef y => y < x end)
                       (map spec_of deps) ->
  defs_of vs = ds -> exists r vs' w' lg, call_deps U call x i deps vs w = Some (r, vs', w', lg) /\ defs_of vs' = ds.
Proof.
  intros Hc. induction deps as [|d deps IH]; intros i vs w Hf Hd; cbn [call_deps]; [eauto 8|].
  cbn [map] in Hf. inversion Hf as [|? ? Hf1 Hf2]; subst.
  assert (H1 : exists r vs' w' lg, call_dep U call x i d vs w = Some (r, vs', w', lg) /\ defs_of vs' = defs_of vs).
  { destruct d as [v|d o|y]; cbn [spec_of call_dep] in *; [eauto 8| |now apply Hc].
    destruct (script_finishes call _ x _ Hf1 Hc vs w eq_refl) as (r & vs1 & w1 & l1 & E & Hd1). rewrite E.
    destruct r as [r| |]; [|eauto 8..]. destruct (compare U (dep_cache vs1 x i) r). do 4 eexists. split; [reflexivity|].
    now rewrite defs_set_dep. }
  destruct H1 as (r & vs1 & w1 & l1 & E & Hd1). rewrite E. destruct r as [r| |]; [|eauto 8..].
  destruct (IH (S i) vs1 w1 Hf2 Hd1) as (r2 & vs2 & w2 & l2 & E2 & Hd2). rewrite E2. eauto 8.
Qed.

Lemma ncall_finishes ds : calls_earlier (body U) (plain U) ds ->
  forall n x, x < n -> x < length ds -> finishes (ncall U n) ds x.
Proof.
  intros Hds. induction n as [|n IH]; intros x Hn Hx vs w Hd; [lia|].
  assert (Hc : forall y, y < x -> finishes (ncall U n) ds y) by (intros y Hy; apply IH; lia).
  destruct (nth_error vs x) as [v|] eqn:Hv.
  2: { apply nth_error_None in Hv. rewrite <- Hd in Hx. unfold defs_of in Hx. rewrite map_length in Hx. lia. }
  assert (Hdx : nth_error ds x = Some (nfn v, map spec_of (ndeps v))).
  { rewrite <- Hd. now apply map_nth_error with (f := fun v => (nfn v, map spec_of (ndeps v))) in Hv. }
  destruct (Hds _ _ _ Hdx) as [Hb Hf]. cbn [ncall]. rewrite Hv.
  destruct (deps_finish (ncall U n) ds x Hc (ndeps v) 0 vs w Hf Hd) as (rs & vs1 & w1 & l1 & E1 & Hd1). rewrite E1.
  destruct rs as [rs| |]; [|eauto 8..].
  destruct (negb (is_some (cache_of vs1 x)) || existsb snd rs).
  - destruct (script_finishes (ncall U n) ds x _ (Hb (ctad_tuple as_tuple (read_deps vs1 x 0 (ndeps v) rs))) Hc vs1 w1 Hd1)
      as (r2 & vs2 & w2 & l2 & E2 & Hd2). rewrite E2.
    destruct r2 as [c| |]; [|eauto 8..]. destruct (compare U (cache_of vs2 x) c). do 4 eexists. split; [reflexivity|].
    now rewrite defs_set_cache.
  - destruct (cache_of vs1 x); eauto 8.
Qed.

Lemma definitions_grow (p : list nop) : forall ds, exists more, definitions p ds = ds ++ more.
Proof.
  induction p as [|o p IH]; intros ds; cbn [definitions]; [exists []; now rewrite app_nil_r|].
  destruct o as [f ss|x|x|h]; auto.
  - destruct (IH (ds ++ [(f, ss)])) as (more & ->). rewrite <- app_assoc. eauto.
  - destruct (nth_error ds x) as [d|]; auto. destruct (IH (ds ++ [d])) as (more & ->). rewrite <- app_assoc. eauto.
Qed.

Lemma defs_new vs f ss : defs_of (vs ++ [new_var f ss]) = defs_of vs ++ [(f, ss)].
Proof.
  unfold defs_of. rewrite map_app. cbn [map new_var nfn ndeps]. do 3 f_equal. rewrite map_map.
  induction ss as [|s ss IH]; [reflexivity|]. cbn [map]. rewrite IH. now destruct s.
Qed.

Lemma nexec_defs n o vs w vs' w' out : nexec U n o vs w = Some (vs', w', out) -> defs_of vs' = definitions [o] (defs_of vs).
Proof.
  destruct o as [f ss|x|x|h]; cbn [nexec definitions]; intros E.
  - injection E as <- <- <-. apply defs_new.
  - destruct (nth_error vs x) as [v|] eqn:Hv; [|discriminate]. injection E as <- <- <-.
    assert (Hx : nth_error (defs_of vs) x = Some (nfn v, map spec_of (ndeps v)))
      by exact (map_nth_error (fun v : nvar => (nfn v, map spec_of (ndeps v))) x vs Hv).
    rewrite Hx. unfold defs_of. now rewrite map_app.
  - destruct (ncall U n x vs w) as [[[[r vs1] w1] lg]|] eqn:Ec; [|discriminate]. injection E as <- <- <-. eapply ncall_defs; exact Ec.
  - now injection E as <- <- <-.
Qed.

Lemma defs_length vs : length (defs_of vs) = length vs.
Proof. apply map_length. Qed.

Theorem nrun_finishes n p : forall vs w, known p (length vs) ->
  calls_earlier (body U) (plain U) (definitions p (defs_of vs)) -> length (definitions p (defs_of vs)) <= n ->
  exists vs' w' outs, nrun U n p vs w = Some (vs', w', outs).
Proof.
  induction p as [|o p IH]; intros vs w Hk Hd Hn; cbn [nrun]; [eauto|].
  assert (G : exists vs1 w1 out, nexec U n o vs w = Some (vs1, w1, out) /\ known p (length vs1)).
  { destruct o as [f ss|x|x|h]; cbn [nexec known] in *.
    - do 3 eexists. split; [reflexivity|]. rewrite app_length. cbn [length]. now rewrite Nat.add_1_r.
    - destruct Hk as [Hx Hk]. destruct (nth_error vs x) as [v|] eqn:Hv; [|apply nth_error_None in Hv; lia].
      do 3 eexists. split; [reflexivity|]. rewrite app_length. cbn [length]. now rewrite Nat.add_1_r.
    - destruct Hk as [Hx Hk]. cbn [definitions] in *. destruct (definitions_grow p (defs_of vs)) as (more & Em).
      assert (Hl : length vs <= n) by (rewrite Em, app_length, defs_length in Hn; lia).
      assert (He : calls_earlier (body U) (plain U) (defs_of vs)).
      { intros i f ss Hi. apply (Hd i f ss). rewrite Em. rewrite nth_error_app1; [exact Hi|]. apply nth_error_Some. congruence. }
      destruct (ncall_finishes _ He n x) with (vs := vs) (w := w) as (r & vs1 & w1 & lg & E & Hd1); [lia|rewrite defs_length; lia|reflexivity|].
      rewrite E. do 3 eexists. split; [reflexivity|]. apply (f_equal (@length _)) in Hd1. rewrite !defs_length in Hd1. now rewrite Hd1.
    - eauto 6. }
  destruct G as (vs1 & w1 & out & E & Hk1). rewrite E.
  assert (Ed : definitions (o :: p) (defs_of vs) = definitions p (defs_of vs1)).
  { rewrite (nexec_defs _ _ _ _ _ _ _ E). destruct o; reflexivity. }
  rewrite Ed in Hd, Hn. destruct (IH vs1 w1 Hk1 Hd Hn) as (vs2 & w2 & outs & E2). rewrite E2. eauto.
Qed.

(** ** A result that stays *)
Definition bare (vs : list nvar) (x : nat) : Prop := exists v, nth_error vs x = Some v /\ ndeps v = [].
Definition stays (vs vs' : list nvar) : Prop :=
  (forall x, bare vs x -> bare vs' x) /\ forall x c, bare vs x -> cache_of vs x = Some c -> cache_of vs' x = Some c.

Lemma stays_refl vs : stays vs vs.
Proof. split; auto. Qed.
Lemma stays_trans a b c : stays a b -> stays b c -> stays a c.
Proof. intros [H1 H2] [H3 H4]. split; auto. Qed.

Lemma stays_dep vs x i c : stays vs (set_dep_cache x i c vs).
Proof.
  unfold set_dep_cache. destruct (nth_error vs x) as [v|] eqn:E; [|apply stays_refl].
  destruct (nth_error (ndeps v) i) as [[u|d o|y]|] eqn:Ed; try apply stays_refl.
  assert (Hl : x < length vs) by (apply nth_error_Some; congruence).
  assert (Hne : forall y, bare vs y -> y <> x).
  { intros y (z & Hz & Hd) ->. rewrite E in Hz. injection Hz as <-. rewrite Hd in Ed. destruct i; discriminate. }
  split.
  - intros y Hb. pose proof (Hne y Hb) as Hy. destruct Hb as (z & Hz & Hd). exists z. now rewrite nth_update_other by auto.
  - intros y c' Hb Hc. unfold cache_of. rewrite nth_update_other; [exact Hc|]. intros ->. now apply (Hne y Hb).
Qed.

Lemma ncall_stays n : forall x vs w r vs' w' lg, ncall U n x vs w = Some (r, vs', w', lg) -> stays vs vs'.
Proof.
  induction n as [|n IH]; intros x vs w r vs' w' lg E; [discriminate|]. cbn [ncall] in E.
  destruct (nth_error vs x) as [v|] eqn:Hv; [|discriminate].
  destruct (call_deps U (ncall U n) x 0 (ndeps v) vs w) as [[[[rs vs1] w1] l1]|] eqn:E1; [|discriminate].
  assert (H1 : stays vs vs1) by (eapply (deps_keep stays); [apply stays_refl|apply stays_trans|apply stays_dep|exact IH|exact E1]).
  destruct rs as [rs| |]; [|injection E as <- <- <- <-; exact H1..].
  destruct (negb (is_some (cache_of vs1 x)) || existsb snd rs) eqn:Ech.
  - destruct (run_script (ncall U n) (body U (nfn v) (ctad_tuple as_tuple (read_deps vs1 x 0 (ndeps v) rs))) vs1 w1)
      as [[[[r2 vs2] w2] l2]|] eqn:E2; [|discriminate].
    assert (H2 : stays vs vs2).
    { eapply stays_trans; [exact H1|]. eapply (script_keeps stays); [apply stays_refl|apply stays_trans|exact IH|exact E2]. }
    destruct r2 as [c| |]; [|injection E as <- <- <- <-; exact H2..].
    destruct (compare U (cache_of vs2 x) c). injection E as <- <- <- <-.
    unfold set_cache. destruct (nth_error vs2 x) as [v2|] eqn:Hv2; [|exact H2].
    assert (Hl : x < length vs2) by (apply nth_error_Some; congruence).
    destruct H2 as [H2 H3]. split.
    + intros y Hb. apply H2 in Hb. destruct Hb as (z & Hz & Hd). destruct (Nat.eq_dec x y) as [->|Hy].
      * rewrite Hv2 in Hz. injection Hz as <-. eexists. rewrite nth_update_same by exact Hl. split; [reflexivity|exact Hd].
      * exists z. now rewrite nth_update_other by exact Hy.
    + intros y c' Hb Hc. destruct (Nat.eq_dec x y) as [->|Hy].
      * exfalso. destruct Hb as (z & Hz & Hd). rewrite Hv in Hz. injection Hz as <-. rewrite Hd in E1. cbn in E1.
        injection E1 as <- <- <- <-. rewrite Hc in Ech. discriminate.
      * unfold cache_of. rewrite nth_update_other by exact Hy. now apply H3.
  - destruct (cache_of vs1 x); injection E as <- <- <- <-; exact H1.
Qed.

(** Afterwards the cache holds what was returned. *)
Lemma ncall_cache n x vs w v ch vs' w' lg : ncall U n x vs w = Some (Ok (v, ch), vs', w', lg) -> cache_of vs' x = Some v.
Proof.
  destruct n as [|n]; [discriminate|]. intros E. pose proof (ncall_defs (S n) x vs w _ _ _ _ E) as Hd. cbn [ncall] in E.
  destruct (nth_error vs x) as [u|] eqn:Hu; [|discriminate].
  destruct (call_deps U (ncall U n) x 0 (ndeps u) vs w) as [[[[rs vs1] w1] l1]|] eqn:E1; [|discriminate].
  destruct rs as [rs| |]; [|discriminate..].
  destruct (negb (is_some (cache_of vs1 x)) || existsb snd rs).
  - destruct (run_script (ncall U n) (body U (nfn u) (ctad_tuple as_tuple (read_deps vs1 x 0 (ndeps u) rs))) vs1 w1)
      as [[[[r2 vs2] w2] l2]|] eqn:E2; [|discriminate].
    destruct r2 as [c| |]; [|discriminate..]. destruct (compare U (cache_of vs2 x) c). injection E as <- _ <- _ _.
    unfold set_cache in *. destruct (nth_error vs2 x) as [v2|] eqn:Hv2.
    + unfold cache_of. rewrite nth_update_same; [reflexivity|]. apply nth_error_Some. congruence.
    + exfalso. apply nth_error_None in Hv2. apply (f_equal (@length _)) in Hd. rewrite !defs_length in Hd.
      assert (x < length vs) by (apply nth_error_Some; congruence). lia.
  - destruct (cache_of vs1 x) as [c|] eqn:Hc; [|discriminate]. injection E as <- _ <- _ _. exact Hc.
Qed.

Lemma nrun_stays n p : forall vs w vs' w' outs, nrun U n p vs w = Some (vs', w', outs) -> stays vs vs'.
Proof.
  induction p as [|o p IH]; intros vs w vs' w' outs E; cbn [nrun] in E; [injection E as <- <- <-; apply stays_refl|].
  destruct (nexec U n o vs w) as [[[vs1 w1] out]|] eqn:E1; [|discriminate].
  destruct (nrun U n p vs1 w1) as [[[vs2 w2] outs2]|] eqn:E2; [|discriminate]. injection E as <- <- <-.
  eapply stays_trans; [|eapply IH; exact E2].
  assert (Hadd : forall v : nvar, stays vs (vs ++ [v])).
  { intros v. split.
    - intros x (z & Hz & Hd). exists z. rewrite nth_error_app1; [auto|]. apply nth_error_Some. congruence.
    - intros x c (z & Hz & _) Hc. unfold cache_of in *. rewrite nth_error_app1; [exact Hc|]. apply nth_error_Some. congruence. }
  destruct o as [f ss|x|x|h]; cbn [nexec] in E1.
  - injection E1 as <- <- <-. apply Hadd.
  - destruct (nth_error vs x); [|discriminate]. injection E1 as <- <- <-. apply Hadd.
  - destruct (ncall U n x vs w) as [[[[r vs3] w3] lg]|] eqn:Ec; [|discriminate]. injection E1 as <- <- <-. eapply ncall_stays; exact Ec.
  - injection E1 as <- <- <-. apply stays_refl.
Qed.

Lemma nrun_app n p q : forall vs w,
  nrun U n (p ++ q) vs w =
  match nrun U n p vs w with
  | Some (vs1, w1, outs1) =>
      match nrun U n q vs1 w1 with Some (vs2, w2, outs2) => Some (vs2, w2, outs1 ++ outs2) | None => None end
  | None => None
  end.
Proof.
  induction p as [|o p IH]; intros vs w; cbn [app nrun].
  - now destruct (nrun U n q vs w) as [[[vs2 w2] outs2]|].
  - destruct (nexec U n o vs w) as [[[vs1 w1] out]|]; [|reflexivity]. rewrite IH.
    destruct (nrun U n p vs1 w1) as [[[vs2 w2] outs2]|]; [|reflexivity].
    now destruct (nrun U n q vs2 w2) as [[[vs3 w3] outs3]|].
Qed.

Lemma nrun_length n p : forall vs w vs' w' outs, nrun U n p vs w = Some (vs', w', outs) -> length outs = length p.
Proof.
  induction p as [|o p IH]; intros vs w vs' w' outs E; cbn [nrun] in E; [now injection E as <- <- <-|].
  destruct (nexec U n o vs w) as [[[vs1 w1] out]|]; [|discriminate].
  destruct (nrun U n p vs1 w1) as [[[vs2 w2] outs2]|] eqn:E2; [|discriminate]. injection E as <- <- <-. cbn. f_equal. eauto.
Qed.

Lemma nrun_defs n p : forall vs w vs' w' outs, nrun U n p vs w = Some (vs', w', outs) -> defs_of vs' = definitions p (defs_of vs).
Proof.
  induction p as [|o p IH]; intros vs w vs' w' outs E; cbn [nrun] in E; [now injection E as <- <- <-|].
  destruct (nexec U n o vs w) as [[[vs1 w1] out]|] eqn:E1; [|discriminate].
  destruct (nrun U n p vs1 w1) as [[[vs2 w2] outs2]|] eqn:E2; [|discriminate]. injection E as <- <- <-.
  rewrite (IH _ _ _ _ _ E2), (nexec_defs _ _ _ _ _ _ _ E1). now destruct o.
Qed.

Theorem stays_for_ever n p q x f w vs w' outs :
  nth_error (definitions p []) x = Some (f, []) ->
  nrun U n (p ++ PCall x :: q ++ [PCall x]) [] w = Some (vs, w', outs) ->
  exists outs1 o outs2 last, outs = outs1 ++ o :: outs2 ++ [last] /\ length outs1 = length p /\ length outs2 = length q /\
    forall r, fst o = Some (Ok r) -> last = (Some (Ok r), []).
Proof.
  intros Hx E. rewrite nrun_app in E. destruct (nrun U n p [] w) as [[[vs1 w1] outs1]|] eqn:E1; [|discriminate].
  destruct (nrun U n (PCall x :: q ++ [PCall x]) vs1 w1) as [[[vs2 w2] outs2]|] eqn:E2; [|discriminate]. injection E as <- <- <-.
  cbn [nrun] in E2. destruct (nexec U n (PCall x) vs1 w1) as [[[vs3 w3] o]|] eqn:E3; [|discriminate].
  destruct (nrun U n (q ++ [PCall x]) vs3 w3) as [[[vs4 w4] outs4]|] eqn:E4; [|discriminate]. injection E2 as <- <- <-.
  rewrite nrun_app in E4. destruct (nrun U n q vs3 w3) as [[[vs5 w5] outs5]|] eqn:E5; [|discriminate].
  cbn [nrun] in E4. destruct (nexec U n (PCall x) vs5 w5) as [[[vs6 w6] last]|] eqn:E6; [|discriminate]. injection E4 as <- <- <-.
  exists outs1, o, outs5, last. split; [reflexivity|]. split; [eapply nrun_length; exact E1|]. split; [eapply nrun_length; exact E5|].
  intros r Hr. cbn [nexec] in E3, E6.
  destruct (ncall U n x vs1 w1) as [[[[r3 vs3'] w3'] l3]|] eqn:C3; [|discriminate]. injection E3 as <- <- <-. cbn [fst] in Hr.
  injection Hr as Hr. destruct r3 as [[v ch]| |]; [|discriminate..].
  assert (Hb1 : bare vs1 x).
  { apply nrun_defs in E1. change (defs_of []) with (@nil def) in E1.
    assert (Hx' : nth_error (defs_of vs1) x = Some (f, [])) by (rewrite E1; exact Hx).
    unfold defs_of in Hx'. rewrite nth_error_map in Hx'. clear Hx. rename Hx' into Hx.
    destruct (nth_error vs1 x) as [z|] eqn:Hz; [|discriminate]. cbn in Hx. injection Hx as _ Hx. apply map_eq_nil in Hx. now exists z. }
  assert (Hb3 : bare vs3' x) by (eapply ncall_stays; eassumption).
  pose proof (ncall_cache _ _ _ _ _ _ _ _ _ C3) as Hc3.
  apply nrun_stays in E5. destruct E5 as [Hs1 Hs2]. specialize (Hs1 x Hb3). specialize (Hs2 x v Hb3 Hc3).
  destruct n as [|n]; [discriminate|]. cbn [ncall] in E6. destruct Hs1 as (z & Hz & Hd). rewrite Hz, Hd in E6. cbn [call_deps] in E6.
  rewrite Hs2 in E6. cbn in E6. injection E6 as <- <- <-. rewrite <- Hr. now destruct v.
Qed.
End Calls.
