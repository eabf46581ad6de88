(** Constants passed lazily, and the example of reactivity (C70). *)
From Coq Require Import List Bool Arith Lia.
From Verif Require Import Value TupleAlg TupleAlgProofs LazyModel LazySpec LazySpec2 LazyGeneral StreamSpec StreamThms ExtraSpec.
Import ListNotations.

Section Inserted.
Context {A W fid did : Type}.
Notation event := (event A fid did).
Implicit Types (e : event) (l m : list event).

Lemma inserted_refl e l : inserted e 0 l l.
Proof. induction l; constructor; auto. Qed.

Lemma inserted_app e k l m k' l' m' : inserted e k l m -> inserted e k' l' m' -> inserted e (k + k') (l ++ l') (m ++ m').
Proof. induction 1; cbn [app Nat.add]; intros; try constructor; auto. Qed.
End Inserted.

Section Extra.
Context {A W fid did : Type}.
Notation value := (val A).
Notation lz := (lz A fid did).
Notation event := (event A fid did).
Variable U : user A W fid did.
Variables (h : fid) (vs : list value) (v : value).
Hypothesis Hh : forall w, exists r, sem U h (spread vs) w = (r, w) /\ regularized r = VRet v.
Notation ev := (EvCall h (spread vs) : event).
Notation consts := (map (fun u : value => LValue u false : lz) vs).

Inductive rel : nat -> lz -> lz -> Prop :=
| rel_value u ch : rel 0 (LValue u ch) (LValue u ch)
| rel_core g c k ds1 ds2 : reldeps c k ds1 ds2 -> rel k (LCore g c ds1) (LCore g c ds2)
with reldeps : option value -> nat -> list lz -> list lz -> Prop :=
| rel_nil c : reldeps c 0 [] []
| rel_same c k k' d1 d2 ds1 ds2 : rel k d1 d2 -> reldeps c k' ds1 ds2 -> reldeps c (k + k') (d1 :: ds1) (d2 :: ds2)
| rel_cached c k ds1 ds2 : reldeps c k ds1 ds2 ->
    reldeps c k (LValue v false :: ds1) (LCore (FnUser h) (Some v) consts :: ds2)
| rel_fresh k ds1 ds2 : reldeps None k ds1 ds2 ->
    reldeps None (1 + k) (LValue v false :: ds1) (LCore (FnUser h) None consts :: ds2).

Lemma rel_refl (l : lz) : rel 0 l l.
Proof.
  induction l as [u ch|g c ds IH] using lz_ind'; constructor.
  induction IH; [constructor|]. exact (rel_same c 0 0 _ _ _ _ H IHIH).
Qed.

Lemma reldeps_refl c (ds : list lz) : reldeps c 0 ds ds.
Proof. induction ds as [|d ds IH]; [constructor|]. exact (rel_same c 0 0 _ _ _ _ (rel_refl d) IH). Qed.

Lemma reldeps_app c k k' a a' b b' : reldeps c k a a' -> reldeps c k' b b' -> reldeps c (k + k') (a ++ b) (a' ++ b').
Proof.
  intros H. revert k' b b'. induction H; intros k0 b b' Hb; cbn [app].
  - exact Hb.
  - rewrite <- Nat.add_assoc. apply rel_same; auto.
  - apply rel_cached; auto.
  - cbn [Nat.add]. apply rel_fresh; auto.
Qed.

Lemma steps_consts (us : list value) w :
  steps U (map (fun u => LValue u false) us) w = (Ok (map (fun u => (u, false)) us), map (fun u => LValue u false) us, w, []).
Proof.
  induction us as [|u us IH]; [reflexivity|]. cbn [map]. rewrite steps_cons, step_value, IH. reflexivity.
Qed.

Lemma step_fresh w : exists b, step U (LCore (FnUser h) None consts) w =
  (Ok (v, b), LCore (FnUser h) (Some v) consts, w, [ev]).
Proof.
  rewrite step_core, steps_consts, core_eq. cbn [is_some negb orb call_fn].
  rewrite map_map, map_id, spread_ctad. destruct (Hh w) as (r & E & Er). rewrite E, Er.
  eexists. cbn [app]. reflexivity.
Qed.

Lemma step_cached w : step U (LCore (FnUser h) (Some v) consts) w =
  (Ok (v, false), LCore (FnUser h) (Some v) consts, w, []).
Proof.
  rewrite step_core, steps_consts, core_eq. cbn [is_some negb orb].
  replace (existsb snd (map (fun u : value => (u, false)) vs)) with false; [reflexivity|].
  clear. induction vs; [reflexivity|assumption].
Qed.

(** What the dependencies of a node with cache [c] return. *)
Definition agree (c : option value) (r1 r2 : res (list (value * bool))) : Prop :=
  match r1, r2 with
  | Ok xs, Ok ys => map fst xs = map fst ys /\ (c <> None -> xs = ys)
  | Exc, Exc => True
  | UB, UB => True
  | _, _ => False
  end.

Definition kept (r : res (list (value * bool))) (c : option value) k ds1 ds2 : Prop :=
  match r with Ok _ => forall c', reldeps c' k ds1 ds2 | _ => reldeps c k ds1 ds2 end.

Lemma steps_rel (ds1 : list lz) :
  Forall (fun l1 => forall k l2, rel k l1 l2 -> forall w, exists r l1' l2' w' lg1 lg2 k' n,
    step U l1 w = (r, l1', w', lg1) /\ step U l2 w = (r, l2', w', lg2) /\ rel k' l1' l2' /\
    inserted ev n lg1 lg2 /\ n + k' = k) ds1 ->
  forall c k ds2, reldeps c k ds1 ds2 -> forall w, exists r1 r2 ds1' ds2' w' lg1 lg2 k' n,
    steps U ds1 w = (r1, ds1', w', lg1) /\ steps U ds2 w = (r2, ds2', w', lg2) /\ agree c r1 r2 /\ kept r1 c k' ds1' ds2' /\
    inserted ev n lg1 lg2 /\ n + k' = k.
Proof.
  induction 1 as [|d1 ds1 Hd _ IH]; intros c k ds2 Hr w.
  - inversion Hr; subst. exists (Ok []), (Ok []), [], [], w, [], [], 0, 0.
    repeat split; auto; constructor.
  - inversion Hr as [|c0 k1 k2 x1 d2 xs1 ds2' H1 H2|c0 k0 xs1 ds2' H2|k0 xs1 ds2' H2]; subst.
    + destruct (Hd _ _ H1 w) as (r & l1' & l2' & w1 & lg1 & lg2 & k1' & n1 & E1 & E2 & Hl & Hi & Hk).
      rewrite !steps_cons, E1, E2. destruct r as [x| |].
      * destruct (IH _ _ _ H2 w1) as (r1 & r2 & a1 & a2 & w2 & m1 & m2 & k2' & n2 & F1 & F2 & Ha & Hkp & Hi2 & Hk2).
        rewrite F1, F2. exists (match r1 with Ok xs => Ok (x :: xs) | Exc => Exc | UB => UB end),
          (match r2 with Ok xs => Ok (x :: xs) | Exc => Exc | UB => UB end), (l1' :: a1), (l2' :: a2), w2,
          (lg1 ++ m1), (lg2 ++ m2), (k1' + k2'), (n1 + n2).
        split; [reflexivity|]. split; [reflexivity|]. split; [|split; [|split; [now apply inserted_app|lia]]].
        -- destruct r1, r2; cbn [agree] in *; try easy. destruct Ha as [Ha Hb]. split; [cbn [map]; congruence|].
           intros Hc. now rewrite Hb.
        -- destruct r1; cbn [kept] in *; [intros c'|..]; apply rel_same; auto.
      * exists Exc, Exc, (l1' :: ds1), (l2' :: ds2'), w1, lg1, lg2, (k1' + k2), n1.
        repeat split; auto; [constructor; auto|lia].
      * exists UB, UB, (l1' :: ds1), (l2' :: ds2'), w1, lg1, lg2, (k1' + k2), n1.
        repeat split; auto; [constructor; auto|lia].
    + rewrite !steps_cons, step_value, step_cached.
      destruct (IH _ _ _ H2 w) as (r1 & r2 & a1 & a2 & w2 & m1 & m2 & k2' & n2 & F1 & F2 & Ha & Hkp & Hi2 & Hk2).
      rewrite F1, F2. eexists _, _, _, _, _, _, _, k2', n2. split; [reflexivity|]. split; [reflexivity|].
      split; [|split; [|split; [exact Hi2|exact Hk2]]].
      * destruct r1, r2; cbn [agree] in *; try easy. destruct Ha as [Ha Hb]. split; [cbn [map fst]; congruence|].
        intros Hc. now rewrite Hb.
      * destruct r1; cbn [kept] in *; [intros c'|..]; apply rel_cached; auto.
    + destruct (step_fresh w) as (b & Ef). rewrite !steps_cons, step_value, Ef.
      destruct (IH _ _ _ H2 w) as (r1 & r2 & a1 & a2 & w2 & m1 & m2 & k2' & n2 & F1 & F2 & Ha & Hkp & Hi2 & Hk2).
      rewrite F1, F2. eexists _, _, _, _, _, _, _, k2', (1 + n2). split; [reflexivity|]. split; [reflexivity|].
      split; [|split; [|split; [constructor; exact Hi2|lia]]].
      * destruct r1, r2; cbn [agree] in *; try easy. destruct Ha as [Ha Hb]. split; [cbn [map fst]; congruence|easy].
      * destruct r1; cbn [kept] in *; [intros c'|..]; apply rel_cached; auto.
Qed.

Lemma step_rel (l1 : lz) : forall k l2, rel k l1 l2 -> forall w, exists r l1' l2' w' lg1 lg2 k' n,
  step U l1 w = (r, l1', w', lg1) /\ step U l2 w = (r, l2', w', lg2) /\ rel k' l1' l2' /\
  inserted ev n lg1 lg2 /\ n + k' = k.
Proof.
  induction l1 as [u ch|g c ds1 IH] using lz_ind'; intros k l2 Hr w; inversion Hr as [|? ? ? ? ? Hds]; subst.
  - eexists _, _, _, _, _, _, 0, 0. rewrite step_value. repeat split; constructor.
  - destruct (steps_rel ds1 IH _ _ _ Hds w) as (r1 & r2 & a1 & a2 & w1 & m1 & m2 & k' & n & F1 & F2 & Ha & Hkp & Hi & Hk).
    rewrite !step_core, F1, F2. destruct r1 as [xs| |], r2 as [ys| |]; cbn [agree kept] in *; try easy.
    + destruct Ha as [Ha Hb].
      assert (E : core U g c xs w1 = core U g c ys w1).
      { rewrite !core_eq. rewrite <- Ha. destruct c as [u|]; [|reflexivity]. now rewrite Hb. }
      rewrite E. destruct (core U g c ys w1) as [[[r c'] w2] lg].
      eexists _, _, _, _, _, _, k', n. split; [reflexivity|]. split; [reflexivity|]. split; [constructor; apply Hkp|].
      split; [|exact Hk]. rewrite <- (Nat.add_0_r n). apply inserted_app; [exact Hi|apply inserted_refl].
    + eexists _, _, _, _, _, _, k', n. repeat split; auto. constructor; auto.
    + eexists _, _, _, _, _, _, k', n. repeat split; auto. constructor; auto.
Qed.

(** ** Programs *)
Definition vrel (l1 l2 : lz) : Prop := exists k, rel k l1 l2.

Lemma F2_nth_error (R : lz -> lz -> Prop) vs1 vs2 : Forall2 R vs1 vs2 -> forall x,
  match nth_error vs1 x, nth_error vs2 x with
  | Some a, Some b => R a b
  | None, None => True
  | _, _ => False
  end.
Proof. induction 1; intros [|i]; cbn; auto. apply IHForall2. Qed.

Lemma deps_rel c ss : forall vs1 vs2 ds1, Forall2 vrel vs1 vs2 -> deps_of vs1 ss = Some ds1 ->
  exists k ds2, deps_of vs2 ss = Some ds2 /\ reldeps c k (map (ensure_lazy U) ds1) (map (ensure_lazy U) ds2).
Proof.
  induction ss as [|s ss IH]; intros vs1 vs2 ds1 Hv E; cbn [deps_of] in *.
  - injection E as <-. exists 0, []. split; [reflexivity|constructor].
  - destruct (dep_of vs1 s) as [o|] eqn:Es; [|discriminate].
    destruct (deps_of vs1 ss) as [os|] eqn:Ess; [|discriminate]. injection E as <-.
    destruct (IH vs1 vs2 os Hv Ess) as (k & os2 & E2 & Hos). rewrite E2.
    assert (G : exists k' o2, dep_of vs2 s = Some o2 /\ rel k' (ensure_lazy U o) (ensure_lazy U o2)).
    { destruct s as [x|d|u]; cbn [dep_of] in *.
      - pose proof (F2_nth_error _ _ _ Hv x) as Hx.
        destruct (nth_error vs1 x) as [a|]; [|discriminate]. destruct (nth_error vs2 x) as [b|]; [|easy].
        destruct Hx as (k' & Hx). injection Es as <-. exists k', (ObjLazy b). auto.
      - injection Es as <-. exists 0, (ObjPlain d). split; [reflexivity|apply rel_refl].
      - injection Es as <-. exists 0, (ObjValue u). split; [reflexivity|apply rel_refl]. }
    destruct G as (k' & o2 & E' & Ho). rewrite E'. exists (k' + k), (o2 :: os2). split; [reflexivity|].
    cbn [map]. now constructor.
Qed.

Lemma update_rel (vs1 vs2 : list lz) (R : lz -> lz -> Prop) x a b : Forall2 R vs1 vs2 -> R a b ->
  Forall2 R (update x a vs1) (update x b vs2).
Proof. intros H Hab. revert x. induction H; intros [|i]; cbn; constructor; auto. Qed.

Lemma nth_update (vs1 : list lz) x y a : nth_error (update x a vs1) y =
  if Nat.eqb x y then match nth_error vs1 y with Some _ => Some a | None => None end else nth_error vs1 y.
Proof. revert x y. induction vs1 as [|b l IH]; intros [|x] [|y]; cbn; auto. now destruct (Nat.eqb x y). Qed.

Definition same_but (o1 o2 : output A fid did) : Prop :=
  fst o1 = fst o2 /\ exists k, inserted ev k (snd o1) (snd o2).

(** Variable [x] is related with index [k]. *)
Definition at_var x k (s1 s2 : pstate A W fid did) : Prop :=
  exists l1 l2, nth_error (vars s1) x = Some l1 /\ nth_error (vars s2) x = Some l2 /\ rel k l1 l2.

Lemma at_var_app x k w w' (vs1 vs2 a b : list lz) :
  at_var x k (mkState vs1 w) (mkState vs2 w') -> at_var x k (mkState (vs1 ++ a) w) (mkState (vs2 ++ b) w').
Proof.
  intros (l1 & l2 & E1 & E2 & Hl). exists l1, l2. cbn [vars] in *.
  repeat split; [|rewrite nth_error_app1; [exact E2|apply nth_error_Some; congruence]|exact Hl].
  rewrite nth_error_app1; [exact E1|apply nth_error_Some; congruence].
Qed.

Lemma run_rel x q : forall s1 s2 s1' outs1 k, Forall2 vrel (vars s1) (vars s2) -> world s1 = world s2 -> at_var x k s1 s2 ->
  run U q s1 = Some (s1', outs1) ->
  exists s2' outs2, run U q s2 = Some (s2', outs2) /\ Forall2 same_but outs1 outs2 /\
    exists n, n <= k /\ inserted ev n (shown (outputs_of x q outs1)) (shown (outputs_of x q outs2)).
Proof.
  assert (Sk : forall o (b : list event), same_but (o, b) (o, b)).
  { intros o b. split; [reflexivity|]. exists 0. apply inserted_refl. }
  induction q as [|o q IH]; intros [vs1 w] [vs2 w'] s1' outs1 k Hv Hw Hx; cbn [run vars world] in *; subst w'.
  - intros E. injection E as <- <-. eexists _, []. split; [reflexivity|]. split; [constructor|].
    exists 0. split; [lia|constructor].
  - destruct o as [f ss|y|y|g]; cbn [exec vars world].
    + destruct (deps_of vs1 ss) as [ds1|] eqn:Ed; [|discriminate].
      destruct (deps_rel None ss vs1 vs2 ds1 Hv Ed) as (k0 & ds2 & E2 & Hds). rewrite E2.
      destruct (run U q (mkState (vs1 ++ [mk_lazy U f ds1]) w)) as [[sa oa]|] eqn:Er; [|discriminate].
      intros E. injection E as <- <-.
      edestruct (fun a b c => IH _ (mkState (vs2 ++ [mk_lazy U f ds2]) w) _ _ k a b c Er) as (s2' & outs2 & E & Ho & Hn);
        [| reflexivity | now apply at_var_app |].
      { cbn [vars]. apply Forall2_app; [exact Hv|]. constructor; [|constructor]. exists k0. now constructor. }
      rewrite E. eexists _, _. split; [reflexivity|]. split; [constructor; auto|]. exact Hn.
    + pose proof (F2_nth_error _ _ _ Hv y) as Hy.
      destruct (nth_error vs1 y) as [l1|] eqn:E1; [|discriminate]. destruct (nth_error vs2 y) as [l2|] eqn:E2; [|easy].
      destruct (run U q (mkState (vs1 ++ [l1]) w)) as [[sa oa]|] eqn:Er; [|discriminate].
      intros E. injection E as <- <-.
      edestruct (fun a b c => IH _ (mkState (vs2 ++ [l2]) w) _ _ k a b c Er) as (s2' & outs2 & E & Ho & Hn);
        [| reflexivity | now apply at_var_app |].
      { cbn [vars]. apply Forall2_app; [exact Hv|]. constructor; [exact Hy|constructor]. }
      rewrite E. eexists _, _. split; [reflexivity|]. split; [constructor; auto|]. exact Hn.
    + assert (Hy : match nth_error vs1 y, nth_error vs2 y with
                   | Some a, Some b => exists k0, rel k0 a b /\ (x = y -> k0 = k)
                   | None, None => True | _, _ => False end).
      { pose proof (F2_nth_error _ _ _ Hv y) as Hy.
        destruct Hx as (a1 & a2 & Ea & Eb & Ha). cbn [vars] in Ea, Eb.
        destruct (Nat.eq_dec x y) as [->|Hn].
        - rewrite Ea, Eb in *. exists k. auto.
        - destruct (nth_error vs1 y), (nth_error vs2 y); auto. destruct Hy as (k0 & Hy). exists k0. easy. }
      destruct (nth_error vs1 y) as [l1|] eqn:E1; [|discriminate]. destruct (nth_error vs2 y) as [l2|] eqn:E2; [|easy].
      destruct Hy as (k0 & Hl & Hk0).
      destruct (step_rel l1 k0 l2 Hl w) as (r & l1' & l2' & w1 & lg1 & lg2 & k' & n & F1 & F2 & Hl' & Hi & Hk).
      rewrite F1, F2. destruct (run U q (mkState (update y l1' vs1) w1)) as [[sa oa]|] eqn:Er; [|discriminate].
      intros E. injection E as <- <-.
      edestruct (fun a b c => IH _ (mkState (update y l2' vs2) w1) _ _ (if Nat.eqb x y then k' else k) a b c Er)
        as (s2' & outs2 & E & Ho & n2 & Hn2 & Hi2).
      * cbn [vars]. apply update_rel; [exact Hv|]. now exists k'.
      * reflexivity.
      * destruct Hx as (a1 & a2 & Ea & Eb & Ha). cbn [vars] in Ea, Eb. unfold at_var. cbn [vars].
        rewrite !nth_update, Ea, Eb. destruct (Nat.eqb_spec x y) as [->|Hn].
        -- rewrite Nat.eqb_refl. eauto.
        -- destruct (Nat.eqb_spec y x); [congruence|]. eauto.
      * rewrite E. eexists _, _. split; [reflexivity|]. split; [constructor; [|exact Ho]; split; eauto|].
        cbn [outputs_of]. destruct (Nat.eqb_spec x y) as [->|Hn].
        -- exists (n + n2). split; [specialize (Hk0 eq_refl); lia|]. unfold shown. cbn [map concat snd].
           now apply inserted_app.
        -- exists n2. auto.
    + destruct (run U q (mkState vs1 (g w))) as [[sa oa]|] eqn:Er; [|discriminate].
      intros E. injection E as <- <-.
      edestruct (fun a b c => IH _ (mkState vs2 (g w)) _ _ k a b c Er) as (s2' & outs2 & E & Ho & Hn); [exact Hv|reflexivity|exact Hx|].
      rewrite E. eexists _, _. split; [reflexivity|]. split; [constructor; auto|]. exact Hn.
Qed.

Lemma deps_of_app (l : list lz) ss1 ss2 : deps_of l (ss1 ++ ss2) =
  match deps_of l ss1, deps_of l ss2 with Some a, Some b => Some (a ++ b) | _, _ => None end.
Proof.
  induction ss1 as [|s ss1 IH]; cbn [app deps_of]; [now destruct (deps_of l ss2)|].
  rewrite IH. destruct (dep_of l s); [|reflexivity]. destruct (deps_of l ss1); [|reflexivity]. now destruct (deps_of l ss2).
Qed.

Lemma deps_of_consts (l : list lz) us : deps_of l (map DConst us) = Some (map ObjValue us).
Proof. induction us as [|u us IH]; cbn [map deps_of dep_of]; [reflexivity|]. now rewrite IH. Qed.

Theorem passed_lazily s f ss1 ss2 q s1 outs1 :
  let n := length (vars s) in
  run U (New h (map DConst vs) :: New f (ss1 ++ DConst v :: ss2) :: q) s = Some (s1, outs1) ->
  exists s2 outs2, run U (New h (map DConst vs) :: New f (ss1 ++ DVar n :: ss2) :: q) s = Some (s2, outs2) /\
    Forall2 same_but outs1 outs2 /\
    exists k, k <= 1 /\
      inserted ev k (shown (outputs_of (S n) (New h (map DConst vs) :: New f (ss1 ++ DConst v :: ss2) :: q) outs1))
                    (shown (outputs_of (S n) (New h (map DConst vs) :: New f (ss1 ++ DVar n :: ss2) :: q) outs2)).
Proof.
  intros n. cbn [run exec]. rewrite deps_of_consts. cbn [vars world]. rewrite !deps_of_app. cbn [deps_of dep_of].
  set (lh := mk_lazy U h (map ObjValue vs)). set (vs0 := vars s ++ [lh]).
  destruct (deps_of vs0 ss1) as [d1|]; [|discriminate]. destruct (deps_of vs0 ss2) as [d2|]; [|discriminate].
  assert (En : nth_error vs0 n = Some lh) by (unfold vs0, n; now rewrite nth_error_app2, Nat.sub_diag by lia).
  rewrite En. cbn [option_map].
  set (l1 := mk_lazy U f (d1 ++ ObjValue v :: d2)). set (l2 := mk_lazy U f (d1 ++ ObjLazy lh :: d2)).
  assert (Hl : rel 1 l1 l2).
  { unfold l1, l2, mk_lazy. constructor. rewrite !map_app. cbn [map].
    change 1 with (0 + (1 + 0)). apply reldeps_app; [apply reldeps_refl|].
    change (ensure_lazy U (ObjValue v)) with (LValue v false : lz).
    replace (ensure_lazy U (ObjLazy lh)) with (LCore (FnUser h) None consts : lz).
    - apply rel_fresh. apply reldeps_refl.
    - unfold lh, mk_lazy. cbn. f_equal. now rewrite map_map. }
  destruct (run U q (mkState (vs0 ++ [l1]) (world s))) as [[sa oa]|] eqn:Er; [|discriminate].
  intros E. injection E as <- <-.
  assert (Hlen : length vs0 = S n) by (unfold vs0; rewrite app_length; cbn; fold n; lia).
  destruct (run_rel (S n) q (mkState (vs0 ++ [l1]) (world s)) (mkState (vs0 ++ [l2]) (world s)) sa oa 1) as (s2 & outs2 & E2 & Ho & Hn).
  - cbn [vars]. apply Forall2_app; [|constructor; [now exists 1|constructor]].
    clear. induction vs0; constructor; auto. exists 0. apply rel_refl.
  - reflexivity.
  - exists l1, l2. cbn [vars]. rewrite <- Hlen, !nth_error_app2, Nat.sub_diag by lia. auto.
  - exact Er.
  - rewrite E2. eexists _, _. split; [reflexivity|]. split.
    + assert (Hs : same_but (None, []) (None, [])) by (split; [reflexivity|exists 0; constructor]).
      constructor; [exact Hs|]. constructor; [exact Hs|exact Ho].
    + exact Hn.
Qed.
End Extra.

(** ** Reactivity *)
Section Reactivity.
Context {A W fid did : Type}.
Notation value := (val A).
Notation lz := (lz A fid did).
Variable U : user A W fid did.
Hypothesis Heq : sound_eq U.

(** A lazy function in the state [st o], where [o] is what it stood on last, moves on
    to [next o w] at a call in world [w], and returns the atom [out] of that.  If it
    reports no change, there is none. *)
Definition source {X} (st : option X -> lz) (next : option X -> W -> X) (out : X -> A) : Prop :=
  forall o w, exists b lg, step U (st o) w = (Ok (VAtom (out (next o w)), b), st (Some (next o w)), w, lg) /\
    (b = false -> option_map out o = Some (out (next o w))).

Lemma ne_atoms (o : option A) (a : A) :
  opt_ne (aeq U) (option_map VAtom o) (VAtom a) = false -> o = Some a.
Proof.
  destruct o as [b|]; cbn; [|discriminate]. intros H. apply negb_false_iff in H. f_equal. exact (Heq _ _ H).
Qed.

Definition sampled (d : did) (o : option A) : lz :=
  LCore (FnSample d) (option_map VAtom o) [LValue (VAtom (int0 U)) true].

Lemma sampled_source d d_of : (forall w, dsem U d w = (VRet (VAtom (d_of w)), w)) ->
  source (sampled d) (fun _ w => d_of w) (fun a => a).
Proof.
  intros Hs o w. unfold sampled. rewrite step_core, steps_cons, step_value, steps_nil, core_eq.
  cbn [map existsb snd orb]. rewrite orb_true_r. cbn [call_fn]. rewrite Hs. eexists _, _. split; [reflexivity|].
  intros H. rewrite (ne_atoms _ _ H). reflexivity.
Qed.

Definition once (f : fid) (o : option A) : lz := LCore (FnUser f) (option_map VAtom o) [].

Lemma once_source f f_of : (forall w, sem U f [] w = (FRet (Some (VAtom (f_of w))), w)) ->
  source (once f) (fun o w => match o with Some a => a | None => f_of w end) (fun a => a).
Proof.
  intros Hs [a|] w; unfold once; rewrite step_core, steps_nil, core_eq; cbn [option_map is_some negb orb existsb].
  - eexists _, _. split; [reflexivity|]. reflexivity.
  - cbn. rewrite Hs. cbn. eexists _, _. split; [reflexivity|]. discriminate.
Qed.

Definition node1 {X} (f : fid) (f_of : A -> A) (st : option X -> lz) (out : X -> A) (o : option X) : lz :=
  LCore (FnUser f) (option_map VAtom (option_map (fun x => f_of (out x)) o)) [st o].

Lemma node1_source {X} f f_of (st : option X -> lz) next out :
  (forall a w, sem U f [VAtom a] w = (FRet (Some (VAtom (f_of a))), w)) ->
  source st next out -> source (node1 f f_of st out) next (fun x => f_of (out x)).
Proof.
  intros Hf Hs o w. unfold node1. destruct (Hs o w) as (b & lg & E & Hb).
  rewrite step_core, steps_cons, E, steps_nil, core_eq. cbn [map existsb fst snd].
  destruct (negb (is_some (option_map VAtom (option_map (fun x => f_of (out x)) o))) || (b || false)) eqn:Eb.
  - cbn [ctad_tuple as_tuple call_fn]. rewrite Hf. cbn [regularized]. eexists _, _. split; [reflexivity|].
    intros H. apply (ne_atoms _ _ H).
  - apply orb_false_iff in Eb. destruct Eb as [E1 E2]. rewrite orb_false_r in E2. specialize (Hb E2).
    destruct o as [x|]; [|discriminate]. cbn [option_map] in *. injection Hb as Hb. rewrite Hb.
    eexists _, _. split; [reflexivity|]. reflexivity.
Qed.

Definition node2 {X Y} (f : fid) (f_of : A -> A -> A) (st1 : option X -> lz) (out1 : X -> A)
    (st2 : option Y -> lz) (out2 : Y -> A) (o : option (X * Y)) : lz :=
  LCore (FnUser f) (option_map VAtom (option_map (fun x => f_of (out1 (fst x)) (out2 (snd x))) o))
    [st1 (option_map fst o); st2 (option_map snd o)].

Lemma node2_source {X Y} f f_of (st1 : option X -> lz) next1 out1 (st2 : option Y -> lz) next2 out2 :
  (forall a b w, sem U f [VAtom a; VAtom b] w = (FRet (Some (VAtom (f_of a b))), w)) ->
  source st1 next1 out1 -> source st2 next2 out2 ->
  source (node2 f f_of st1 out1 st2 out2)
    (fun o w => (next1 (option_map fst o) w, next2 (option_map snd o) w))
    (fun x => f_of (out1 (fst x)) (out2 (snd x))).
Proof.
  intros Hf Hs1 Hs2 o w. unfold node2.
  destruct (Hs1 (option_map fst o) w) as (b1 & lg1 & E1 & Hb1). destruct (Hs2 (option_map snd o) w) as (b2 & lg2 & E2 & Hb2).
  rewrite step_core, !steps_cons, E1, steps_cons, E2, steps_nil, core_eq. cbn [map existsb fst snd].
  destruct (negb _ || _) eqn:Eb.
  - cbn [ctad_tuple as_tuple call_fn]. rewrite Hf. cbn [regularized]. eexists _, _. split; [reflexivity|].
    intros H. apply (ne_atoms _ _ H).
  - apply orb_false_iff in Eb. destruct Eb as [F1 F2]. rewrite orb_false_r in F2. apply orb_false_iff in F2.
    destruct F2 as [-> ->]. specialize (Hb1 eq_refl). specialize (Hb2 eq_refl).
    destruct o as [x|]; [|discriminate]. cbn [option_map] in *. injection Hb1 as Hb1. injection Hb2 as Hb2.
    rewrite Hb1, Hb2. eexists _, _. split; [reflexivity|]. reflexivity.
Qed.

Lemma returned_app (a b : list (output A fid did)) : returned (a ++ b) = returned a ++ returned b.
Proof. apply flat_map_app. Qed.

(** The calls of a source. *)
Fixpoint moves {X} (next : option X -> W -> X) (out : X -> A) (o : option X) (ws : list W) : list A :=
  match ws with [] => [] | w :: ws' => out (next o w) :: moves next out (Some (next o w)) ws' end.

Lemma nth_upd (l : list lz) x a : x < length l -> nth_error (update x a l) x = Some a.
Proof. revert x. induction l; intros [|x]; cbn; intros; try lia; auto. apply IHl. lia. Qed.

Lemma run_source {X} (st : option X -> lz) next out x : source st next out ->
  forall ws o s, nth_error (vars s) x = Some (st o) ->
  exists s' outs, run U (calls_at x ws) s = Some (s', outs) /\
    returned outs = map (fun a => Ok (Some (VAtom a))) (moves next out o ws).
Proof.
  intros Hs. induction ws as [|w ws IH]; intros o s Hx; cbn [calls_at flat_map app run exec moves map].
  - eexists _, []. split; reflexivity.
  - cbn [vars world]. rewrite Hx. destruct (Hs o w) as (b & lg & E & _). rewrite E.
    destruct (IH (Some (next o w)) (mkState (update x (st (Some (next o w))) (vars s)) w)) as (s' & outs & E' & Ho).
    { cbn [vars]. apply nth_upd. apply nth_error_Some. congruence. }
    unfold calls_at in E'. rewrite E'. eexists _, _. split; [reflexivity|].
    cbn [returned flat_map fst app]. fold (returned outs). now rewrite Ho.
Qed.

Variables (name load render : fid) (pos : did).
Variables (name_of load_of : A -> A) (render_of : A -> A -> A) (pos_of : W -> A).
Hypothesis Hd : reads_and_computes U name load render pos name_of load_of render_of pos_of.

Lemma moves_written mode_of ws o : moves
    (fun (o : option (A * A)) w => (pos_of w, match option_map snd o with Some a => a | None => mode_of w end))
    (fun x => render_of (fst x) (load_of (name_of (snd x)))) (Some o) ws =
  map (fun w => render_of (pos_of w) (load_of (name_of (snd o)))) ws.
Proof. revert o. induction ws as [|w ws IH]; intros o; cbn [moves map fst snd option_map]; [reflexivity|]. now rewrite IH. Qed.

Theorem as_written mode mode_of w0 ws w : (forall w, sem U mode [] w = (FRet (Some (VAtom (mode_of w))), w)) ->
  exists s outs, run U (reactivity mode name load render pos ++ calls_at 3 (w0 :: ws)) (mkState [] w) = Some (s, outs) /\
    returned outs = map (fun w => Ok (Some (VAtom (render_of (pos_of w) (load_of (name_of (mode_of w0))))))) (w0 :: ws).
Proof.
  intros Hm. destruct Hd as [Hn Hl Hr Hp].
  pose proof (node2_source render render_of _ _ _ _ _ _ Hr (sampled_source pos pos_of Hp)
    (node1_source load load_of _ _ _ Hl (node1_source name name_of _ _ _ Hn (once_source mode mode_of Hm)))) as Hs.
  set (s0 := mkState [once mode None; node1 name name_of (once mode) (fun a => a) None;
              node1 load load_of (node1 name name_of (once mode) (fun a => a)) (fun x => name_of x) None;
              node2 render render_of (sampled pos) (fun a => a)
                (node1 load load_of (node1 name name_of (once mode) (fun a => a)) (fun x => name_of x))
                (fun x => load_of (name_of x)) None] w).
  destruct (run_source _ _ _ 3 Hs (w0 :: ws) None s0) as (s' & outs & E & Ho); [reflexivity|].
  rewrite run_app. unfold reactivity.
  set (outs0 := [(None, []); (None, []); (None, []); (None, [])] : list (output A fid did)).
  change (run U [New mode []; New name [DVar 0]; New load [DVar 1]; New render [DFun pos; DVar 2]] (mkState [] w)) with
    (Some (s0, outs0)).
  cbv iota beta. rewrite E. eexists _, _. split; [reflexivity|].
  rewrite returned_app, Ho. change (returned outs0) with ([] : list (res (option value))). cbn [app].
  cbn [moves map fst snd option_map]. f_equal. rewrite (moves_written mode_of ws), map_map. reflexivity.
Qed.

Lemma moves_fun mode_of ws : forall o, moves
    (fun (o : option (A * A)) w => (pos_of w, mode_of w))
    (fun x => render_of (fst x) (load_of (name_of (snd x)))) o ws =
  map (fun w => render_of (pos_of w) (load_of (name_of (mode_of w)))) ws.
Proof. induction ws as [|w ws IH]; intros o; cbn [moves map fst snd]; [reflexivity|]. now rewrite IH. Qed.

Theorem with_function mode mode_of ws w : (forall w, dsem U mode w = (VRet (VAtom (mode_of w)), w)) ->
  exists s outs, run U (reactivity_fun mode name load render pos ++ calls_at 2 ws) (mkState [] w) = Some (s, outs) /\
    returned outs = map (fun w => Ok (Some (VAtom (render_of (pos_of w) (load_of (name_of (mode_of w))))))) ws.
Proof.
  intros Hm. destruct Hd as [Hn Hl Hr Hp].
  pose proof (node2_source render render_of _ _ _ _ _ _ Hr (sampled_source pos pos_of Hp)
    (node1_source load load_of _ _ _ Hl (node1_source name name_of _ _ _ Hn (sampled_source mode mode_of Hm)))) as Hs.
  set (s0 := mkState [node1 name name_of (sampled mode) (fun a => a) None;
              node1 load load_of (node1 name name_of (sampled mode) (fun a => a)) (fun x => name_of x) None;
              node2 render render_of (sampled pos) (fun a => a)
                (node1 load load_of (node1 name name_of (sampled mode) (fun a => a)) (fun x => name_of x))
                (fun x => load_of (name_of x)) None] w).
  destruct (run_source _ _ _ 2 Hs ws None s0) as (s' & outs & E & Ho); [reflexivity|].
  rewrite run_app. unfold reactivity_fun.
  set (outs0 := [(None, []); (None, []); (None, [])] : list (output A fid did)).
  change (run U [New name [DFun mode]; New load [DVar 0]; New render [DFun pos; DVar 1]] (mkState [] w)) with
    (Some (s0, outs0)).
  cbv iota beta. rewrite E. eexists _, _. split; [reflexivity|].
  rewrite returned_app, Ho. change (returned outs0) with ([] : list (res (option value))). cbn [app].
  rewrite (moves_fun mode_of ws), map_map. reflexivity.
Qed.
End Reactivity.

Section Statements.
Context (A W fid did : Type).
Variable U : user A W fid did.

Lemma extra_laziness h vs v :
  (forall w, sem U h (spread vs) w = (FRet (Some v), w)) ->
  forall s f ss1 ss2 q s1 outs1,
  let n := length (vars s) in
  let eager := New h (map DConst vs) :: New f (ss1 ++ DConst v :: ss2) :: q in
  let lazy := New h (map DConst vs) :: New f (ss1 ++ DVar n :: ss2) :: q in
  run U eager s = Some (s1, outs1) ->
  exists s2 outs2, run U lazy s = Some (s2, outs2) /\
    Forall2 (fun o1 o2 => fst o1 = fst o2 /\ exists k, inserted (EvCall h (spread vs)) k (snd o1) (snd o2)) outs1 outs2 /\
    exists k, k <= 1 /\
      inserted (EvCall h (spread vs)) k (shown (outputs_of (1 + n) eager outs1)) (shown (outputs_of (1 + n) lazy outs2)).
Proof.
  intros H s f ss1 ss2 q s1 outs1 n eager lazy Hr. refine (passed_lazily U h vs v _ s f ss1 ss2 q s1 outs1 Hr).
  intros w. exists (FRet (Some v)). split; [apply H|reflexivity].
Qed.

Lemma reactivity_written name load render pos name_of load_of render_of pos_of mode mode_of :
  sound_eq U ->
  reads_and_computes U name load render pos name_of load_of render_of pos_of ->
  (forall w, sem U mode [] w = (FRet (Some (VAtom (mode_of w))), w)) ->
  forall w0 ws w, exists s outs,
    run U (reactivity mode name load render pos ++ calls_at 3 (w0 :: ws)) (mkState [] w) = Some (s, outs) /\
    returned outs = map (fun w => Ok (Some (VAtom (render_of (pos_of w) (load_of (name_of (mode_of w0))))))) (w0 :: ws).
Proof. intros He Hd Hm w0 ws w. exact (as_written U He _ _ _ _ _ _ _ _ Hd mode mode_of w0 ws w Hm). Qed.

Lemma reactivity_function name load render pos name_of load_of render_of pos_of mode mode_of :
  sound_eq U ->
  reads_and_computes U name load render pos name_of load_of render_of pos_of ->
  (forall w, dsem U mode w = (VRet (VAtom (mode_of w)), w)) ->
  forall ws w, exists s outs,
    run U (reactivity_fun mode name load render pos ++ calls_at 2 ws) (mkState [] w) = Some (s, outs) /\
    returned outs = map (fun w => Ok (Some (VAtom (render_of (pos_of w) (load_of (name_of (mode_of w))))))) ws.
Proof. intros He Hd Hm ws w. exact (with_function U He _ _ _ _ _ _ _ _ Hd mode mode_of ws w Hm). Qed.
End Statements.
