(** Proofs about StateModel.v (C74). *)
From Coq Require Import List Bool Arith Lia.
From Verif Require Import Value TupleAlg LazyModel LazyProofs StateModel StateSpec.
From Verif Require LazyGeneral.
Import ListNotations.

Section Thms.
Context {A W F T : Type}.
Notation value := (val A).
Notation suser := (suser A W F T).
Notation sevent := (sevent A F T).
Notation slz := (slz A F T).
Notation sop := (op A W (F * T) (F * T)).
Notation sspec := (depspec A (F * T)).
Notation soutput := (soutput A F T).
Notation sexpr := (sexpr A F T).
Variable U : suser.

Lemma ssteps_cons d ds w :
  ssteps U (d :: ds) w =
  let '(r, d', w1, l1) := sstep U d w in
  match r with
  | Ok x =>
      let '(rs, ds'', w2, l2) := ssteps U ds w1 in
      (match rs with Ok xs => Ok (x :: xs) | Exc => Exc | UB => UB end, d' :: ds'', w2, l1 ++ l2)
  | Exc => (Exc, d' :: ds, w1, l1)
  | UB => (UB, d' :: ds, w1, l1)
  end.
Proof. reflexivity. Qed.

Lemma sstep_user f t c ds w :
  sstep U (SUser f t c ds) w =
  let '(rs, ds', w1, l1) := ssteps U ds w in
  match rs with
  | Exc => (Exc, SUser f t c ds', w1, l1)
  | UB => (UB, SUser f t c ds', w1, l1)
  | Ok rs' =>
      if negb (is_some c) || existsb snd rs' then
        let args := ctad_tuple as_tuple (map fst rs') in
        let '(t', r, w2) := ssem U f t args w1 in
        match r with
        | FThrow => (Exc, SUser f t' c ds', w2, l1 ++ [SCall f t args t'])
        | FRet o =>
            let result := match o with Some v => v | None => VVoid end in
            let (changed, lc) := stored U c result in
            (Ok (result, changed), SUser f t' (Some result) ds', w2, l1 ++ SCall f t args t' :: lc)
        end
      else
        match c with
        | Some v => (Ok (v, false), SUser f t c ds', w1, l1)
        | None => (UB, SUser f t c ds', w1, l1)
        end
  end.
Proof. reflexivity. Qed.

Lemma update_length {X} n (x : X) l : length (update n x l) = length l.
Proof. revert n. induction l; intros [|n]; cbn; auto. Qed.

Lemma nth_update {X} (l : list X) x y (v : X) :
  nth_error (update x v l) y = if Nat.eqb x y then option_map (fun _ => v) (nth_error l y) else nth_error l y.
Proof.
  revert x y. induction l as [|a l IH]; intros x y; cbn.
  - destruct x, y; try reflexivity; cbn; now destruct (Nat.eqb x y).
  - destruct x, y; cbn; try reflexivity. apply IH.
Qed.

(** ** Functions whose calls do not change them *)
Section Constant.
Hypothesis Hc : constant_state U.
Notation LU := (forget_user U).
Notation lz := (lz A (F * T) (F * T)).

Fixpoint lz_of (l : slz) : lz :=
  match l with
  | SValue v ch => LValue v ch
  | SPlain f t c => LCore (FnSample (f, t)) c [LValue (VAtom (sint0 U)) true]
  | SUser f t c ds => LCore (FnUser (f, t)) c (map lz_of ds)
  end.

Definition forgets {X} (a : res X * slz * W * list sevent) : res X * lz * W * list (event A (F * T) (F * T)) :=
  let '(r, l, w, lg) := a in (r, lz_of l, w, map forget_event lg).

Lemma step_forget l : forall w, step LU (lz_of l) w = forgets (sstep U l w).
Proof.
  destruct Hc as [Hf Hp].
  induction l as [v ch|f t c ds IH|f t c] using slz_ind'; intros w.
  - reflexivity.
  - rewrite sstep_user. cbn [lz_of]. rewrite LazyGeneral.step_core.
    assert (Hs : steps LU (map lz_of ds) w =
                 let '(rs, ds', w1, l1) := ssteps U ds w in (rs, map lz_of ds', w1, map forget_event l1)).
    { clear c. revert w. induction IH as [|d ds Hd _ IHds]; intros w; [reflexivity|].
      cbn [map]. rewrite LazyGeneral.steps_cons, ssteps_cons, Hd.
      destruct (sstep U d w) as [[[[x| |] d'] w1] l1]; try reflexivity. cbn [forgets].
      rewrite IHds. destruct (ssteps U ds w1) as [[[rs ds'] w2] l2]. cbn [map]. now rewrite map_app. }
    rewrite Hs. destruct (ssteps U ds w) as [[[[rs| |] ds'] w1] l1]; try reflexivity.
    rewrite LazyGeneral.core_eq.
    destruct (negb (is_some c) || existsb snd rs).
    + cbn [call_fn sem forget_user fst snd].
      specialize (Hf f t (ctad_tuple as_tuple (map fst rs)) w1).
      destruct (ssem U f t (ctad_tuple as_tuple (map fst rs)) w1) as [[t' [[v|]|]] w2]; cbn [fst] in Hf; subst t'.
      all: cbn [regularized forgets stored lz_of]; rewrite ?map_app; cbn [map forget_event app]; try reflexivity.
      all: destruct c; reflexivity.
    + destruct c as [v|]; cbn [forgets lz_of]; now rewrite app_nil_r.
  - specialize (Hp f t w). cbn [sstep lz_of]. rewrite LazyGeneral.step_core.
    change (steps LU [LValue (VAtom (sint0 U)) true] w) with
      (Ok [(VAtom (sint0 U), true)], [@LValue A (F * T) (F * T) (VAtom (sint0 U)) true], w, @nil (event A (F * T) (F * T))).
    cbv iota beta. rewrite LazyGeneral.core_eq. cbn [existsb snd orb]. rewrite orb_true_r.
    cbn [call_fn dsem forget_user fst snd].
    destruct (sdsem U f t w) as [[t' [v|]] w']; cbn [fst] in Hp; subst t'; cbn [stored forgets lz_of app map forget_event];
      [destruct c|]; reflexivity.
Qed.

Lemma deps_forget (vs : list slz) : forall ss,
  option_map (map (ensure_lazy LU)) (deps_of (map lz_of vs) ss) = option_map (map lz_of) (sdeps_of vs ss).
Proof.
  induction ss as [|s ss IH]; [reflexivity|]. cbn [deps_of sdeps_of].
  destruct s as [x|[f t]|v]; cbn [dep_of sdep_of fst snd].
  - rewrite nth_error_map. destruct (nth_error vs x) as [l|]; cbn [option_map]; [|reflexivity].
    destruct (deps_of (map lz_of vs) ss), (sdeps_of vs ss); cbn [option_map] in *; try discriminate; [|reflexivity].
    injection IH as IH. cbn [map]. now rewrite IH.
  - destruct (deps_of (map lz_of vs) ss), (sdeps_of vs ss); cbn [option_map] in *; try discriminate; [|reflexivity].
    injection IH as IH. cbn [map]. now rewrite IH.
  - destruct (deps_of (map lz_of vs) ss), (sdeps_of vs ss); cbn [option_map] in *; try discriminate; [|reflexivity].
    injection IH as IH. cbn [map]. now rewrite IH.
Qed.

Lemma map_update (l' : slz) : forall vs x, map lz_of (update x l' vs) = update x (lz_of l') (map lz_of vs).
Proof. induction vs as [|v vs IH]; intros [|x]; cbn; f_equal; auto. Qed.

Lemma run_forget : forall (p : list sop) vs w,
  run LU p (mkState (map lz_of vs) w) =
  match srun U p vs w with
  | Some (vs', w', outs) => Some (mkState (map lz_of vs') w', map forget_output outs)
  | None => None
  end.
Proof.
  induction p as [|o p IH]; intros vs w; [reflexivity|]. cbn [run srun].
  destruct o as [[f t] ss|x|x|h]; cbn [exec sexec vars world fst snd].
  - pose proof (deps_forget vs ss) as Hd.
    destruct (deps_of (map lz_of vs) ss) as [ds|], (sdeps_of vs ss) as [ds'|]; cbn in Hd; try discriminate; [|reflexivity].
    injection Hd as Hd. unfold mk_lazy. rewrite Hd.
    specialize (IH (vs ++ [SUser f t None ds']) w). rewrite map_app in IH. cbn [map lz_of] in IH. rewrite IH.
    destruct (srun U p (vs ++ [SUser f t None ds']) w) as [[[vs' w'] outs]|]; reflexivity.
  - rewrite nth_error_map. destruct (nth_error vs x) as [l|]; cbn [option_map]; [|reflexivity].
    specialize (IH (vs ++ [l]) w). rewrite map_app in IH. cbn [map] in IH. rewrite IH.
    destruct (srun U p (vs ++ [l]) w) as [[[vs' w'] outs]|]; reflexivity.
  - rewrite nth_error_map. destruct (nth_error vs x) as [l|]; cbn [option_map]; [|reflexivity].
    rewrite step_forget. destruct (sstep U l w) as [[[r l'] w1] lg]. cbn [forgets].
    rewrite <- map_update, IH. destruct (srun U p (update x l' vs) w1) as [[[vs' w'] outs]|]; reflexivity.
  - rewrite IH. destruct (srun U p vs (h w)) as [[[vs' w'] outs]|]; reflexivity.
Qed.
End Constant.

(** ** Plain functions with state *)
Section Eager.
Variable pf : F -> list value -> option value.
Hypothesis Hpure : pure_wrapped U pf.
Hypothesis Hret : returning U.
Hypothesis Heq : same_if_equal U.
Notation fv f vs := (match pf f (ctad_tuple as_tuple vs) with Some v => v | None => VVoid end).

Definition last_value (l : slz) : option value :=
  match l with SValue v _ => Some v | SPlain _ _ c => c | SUser _ _ c _ => c end.

Inductive means : slz -> sexpr -> Prop :=
| means_value v : means (SValue v false) (XConst v)
| means_plain f t c : means (SPlain f t c) (XFun f t)
| means_user f t c ds es :
    Forall2 means ds es ->
    (forall v, c = Some v -> exists vs, map last_value ds = map Some vs /\ v = fv f vs) ->
    means (SUser f t c ds) (XApp f es).

Fixpoint xevals (es : list sexpr) (w : W) : list value * list sexpr * W :=
  match es with
  | [] => ([], [], w)
  | e :: es' =>
      let '(v, e', w1) := xeval U pf e w in
      let '(vs, es'', w2) := xevals es' w1 in
      (v :: vs, e' :: es'', w2)
  end.

Lemma xeval_app f es w :
  xeval U pf (XApp f es) w = let '(vs, es', w') := xevals es w in (fv f vs, XApp f es', w').
Proof.
  cbn [xeval]. assert (E : forall es w,
    (fix go (es : list sexpr) (w : W) : list value * list sexpr * W :=
           match es with
           | [] => ([], [], w)
           | e :: es' =>
               let '(v, e', w1) := xeval U pf e w in
               let '(vs, es'', w2) := go es' w1 in
               (v :: vs, e' :: es'', w2)
           end) es w = xevals es w).
  { clear. induction es as [|e es IH]; intros w; [reflexivity|]. cbn [xevals].
    destruct (xeval U pf e w) as [[v e'] w1]. now rewrite IH. }
  now rewrite E.
Qed.

Lemma same c v : nested_opt v = false -> opt_ne (saeq U) (Some c) v = false -> c = v.
Proof. intros Hn E. apply opt_ne_unnested in E; [|exact Hn]. exact (veq_sound _ Heq _ _ E). Qed.

Lemma fv_unnested f vs : nested_opt (fv f vs) = false.
Proof. destruct (pf f (ctad_tuple as_tuple vs)) as [v|] eqn:E; [exact (proj2 Hpure _ _ _ E)|reflexivity]. Qed.

Lemma means_step l : forall e w, means l e ->
  exists v ch l' e' w' lg, sstep U l w = (Ok (v, ch), l', w', lg) /\ xeval U pf e w = (v, e', w') /\
    means l' e' /\ last_value l' = Some v /\ (forall v0, last_value l = Some v0 -> ch = false -> v0 = v).
Proof.
  induction l as [v ch|f t c ds IH|f t c] using slz_ind'; intros e w H.
  - inversion H; subst. exists v, false, (SValue v false), (XConst v), w, [].
    repeat split; auto. intros v0 E _. now injection E.
  - inversion H as [| |? ? ? ? es Hds Hcache]; subst.
    assert (Hs : exists rs ds' es' w1 l1,
      ssteps U ds w = (Ok rs, ds', w1, l1) /\ xevals es w = (map fst rs, es', w1) /\ Forall2 means ds' es' /\
      map last_value ds' = map Some (map fst rs) /\
      (forall vs, map last_value ds = map Some vs -> existsb snd rs = false -> vs = map fst rs)).
    { clear H Hcache c t. revert es w Hds. induction IH as [|d ds Hd _ IHds]; intros es w Hds.
      - inversion Hds; subst. exists [], [], [], w, []. repeat split; auto.
        intros [|v vs] E; [reflexivity|discriminate].
      - inversion Hds as [|? e ? es' Hde Hds']; subst.
        destruct (Hd e w Hde) as (v & ch & d' & e' & w1 & l1 & E1 & E2 & Hm & Hl & Hch).
        destruct (IHds es' w1 Hds') as (rs & ds'' & es'' & w2 & l2 & F1 & F2 & Fm & Fl & Fch).
        rewrite ssteps_cons, E1, F1. cbn [xevals]. rewrite E2, F2.
        exists ((v, ch) :: rs), (d' :: ds''), (e' :: es''), w2, (l1 ++ l2).
        split; [reflexivity|]. split; [reflexivity|]. split; [now constructor|].
        split; [cbn; now rewrite Hl, Fl|].
        intros [|v0 vs] E Ex; [discriminate|]. cbn in E, Ex. injection E as E0 E'.
        apply orb_false_iff in Ex. destruct Ex as [X1 X2]. cbn. f_equal; [now apply Hch|now apply Fch]. }
    destruct Hs as (rs & ds' & es' & w1 & l1 & E1 & E2 & Hm & Hl & Hch).
    rewrite sstep_user, E1, xeval_app, E2.
    destruct (negb (is_some c) || existsb snd rs) eqn:Ec.
    + cbv zeta. rewrite (proj1 Hpure). unfold stored.
      set (v := fv f (map fst rs)).
      eexists v, _, _, _, w1, _. split; [reflexivity|]. split; [reflexivity|].
      split; [|split; [reflexivity|]].
      * constructor; [exact Hm|]. intros v0 E. injection E as <-. exists (map fst rs). split; [exact Hl|reflexivity].
      * cbn [last_value]. intros v0 -> En. apply same in En; [exact En|apply fv_unnested].
    + apply orb_false_iff in Ec. destruct Ec as [Ec Ex]. destruct c as [v|]; [|discriminate].
      destruct (Hcache v eq_refl) as (vs & Hvs & Ev). rewrite (Hch vs Hvs Ex) in Ev. rewrite <- Ev.
      eexists v, false, _, _, w1, l1. split; [reflexivity|]. split; [reflexivity|].
      split; [|split; [reflexivity|]].
      * constructor; [exact Hm|]. intros v0 E. injection E as <-. exists (map fst rs). split; [exact Hl|exact Ev].
      * cbn [last_value]. intros v0 E _. now injection E.
  - inversion H; subst. cbn [sstep xeval]. destruct (Hret f t w) as (t' & v & w' & E & Hn). rewrite E. unfold stored.
    eexists v, _, _, _, w', _. split; [reflexivity|]. split; [reflexivity|].
    split; [constructor|]. split; [reflexivity|]. cbn [last_value]. intros v0 -> En. now apply same in En.
Qed.

Lemma means_deps (vs : list slz) (es : list sexpr) : Forall2 means vs es -> forall ss xs,
  xdeps es ss = Some xs -> exists ds, sdeps_of vs ss = Some ds /\ Forall2 means ds xs.
Proof.
  intros H. induction ss as [|s ss IH]; intros xs E.
  - injection E as <-. exists []. split; [reflexivity|constructor].
  - cbn [xdeps sdeps_of] in *.
    destruct (xdeps es ss) as [ys|]; [|destruct s as [x|q|v]; try discriminate; destruct (nth_error es x); discriminate].
    destruct (IH ys eq_refl) as (ds & Ed & Hds). rewrite Ed.
    destruct s as [x|q|v]; cbn [sdep_of].
    + destruct (nth_error es x) as [e|] eqn:Ex; [|discriminate]. injection E as <-.
      assert (G : exists l, nth_error vs x = Some l /\ means l e).
      { clear - H Ex. revert x Ex. induction H as [|l0 e0 vs es H0 _ IH]; intros [|x] Ex; try discriminate.
        - injection Ex as <-. exists l0. auto.
        - exact (IH x Ex). }
      destruct G as (l & -> & Hl). exists (l :: ds). split; [reflexivity|now constructor].
    + injection E as <-. eexists. split; [reflexivity|]. constructor; [constructor|exact Hds].
    + injection E as <-. eexists. split; [reflexivity|]. constructor; [constructor|exact Hds].
Qed.

Lemma nth_means (vs : list slz) es x e : Forall2 means vs es -> nth_error es x = Some e ->
  exists l, nth_error vs x = Some l /\ means l e.
Proof.
  intros H. revert x. induction H as [|l0 e0 vs es H0 _ IH]; intros [|x] Ex; try discriminate.
  - injection Ex as <-. exists l0. auto.
  - exact (IH x Ex).
Qed.

Lemma update_means (vs : list slz) es x l e : Forall2 means vs es -> means l e -> Forall2 means (update x l vs) (update x e es).
Proof. intros H Hl. revert x. induction H; intros [|i]; cbn; constructor; auto. Qed.

Lemma means_run : forall (p : list sop) vs es w w' vals,
  Forall2 means vs es -> xrun U pf p es w = Some (w', vals) ->
  exists vs' outs, srun U p vs w = Some (vs', w', outs) /\ sresults outs = map Ok vals.
Proof.
  induction p as [|o p IH]; intros vs es w w' vals H E; cbn [xrun srun] in *.
  - injection E as <- <-. exists vs, []. auto.
  - destruct o as [q ss|x|x|h]; cbn [sexec].
    + destruct (xdeps es ss) as [xs|] eqn:Ex; [|discriminate].
      destruct (means_deps vs es H ss xs Ex) as (ds & -> & Hds).
      destruct (IH (vs ++ [SUser (fst q) (snd q) None ds]) (es ++ [XApp (fst q) xs]) w w' vals) with (2 := E) as (vs' & outs & -> & Hr).
      { apply Forall2_app; [exact H|]. constructor; [|constructor]. constructor; [exact Hds|discriminate]. }
      exists vs', ((None, []) :: outs). split; [reflexivity|exact Hr].
    + destruct (nth_error es x) as [e|] eqn:Ex; [|discriminate].
      destruct (nth_means vs es x e H Ex) as (l & -> & Hl).
      destruct (IH (vs ++ [l]) (es ++ [e]) w w' vals) with (2 := E) as (vs' & outs & -> & Hr).
      { apply Forall2_app; [exact H|]. constructor; [exact Hl|constructor]. }
      exists vs', ((None, []) :: outs). split; [reflexivity|exact Hr].
    + destruct (nth_error es x) as [e|] eqn:Ex; [|discriminate].
      destruct (nth_means vs es x e H Ex) as (l & -> & Hl).
      destruct (means_step l e w Hl) as (v & ch & l' & e' & w1 & lg & E1 & E2 & Hm & _).
      rewrite E1. rewrite E2 in E.
      destruct (xrun U pf p (update x e' es) w1) as [[w2 vals']|] eqn:E3; [|discriminate]. injection E as <- <-.
      destruct (IH (update x l' vs) _ w1 w2 vals' (update_means vs es x l' e' H Hm) E3) as (vs' & outs & -> & Hr).
      exists vs', ((Some (api_result (Ok (v, ch))), lg) :: outs). split; [reflexivity|].
      cbn [sresults flat_map fst app map]. f_equal; [now destruct v|exact Hr].
    + destruct (IH vs es (h w) w' vals H E) as (vs' & outs & -> & Hr).
      exists vs', ((None, []) :: outs). split; [reflexivity|exact Hr].
Qed.
End Eager.

(** ** The states of function objects are linked *)
Definition names (l : slz) : list F := map fst (objects l).

Lemma linked_app (f : F) (t : T) (l1 : list sevent) t' l2 t'' : linked f t l1 t' -> linked f t' l2 t'' -> linked f t (l1 ++ l2) t''.
Proof. induction 1; intros H2; cbn [app]; [exact H2|constructor; auto..]. Qed.

Definition silent (f : F) (lg : list sevent) : Prop := forall t, linked f t lg t.

Lemma silent_app f l1 l2 : silent f l1 -> silent f l2 -> silent f (l1 ++ l2).
Proof. intros H1 H2 t. eapply linked_app; [apply H1|apply H2]. Qed.

Lemma silent_stored f c v : silent f (snd (stored U c v)).
Proof. intros t. destruct c; cbn; repeat constructor. Qed.

(** [lg] takes the objects in [os] to those in [os']. *)
Definition moves (lg : list sevent) (os os' : list (F * T)) : Prop :=
  Forall2 (fun p p' => fst p = fst p' /\ linked (fst p) (snd p) lg (snd p')) os os'.

Lemma moves_names lg os os' : moves lg os os' -> map fst os' = map fst os.
Proof. induction 1 as [|p p' os os' [H _] _ IH]; cbn; congruence. Qed.

Lemma moves_then (l1 l2 : list sevent) os os' : moves l1 os os' -> (forall f, In f (map fst os) -> silent f l2) -> moves (l1 ++ l2) os os'.
Proof.
  induction 1 as [|p p' os os' [H1 H2] _ IH]; intros Hs; constructor.
  - split; [exact H1|]. eapply linked_app; [exact H2|]. apply Hs. now left.
  - apply IH. intros f Hf. apply Hs. now right.
Qed.

Lemma moves_after (l1 l2 : list sevent) os os' : moves l2 os os' -> (forall f, In f (map fst os) -> silent f l1) -> moves (l1 ++ l2) os os'.
Proof.
  induction 1 as [|p p' os os' [H1 H2] _ IH]; intros Hs; constructor.
  - split; [exact H1|]. eapply linked_app; [|exact H2]. apply Hs. now left.
  - apply IH. intros f Hf. apply Hs. now right.
Qed.

Lemma moves_refl os : moves [] os os.
Proof. induction os as [|p os IH]; constructor; [split; [reflexivity|constructor]|exact IH]. Qed.

Lemma moves_trans l1 l2 os os' os'' : moves l1 os os' -> moves l2 os' os'' -> moves (l1 ++ l2) os os''.
Proof.
  intros H. revert os''. induction H as [|p p' os os' [H1 H2] _ IH]; intros os'' H'; inversion H' as [|? p'' ? ? [G1 G2]]; subst; constructor.
  - split; [congruence|]. eapply linked_app; [exact H2|]. rewrite H1. exact G2.
  - now apply IH.
Qed.

Lemma NoDup_split {X} (a b : list X) : NoDup (a ++ b) -> NoDup a /\ NoDup b /\ (forall x, In x a -> In x b -> False).
Proof.
  induction a as [|x a IH]; cbn; intros H; [split; [constructor|split; [exact H|intros ? []]]|].
  inversion H as [|? ? Hx Hn]; subst. destruct (IH Hn) as (Ha & Hb & Hd). split; [|split; [exact Hb|]].
  - constructor; [|exact Ha]. intros Hi. apply Hx. apply in_or_app. now left.
  - intros y [->|Hy] Hyb; [apply Hx; apply in_or_app; now right|eauto].
Qed.

Lemma step_moves l : forall w, NoDup (names l) ->
  let '(r, l', w', lg) := sstep U l w in
  moves lg (objects l) (objects l') /\ (forall f, ~ In f (names l) -> silent f lg).
Proof.
  induction l as [v ch|f t c ds IH|f t c] using slz_ind'; intros w Hnd.
  - cbn. split; [constructor|]. intros f _ t. constructor.
  - rewrite sstep_user. unfold names in Hnd. cbn [objects map fst] in Hnd. inversion Hnd as [|? ? Hf Hds]; subst.
    assert (Hs : let '(rs, ds', w1, l1) := ssteps U ds w in
      moves l1 (flat_map objects ds) (flat_map objects ds') /\
      (forall g, ~ In g (map fst (flat_map objects ds)) -> silent g l1)).
    { clear Hf Hnd c t. revert w Hds. induction IH as [|d ds Hd _ IHds]; intros w Hds.
      - cbn. split; [constructor|]. intros g _ t. constructor.
      - cbn [flat_map] in Hds. rewrite map_app in Hds. destruct (NoDup_split _ _ Hds) as (N1 & N2 & N3).
        rewrite ssteps_cons. specialize (Hd w N1). destruct (sstep U d w) as [[[r d'] w1] l1].
        destruct Hd as [M1 S1].
        assert (Hstop : moves l1 (flat_map objects (d :: ds)) (flat_map objects (d' :: ds)) /\
          (forall g, ~ In g (map fst (flat_map objects (d :: ds))) -> silent g l1)).
        { cbn [flat_map]. split.
          - apply Forall2_app; [exact M1|]. rewrite <- (app_nil_r l1). apply moves_after; [apply moves_refl|].
            intros g Hg. apply S1. intros Hi. exact (N3 g Hi Hg).
          - intros g Hg. apply S1. intros Hi. apply Hg. rewrite map_app. apply in_or_app. now left. }
        destruct r as [x| |]; [|exact Hstop|exact Hstop].
        specialize (IHds w1 N2). destruct (ssteps U ds w1) as [[[rs ds'] w2] l2]. destruct IHds as [M2 S2].
        cbn [flat_map]. split.
        + apply Forall2_app.
          * apply moves_then; [exact M1|]. intros g Hg. apply S2. intros Hi. exact (N3 g Hg Hi).
          * apply moves_after; [exact M2|]. intros g Hg. apply S1. intros Hi. exact (N3 g Hi Hg).
        + intros g Hg. rewrite map_app in Hg. apply silent_app; [apply S1|apply S2]; intros Hi; apply Hg; apply in_or_app; auto. }
    specialize (Hs). destruct (ssteps U ds w) as [[[rs ds'] w1] l1]. destruct Hs as [M S].
    assert (Hskip : moves l1 (objects (SUser f t c ds)) (objects (SUser f t c ds')) /\
                    (forall g, ~ In g (names (SUser f t c ds)) -> silent g l1)).
    { split.
      - cbn [objects]. constructor; [|exact M]. split; [reflexivity|]. apply S. exact Hf.
      - intros g Hg. apply S. intros Hi. apply Hg. unfold names. cbn [objects map]. now right. }
    destruct rs as [rs| |]; [|exact Hskip|exact Hskip].
    destruct (negb (is_some c) || existsb snd rs).
    2: { destruct c; exact Hskip. }
    cbv zeta. set (args := ctad_tuple as_tuple (map fst rs)).
    destruct (ssem U f t args w1) as [[t' r] w2].
    assert (Hrun : forall c' lc, (forall g, silent g lc) ->
       moves (l1 ++ SCall f t args t' :: lc) (objects (SUser f t c ds)) (objects (SUser f t' c' ds')) /\
       (forall g, ~ In g (names (SUser f t c ds)) -> silent g (l1 ++ SCall f t args t' :: lc))).
    { intros c' lc Hlc. split.
      - cbn [objects]. constructor.
        + split; [reflexivity|]. eapply linked_app; [apply (S f Hf)|]. constructor. apply Hlc.
        + apply moves_then; [exact M|]. intros g Hg t0. constructor; [|apply Hlc]. intros ->. now apply Hf.
      - intros g Hg. apply silent_app; [apply Hskip; exact Hg|]. intros t0. constructor; [|apply Hlc].
        intros ->. apply Hg. now left. }
    destruct r as [o|].
    + pose proof (silent_stored) as Hst.
      destruct (stored U c match o with Some v => v | None => VVoid end) as [ch lc] eqn:Es.
      apply Hrun. intros g. specialize (Hst g c match o with Some v => v | None => VVoid end). now rewrite Es in Hst.
    + apply Hrun. intros g t0. constructor.
  - cbn [sstep]. destruct (sdsem U f t w) as [[t' r] w'].
    assert (Hrun : forall (c' : option value) lc, (forall g, silent g lc) ->
       moves (SSample f t t' :: lc) (objects (SPlain f t c)) (objects (SPlain f t' c')) /\
       (forall g, ~ In g (names (SPlain f t c)) -> silent g (SSample f t t' :: lc))).
    { intros c' lc Hlc. split.
      - cbn [objects]. constructor; [|constructor]. split; [reflexivity|]. constructor. apply Hlc.
      - intros g Hg t0. constructor; [|apply Hlc]. intros ->. apply Hg. now left. }
    destruct r as [v|].
    + pose proof silent_stored as Hst. destruct (stored U c v) as [ch lc] eqn:Es.
      apply Hrun. intros g. specialize (Hst g c v). now rewrite Es in Hst.
    + apply Hrun. intros g t0. constructor.
Qed.

Lemma again_moves x : forall hs vs w vs' w' outs l,
  nth_error vs x = Some l -> NoDup (names l) ->
  srun U (again x hs) vs w = Some (vs', w', outs) ->
  exists l', nth_error vs' x = Some l' /\ moves (sactions outs) (objects l) (objects l').
Proof.
  induction hs as [|h hs IH]; intros vs w vs' w' outs l Hx Hn E; cbn [again flat_map app srun sexec] in E.
  - injection E as <- <- <-. exists l. split; [exact Hx|apply moves_refl].
  - rewrite Hx in E. pose proof (step_moves l (h w) Hn) as Hm.
    destruct (sstep U l (h w)) as [[[r l1] w1] lg]. destruct Hm as [Hm _].
    match type of E with context [srun U ?p ?v ?w] => destruct (srun U p v w) as [[[vs2 w2] outs2]|] eqn:E2 end; [|discriminate].
    injection E as <- <- <-.
    destruct (IH (update x l1 vs) w1 vs2 w2 outs2 l1) as (l' & Hl' & Hm').
    { rewrite nth_update, Nat.eqb_refl, Hx. reflexivity. }
    { unfold names. now rewrite (moves_names _ _ _ Hm). }
    { exact E2. }
    exists l'. split; [exact Hl'|]. cbn [sactions flat_map snd app]. eapply moves_trans; eassumption.
Qed.

End Thms.

(** ** The statements *)
Theorem state_kept {A W F T} (U : suser A W F T) x hs vs w vs' w' outs l :
  nth_error vs x = Some l -> NoDup (map fst (objects l)) ->
  srun U (again x hs) vs w = Some (vs', w', outs) ->
  exists l', nth_error vs' x = Some l' /\
    forall f t, In (f, t) (objects l) -> exists t', In (f, t') (objects l') /\ linked f t (sactions outs) t'.
Proof.
  intros Hx Hn E. destruct (again_moves U x hs vs w vs' w' outs l Hx Hn E) as (l' & Hl' & Hm).
  exists l'. split; [exact Hl'|]. intros f t Hi. clear - Hm Hi.
  induction Hm as [|[f1 t1] [f2 t2] os os' [H1 H2] _ IH]; [destruct Hi|]. cbn [fst snd] in *. subst f2.
  destruct Hi as [E|Hi].
  - injection E as -> ->. exists t2. split; [now left|exact H2].
  - destruct (IH Hi) as (t' & Hi' & Hl). exists t'. split; [now right|exact Hl].
Qed.

Theorem eager_with_state {A W F T} (U : suser A W F T) pf :
  pure_wrapped U pf -> returning U -> same_if_equal U ->
  forall p w w' vals, xrun U pf p [] w = Some (w', vals) ->
  exists vs outs, srun U p [] w = Some (vs, w', outs) /\ sresults outs = map Ok vals.
Proof. intros H1 H2 H3 p w w' vals E. eapply means_run; eauto. Qed.

Theorem without_state {A W F T} (U : suser A W F T) : constant_state U ->
  forall p w,
  match srun U p [] w with
  | Some (_, w', outs) => exists s, run (forget_user U) p (mkState [] w) = Some (s, map forget_output outs) /\ world s = w'
  | None => run (forget_user U) p (mkState [] w) = None
  end.
Proof.
  intros H p w. pose proof (run_forget U H p [] w) as E. cbn [map] in E. rewrite E.
  destruct (srun U p [] w) as [[[vs w'] outs]|]; [|reflexivity]. eexists. split; [reflexivity|reflexivity].
Qed.

Theorem others_untouched {A W F T} (U : suser A W F T) y : forall xs vs w vs' w' outs,
  ~ In y xs -> srun U (map Call xs) vs w = Some (vs', w', outs) -> nth_error vs' y = nth_error vs y.
Proof.
  induction xs as [|x xs IH]; intros vs w vs' w' outs Hy E; cbn [map srun sexec] in E.
  - now injection E as <- <- <-.
  - destruct (nth_error vs x) as [l|] eqn:Ex; [|discriminate].
    destruct (sstep U l w) as [[[r l'] w1] lg].
    destruct (srun U (map Call xs) (update x l' vs) w1) as [[[vs2 w2] outs2]|] eqn:E2; [|discriminate].
    injection E as <- <- <-. rewrite (IH _ _ _ _ _ (fun H => Hy (or_intror H)) E2), nth_update.
    destruct (Nat.eqb_spec x y) as [->|_]; [|reflexivity]. destruct Hy. now left.
Qed.
