(** Proofs for C76. *)
From Coq Require Import List Bool Arith Lia.
From Verif Require Import Value TupleAlg LazyModel LazyProofs LazyGeneral ThreadModel ThreadSpec.
Import ListNotations.

Section Threads.
Context {A W fid did : Type}.
Notation value := (val A).
Notation node := (node A fid did).
Notation heap := (heap A).
Notation action := (action A W fid did).
Notation top := (top A fid did).
Notation prog := (prog A fid did).
Notation rv := (@ThreadModel.rv A).
Variable U : user A W fid did.

Section Induction.
  Variable P : node -> Prop.
  Hypothesis Hvalue : forall v ch, P (NValue v ch).
  Hypothesis Hcore : forall g c deps, Forall P deps -> P (NCore g c deps).
  Fixpoint node_ind' (n : node) : P n :=
    match n with
    | NValue v ch => Hvalue v ch
    | NCore g c deps =>
        Hcore g c deps
          ((fix go (ds : list node) : Forall P ds :=
              match ds with
              | [] => Forall_nil P
              | d :: ds' => Forall_cons d (node_ind' d) (go ds')
              end) deps)
    end.
End Induction.

(** ** One thread *)
Lemma alone_bind {X Y} (p : prog X) (f : X -> prog Y) : forall h w,
  alone U (bind p f) h w =
  let '(r, h1, w1, l1) := alone U p h w in
  match r with
  | Ok x => let '(r2, h2, w2, l2) := alone U (f x) h1 w1 in (r2, h2, w2, l1 ++ l2)
  | Exc => (Exc, h1, w1, l1)
  | UB => (UB, h1, w1, l1)
  end.
Proof.
  induction p as [x| | |c k IH|c o p IH|g args k IH|a b k IH]; intros h w; cbn [bind alone].
  - now destruct (alone U (f x) h w) as [[[? ?] ?] ?].
  - reflexivity.
  - reflexivity.
  - apply IH.
  - apply IH.
  - destruct (call_fn U g args w) as [[r w'] lg]. rewrite IH.
    destruct (alone U (k r) h w') as [[[[x| |] h1] w1] l1]; try reflexivity.
    destruct (alone U (f x) h1 w1) as [[[? ?] ?] ?]. now rewrite app_assoc.
  - rewrite IH. destruct (alone U (k (opt_ne (aeq U) (Some a) b)) h w) as [[[[x| |] h1] w1] l1]; try reflexivity.
    now destruct (alone U (f x) h1 w1) as [[[? ?] ?] ?].
Qed.

Lemma alone_catching {X Y} (p : prog X) (f : res X -> prog Y) : forall h w,
  alone U (catching p f) h w =
  let '(r, h1, w1, l1) := alone U p h w in
  match r with
  | UB => (UB, h1, w1, l1)
  | r => let '(r2, h2, w2, l2) := alone U (f r) h1 w1 in (r2, h2, w2, l1 ++ l2)
  end.
Proof.
  induction p as [x| | |c k IH|c o p IH|g args k IH|a b k IH]; intros h w; cbn [catching alone].
  - now destruct (alone U (f (Ok x)) h w) as [[[? ?] ?] ?].
  - now destruct (alone U (f Exc) h w) as [[[? ?] ?] ?].
  - reflexivity.
  - apply IH.
  - apply IH.
  - destruct (call_fn U g args w) as [[r w'] lg]. rewrite IH.
    destruct (alone U (k r) h w') as [[[[x| |] h1] w1] l1]; try reflexivity.
    + destruct (alone U (f (Ok x)) h1 w1) as [[[? ?] ?] ?]. now rewrite app_assoc.
    + destruct (alone U (f Exc) h1 w1) as [[[? ?] ?] ?]. now rewrite app_assoc.
  - rewrite IH. destruct (alone U (k (opt_ne (aeq U) (Some a) b)) h w) as [[[[x| |] h1] w1] l1]; try reflexivity.
    + now destruct (alone U (f (Ok x)) h1 w1) as [[[? ?] ?] ?].
    + now destruct (alone U (f Exc) h1 w1) as [[[? ?] ?] ?].
Qed.

Definition refers (h : heap) (n : node) (x : rv) (v : value) : Prop :=
  match n with NValue v0 _ => x = Imm v /\ v = v0 | NCore _ c _ => x = At c /\ h c = Some v end.
Inductive all_refer (h : heap) : list node -> list (rv * bool) -> list (value * bool) -> Prop :=
| ar_nil : all_refer h [] [] []
| ar_cons n ns x b xs v vs : refers h n x v -> all_refer h ns xs vs ->
    all_refer h (n :: ns) ((x, b) :: xs) ((v, b) :: vs).

Lemma refers_frame (h h' : heap) (n : node) x v : (forall c, In c (locs n) -> h' c = h c) -> refers h n x v -> refers h' n x v.
Proof.
  destruct n as [v0 ch|g c deps]; cbn; intros H [E1 E2]; split; auto.
  rewrite H; [exact E2|]. apply in_or_app. right. now left.
Qed.

Lemma tree_frame (h h' : heap) (n : node) : (forall c, In c (locs n) -> h' c = h c) -> tree h' n = tree h n.
Proof.
  induction n as [v ch|g c deps IH] using node_ind'; intros H; cbn [tree]; [reflexivity|].
  cbn [locs] in H. rewrite (H c) by (apply in_or_app; right; now left). f_equal.
  assert (H' : forall c, In c (flat_map locs deps) -> h' c = h c) by (intros; apply H; apply in_or_app; now left).
  clear H. induction IH as [|d deps Hd _ IHd]; [reflexivity|]. cbn [map flat_map] in *. f_equal.
  - apply Hd. intros. apply H'. apply in_or_app. now left.
  - apply IHd. intros. apply H'. apply in_or_app. now right.
Qed.

Lemma fetch_all_alone h ns xs vs w : all_refer h ns xs vs -> alone U (fetch_all xs) h w = (Ok vs, h, w, []).
Proof.
  induction 1 as [|n ns x b xs v vs Hx _ IH]; [reflexivity|]. cbn [fetch_all]. rewrite alone_bind.
  assert (E : alone U (fetch x) h w = (Ok v, h, w, [])).
  { destruct n; destruct Hx as [-> E]; cbn; [reflexivity|]. now rewrite E. }
  rewrite E, alone_bind, IH. reflexivity.
Qed.

Lemma any_flags h ns xs vs : all_refer h ns xs vs ->
  fst (any xs (pure1 (fun x : rv * bool => snd x)) tt) = fst (any vs (pure1 (@lr_is_changed A)) tt).
Proof.
  induction 1 as [|n ns x b xs v vs Hx _ IH]; [reflexivity|]. cbn [any pure1 snd lr_is_changed].
  destruct b; [reflexivity|]. exact IH.
Qed.

Lemma NoDup_app_inv {X} (a b : list X) : NoDup (a ++ b) -> NoDup a /\ NoDup b /\ forall x, In x a -> ~ In x b.
Proof.
  induction a as [|x a IH]; cbn; intros H; [split; [constructor|auto]|]. inversion H as [|? ? Hn Hd]; subst.
  destruct (IH Hd) as (Ha & Hb & Hx). split; [constructor; [|exact Ha]|].
  - intros Hi. apply Hn. apply in_or_app. now left.
  - split; [exact Hb|]. intros y [<-|Hy]; [|auto]. intros Hi. apply Hn. apply in_or_app. now right.
Qed.

Theorem call_alone n : forall h w, NoDup (locs n) ->
  let '(r, h', w', lg) := alone U (call U n) h w in
  let '(r', l', w'', lg') := step U (tree h n) w in
  l' = tree h' n /\ w' = w'' /\ lg = lg' /\ (forall c, ~ In c (locs n) -> h' c = h c) /\
  match r, r' with
  | Ok (x, b), Ok (v, b') => b = b' /\ refers h' n x v
  | Exc, Exc | UB, UB => True
  | _, _ => False
  end.
Proof.
  induction n as [v ch|g c deps IH] using node_ind'; intros h w Hnd.
  - cbn. repeat split; reflexivity.
  - cbn [locs] in Hnd. apply NoDup_app_inv in Hnd. destruct Hnd as (Hnd & _ & Hc).
    assert (Hc' : ~ In c (flat_map locs deps)) by (intros H; exact (Hc _ H (or_introl eq_refl))). clear Hc.
    assert (HD : let '(r, h', w', lg) := alone U (calls U deps) h w in
                 let '(r', ls, w'', lg') := steps_with (step U) (map (tree h) deps) w in
                 ls = map (tree h') deps /\ w' = w'' /\ lg = lg' /\ (forall c, ~ In c (flat_map locs deps) -> h' c = h c) /\
                 match r, r' with
                 | Ok xs, Ok vs => all_refer h' deps xs vs
                 | Exc, Exc | UB, UB => True
                 | _, _ => False
                 end).
    { clear g c Hc'. revert h w. induction IH as [|d deps Hd _ IHd]; intros h w.
      - cbn. repeat split; constructor.
      - cbn [flat_map] in Hnd. apply NoDup_app_inv in Hnd. destruct Hnd as (N1 & N2 & N3).
        specialize (Hd h w N1). cbn [calls calls_with]. fold (calls U). rewrite alone_bind.
        cbn [map steps_with]. destruct (alone U (call U d) h w) as [[[r h1] w1] l1].
        destruct (step U (tree h d) w) as [[[r' t1] w1'] l1']. destruct Hd as (-> & <- & <- & Fr & Hr).
        assert (Et : forall ns : list node, (forall c, In c (flat_map locs ns) -> ~ In c (locs d)) -> map (tree h) ns = map (tree h1) ns).
        { intros ns Hns. induction ns as [|m ns IHns]; [reflexivity|]. cbn [map]. f_equal.
          - symmetry. apply tree_frame. intros c' Hc'. apply Fr. apply Hns. cbn. apply in_or_app. now left.
          - apply IHns. intros c' Hc'. apply Hns. cbn. apply in_or_app. now right. }
        specialize (Et deps (fun c' Hi Hj => N3 _ Hj Hi)).
        destruct r as [[x b]| |], r' as [[v b']| |]; try contradiction.
        + destruct Hr as [<- Hr]. specialize (IHd N2 h1 w1). rewrite alone_bind.
          change (steps_with (step U) (map (tree h) deps)) with (steps_with (step U) (map (tree h) deps)).
          rewrite Et. fold (steps_with (step U)).
          destruct (alone U (calls U deps) h1 w1) as [[[rs h2] w2] l2].
          destruct (steps_with (step U) (map (tree h1) deps) w1) as [[[rs' ls] w2'] l2'].
          destruct IHd as (-> & <- & <- & Fr2 & Hrs).
          assert (Ed : tree h1 d = tree h2 d).
          { symmetry. apply tree_frame. intros c' Hc'. apply Fr2. now apply N3. }
          assert (FrA : forall c, ~ In c (locs d ++ flat_map locs deps) -> h2 c = h c).
          { intros c' Hn. rewrite Fr2, Fr; [reflexivity| |]; intros Hi; apply Hn; apply in_or_app; auto. }
          destruct rs as [xs| |], rs' as [vs| |]; try contradiction; cbn [alone map]; rewrite ?app_nil_r;
            repeat (split; [first [reflexivity|exact FrA|now rewrite Ed]|]); try exact I.
          constructor; [|exact Hrs]. eapply refers_frame; [|exact Hr]. intros c' Hc'. apply Fr2. now apply N3.
        + cbn [map]. repeat split; auto; [now rewrite Et|]. intros c' Hn. apply Fr. intros Hi. apply Hn. apply in_or_app. auto.
        + cbn [map]. repeat split; auto; [now rewrite Et|]. intros c' Hn. apply Fr. intros Hi. apply Hn. apply in_or_app. auto. }
    cbn [call tree step]. fold (calls U). rewrite alone_bind.
    destruct (alone U (calls U deps) h w) as [[[rs h1] w1] l1].
    destruct (steps_with (step U) (map (tree h) deps) w) as [[[rs' ls] w1'] l1'].
    destruct HD as (-> & <- & <- & Fr & Hr).
    assert (Fc : h1 c = h c) by now apply Fr.
    assert (FrA : forall c', ~ In c' (flat_map locs deps ++ [c]) -> h1 c' = h c').
    { intros c' Hn. apply Fr. intros Hi. apply Hn. apply in_or_app. now left. }
    destruct rs as [xs| |], rs' as [vs| |]; try contradiction;
      [|cbn [tree]; rewrite Fc; repeat split; auto|cbn [tree]; rewrite Fc; repeat split; auto].
    assert (Ec : ctad_tuple (fun _ : value * bool => None) vs = vs) by (destruct vs as [|? [|? ?]]; reflexivity).
    rewrite Ec. unfold core_prog, core. cbn [alone]. rewrite Fc, (any_flags _ _ _ _ Hr).
    destruct (negb (is_some (h c)) || fst (any vs (pure1 lr_is_changed) tt)) eqn:Ech.
    + rewrite alone_bind, (fetch_all_alone _ _ _ _ _ Hr). cbn [alone].
      destruct (call_fn U g (fst (transform as_tuple vs (pure1 lr_value) tt)) w1) as [[[result|] w2] l2].
      * cbn [alone]. rewrite alone_bind, Fc. unfold differs_from, opt_neq.
        assert (Et : forall o, map (tree (put h1 c o)) deps = map (tree h1) deps).
        { intros o. apply map_ext_in. intros d Hd. apply tree_frame. intros c' Hi. unfold put.
          destruct (Nat.eqb_spec c' c) as [->|_]; [|reflexivity]. destruct Hc'. apply in_flat_map. eauto. }
        assert (Fin : map (tree (put h1 c (Some result))) deps = map (tree h1) deps /\
                      put h1 c (Some result) c = Some result /\
                      forall c', ~ In c' (flat_map locs deps ++ [c]) -> put h1 c (Some result) c' = h c').
        { split; [apply Et|]. unfold put. rewrite Nat.eqb_refl. split; [reflexivity|]. intros c' Hn.
          destruct (Nat.eqb_spec c' c) as [->|_]; [destruct Hn; apply in_or_app; right; now left|now apply FrA]. }
        destruct Fin as (F1 & F2 & F3).
        destruct (h c) as [v0|] eqn:Eh; cbn [alone app tree refers]; rewrite F1, F2;
          (split; [reflexivity|]; split; [reflexivity|]; split; [now rewrite ?app_nil_r|]; split; [exact F3|]; auto).
      * cbn [alone tree]. rewrite Fc, ?app_nil_r. repeat split; auto.
    + destruct (h c) as [v0|] eqn:Eh; [|discriminate]. cbn [alone tree]. rewrite Fc. repeat split; auto.
Qed.

Theorem api_alone n h w : NoDup (locs n) ->
  let '(r, h', w', lg) := alone U (call_api U n) h w in
  let '(r', l', w'', lg') := step U (tree h n) w in
  l' = tree h' n /\ w' = w'' /\ lg = lg' /\ (forall c, ~ In c (locs n) -> h' c = h c) /\ r = api_result r'.
Proof.
  intros Hnd. pose proof (call_alone n h w Hnd) as H. unfold call_api. rewrite alone_bind.
  destruct (alone U (call U n) h w) as [[[r h1] w1] l1]. destruct (step U (tree h n) w) as [[[r' t1] w1'] l1'].
  destruct H as (-> & <- & <- & Fr & Hr).
  destruct r as [[x b]| |], r' as [[v b']| |]; try contradiction; [|repeat split; auto|repeat split; auto].
  destruct Hr as [<- Hr]. cbn [fst]. rewrite alone_bind.
  assert (E : alone U (fetch x) h1 w1 = (Ok v, h1, w1, [])).
  { destruct n; destruct Hr as [-> E]; cbn; [reflexivity|]. now rewrite E. }
  rewrite E. cbn [alone app]. rewrite app_nil_r. repeat split; auto. destruct v; reflexivity.
Qed.

Lemma nth_split_map {X Y} (f : X -> list Y) l i x : nth_error l i = Some x ->
  NoDup (flat_map f l) -> NoDup (f x) /\ forall j y, nth_error l j = Some y -> j <> i -> forall c, In c (f y) -> ~ In c (f x).
Proof.
  revert i. induction l as [|a l IH]; intros [|i] E Hnd; try discriminate; cbn in *; apply NoDup_app_inv in Hnd;
    destruct Hnd as (N1 & N2 & N3).
  - injection E as ->. split; [exact N1|]. intros [|j] y Ey Hj c Hc Hx; [lia|]. cbn in Ey.
    apply (N3 _ Hx). apply in_flat_map. exists y. split; [eapply nth_error_In; eauto|exact Hc].
  - destruct (IH _ E N2) as [H1 H2]. split; [exact H1|]. intros [|j] y Ey Hj c Hc Hx; cbn in Ey.
    + injection Ey as ->. apply (N3 _ Hc). apply in_flat_map. exists x. split; [eapply nth_error_In; eauto|exact Hx].
    + exact (H2 j y Ey ltac:(lia) c Hc Hx).
Qed.

Theorem thread_alone (env : list node) : NoDup (flat_map locs env) ->
  forall xs ns h w, Forall2 (fun x n => nth_error env x = Some n) xs ns ->
  exists rs h' w' lg outs,
  alone U (thread U (map TCall ns)) h w = (Ok rs, h', w', lg) /\
  run U (map Call xs) (mkState (map (tree h) env) w) = Some (mkState (map (tree h') env) w', outs) /\
  map fst outs = map Some rs /\ lg = concat (map snd outs).
Proof.
  intros Hnd xs ns h w H. revert h w. induction H as [|x n xs ns Hx _ IH]; intros h w.
  - exists [], h, w, [], []. repeat split.
  - destruct (nth_split_map locs _ _ _ Hx Hnd) as [N1 N2].
    cbn [map thread run exec vars world]. rewrite alone_catching, (map_nth_error _ _ _ Hx).
    pose proof (api_alone n h w N1) as HA. pose proof (step_not_ub U (tree h n) w) as Hub.
    destruct (alone U (call_api U n) h w) as [[[r h1] w1] l1]. destruct (step U (tree h n) w) as [[[r' t1] w1'] l1'].
    destruct HA as (-> & <- & <- & Fr & ->). cbn [fst] in Hub.
    assert (Eenv : update x (tree h1 n) (map (tree h) env) = map (tree h1) env).
    { clear IH. revert x Hx N2. clear Hnd. induction env as [|m env IHe]; intros [|x] Hx N2; try discriminate; cbn [update map].
      - cbn in Hx. injection Hx as ->. f_equal. apply map_ext_in. intros m Hm. symmetry. apply tree_frame.
        intros c Hc. apply Fr. destruct (In_nth_error _ _ Hm) as [j Hj]. exact (N2 (S j) m Hj ltac:(lia) c Hc).
      - f_equal.
        + symmetry. apply tree_frame. intros c Hc. apply Fr. exact (N2 0 m eq_refl ltac:(lia) c Hc).
        + apply IHe; [exact Hx|]. intros j y Hy Hj. exact (N2 (S j) y Hy ltac:(lia)). }
    rewrite Eenv. destruct (IH h1 w1) as (rs & h2 & w2 & l2 & outs & E1 & E2 & E3 & E4). rewrite E2.
    assert (EA : alone U (bind (thread U (map TCall ns)) (fun rs => Ret (api_result r' :: rs))) h1 w1 =
                 (Ok (api_result r' :: rs), h2, w2, l2)).
    { rewrite alone_bind, E1. cbn. now rewrite app_nil_r. }
    exists (api_result r' :: rs), h2, w2, (l1 ++ l2), ((Some (api_result r'), l1) :: outs).
    split; [|split; [reflexivity|cbn; now rewrite E3, E4]].
    destruct r' as [[v b]| |]; [| |congruence].
    + assert (Ev : exists o, api_result (Ok (v, b)) = Ok o) by (destruct v; cbn; eauto). destruct Ev as [o Eo].
      rewrite Eo in *. now rewrite EA.
    + cbn [api_result] in *. now rewrite EA.
Qed.

(** ** Copies *)
Lemma locs_relocate f (n : node) : locs (relocate f n) = map f (locs n).
Proof.
  induction n as [v ch|g c deps IH] using node_ind'; [reflexivity|]. cbn [relocate locs]. rewrite map_app. f_equal.
  induction IH as [|d deps Hd _ IHd]; [reflexivity|]. cbn [map flat_map]. now rewrite map_app, Hd, IHd.
Qed.
Lemma tree_relocate (h : heap) f (n : node) : tree h (relocate f n) = tree (fun c => h (f c)) n.
Proof.
  induction n as [v ch|g c deps IH] using node_ind'; [reflexivity|]. cbn [relocate tree]. f_equal.
  induction IH as [|d deps Hd _ IHd]; [reflexivity|]. cbn [map]. now rewrite Hd, IHd.
Qed.

Lemma copy_caches_alone (f : loc -> loc) cs w : NoDup (map f cs) -> forall h : heap,
  (forall c c', In c cs -> In c' cs -> f c <> c') ->
  exists h', alone U (copy_caches cs (map f cs)) h w = (Ok tt, h', w, []) /\
    (forall c, In c cs -> h' (f c) = h c) /\ (forall c, ~ In c (map f cs) -> h' c = h c).
Proof.
  induction cs as [|c cs IH]; intros Hnd h Hd; cbn [copy_caches map].
  - exists h. repeat split; auto. intros c [].
  - cbn [map] in Hnd. inversion Hnd as [|? ? N1 N2]; subst. unfold copy_cache. cbn [alone].
    destruct (IH N2 (put h (f c) (h c))) as (h' & E & H1 & H2).
    { intros. apply Hd; now right. }
    exists h'. rewrite E. split; [reflexivity|]. split.
    + intros c' [<-|Hc'].
      * rewrite H2 by exact N1. unfold put. now rewrite Nat.eqb_refl.
      * rewrite H1 by exact Hc'. unfold put. destruct (Nat.eqb_spec c' (f c)) as [E'|_]; [|reflexivity].
        destruct (Hd c c' (or_introl eq_refl) (or_intror Hc')). auto.
    + intros c' Hn. rewrite H2 by (intros Hi; apply Hn; now right). unfold put.
      destruct (Nat.eqb_spec c' (f c)) as [->|_]; [|reflexivity]. destruct Hn. now left.
Qed.

Theorem copy_alone f (n : node) (h : heap) w :
  NoDup (locs (relocate f n)) -> (forall c, In c (locs n) -> ~ In c (locs (relocate f n))) ->
  exists h', alone U (thread U [TCopy n (relocate f n)]) h w = (Ok [], h', w, []) /\
    tree h' (relocate f n) = tree h n /\ (forall c, ~ In c (locs (relocate f n)) -> h' c = h c).
Proof.
  rewrite locs_relocate. intros Hnd Hd.
  destruct (copy_caches_alone f (locs n) w Hnd h) as (h' & E & H1 & H2).
  { intros c c' Hc Hc' <-. apply (Hd (f c) Hc'). now apply in_map. }
  exists h'. cbn [thread]. rewrite locs_relocate, alone_bind, E. split; [reflexivity|]. split; [|exact H2].
  rewrite tree_relocate. now apply tree_frame.
Qed.

(** ** What a thread uses *)
Section Within.
Variable h0 : heap.
Variable F : loc -> Prop.

Fixpoint within {X} (R Wr : loc -> Prop) (Q : X -> Prop) (p : prog X) : Prop :=
  match p with
  | Ret x => Q x
  | Throw | Undefined => True
  | Load c k => R c /\ forall o, (F c -> o = h0 c) -> within R Wr Q (k o)
  | Store c _ p' => Wr c /\ within R Wr Q p'
  | CallF _ _ k => forall r, within R Wr Q (k r)
  | Cmp _ _ k => forall b, within R Wr Q (k b)
  end.

Lemma within_bind {X Y} (R Wr : loc -> Prop) (Q : X -> Prop) (Q' : Y -> Prop) (p : prog X) (f : X -> prog Y) :
  within R Wr Q p -> (forall x, Q x -> within R Wr Q' (f x)) -> within R Wr Q' (bind p f).
Proof.
  intros Hp Hf. induction p as [x| | |c k IH|c o p IH|g args k IH|a b k IH]; cbn [within bind] in *; auto.
  - destruct Hp as [Hr Hk]. split; [exact Hr|]. intros o Ho. apply IH. now apply Hk.
  - destruct Hp as [Hw Hk]. split; auto.
Qed.
Lemma within_catching {X Y} (R Wr : loc -> Prop) (Q : X -> Prop) (Q' : Y -> Prop) (p : prog X) (f : res X -> prog Y) :
  within R Wr Q p -> (forall r, within R Wr Q' (f r)) -> within R Wr Q' (catching p f).
Proof.
  intros Hp Hf. induction p as [x| | |c k IH|c o p IH|g args k IH|a b k IH]; cbn [within catching] in *; auto.
  - destruct Hp as [Hr Hk]. split; [exact Hr|]. intros o Ho. apply IH. now apply Hk.
  - destruct Hp as [Hw Hk]. split; auto.
Qed.
Lemma within_mono {X} (R R' Wr Wr' : loc -> Prop) (Q Q' : X -> Prop) (p : prog X) :
  (forall c, R c -> R' c) -> (forall c, Wr c -> Wr' c) -> (forall x, Q x -> Q' x) ->
  within R Wr Q p -> within R' Wr' Q' p.
Proof.
  intros HR HW HQ Hp. induction p as [x| | |c k IH|c o p IH|g args k IH|a b k IH]; cbn [within] in *; auto.
  - destruct Hp as [Hr Hk]. split; [auto|]. intros o Ho. apply IH. now apply Hk.
  - destruct Hp as [Hw Hk]. split; auto.
Qed.

Definition ref_in (R : loc -> Prop) (x : rv) : Prop := match x with Imm _ => True | At c => R c end.
Lemma fetch_within (R Wr : loc -> Prop) (x : rv) : ref_in R x -> within R Wr (fun _ => True) (fetch x).
Proof. destruct x as [v|c]; cbn; [auto|]. intros Hc. split; [exact Hc|]. intros [v|] _; exact I. Qed.
Lemma fetch_all_within (R Wr : loc -> Prop) (xs : list (rv * bool)) : Forall (fun x => ref_in R (fst x)) xs ->
  within R Wr (fun _ => True) (fetch_all xs).
Proof.
  induction 1 as [|[x b] xs Hx _ IH]; [exact I|]. cbn [fetch_all].
  eapply within_bind; [apply fetch_within; exact Hx|]. intros v _. eapply within_bind; [exact IH|]. intros vs _. exact I.
Qed.

Lemma calls_within (R Wr : loc -> Prop) (Q : rv * bool -> Prop) (ns : list node) :
  Forall (fun n => within R Wr Q (call U n)) ns -> within R Wr (Forall Q) (calls U ns).
Proof.
  induction 1 as [|n ns Hn _ IH]; [constructor|]. cbn [calls calls_with]. fold (calls U).
  eapply within_bind; [exact Hn|]. intros x Hx. eapply within_bind; [exact IH|]. intros xs Hxs. now constructor.
Qed.

Lemma call_within n : forall R Wr : loc -> Prop, (forall c, In c (locs n) -> R c /\ Wr c) ->
  within R Wr (fun x => ref_in R (fst x)) (call U n).
Proof.
  induction n as [v ch|g c deps IH] using node_ind'; intros R Wr H; [exact I|]. cbn [call locs] in *. fold (calls U).
  eapply within_bind.
  - apply calls_within. apply Forall_forall. intros d Hd. rewrite Forall_forall in IH. apply IH; [exact Hd|].
    intros c' Hc'. apply H. apply in_or_app. left. apply in_flat_map. eauto.
  - intros xs Hxs. cbn beta in Hxs. destruct (H c) as [Hr Hw]; [apply in_or_app; right; now left|].
    unfold core_prog. cbn [within]. split; [exact Hr|]. intros o _.
    destruct (negb (is_some o) || fst (any xs (pure1 (fun x : rv * bool => snd x)) tt)); [|exact Hr].
    eapply within_bind; [apply fetch_all_within; exact Hxs|]. intros vs _. cbn [within]. intros [result|]; [|exact I].
    cbn [within]. split; [exact Hr|]. intros o' _. eapply within_bind with (Q := fun _ => True).
    + destruct o'; cbn; auto.
    + intros b _. cbn [within]. split; [exact Hw|exact Hr].
Qed.

Lemma call_settled_within n : settled h0 n = true -> forall R Wr : loc -> Prop, (forall c, In c (locs n) -> R c /\ F c) ->
  within R Wr (fun x => ref_in R (fst x) /\ snd x = false) (call U n).
Proof.
  induction n as [v ch|g c deps IH] using node_ind'; intros Hs R Wr H.
  - cbn in *. split; [exact I|]. now apply negb_true_iff.
  - cbn [call locs settled] in *. fold (calls U). apply andb_true_iff in Hs. destruct Hs as [Hs Hds].
    eapply within_bind.
    + apply calls_within. apply Forall_forall. intros d Hd. rewrite Forall_forall in IH. rewrite forallb_forall in Hds.
      apply IH; [exact Hd|now apply Hds|]. intros c' Hc'. apply H. apply in_or_app. left. apply in_flat_map. eauto.
    + intros xs Hxs. cbn beta in Hxs. destruct (H c) as [Hr Hf]; [apply in_or_app; right; now left|].
      unfold core_prog. cbn [within]. split; [exact Hr|]. intros o Ho. rewrite (Ho Hf).
      assert (E : fst (any xs (pure1 (fun x : rv * bool => snd x)) tt) = false).
      { clear -Hxs. induction Hxs as [|[x b] xs [_ Hx] _ IH]; [reflexivity|]. cbn in *. now rewrite Hx. }
      rewrite E, Hs. cbn. auto.
Qed.

Lemma copy_within (R Wr : loc -> Prop) : forall cs cs', (forall c, In c cs -> R c) -> (forall c, In c cs' -> Wr c) ->
  within R Wr (fun _ => True) (copy_caches (A := A) (fid := fid) (did := did) cs cs').
Proof.
  induction cs as [|c cs IH]; intros [|c' cs'] HR HW; cbn [copy_caches within]; auto. unfold copy_cache. cbn [within].
  split; [apply HR; now left|]. intros o _. split; [apply HW; now left|]. apply IH; intros; [apply HR|apply HW]; now right.
Qed.

Lemma thread_within (R Wr : loc -> Prop) ops :
  (forall o c, In o ops -> uses o c -> R c) -> (forall o c, In o ops -> may_write h0 o c -> Wr c) ->
  (forall o c, In o ops -> calls_settled h0 o -> uses o c -> F c) ->
  within R Wr (fun _ => True) (thread U ops).
Proof.
  induction ops as [|[n|n m] ops IH]; intros HR HW HF; cbn [thread]; [exact I| |].
  - apply within_catching with (Q := fun _ => True).
    + unfold call_api. destruct (settled h0 n) eqn:Es.
      * eapply within_bind; [apply (call_settled_within n Es R Wr)|].
        -- intros c Hc. split; [apply (HR (TCall n)); cbn; auto|]. apply (HF (TCall n)); cbn; auto.
        -- intros x [Hx _]. eapply within_bind; [apply fetch_within; exact Hx|]. intros v _. exact I.
      * eapply within_bind; [apply (call_within n R Wr)|].
        -- intros c Hc. split; [apply (HR (TCall n)); cbn; auto|]. apply (HW (TCall n)); cbn; auto.
        -- intros x Hx. eapply within_bind; [apply fetch_within; exact Hx|]. intros v _. exact I.
    + intros r. eapply within_bind; [apply IH; intros; [eapply HR|eapply HW|eapply HF]; eauto; now right|]. intros rs _. exact I.
  - eapply within_bind.
    + apply copy_within; intros c Hc; [apply (HR (TCopy n m))|apply (HW (TCopy n m))]; cbn; auto.
    + intros _ _. apply IH; intros; [eapply HR|eapply HW|eapply HF]; eauto; now right.
Qed.

(** ** Interleaving *)
Lemma tstep_within {X} (R Wr : loc -> Prop) (Q : X -> Prop) p h w a p' h' w' :
  (forall c, F c -> h c = h0 c) -> within R Wr Q p -> tstep U p h w = Some (a, p', h', w') ->
  within R Wr Q p' /\
  match a with
  | ALoad c _ => R c /\ h' = h
  | AStore c o => Wr c /\ h' = put h c o
  | _ => h' = h
  end.
Proof.
  intros HF Hp E. destruct p as [x| | |c k|c o p|g args k|x y k]; cbn [tstep within] in *; try discriminate.
  - injection E as <- <- <- <-. destruct Hp as [Hr Hk]. auto.
  - injection E as <- <- <- <-. tauto.
  - destruct (call_fn U g args w) as [[r w1] lg]. injection E as <- <- <- <-. auto.
  - injection E as <- <- <- <-. auto.
Qed.

Lemma tstep_agree {X} (R Wr : loc -> Prop) (Q : X -> Prop) p h w a p' h' w' hl :
  (forall c, R c \/ Wr c -> hl c = h c) -> within R Wr Q p -> tstep U p h w = Some (a, p', h', w') ->
  exists hl', tstep U p hl w = Some (a, p', hl', w') /\ (forall c, R c \/ Wr c -> hl' c = h' c).
Proof.
  intros Ha Hp E. destruct p as [x| | |c k|c o p|g args k|x y k]; cbn [tstep within] in *; try discriminate.
  - injection E as <- <- <- <-. destruct Hp as [Hr _]. rewrite (Ha c) by auto. eauto.
  - injection E as <- <- <- <-. eexists. split; [reflexivity|]. intros c' Hc'. unfold put. destruct (Nat.eqb c' c); auto.
  - destruct (call_fn U g args w) as [[r w1] lg]. injection E as <- <- <- <-. eauto.
  - injection E as <- <- <- <-. eauto.
Qed.

Lemma follows_snoc {X} (p : prog X) : forall h acts p1 h1, follows U p h acts p1 h1 ->
  forall w a p2 h2 w2, tstep U p1 h1 w = Some (a, p2, h2, w2) -> follows U p h (acts ++ [a]) p2 h2.
Proof.
  intros h acts. revert p h. induction acts as [|b acts IH]; intros p h p1 h1 H w a p2 h2 w2 E; cbn [follows app] in *.
  - destruct H as [-> ->]. exists w, p2, h2, w2. auto.
  - destruct H as (w' & p' & h' & w1 & E1 & H). exists w', p', h', w1. split; [exact E1|]. eapply IH; eauto.
Qed.

Lemma acts_of_app i (tr tr' : list (nat * action)) : acts_of i (tr ++ tr') = acts_of i tr ++ acts_of i tr'.
Proof. unfold acts_of. now rewrite filter_app, map_app. Qed.

Context {X : Type}.
Variables (ps : list (prog X)) (R Wr : nat -> loc -> Prop).
Hypothesis Hps : forall i p, nth_error ps i = Some p -> within (R i) (Wr i) (fun _ => True) p.
Hypothesis HF : forall i c, Wr i c -> ~ F c.
Hypothesis Hsep : forall i j c, Wr i c -> R j c \/ Wr j c -> i = j.

Definition inv (s : conf A W fid did X) (tr : list (nat * action)) : Prop :=
  (forall i p, nth_error ps i = Some p -> exists p' h', nth_error (threads s) i = Some p' /\
     follows U p h0 (acts_of i tr) p' h' /\ within (R i) (Wr i) (fun _ => True) p' /\
     forall c, R i c \/ Wr i c -> h' c = mem s c) /\
  (forall c, F c -> mem s c = h0 c) /\
  (forall i a, In (i, a) tr -> match a with ALoad c _ => R i c | AStore c _ => Wr i c | _ => True end) /\
  length (threads s) = length ps.

Lemma inv_step s tr t s1 tr1 : inv s tr -> turn_step U t s = (s1, tr1) -> inv s1 (tr ++ tr1).
Proof.
  intros (I1 & I2 & I3 & I4) E. destruct t as [i|f]; cbn [turn_step] in E.
  2:{ injection E as <- <-. rewrite app_nil_r. repeat split; auto. }
  destruct (nth_error (threads s) i) as [p|] eqn:Ep; [|injection E as <- <-; rewrite app_nil_r; repeat split; auto].
  destruct (tstep U p (mem s) (wrld s)) as [[[[a p'] h'] w']|] eqn:Et; [|injection E as <- <-; rewrite app_nil_r; repeat split; auto].
  injection E as <- <-. cbn [threads mem].
  destruct (nth_error ps i) as [p0|] eqn:Ep0.
  2:{ apply nth_error_None in Ep0. assert (Hl : i < length (threads s)) by (apply nth_error_Some; congruence). lia. }
  destruct (I1 i p0 Ep0) as (q & hl & Eq & Hfol & Hw & Hag). rewrite Ep in Eq. injection Eq as <-.
  destruct (tstep_within _ _ _ _ _ _ _ _ _ _ I2 Hw Et) as [Hw' Hact].
  destruct (tstep_agree _ _ _ _ _ _ _ _ _ _ _ Hag Hw Et) as (hl' & Etl & Hag').
  assert (Hmem : forall c, ~ Wr i c -> h' c = mem s c).
  { intros c Hn. destruct a as [c' o|c' o|g args w1|x y].
    - now destruct Hact as [_ ->].
    - destruct Hact as [Hwr ->]. unfold put. destruct (Nat.eqb_spec c c') as [->|_]; [contradiction|reflexivity].
    - now rewrite Hact.
    - now rewrite Hact. }
  split; [|split; [|split]].
  - intros j pj Ej. destruct (Nat.eq_dec j i) as [->|Hj].
    + rewrite Ep0 in Ej. injection Ej as <-. cbn [threads mem]. exists p', hl'. split.
      * rewrite nth_error_update, Nat.eqb_refl. destruct (Nat.ltb_spec i (length (threads s))) as [_|Hl]; [reflexivity|].
        apply nth_error_None in Hl. congruence.
      * split; [|split; [exact Hw'|exact Hag']]. rewrite acts_of_app. unfold acts_of at 2. cbn [filter fst].
        rewrite Nat.eqb_refl. cbn [map snd]. eapply follows_snoc; eauto.
    + cbn [threads mem]. destruct (I1 j pj Ej) as (q & hj & Eq & Hfj & Hwj & Haj). exists q, hj. split.
      * rewrite nth_error_update. destruct (Nat.eqb_spec i j); [congruence|]. destruct (Nat.eqb_spec j i); [congruence|]. exact Eq.
      * split; [|split; [exact Hwj|]].
        -- rewrite acts_of_app. unfold acts_of at 2. cbn [filter fst]. destruct (Nat.eqb_spec i j); [congruence|].
           cbn [map]. now rewrite app_nil_r.
        -- intros c Hc. rewrite Haj by exact Hc. symmetry. apply Hmem. intros Hwr. apply Hj. symmetry. eapply Hsep; eauto.
  - intros c Hc. rewrite Hmem; [now apply I2|]. intros Hwr. exact (HF _ _ Hwr Hc).
  - intros j b Hin. apply in_app_or in Hin. destruct Hin as [Hin|[Hin|[]]]; [now apply I3|]. injection Hin as <- <-.
    destruct a as [c' o|c' o|g args w1|x y]; auto; now destruct Hact.
  - cbn [threads]; now rewrite update_length.
Qed.

Lemma inv_interleave sched : forall s tr s' tr', inv s tr -> interleave U sched s = (s', tr') -> inv s' (tr ++ tr').
Proof.
  induction sched as [|t sched IH]; intros s tr s' tr' HI E; cbn [interleave] in E.
  - injection E as <- <-. now rewrite app_nil_r.
  - destruct (turn_step U t s) as [s1 tr1] eqn:E1. destruct (interleave U sched s1) as [s2 tr2] eqn:E2.
    injection E as <- <-. rewrite app_assoc. eapply IH; [|exact E2]. eapply inv_step; eauto.
Qed.

Lemma isolation sched w s' tr : interleave U sched (mkConf ps h0 w) = (s', tr) -> inv s' tr.
Proof.
  intros E. change tr with ([] ++ tr). eapply inv_interleave; [|exact E]. split; [|split; [|split]]; cbn [threads mem]; auto.
  - intros i p Hp. exists p, h0. split; [exact Hp|]. split; [cbn; auto|]. split; [now apply Hps|auto].
  - intros i a [].
Qed.
End Within.

Theorem separate_threads (thr : list (list top)) (h : heap) w sched s' tr : separate h thr ->
  interleave U sched (mkConf (map (thread U) thr) h w) = (s', tr) ->
  ~ racy tr /\
  forall i ops, nth_error thr i = Some ops -> exists p' h', nth_error (threads s') i = Some p' /\
    follows U (thread U ops) h (acts_of i tr) p' h' /\ forall o c, In o ops -> uses o c -> h' c = mem s' c.
Proof.
  intros Hs E.
  set (F := fun c => exists i ops o, nth_error thr i = Some ops /\ In o ops /\ calls_settled h o /\ uses o c).
  set (R := fun i c => exists ops o, nth_error thr i = Some ops /\ In o ops /\ uses o c).
  set (Wr := fun i c => exists ops o, nth_error thr i = Some ops /\ In o ops /\ may_write h o c).
  assert (HWR : forall i c, Wr i c -> R i c).
  { intros i c (ops & o & E1 & Ho & Hm). exists ops, o. split; [exact E1|]. split; [exact Ho|]. destruct o; cbn in *; tauto. }
  assert (HI : inv h F (map (thread U) thr) R Wr s' tr).
  { eapply isolation; [| | |exact E].
    - intros i p Hp. rewrite nth_error_map in Hp. destruct (nth_error thr i) as [ops|] eqn:Ei; [|discriminate].
      injection Hp as <-. apply thread_within.
      + intros o c Ho Hu. exists ops, o. auto.
      + intros o c Ho Hu. exists ops, o. auto.
      + intros o c Ho Hc Hu. exists i, ops, o. auto.
    - intros i c (ops & o & E1 & Ho & Hm) (j & ops' & o' & E2 & Ho' & Hc & Hu).
      destruct (Hs i j ops ops' o o' c E1 E2 Ho Ho' Hm Hu) as [_ Hn]. exact (Hn Hc).
    - intros i j c HW HRW. assert (HR : R j c) by (destruct HRW; auto).
      destruct HW as (ops & o & E1 & Ho & Hm), HR as (ops' & o' & E2 & Ho' & Hu).
      now destruct (Hs i j ops ops' o o' c E1 E2 Ho Ho' Hm Hu). }
  destruct HI as (I1 & _ & I3 & _). split.
  - intros (i & j & c & o & a & Hij & Hi & Hj & Ha). apply I3 in Hi. apply I3 in Hj. cbn in Hi.
    assert (HR : R j c).
    { destruct a as [c' o'|c' o'|g args w1|x y]; cbn in Ha; subst; auto; contradiction. }
    apply Hij. destruct Hi as (ops & o1 & E1 & Ho & Hm), HR as (ops' & o' & E2 & Ho' & Hu).
    now destruct (Hs i j ops ops' o1 o' c E1 E2 Ho Ho' Hm Hu).
  - intros i ops Ei. destruct (I1 i (thread U ops)) as (p' & h' & E1 & Hf & _ & Ha).
    { now rewrite nth_error_map, Ei. }
    exists p', h'. split; [exact E1|]. split; [exact Hf|]. intros o c Ho Hu. apply Ha. left. exists ops, o. auto.
Qed.

(** ** In a world that stays as it is *)
Lemma call_fn_world g args w : reads_only U -> snd (fst (call_fn U g args w)) = w.
Proof.
  intros [H1 H2]. destruct g as [f|d]; cbn [call_fn].
  - specialize (H1 f args w). now destruct (sem U f args w).
  - specialize (H2 d w). now destruct (dsem U d w).
Qed.

Definition in_world (w : W) (a : action) : Prop := match a with ACall _ _ w' => w' = w | _ => True end.

Lemma same_world {X} sched : reads_only U -> undisturbed sched -> forall (s : conf A W fid did X) s' tr,
  interleave U sched s = (s', tr) -> wrld s' = wrld s /\ Forall (fun x => in_world (wrld s) (snd x)) tr.
Proof.
  intros Hu. induction 1 as [|t sched [i ->] _ IH]; intros s s' tr E; cbn [interleave] in E.
  - injection E as <- <-. auto.
  - destruct (turn_step U (Turn i) s) as [s1 tr1] eqn:E1. destruct (interleave U sched s1) as [s2 tr2] eqn:E2.
    injection E as <- <-. destruct (IH _ _ _ E2) as [Ew Ht].
    assert (H1 : wrld s1 = wrld s /\ Forall (fun x => in_world (wrld s) (snd x)) tr1).
    { cbn [turn_step] in E1. destruct (nth_error (threads s) i) as [p|]; [|injection E1 as <- <-; auto].
      destruct p as [x| | |c k|c o p|g args k|x y k]; cbn [tstep] in E1;
        try (injection E1 as <- <-; cbn [wrld]; split; [reflexivity|]; repeat constructor; fail).
      pose proof (call_fn_world g args (wrld s) Hu) as Hc. destruct (call_fn U g args (wrld s)) as [[r w1] lg].
      injection E1 as <- <-. cbn in Hc. cbn [wrld]. split; [exact Hc|]. repeat constructor. }
    destruct H1 as [Ew1 Ht1]. rewrite Ew1 in *. split; [exact Ew|]. apply Forall_app. auto.
Qed.

Lemma follows_alone {X} w acts : reads_only U -> Forall (in_world w) acts -> forall (p : prog X) h p' h' r,
  follows U p h acts p' h' -> ended p' = Some r -> exists lg, alone U p h w = (r, h', w, lg).
Proof.
  intros Hu. induction 1 as [|a acts Ha _ IH]; intros p h p' h' r Hf He; cbn [follows] in Hf.
  - destruct Hf as [-> ->]. exists []. destruct p; cbn in *; try discriminate; injection He as <-; reflexivity.
  - destruct Hf as (w0 & p1 & h1 & w1 & E & Hf). destruct (IH _ _ _ _ _ Hf He) as [lg Hl].
    destruct p as [x| | |c k|c o p|g args k|x y k]; cbn [tstep alone] in *; try discriminate.
    + injection E as <- <- <- <-. eauto.
    + injection E as <- <- <- <-. eauto.
    + destruct (call_fn U g args w0) as [[r0 w2] lg0] eqn:Ec. injection E as <- <- <- <-. cbn in Ha. subst w0.
      pose proof (call_fn_world g args w Hu) as Hc. rewrite Ec in *. cbn in Hc. subst w2. rewrite Hl. eauto.
    + injection E as <- <- <- <-. rewrite Hl. eauto.
Qed.

Lemma acts_in (i : nat) (tr : list (nat * action)) a : In a (acts_of i tr) <-> In (i, a) tr.
Proof.
  unfold acts_of. rewrite in_map_iff. split.
  - intros ([j b] & E & H). apply filter_In in H. cbn in *. destruct H as [H Hj]. apply Nat.eqb_eq in Hj. now subst.
  - intros H. exists (i, a). split; [reflexivity|]. apply filter_In. split; [exact H|]. apply Nat.eqb_refl.
Qed.

Theorem separate_threads_world (thr : list (list top)) (h : heap) w sched s' tr :
  separate h thr -> reads_only U -> undisturbed sched ->
  interleave U sched (mkConf (map (thread U) thr) h w) = (s', tr) ->
  forall i ops p r, nth_error thr i = Some ops -> nth_error (threads s') i = Some p -> ended p = Some r ->
  exists h' lg, alone U (thread U ops) h w = (r, h', w, lg) /\ forall o c, In o ops -> uses o c -> h' c = mem s' c.
Proof.
  intros Hs Hu Hd E i ops p r Ei Ep Er. destruct (separate_threads thr h w sched s' tr Hs E) as [_ H].
  destruct (H i ops Ei) as (p' & h' & Ep' & Hf & Hm). rewrite Ep in Ep'. injection Ep' as <-.
  destruct (same_world sched Hu Hd _ _ _ E) as [_ Hw]. cbn [wrld] in Hw.
  assert (Ha : Forall (in_world w) (acts_of i tr)).
  { apply Forall_forall. intros a Hin. apply acts_in in Hin. rewrite Forall_forall in Hw. exact (Hw _ Hin). }
  destruct (follows_alone w _ Hu Ha _ _ _ _ _ Hf Er) as [lg Hl]. eauto.
Qed.

(** Threads that call the lazy functions of a program. *)
Theorem program_threads (env : list node) (thr : list (list nat)) (h : heap) w sched nss s' tr :
  NoDup (flat_map locs env) -> reads_only U -> undisturbed sched ->
  Forall2 (Forall2 (fun x n => nth_error env x = Some n)) thr nss ->
  (forall i j xs ys x n, i <> j -> nth_error thr i = Some xs -> nth_error thr j = Some ys -> In x xs -> In x ys ->
     nth_error env x = Some n -> settled h n = true) ->
  interleave U sched (mkConf (map (fun ns => thread U (map TCall ns)) nss) h w) = (s', tr) ->
  ~ racy tr /\
  forall i xs p r, nth_error thr i = Some xs -> nth_error (threads s') i = Some p -> ended p = Some r ->
  exists rs st outs, r = Ok rs /\ run U (map Call xs) (mkState (map (tree h) env) w) = Some (st, outs) /\
    map fst outs = map Some rs.
Proof.
  intros Hnd Hu Hd HF Hsh E.
  assert (Hloc : forall x y n m c, nth_error env x = Some n -> nth_error env y = Some m -> In c (locs n) -> In c (locs m) -> x = y).
  { intros x y n m c Hx Hy Hn Hm. destruct (Nat.eq_dec y x) as [->|Hne]; [reflexivity|].
    destruct (nth_split_map locs _ _ _ Hx Hnd) as [_ H]. destruct (H y m Hy Hne c Hm Hn). }
  assert (Hin : forall i ns, nth_error nss i = Some ns -> exists xs, nth_error thr i = Some xs /\ Forall2 (fun x n => nth_error env x = Some n) xs ns).
  { clear -HF. induction HF as [|xs ns thr nss Hx _ IH]; intros [|i] ms Hi; try discriminate; cbn in Hi.
    - injection Hi as <-. exists xs. auto.
    - destruct (IH i ms Hi) as (ys & Hy & Hf). exists ys. auto. }
  assert (Hin2 : forall xs ns n, Forall2 (fun x n => nth_error env x = Some n) xs ns -> In n ns -> exists x, In x xs /\ nth_error env x = Some n).
  { clear. intros xs ns n H. induction H as [|x m xs ns Hx _ IH]; intros Hi; [destruct Hi|]. destruct Hi as [->|Hi].
    - exists x. split; [now left|exact Hx].
    - destruct (IH Hi) as (y & Hy & Hn). exists y. split; [now right|exact Hn]. }
  assert (Hs : separate h (map (map TCall) nss)).
  { intros i j ops ops' o o' c Ei Ej Ho Ho' Hm Hus.
    rewrite nth_error_map in Ei, Ej. destruct (nth_error nss i) as [ns|] eqn:Ni; [|discriminate].
    destruct (nth_error nss j) as [ms|] eqn:Nj; [|discriminate]. injection Ei as <-. injection Ej as <-.
    apply in_map_iff in Ho. destruct Ho as (n & <- & Hn). apply in_map_iff in Ho'. destruct Ho' as (m & <- & Hmm).
    cbn in Hm, Hus. destruct Hm as [Hns Hc].
    destruct (Hin i ns Ni) as (xs & Xi & Fi). destruct (Hin j ms Nj) as (ys & Xj & Fj).
    destruct (Hin2 _ _ _ Fi Hn) as (x & Hx & Ex). destruct (Hin2 _ _ _ Fj Hmm) as (y & Hy & Ey).
    assert (x = y) as <- by (eapply Hloc; eauto). rewrite Ex in Ey. injection Ey as <-. cbn [calls_settled].
    split; [|congruence]. destruct (Nat.eq_dec i j) as [|Hne]; [assumption|].
    rewrite (Hsh i j xs ys x n Hne Xi Xj Hx Hy Ex) in Hns. discriminate. }
  assert (E' : interleave U sched (mkConf (map (thread U) (map (map TCall) nss)) h w) = (s', tr)) by (rewrite map_map; exact E).
  split; [exact (proj1 (separate_threads _ _ _ _ _ _ Hs E'))|].
  intros i xs p r Ei Ep Er.
  assert (Hns : exists ns, nth_error nss i = Some ns /\ Forall2 (fun x n => nth_error env x = Some n) xs ns).
  { clear -HF Ei. revert i Ei. induction HF as [|ys ns thr nss Hx _ IH]; intros [|i] Ei; try discriminate; cbn in Ei.
    - injection Ei as <-. exists ns. auto.
    - exact (IH i Ei). }
  destruct Hns as (ns & Ni & Fi).
  destruct (separate_threads_world _ _ _ _ _ _ Hs Hu Hd E' i (map TCall ns) p r) as (h' & lg & El & _); auto.
  { rewrite nth_error_map, Ni. reflexivity. }
  destruct (thread_alone env Hnd xs ns h w Fi) as (rs & h2 & w2 & l2 & outs & E1 & E2 & E3 & _).
  rewrite El in E1. injection E1 as -> <- <- <-. eauto 6.
Qed.

(** ** Settled functions *)
Lemma made_sub zero g c deps : made zero (NCore (A := A) (fid := fid) (did := did) (FnUser g) c deps) -> Forall (made zero) deps.
Proof. cbn. intros H. induction deps as [|d deps IH]; constructor; tauto. Qed.
Lemma no_plain_sub g c deps : no_plain (NCore (A := A) (fid := fid) (did := did) (FnUser g) c deps) <-> Forall no_plain deps.
Proof. cbn. induction deps as [|d deps IH]; [split; auto|]. rewrite IH. split; [intros []; auto|]. inversion 1; auto. Qed.

Theorem settled_iff zero (h : heap) (n : node) : made zero n ->
  settled h n = true <-> no_plain n /\ forall c, In c (locs n) -> h c <> None.
Proof.
  induction n as [v ch|g c deps IH] using node_ind'; intros Hm.
  - cbn in *. subst ch. split; [intros _; split; auto; intros c []|auto].
  - destruct g as [f|d].
    + apply made_sub in Hm. rewrite no_plain_sub. cbn [settled locs]. rewrite andb_true_iff, forallb_forall.
      assert (IH' : forall d : node, In d deps -> settled h d = true <-> no_plain d /\ forall c, In c (locs d) -> h c <> None).
      { intros d Hd. rewrite Forall_forall in IH, Hm. auto. }
      clear IH Hm. split.
      * intros [Hc Hd]. split.
        -- apply Forall_forall. intros d Hi. exact (proj1 (proj1 (IH' d Hi) (Hd d Hi))).
        -- intros c' Hi. apply in_app_or in Hi. destruct Hi as [Hi|[<-|[]]].
           ++ apply in_flat_map in Hi. destruct Hi as (d & Hi & Hl). exact (proj2 (proj1 (IH' d Hi) (Hd d Hi)) c' Hl).
           ++ destruct (h c); [discriminate|discriminate Hc].
      * intros [Hp Hc]. split.
        -- assert (Hn : h c <> None) by (apply Hc; apply in_or_app; right; now left). now destruct (h c).
        -- intros d Hd. apply IH'; [exact Hd|]. rewrite Forall_forall in Hp. split; [auto|]. intros c' Hl. apply Hc.
           apply in_or_app. left. apply in_flat_map. eauto.
    + cbn in *. subst deps. cbn. split; [rewrite andb_false_r; discriminate|tauto].
Qed.

(** A call that returns leaves values everywhere. *)
Definition kept (h h' : heap) : Prop := forall c, h c <> None -> h' c <> None.
Lemma kept_refl (h : heap) : kept h h.
Proof. intros c H. exact H. Qed.
Lemma kept_trans (h1 h2 h3 : heap) : kept h1 h2 -> kept h2 h3 -> kept h1 h3.
Proof. intros H1 H2 c H. auto. Qed.
Lemma kept_put (h : heap) c v : kept h (put h c (Some v)).
Proof. intros c' H. unfold put. destruct (Nat.eqb c' c); [discriminate|exact H]. Qed.

Lemma fetch_all_heap xs : forall h w, snd (fst (fst (alone U (fetch_all xs) h w))) = h.
Proof.
  induction xs as [|[x b] xs IH]; intros h w; [reflexivity|]. cbn [fetch_all]. rewrite alone_bind.
  assert (E : snd (fst (fst (alone U (fetch x) h w))) = h) by (destruct x as [v|c]; cbn; [reflexivity|]; now destruct (h c)).
  destruct (alone U (fetch x) h w) as [[[[v| |] h1] w1] l1]; cbn in E; subst h1; try reflexivity.
  rewrite alone_bind. specialize (IH h w1). destruct (alone U (fetch_all xs) h w1) as [[[[vs| |] h2] w2] l2]; cbn in *; auto.
Qed.

Lemma core_fills g c xs h w : forall x h' w' l, alone U (core_prog U g c xs) h w = (Ok x, h', w', l) -> kept h h' /\ h' c <> None.
Proof.
  intros x h' w' l E. unfold core_prog in E. cbn [alone] in E.
  destruct (negb (is_some (h c)) || fst (any xs (pure1 (fun x : rv * bool => snd x)) tt)) eqn:Ec.
  - rewrite alone_bind in E. pose proof (fetch_all_heap xs h w) as Hh.
    destruct (alone U (fetch_all xs) h w) as [[[[vs| |] h1] w1] l1]; try discriminate. cbn in Hh. subst h1. cbn [alone] in E.
    destruct (call_fn U g (fst (transform as_tuple vs (pure1 lr_value) tt)) w1) as [[[result|] w2] l2]; cbn [alone] in E; try discriminate.
    rewrite alone_bind in E. unfold differs_from in E.
    destruct (h c); cbn [alone] in E; injection E as <- <- <- <-; (split; [apply kept_put|unfold put; rewrite Nat.eqb_refl; discriminate]).
  - cbn [alone] in E. injection E as <- <- <- <-. split; [apply kept_refl|]. intros H. rewrite H in Ec. discriminate.
Qed.

Lemma call_fills n : forall h w x h' w' l, alone U (call U n) h w = (Ok x, h', w', l) ->
  kept h h' /\ forall c, In c (locs n) -> h' c <> None.
Proof.
  induction n as [v ch|g c deps IH] using node_ind'; intros h w x h' w' l E.
  - cbn in E. injection E as <- <- <- <-. split; [apply kept_refl|]. intros c [].
  - cbn [call] in E. fold (calls U) in E. rewrite alone_bind in E.
    assert (HD : forall h w xs h' w' l, alone U (calls U deps) h w = (Ok xs, h', w', l) -> kept h h' /\ forall c, In c (flat_map locs deps) -> h' c <> None).
    { clear -IH. induction IH as [|d deps Hd _ IHd]; intros h w xs h' w' l E.
      - cbn in E. injection E as <- <- <- <-. split; [apply kept_refl|]. intros c [].
      - cbn [calls calls_with] in E. fold (calls U) in E. rewrite alone_bind in E.
        destruct (alone U (call U d) h w) as [[[[y| |] h1] w1] l1] eqn:E1; try discriminate.
        rewrite alone_bind in E.
        destruct (alone U (calls U deps) h1 w1) as [[[[ys| |] h2] w2] l2] eqn:E2; try discriminate.
        cbn in E. injection E as <- <- <- <-. destruct (Hd _ _ _ _ _ _ E1) as [K1 F1]. destruct (IHd _ _ _ _ _ _ E2) as [K2 F2].
        split; [eapply kept_trans; eauto|]. intros c Hc. cbn in Hc. apply in_app_or in Hc. destruct Hc; auto. }
    destruct (alone U (calls U deps) h w) as [[[[xs| |] h1] w1] l1] eqn:E1; try discriminate.
    destruct (alone U (core_prog U g c xs) h1 w1) as [[[r h2] w2] l2] eqn:E2. injection E as -> <- <- <-.
    destruct (HD _ _ _ _ _ _ E1) as [K1 F1]. destruct (core_fills _ _ _ _ _ _ _ _ _ E2) as [K2 F2].
    split; [eapply kept_trans; eauto|]. intros c' Hc. cbn [locs] in Hc. apply in_app_or in Hc. destruct Hc as [Hc|[<-|[]]]; auto.
Qed.

Theorem call_settles zero (n : node) (h : heap) w v h' w' l : made zero n -> no_plain n ->
  alone U (call_api U n) h w = (Ok v, h', w', l) -> settled h' n = true.
Proof.
  intros Hm Hp E. apply (settled_iff zero); [exact Hm|]. split; [exact Hp|]. unfold call_api in E. rewrite alone_bind in E.
  destruct (alone U (call U n) h w) as [[[[[x b]| |] h1] w1] l1] eqn:E1; try discriminate. rewrite alone_bind in E. cbn [fst] in E.
  assert (Eh : snd (fst (fst (alone U (fetch x) h1 w1))) = h1) by (destruct x as [v0|c]; cbn; [reflexivity|]; now destruct (h1 c)).
  destruct (alone U (fetch x) h1 w1) as [[[[v0| |] h2] w2] l2]; try discriminate. cbn in Eh. subst h2. cbn in E.
  injection E as <- <- <- <-. exact (proj2 (call_fills _ _ _ _ _ _ _ E1)).
Qed.

(** ** Races *)

(** What a thread may do, whatever it reads. *)
Fixpoint local {X} (p : prog X) (acts : list action) (p' : prog X) : Prop :=
  match acts with
  | [] => p' = p
  | a :: acts' => exists h w p1 h1 w1, tstep U p h w = Some (a, p1, h1, w1) /\ local p1 acts' p'
  end.

Lemma local_app {X} (p : prog X) a1 : forall p1 a2 p2, local p a1 p1 -> local p1 a2 p2 -> local p (a1 ++ a2) p2.
Proof.
  revert p. induction a1 as [|a a1 IH]; intros p p1 a2 p2 H1 H2; cbn [local app] in *; [now subst|].
  destruct H1 as (h & w & q & h1 & w1 & E & H). exists h, w, q, h1, w1. split; [exact E|]. eapply IH; eauto.
Qed.

Lemma interleave_local {X} sched : forall (s : conf A W fid did X) s' tr, interleave U sched s = (s', tr) ->
  forall i p, nth_error (threads s) i = Some p -> exists p', nth_error (threads s') i = Some p' /\ local p (acts_of i tr) p'.
Proof.
  induction sched as [|t sched IH]; intros s s' tr E i p Hp; cbn [interleave] in E.
  - injection E as <- <-. exists p. split; [exact Hp|reflexivity].
  - destruct (turn_step U t s) as [s1 tr1] eqn:E1. destruct (interleave U sched s1) as [s2 tr2] eqn:E2.
    injection E as <- <-.
    assert (H1 : exists p1, nth_error (threads s1) i = Some p1 /\ local p (acts_of i tr1) p1).
    { destruct t as [j|f]; cbn [turn_step] in E1; [|injection E1 as <- <-; exists p; split; [exact Hp|reflexivity]].
      destruct (nth_error (threads s) j) as [q|] eqn:Eq; [|injection E1 as <- <-; exists p; split; [exact Hp|reflexivity]].
      destruct (tstep U q (mem s) (wrld s)) as [[[[a q'] h'] w']|] eqn:Et; [|injection E1 as <- <-; exists p; split; [exact Hp|reflexivity]].
      injection E1 as <- <-. cbn [threads]. rewrite nth_error_update. unfold acts_of. cbn [filter fst].
      destruct (Nat.eqb_spec j i) as [->|Hne].
      - rewrite Hp in Eq. injection Eq as <-. destruct (Nat.ltb_spec i (length (threads s))) as [_|Hl].
        + exists q'. split; [reflexivity|]. cbn. do 5 eexists. split; [exact Et|reflexivity].
        + apply nth_error_None in Hl. congruence.
      - exists p. split; [exact Hp|reflexivity]. }
    destruct H1 as (p1 & Hp1 & L1). destruct (IH _ _ _ E2 i p1 Hp1) as (p2 & Hp2 & L2). exists p2. split; [exact Hp2|].
    rewrite acts_of_app. eapply local_app; eauto.
Qed.

Lemma local_bind {X Y} (f : X -> prog Y) acts : forall (p : prog X) y, local (bind p f) acts (Ret y) ->
  exists a1 a2 x, acts = a1 ++ a2 /\ local p a1 (Ret x) /\ local (f x) a2 (Ret y).
Proof.
  induction acts as [|a acts IH]; intros p y H; cbn [local] in H.
  - destruct p as [x| | |c k|c o p|g args k|x' y' k]; cbn [bind] in H; try discriminate. exists [], [], x. split; [reflexivity|]. split; [reflexivity|exact H].
  - destruct H as (h & w & q & h1 & w1 & E & H).
    destruct p as [x| | |c k|c o p|g args k|x' y' k]; cbn [bind tstep] in E; try discriminate.
    + exists [], (a :: acts), x. split; [reflexivity|]. split; [reflexivity|]. cbn [local]. eauto 7.
    + injection E as <- <- <- <-. destruct (IH _ _ H) as (a1 & a2 & x & -> & L1 & L2). exists (ALoad c (h c) :: a1), a2, x.
      split; [reflexivity|]. split; [|exact L2]. cbn [local]. exists h, w. cbn [tstep]. eauto 6.
    + injection E as <- <- <- <-. destruct (IH _ _ H) as (a1 & a2 & x & -> & L1 & L2). exists (AStore c o :: a1), a2, x.
      split; [reflexivity|]. split; [|exact L2]. cbn [local]. exists h, w. cbn [tstep]. eauto 6.
    + destruct (call_fn U g args w) as [[r w2] lg] eqn:Ec. injection E as <- <- <- <-.
      destruct (IH _ _ H) as (a1 & a2 & x & -> & L1 & L2). exists (ACall g args w :: a1), a2, x.
      split; [reflexivity|]. split; [|exact L2]. cbn [local]. exists h, w. cbn [tstep]. rewrite Ec. eauto 6.
    + injection E as <- <- <- <-. destruct (IH _ _ H) as (a1 & a2 & x & -> & L1 & L2). exists (ACmp x' y' :: a1), a2, x.
      split; [reflexivity|]. split; [|exact L2]. cbn [local]. exists h, w. cbn [tstep]. eauto 6.
Qed.

Lemma local_catching {X Y} (f : res X -> prog Y) acts : forall (p : prog X) y, local (catching p f) acts (Ret y) ->
  exists a1 a2, acts = a1 ++ a2 /\
    ((exists x, local p a1 (Ret x) /\ local (f (Ok x)) a2 (Ret y)) \/ (local p a1 Throw /\ local (f Exc) a2 (Ret y))).
Proof.
  induction acts as [|a acts IH]; intros p y H; cbn [local] in H.
  - destruct p as [x| | |c k|c o p|g args k|x' y' k]; cbn [catching] in H; try discriminate; exists [], []; (split; [reflexivity|]).
    + left. exists x. split; [reflexivity|]. exact H.
    + right. split; [reflexivity|]. exact H.
  - destruct H as (h & w & q & h1 & w1 & E & H).
    destruct p as [x| | |c k|c o p|g args k|x' y' k]; cbn [catching tstep] in E; try discriminate.
    + exists [], (a :: acts). split; [reflexivity|]. left. exists x. split; [reflexivity|]. cbn [local]. eauto 7.
    + exists [], (a :: acts). split; [reflexivity|]. right. split; [reflexivity|]. cbn [local]. eauto 7.
    + injection E as <- <- <- <-. destruct (IH _ _ H) as (a1 & a2 & -> & L). exists (ALoad c (h c) :: a1), a2.
      split; [reflexivity|]. destruct L as [(x & L1 & L2)|[L1 L2]]; [left; exists x|right]; (split; [|exact L2]); cbn [local]; exists h, w; cbn [tstep]; eauto 6.
    + injection E as <- <- <- <-. destruct (IH _ _ H) as (a1 & a2 & -> & L). exists (AStore c o :: a1), a2.
      split; [reflexivity|]. destruct L as [(x & L1 & L2)|[L1 L2]]; [left; exists x|right]; (split; [|exact L2]); cbn [local]; exists h, w; cbn [tstep]; eauto 6.
    + destruct (call_fn U g args w) as [[r w2] lg] eqn:Ec. injection E as <- <- <- <-.
      destruct (IH _ _ H) as (a1 & a2 & -> & L). exists (ACall g args w :: a1), a2.
      split; [reflexivity|]. destruct L as [(x & L1 & L2)|[L1 L2]]; [left; exists x|right]; (split; [|exact L2]); cbn [local]; exists h, w; cbn [tstep]; rewrite Ec; eauto 6.
    + injection E as <- <- <- <-. destruct (IH _ _ H) as (a1 & a2 & -> & L). exists (ACmp x' y' :: a1), a2.
      split; [reflexivity|]. destruct L as [(x & L1 & L2)|[L1 L2]]; [left; exists x|right]; (split; [|exact L2]); cbn [local]; exists h, w; cbn [tstep]; eauto 6.
Qed.

(** What every call that returns does at the cache [c]: it looks at it, and fills it if it
    is empty. *)
Definition looks (c : loc) (acts : list action) : Prop :=
  (exists o, In (ALoad c o) acts) /\
  ((exists v, In (ALoad c (Some v)) acts) \/ exists v, In (AStore c (Some v)) acts).
Lemma looks_l c a1 a2 : looks c a1 -> looks c (a1 ++ a2).
Proof.
  intros [[o H1] H2]. split; [exists o; apply in_or_app; auto|].
  destruct H2 as [[v H]|[v H]]; [left|right]; exists v; apply in_or_app; auto.
Qed.
Lemma looks_r c a1 a2 : looks c a2 -> looks c (a1 ++ a2).
Proof.
  intros [[o H1] H2]. split; [exists o; apply in_or_app; auto|].
  destruct H2 as [[v H]|[v H]]; [left|right]; exists v; apply in_or_app; auto.
Qed.

Lemma core_local g c xs acts y : local (core_prog U g c xs) acts (Ret y) ->
  looks c acts /\ (existsb snd xs = true -> exists v, In (AStore c (Some v)) acts).
Proof.
  intros H. unfold core_prog in H. destruct acts as [|a acts]; cbn [local] in H; [discriminate|].
  destruct H as (h & w & q & h1 & w1 & E & H). cbn [tstep] in E. injection E as <- <- <- <-.
  assert (Ea : fst (any xs (pure1 (fun x : rv * bool => snd x)) tt) = existsb snd xs).
  { clear. induction xs as [|[x b] xs IH]; [reflexivity|]. cbn in *. destruct b; [reflexivity|exact IH]. }
  rewrite Ea in H.
  destruct (negb (is_some (h c)) || existsb snd xs) eqn:Ec.
  - assert (Hst : exists v, In (AStore c (Some v)) acts).
    { apply local_bind in H. destruct H as (a1 & a2 & vs & -> & _ & H).
      destruct a2 as [|a a2]; cbn [local] in H; [discriminate|]. destruct H as (h2 & w2 & q & h3 & w3 & E & H).
      cbn [tstep] in E. destruct (call_fn U g _ w2) as [[r w4] lg]. injection E as <- <- <- <-.
      destruct r as [result|].
      2:{ destruct a2 as [|b a2]; cbn in H; [discriminate|]. destruct H as (? & ? & ? & ? & ? & E & _). discriminate. }
      destruct a2 as [|b a2]; cbn [local] in H; [discriminate|]. destruct H as (h5 & w5 & q & h6 & w6 & E & H).
      cbn [tstep] in E. injection E as <- <- <- <-. apply local_bind in H. destruct H as (a3 & a4 & ch & -> & _ & H).
      destruct a4 as [|a a4]; cbn [local] in H; [discriminate|]. destruct H as (h7 & w7 & q & h8 & w8 & E & H).
      cbn [tstep] in E. injection E as <- <- <- <-. exists result. apply in_or_app. right. right. right. apply in_or_app. right. now left. }
    destruct Hst as [v Hv]. split; [|intros _; exists v; now right]. split; [exists (h c); now left|]. right. exists v. now right.
  - apply orb_false_iff in Ec. destruct Ec as [Ec1 Ec2]. split; [|congruence]. split; [exists (h c); now left|].
    left. destruct (h c) as [v|]; [|discriminate]. exists v. now left.
Qed.

Lemma call_local n : forall acts x, local (call U n) acts (Ret x) -> forall c, In c (locs n) -> looks c acts.
Proof.
  induction n as [v ch|g c deps IH] using node_ind'; intros acts x H c' Hc; [destruct Hc|].
  cbn [call] in H. fold (calls U) in H. apply local_bind in H. destruct H as (a1 & a2 & xs & -> & H1 & H2).
  cbn [locs] in Hc. apply in_app_or in Hc. destruct Hc as [Hc|[<-|[]]].
  - apply looks_l. clear H2. revert a1 xs H1 Hc. induction IH as [|d deps Hd _ IHd]; intros a1 xs H1 Hc; [destruct Hc|].
    cbn [calls calls_with] in H1. fold (calls U) in H1. apply local_bind in H1. destruct H1 as (b1 & b2 & y & -> & L1 & L2).
    apply local_bind in L2. destruct L2 as (b3 & b4 & ys & -> & L3 & _). cbn in Hc. apply in_app_or in Hc. destruct Hc as [Hc|Hc].
    + apply looks_l. eapply Hd; eauto.
    + apply looks_r, looks_l. eapply IHd; eauto.
  - apply looks_r. exact (proj1 (core_local _ _ _ _ _ H2)).
Qed.

(** A plain function is called, and its result stored, at every call. *)
Lemma call_plain_local zero (n : node) : made zero n -> ~ no_plain n -> exists c, In c (locs n) /\
  forall acts x, local (call U n) acts (Ret x) -> exists v, In (AStore c (Some v)) acts.
Proof.
  induction n as [v ch|g c deps IH] using node_ind'; intros Hm Hn; [destruct Hn; exact I|].
  destruct g as [f|d].
  - apply made_sub in Hm. rewrite no_plain_sub in Hn.
    assert (Hex : exists c, In c (flat_map locs deps) /\
              forall acts xs, local (calls U deps) acts (Ret xs) -> exists v, In (AStore c (Some v)) acts).
    { clear -IH Hm Hn. revert Hm Hn. induction IH as [|m deps Hd _ IHd]; intros Hm Hn; [destruct Hn; constructor|].
      inversion Hm as [|? ? M1 M2]; subst.
      assert (Hdec : no_plain m \/ ~ no_plain m).
      { clear. induction m as [v ch|[f|d] c deps IH] using node_ind'; [left; exact I| |right; auto].
        rewrite no_plain_sub. induction IH as [|m deps [Hm|Hm] _ [IHd|IHd]]; [left; constructor|left; now constructor| | |];
          right; inversion 1; tauto. }
      destruct Hdec as [Hp|Hp].
      - destruct IHd as (c & Hc & H); [exact M2|intros HF; apply Hn; now constructor|]. exists c. split; [apply in_or_app; now right|].
        intros acts xs L. cbn [calls calls_with] in L. fold (calls U) in L. apply local_bind in L. destruct L as (b1 & b2 & y & -> & L1 & L2).
        apply local_bind in L2. destruct L2 as (b3 & b4 & ys & -> & L3 & _). destruct (H _ _ L3) as [v Hv]. exists v.
        apply in_or_app. right. apply in_or_app. now left.
      - destruct (Hd M1 Hp) as (c & Hc & H). exists c. split; [apply in_or_app; now left|].
        intros acts xs L. cbn [calls calls_with] in L. fold (calls U) in L. apply local_bind in L. destruct L as (b1 & b2 & y & -> & L1 & L2).
        destruct (H _ _ L1) as [v Hv]. exists v. apply in_or_app. now left. }
    destruct Hex as (c' & Hc & H). exists c'. cbn [locs call]. split; [apply in_or_app; now left|]. intros acts x L.
    fold (calls U) in L. apply local_bind in L. destruct L as (a1 & a2 & xs & -> & L1 & _). destruct (H _ _ L1) as [v Hv].
    exists v. apply in_or_app. now left.
  - cbn in Hm. subst deps. exists c. split; [now left|]. intros acts x L. cbn [call calls_with bind] in L.
    destruct (core_local _ _ _ _ _ L) as [_ H]. now apply H.
Qed.

(** A value that is read has been written, if it was not there before. *)
Lemma load_store {X} sched c : forall (s : conf A W fid did X) s' tr, interleave U sched s = (s', tr) ->
  mem s c = None -> forall i v, In (i, ALoad c (Some v)) tr -> exists k o, In (k, AStore c o) tr.
Proof.
  induction sched as [|t sched IH]; intros s s' tr E Hc i v Hi; cbn [interleave] in E.
  - injection E as <- <-. destruct Hi.
  - destruct (turn_step U t s) as [s1 tr1] eqn:E1. destruct (interleave U sched s1) as [s2 tr2] eqn:E2. injection E as <- <-.
    assert (H1 : (mem s1 c = None /\ ~ In (i, ALoad c (Some v)) tr1) \/ exists k o, In (k, AStore c o) tr1).
    { destruct t as [j|f]; cbn [turn_step] in E1; [|injection E1 as <- <-; left; split; auto].
      destruct (nth_error (threads s) j) as [q|]; [|injection E1 as <- <-; left; split; auto].
      destruct q as [x| | |c' k|c' o q|g args k|x y k]; cbn [tstep] in E1; try (injection E1 as <- <-; left; split; auto; fail).
      - injection E1 as <- <-. left. split; [exact Hc|]. intros [E|[]]. injection E as <- <- E. congruence.
      - injection E1 as <- <-. cbn [mem]. destruct (Nat.eq_dec c c') as [->|Hne].
        + right. exists j, o. now left.
        + left. unfold put. destruct (Nat.eqb_spec c c'); [congruence|]. split; [exact Hc|]. intros [E|[]]. discriminate.
      - destruct (call_fn U g args (wrld s)) as [[r w1] lg]. injection E1 as <- <-. left. split; [exact Hc|]. intros [E|[]]. discriminate.
      - injection E1 as <- <-. left. split; [exact Hc|]. intros [E|[]]. discriminate. }
    destruct H1 as [[Hc1 Hn]|(k & o & Hk)]; [|exists k, o; apply in_or_app; now left].
    apply in_app_or in Hi. destruct Hi as [Hi|Hi]; [contradiction|]. destruct (IH _ _ _ E2 Hc1 _ _ Hi) as (k & o & Hk).
    exists k, o. apply in_or_app. now right.
Qed.

Lemma classic_settled zero (n : node) (h : heap) : made zero n -> settled h n = false ->
  (exists c, In c (locs n) /\ h c = None) \/ ~ no_plain n.
Proof.
  intros Hm Hs.
  assert (Hd : (exists c, In c (locs n) /\ h c = None) \/ forall c, In c (locs n) -> h c <> None).
  { induction (locs n) as [|c l IH]; [right; intros c []|]. destruct (h c) as [v|] eqn:E; [|left; exists c; split; [now left|exact E]].
    destruct IH as [(c' & Hc & Hn)|IH]; [left; exists c'; split; [now right|exact Hn]|right]. intros c' [<-|Hc]; [congruence|auto]. }
  destruct Hd as [Hd|Hd]; [now left|]. right. intros Hp. assert (H : settled h n = true) by (apply (settled_iff zero); auto). congruence.
Qed.

(** Two threads call the same lazy function, and get something: a race, unless it is
    settled. *)
Theorem race zero (n : node) (h : heap) w (thr : list (list top)) i j vi vj sched s' tr :
  made zero n -> settled h n = false -> i <> j ->
  nth_error thr i = Some [TCall n] -> nth_error thr j = Some [TCall n] ->
  interleave U sched (mkConf (map (thread U) thr) h w) = (s', tr) ->
  nth_error (threads s') i = Some (Ret [Ok vi]) -> nth_error (threads s') j = Some (Ret [Ok vj]) ->
  racy tr.
Proof.
  intros Hm Hs Hij Ei Ej E Ri Rj.
  assert (HL : forall k v, nth_error thr k = Some [TCall n] -> nth_error (threads s') k = Some (Ret [Ok v]) ->
            exists a1 a2 x, acts_of k tr = a1 ++ a2 /\ local (call U n) a1 (Ret x)).
  { intros k v Ek Rk. destruct (interleave_local _ _ _ _ E k (thread U [TCall n])) as (p' & Ep & L).
    { cbn [threads]. now rewrite nth_error_map, Ek. }
    rewrite Rk in Ep. injection Ep as <-. cbn [thread] in L. apply local_catching in L.
    destruct L as (a1 & a2 & Ea & [(x & L1 & _)|[_ L2]]).
    - unfold call_api in L1. apply local_bind in L1. destruct L1 as (b1 & b2 & y & -> & L1 & _).
      exists b1, (b2 ++ a2), y. split; [now rewrite app_assoc|exact L1].
    - cbn [bind] in L2. destruct a2 as [|a a2]; cbn in L2; [discriminate|]. destruct L2 as (? & ? & ? & ? & ? & E' & _). discriminate. }
  destruct (HL i vi Ei Ri) as (a1 & a2 & x & Eai & Li). destruct (HL j vj Ej Rj) as (b1 & b2 & y & Eaj & Lj).
  assert (Hi : forall a, In a a1 -> In (i, a) tr) by (intros a Ha; apply acts_in; rewrite Eai; apply in_or_app; auto).
  assert (Hj : forall a, In a b1 -> In (j, a) tr) by (intros a Ha; apply acts_in; rewrite Eaj; apply in_or_app; auto).
  assert (Hc : exists c, In c (locs n) /\ exists k o, In (k, AStore c o) tr).
  { destruct (classic_settled zero n h Hm Hs) as [(c & Hc & Hnone)|Hp].
    - exists c. split; [exact Hc|]. destruct (call_local _ _ _ Li c Hc) as [_ [[v Hv]|[v Hv]]].
      + eapply load_store; [exact E|exact Hnone|exact (Hi _ Hv)].
      + exists i, (Some v). auto.
    - destruct (call_plain_local zero n Hm Hp) as (c & Hc & H). exists c. split; [exact Hc|].
      destruct (H _ _ Li) as [v Hv]. exists i, (Some v). auto. }
  destruct Hc as (c & Hc & k & o & Hk).
  destruct (call_local _ _ _ Li c Hc) as [[oi Hoi] _]. destruct (call_local _ _ _ Lj c Hc) as [[oj Hoj] _].
  destruct (Nat.eq_dec k i) as [->|Hne].
  - exists i, j, c, o, (ALoad c oj). cbn. auto.
  - exists k, i, c, o, (ALoad c oi). cbn. auto.
Qed.
(** ** Empty caches are never read through a reference *)
(** What a thread does when the caches of [F] are filled and stay so. *)
Fixpoint unbroken {X} (Q : (loc -> Prop) -> X -> Prop) (F : loc -> Prop) (p : prog X) : Prop :=
  match p with
  | Ret x => Q F x
  | Throw => True
  | Undefined => False
  | Load c k => forall o, (F c -> o <> None) -> unbroken Q (fun c' => F c' \/ c' = c /\ o <> None) (k o)
  | Store c o p' => o <> None /\ unbroken Q (fun c' => F c' \/ c' = c) p'
  | CallF _ _ k => forall r, unbroken Q F (k r)
  | Cmp _ _ k => forall b, unbroken Q F (k b)
  end.

Definition upward {X} (Q : (loc -> Prop) -> X -> Prop) : Prop :=
  forall (F F' : loc -> Prop) x, (forall c, F c -> F' c) -> Q F x -> Q F' x.

Lemma unbroken_mono {X} (Q : (loc -> Prop) -> X -> Prop) (p : prog X) : upward Q -> forall F F' : loc -> Prop,
  (forall c, F c -> F' c) -> unbroken Q F p -> unbroken Q F' p.
Proof.
  intros HQ. induction p as [x| | |c k IH|c o p IH|g args k IH|a b k IH]; intros F F' HF H; cbn [unbroken] in *.
  - eapply HQ; eauto.
  - exact I.
  - exact H.
  - intros o Ho. eapply (IH o); [|apply H; auto]. intros c' [Hc|Hc]; auto.
  - destruct H as [Ho H]. split; [exact Ho|]. eapply IH; [|exact H]. intros c' [Hc|Hc]; auto.
  - intros r. eapply IH; eauto.
  - intros r. eapply IH; eauto.
Qed.

Lemma unbroken_bind {X Y} (Q : (loc -> Prop) -> X -> Prop) (R : (loc -> Prop) -> Y -> Prop) (p : prog X) (f : X -> prog Y) :
  forall F : loc -> Prop, unbroken Q F p ->
  (forall (F' : loc -> Prop) x, (forall c, F c -> F' c) -> Q F' x -> unbroken R F' (f x)) -> unbroken R F (bind p f).
Proof.
  induction p as [x| | |c k IH|c o p IH|g args k IH|a b k IH]; intros F H Hf; cbn [unbroken bind] in *; auto.
  - destruct H as [Ho H]. split; [exact Ho|]. apply IH; [exact H|]. intros F' x HF. apply Hf. auto.
Qed.

Lemma unbroken_catching {X Y} (Q : (loc -> Prop) -> X -> Prop) (R : (loc -> Prop) -> Y -> Prop) (p : prog X) (f : res X -> prog Y) :
  forall F : loc -> Prop, unbroken Q F p ->
  (forall (F' : loc -> Prop) r, (forall c, F c -> F' c) -> unbroken R F' (f r)) -> unbroken R F (catching p f).
Proof.
  induction p as [x| | |c k IH|c o p IH|g args k IH|a b k IH]; intros F H Hf; cbn [unbroken catching] in *; auto.
  - destruct H as [Ho H]. split; [exact Ho|]. apply IH; [exact H|]. intros F' x HF. apply Hf. auto.
Qed.

Definition filled_ref (F : loc -> Prop) (x : rv * bool) : Prop := match fst x with Imm _ => True | At c => F c end.

Lemma filled_refs_mono : upward (fun F => Forall (filled_ref F)).
Proof. intros F F' xs HF. apply Forall_impl. intros [[v|c] b]; cbn; auto. Qed.

Lemma fetch_unbroken (F : loc -> Prop) (x : rv * bool) : filled_ref F x -> unbroken (fun _ _ => True) F (fetch (fst x)).
Proof.
  destruct x as [[v|c] b]; cbn; [auto|]. intros Hc o Ho. destruct o; [exact I|]. now apply Ho.
Qed.

Lemma fetch_all_unbroken (xs : list (rv * bool)) : forall F, Forall (filled_ref F) xs -> unbroken (fun _ _ => True) F (fetch_all xs).
Proof.
  induction xs as [|[x b] xs IH]; intros F H; [exact I|]. inversion H as [|? ? Hx Hxs]; subst. cbn [fetch_all].
  eapply unbroken_bind; [apply (fetch_unbroken F (x, b) Hx)|]. intros F' v HF _.
  eapply unbroken_bind; [apply IH; eapply filled_refs_mono; eauto|]. intros F'' vs _ _. exact I.
Qed.

Lemma calls_unbroken (ns : list node) : Forall (fun n => forall F, unbroken filled_ref F (call U n)) ns ->
  forall F, unbroken (fun F => Forall (filled_ref F)) F (calls U ns).
Proof.
  induction 1 as [|n ns Hn _ IH]; intros F; [constructor|]. cbn [calls calls_with]. fold (calls U).
  eapply unbroken_bind; [apply Hn|]. intros F' x HF Hx. eapply unbroken_bind; [apply IH|]. intros F'' xs HF' Hxs.
  constructor; [|exact Hxs]. destruct x as [[v|c] b]; cbn in *; auto.
Qed.

Lemma call_unbroken (n : node) : forall F, unbroken filled_ref F (call U n).
Proof.
  induction n as [v ch|g c deps IH] using node_ind'; intros F; [exact I|]. cbn [call]. fold (calls U).
  eapply unbroken_bind; [apply calls_unbroken; exact IH|]. intros F1 xs _ Hxs. cbn beta in Hxs. unfold core_prog. cbn [unbroken].
  intros o _. destruct (negb (is_some o) || fst (any xs (pure1 (fun x : rv * bool => snd x)) tt)) eqn:E.
  - eapply unbroken_bind; [apply fetch_all_unbroken; eapply filled_refs_mono; [|exact Hxs]; auto|]. intros F2 vs _ _. cbn [unbroken].
    intros [result|]; [|exact I]. cbn [unbroken]. intros o' _. eapply unbroken_bind with (Q := fun _ _ => True).
    + destruct o'; cbn; auto.
    + intros F3 b _ _. cbn [unbroken]. split; [discriminate|]. cbn. auto.
  - destruct o; [|discriminate]. cbn. right. split; [reflexivity|discriminate].
Qed.

Lemma thread_unbroken ops : Forall (fun o : top => match o with TCall _ => True | TCopy _ _ => False end) ops ->
  forall F, unbroken (fun _ _ => True) F (thread U ops).
Proof.
  induction 1 as [|o ops Ho _ IH]; intros F; cbn [thread]; [exact I|]. destruct o as [n|]; [|contradiction].
  eapply unbroken_catching with (Q := fun _ _ => True).
  - unfold call_api. eapply unbroken_bind; [apply call_unbroken|]. intros F' x _ Hx.
    eapply unbroken_bind; [apply fetch_unbroken; exact Hx|]. intros F'' v _ _. exact I.
  - intros F' r _. eapply unbroken_bind; [apply IH|]. intros F'' rs _ _. exact I.
Qed.

(** Were accesses to caches atomic, threads that call shared lazy functions would never
    read an empty cache through a reference, in whatever order they run. *)
Theorem never_empty (thr : list (list top)) h w sched s' tr :
  (forall ops o, In ops thr -> In o ops -> exists n, o = TCall n) ->
  interleave U sched (mkConf (map (thread U) thr) h w) = (s', tr) ->
  ~ In Undefined (threads s').
Proof.
  intros Hthr. set (Inv := fun s : conf A W fid did (list (res (option value))) =>
    Forall (unbroken (fun _ _ => True) (fun c => mem s c <> None)) (threads s)).
  assert (Hstep : forall t s s1 a, turn_step U t s = (s1, a) -> Inv s -> Inv s1).
  { intros [i|f] s s1 a E Hs; cbn [turn_step] in E; [|injection E as <- <-; exact Hs].
    destruct (nth_error (threads s) i) as [p|] eqn:Ei; [|injection E as <- <-; exact Hs].
    destruct (tstep U p (mem s) (wrld s)) as [[[[a' p'] h'] w']|] eqn:Et; [|injection E as <- <-; exact Hs].
    injection E as <- <-. unfold Inv in *. cbn [threads mem].
    assert (Hp : unbroken (fun _ _ => True) (fun c => mem s c <> None) p)
      by (rewrite Forall_forall in Hs; apply Hs; eapply nth_error_In; eauto).
    assert (Hnew : unbroken (fun _ _ => True) (fun c => h' c <> None) p' /\ forall c, mem s c <> None -> h' c <> None).
    { destruct p as [x| | |c k|c o p0|g args k|x y k]; cbn [tstep unbroken] in *; try discriminate.
      - injection Et as <- <- <- <-. split; [|auto]. eapply unbroken_mono; [intros ? ? ? ? ?; exact I| |apply Hp; auto].
        intros c' [Hc|[-> Hc]]; auto.
      - injection Et as <- <- <- <-. destruct Hp as [Ho Hp]. assert (Hc : forall c', mem s c' <> None \/ c' = c -> put (mem s) c o c' <> None).
        { intros c' H. unfold put. destruct (Nat.eqb_spec c' c) as [->|Hn]; [exact Ho|]. destruct H as [H|H]; [exact H|contradiction]. }
        split; [|auto]. eapply unbroken_mono; [intros ? ? ? ? ?; exact I|exact Hc|exact Hp].
      - destruct (call_fn U g args (wrld s)) as [[r w1] lg]. injection Et as <- <- <- <-. auto.
      - injection Et as <- <- <- <-. auto. }
    destruct Hnew as [Hp' Hm].
    assert (Hrest : Forall (unbroken (fun _ _ => True) (fun c => h' c <> None)) (threads s)).
    { eapply Forall_impl; [|exact Hs]. intros q. apply unbroken_mono; [intros ? ? ? ? ?; exact I|exact Hm]. }
    clear -Hrest Hp'. revert i. induction Hrest as [|q qs Hq Hqs IH]; intros [|i]; cbn; constructor; auto. }
  assert (Hall : forall sched s s' tr, interleave U sched s = (s', tr) -> Inv s -> Inv s').
  { induction sched0 as [|t sched0 IH]; intros s s1 tr0 E Hs; cbn [interleave] in E; [injection E as <- <-; exact Hs|].
    destruct (turn_step U t s) as [s2 tr2] eqn:E1. destruct (interleave U sched0 s2) as [s3 tr3] eqn:E2.
    injection E as <- <-. eapply IH; eauto. }
  intros E Hin. assert (H0 : Inv (mkConf (map (thread U) thr) h w)).
  { unfold Inv. cbn [threads mem]. apply Forall_forall. intros p Hp. apply in_map_iff in Hp. destruct Hp as (ops & <- & Hops).
    apply thread_unbroken. apply Forall_forall. intros o Ho. destruct (Hthr ops o Hops Ho) as (n & ->). exact I. }
  specialize (Hall _ _ _ _ E H0). unfold Inv in Hall. rewrite Forall_forall in Hall. exact (Hall _ Hin).
Qed.
End Threads.

(** ** What goes wrong with shared lazy functions, even if accesses to caches were atomic *)
Definition tu : user nat nat nat nat :=
  mkUser (fun f args w => (FRet (Some (match args with x :: _ => x | [] => VAtom f end)), w))
         (fun d w => (VRet (VAtom w), w)) Nat.eqb 0.
Definition turns (l : list nat) : list (turn nat) := map Turn l.

(** A lazy function without dependencies. *)
Definition once_node : node nat nat nat := NCore (FnUser 7) 0 [].
(** A lazy function of a plain function. *)
Definition plain_node : node nat nat nat := NCore (FnUser 8) 1 [NCore (FnSample 9) 0 [NValue (VAtom 0) true]].

Definition calls_of (f : nat) (tr : list (nat * action nat nat nat nat)) : nat :=
  length (filter (fun x => match snd x with ACall (FnUser g) _ _ => Nat.eqb g f | _ => false end) tr).

Theorem once_refuted : exists sched,
  made 0 once_node /\ undisturbed sched /\ reads_only tu /\
  let r := interleave tu sched (mkConf (map (thread tu) [[TCall once_node]; [TCall once_node]]) (fun _ => None) 0) in
  threads (fst r) = [Ret [Ok (Some (VAtom 7))]; Ret [Ok (Some (VAtom 7))]] /\ calls_of 7 (snd r) = 2.
Proof.
  exists (turns [0; 1; 0; 1; 0; 1; 0; 1; 0; 1; 0; 1; 1; 1]). split; [exact I|].
  split; [repeat constructor; eexists; reflexivity|]. split; [split; reflexivity|].
  split; vm_compute; reflexivity.
Qed.

(** The caches are those of a call in the outside world [5]; now it is [6]. *)
Definition stale_heap : heap nat := fun c => if Nat.leb c 1 then Some (VAtom 5) else None.
Theorem stale_refuted : exists sched,
  made 0 plain_node /\ undisturbed sched /\ reads_only tu /\
  (let r := interleave tu sched (mkConf (map (thread tu) [[TCall plain_node]; [TCall plain_node]]) stale_heap 6) in
   threads (fst r) = [Ret [Ok (Some (VAtom 6))]; Ret [Ok (Some (VAtom 5))]]) /\
  fst (fst (fst (alone tu (thread tu [TCall plain_node]) stale_heap 6))) = Ok [Ok (Some (VAtom 6))].
Proof.
  exists (turns ([0; 0; 0; 0; 0] ++ repeat 1 12 ++ repeat 0 12)). split; [cbn; auto|].
  split; [apply Forall_forall; intros t Ht; apply in_map_iff in Ht; destruct Ht as (i & <- & _); eauto|].
  split; [split; reflexivity|]. split; vm_compute; reflexivity.
Qed.
