(** Proofs for C75. *)
From Coq Require Import List Bool Arith Lia Sorted.
From Verif Require Import Constraints ConstraintsSpec.
Import ListNotations.

Section Constraints.
Context {atom K : Type}.
Variable eqb : atom -> atom -> bool.
Hypothesis eqb_spec : forall a b, eqb a b = true <-> a = b.
Notation constr := (constr atom).
Notation cand := (cand atom K).

Lemma dnf_holds (v : atom -> bool) (c : constr) : holds_for v c <-> exists x, In x (dnf c) /\ forallb v x = true.
Proof.
  induction c as [a|p IHp q IHq|p IHp q IHq]; cbn [holds_for dnf].
  - split.
    + intros H. exists [a]. split; [now left|]. cbn. now rewrite H.
    + intros (x & [<-|[]] & H). cbn in H. now rewrite andb_true_r in H.
  - rewrite IHp, IHq. split.
    + intros [(x & Hx & Vx) (y & Hy & Vy)]. exists (x ++ y). split; [|rewrite forallb_app; now rewrite Vx, Vy].
      apply in_flat_map. exists x. split; [exact Hx|]. now apply in_map.
    + intros (z & Hz & Vz). apply in_flat_map in Hz. destruct Hz as (x & Hx & Hz).
      apply in_map_iff in Hz. destruct Hz as (y & <- & Hy). rewrite forallb_app in Vz.
      apply andb_true_iff in Vz. destruct Vz. split; eauto.
  - rewrite IHp, IHq. split.
    + intros [(x & Hx & Vx)|(x & Hx & Vx)]; exists x; split; auto; apply in_or_app; auto.
    + intros (x & Hx & Vx). apply in_app_or in Hx. destruct Hx; eauto.
Qed.

Lemma cnf_holds (v : atom -> bool) (c : constr) : holds_for v c <-> forallb (existsb v) (cnf c) = true.
Proof.
  induction c as [a|p IHp q IHq|p IHp q IHq]; cbn [holds_for cnf].
  - cbn. rewrite andb_true_r, orb_false_r. reflexivity.
  - rewrite IHp, IHq, forallb_app, andb_true_iff. reflexivity.
  - rewrite IHp, IHq. clear IHp IHq. rewrite <- orb_true_iff.
    assert (E : forallb (existsb v) (flat_map (fun x => map (app x) (cnf q)) (cnf p)) =
                forallb (existsb v) (cnf p) || forallb (existsb v) (cnf q)).
    { induction (cnf p) as [|x xs IH]; [reflexivity|]. cbn [flat_map forallb]. rewrite forallb_app, IH.
      assert (E : forallb (existsb v) (map (app x) (cnf q)) = existsb v x || forallb (existsb v) (cnf q)).
      { clear. induction (cnf q) as [|y ys IHy]; [cbn; now rewrite orb_true_r|]. cbn [map forallb].
        rewrite existsb_app, IHy. now destruct (existsb v x), (existsb v y). }
      rewrite E. now destruct (existsb v x), (forallb (existsb v) xs), (forallb (existsb v) (cnf q)). }
    now rewrite E.
Qed.

Theorem subsumes_iff (p q : constr) :
  subsumes eqb p q = true <-> forall v, holds_for v p -> holds_for v q.
Proof.
  unfold subsumes. rewrite forallb_forall. split.
  - intros H v Hp. apply dnf_holds in Hp. destruct Hp as (x & Hx & Vx). specialize (H x Hx).
    apply cnf_holds. rewrite forallb_forall in *. intros y Hy. specialize (H y Hy).
    apply existsb_exists in H. destruct H as (a & Ha & H). apply existsb_exists in H.
    destruct H as (b & Hb & E). apply eqb_spec in E. subst b. apply existsb_exists. eauto.
  - intros H x Hx. apply forallb_forall. intros y Hy.
    set (v := fun a => existsb (eqb a) x).
    assert (Hp : holds_for v p).
    { apply dnf_holds. exists x. split; [exact Hx|]. apply forallb_forall. intros a Ha.
      apply existsb_exists. exists a. split; [exact Ha|]. now apply eqb_spec. }
    apply H in Hp. apply cnf_holds in Hp. rewrite forallb_forall in Hp. specialize (Hp y Hy).
    apply existsb_exists in Hp. destruct Hp as (b & Hb & Hv). apply existsb_exists in Hv.
    destruct Hv as (a & Ha & E). apply eqb_spec in E. subst b.
    apply existsb_exists. exists a. split; [exact Ha|]. apply existsb_exists. exists a. split; [exact Hb|]. now apply eqb_spec.
Qed.

(** Nothing holds if no atomic constraint does. *)
Lemma holds_none (c : constr) : ~ holds_for (fun _ => false) c.
Proof. induction c; cbn; intuition discriminate. Qed.

Lemma at_least_iff strict (c d : cand) :
  at_least eqb strict c d = true <->
  (strict = true -> form c = form d) /\ (forall v, req_holds v (req c) -> req_holds v (req d)).
Proof.
  unfold at_least. rewrite andb_true_iff, orb_true_iff, negb_true_iff, Nat.eqb_eq.
  assert (E : strict = false \/ form c = form d <-> (strict = true -> form c = form d)).
  { destruct strict; intuition congruence. }
  rewrite E. clear E. destruct (req d) as [q|], (req c) as [p|]; cbn [req_holds].
  - rewrite subsumes_iff. reflexivity.
  - split; [now intros []|]. intros [_ H]. destruct (holds_none q). now apply H.
  - split; intros [H _]; split; auto.
  - split; intros [H _]; split; auto.
Qed.

Theorem more_iff strict (c d : cand) : more eqb strict c d = true <-> narrower strict c d.
Proof.
  unfold more, narrower. rewrite andb_true_iff, negb_true_iff, at_least_iff.
  assert (E : at_least eqb strict d c = false <-> ~ at_least eqb strict d c = true)
    by (destruct (at_least eqb strict d c); intuition congruence).
  rewrite E, at_least_iff. intuition.
Qed.

(** ** Chains *)
Lemma check_holds (v : atom -> tri) (c : constr) : (forall a, v a <> Hard) ->
  check v c <> Hard /\ (check v c = Yes <-> holds_for (yes v) c).
Proof.
  intros Hv. induction c as [a|p [P1 P2] q [Q1 Q2]|p [P1 P2] q [Q1 Q2]]; cbn [check holds_for].
  - split; [apply Hv|]. unfold yes. destruct (v a); intuition congruence.
  - destruct (check v p); intuition congruence.
  - destruct (check v p); intuition congruence.
Qed.

Lemma viable_eq (v : atom -> tri) (cs : list cand) : (forall a, v a <> Hard) ->
  exists vs, viable v cs = Some vs /\
    ((vs = [] /\ Forall (fun d => ~ req_holds (yes v) (req d)) cs) \/
     exists c vs', vs = c :: vs' /\ first_holding v cs c) /\
    (forall R, StronglySorted R cs -> StronglySorted R vs) /\ (forall P, Forall P cs -> Forall P vs).
Proof.
  intros Hv. induction cs as [|c cs IH]; cbn [viable].
  - exists []. repeat split; auto.
  - assert (Hc : match (match req c with None => Yes | Some p => check v p end) with
                 | Yes => req_holds (yes v) (req c) | No => ~ req_holds (yes v) (req c) | Hard => False end).
    { destruct (req c) as [p|]; cbn [req_holds]; [|exact I].
      destruct (check_holds v p Hv) as [H1 H2]. destruct (check v p); [now apply H2| |congruence].
      intros H. apply H2 in H. discriminate. }
    destruct IH as (vs & E & HP & HS & HF).
    destruct (match req c with None => Yes | Some p => check v p end).
    + rewrite E. cbn [option_map]. exists (c :: vs). split; [reflexivity|]. split; [|split].
      * right. exists c, vs. split; [reflexivity|]. exists [], cs. repeat split; auto.
      * intros R H. inversion H; subst. constructor; auto.
      * intros P H. inversion H; subst. constructor; auto.
    + exists vs. split; [exact E|]. split; [|split].
      * destruct HP as [[-> HP]|(c' & vs' & -> & pre & post & -> & H1 & H2)]; [left|right].
        -- split; [reflexivity|]. now constructor.
        -- exists c', vs'. split; [reflexivity|]. exists (c :: pre), post. repeat split; auto.
      * intros R H. inversion H; subst. auto.
      * intros P H. inversion H; subst. auto.
    + contradiction.
Qed.

Lemma splits_in {X} (l : list X) : forall pre x o, In (x, o) (splits pre l) ->
  forall y, In y pre -> In y o.
Proof.
  induction l as [|a l IH]; intros pre x o H y Hy; [destruct H|]. cbn [splits] in H. destruct H as [E|H].
  - injection E as <- <-. apply in_or_app. left. now apply -> in_rev.
  - eapply IH; [exact H|]. now right.
Qed.
Lemma splits_elem {X} (l : list X) : forall pre x o, In (x, o) (splits pre l) -> In x l.
Proof.
  induction l as [|a l IH]; intros pre x o H; [destruct H|]. cbn [splits] in H. destruct H as [E|H].
  - injection E as <- _. now left.
  - right. eapply IH; exact H.
Qed.

Lemma filter_none {X} (f : X -> bool) l : (forall x, In x l -> f x = false) -> filter f l = [].
Proof.
  induction l as [|x l IH]; intros H; [reflexivity|]. cbn. rewrite (H x (or_introl eq_refl)). apply IH.
  intros y Hy. apply H. now right.
Qed.

Theorem chain strict (v : atom -> tri) (cs : list cand) :
  (forall a, v a <> Hard) -> StronglySorted (narrower strict) cs ->
  (exists c, first_holding v cs c /\ resolve eqb strict v cs = Chosen (what c)) \/
  (Forall (fun d => ~ req_holds (yes v) (req d)) cs /\ resolve eqb strict v cs = NoMatch).
Proof.
  intros Hv Hs. unfold resolve. destruct (viable_eq v cs Hv) as (vs & -> & HP & HS & _).
  apply HS in Hs. clear HS. destruct HP as [[-> HP]|(c & vs' & -> & Hf)]; [now right|]. left.
  exists c. split; [exact Hf|]. inversion Hs as [|? ? _ Hc]; subst.
  cbn [splits filter fst snd rev app].
  assert (E : forallb (more eqb strict c) vs' = true).
  { apply forallb_forall. intros d Hd. apply more_iff. rewrite Forall_forall in Hc. now apply Hc. }
  rewrite E, filter_none; [reflexivity|].
  intros [x o] Hx. cbn [fst snd]. pose proof (splits_in _ _ _ _ Hx c (or_introl eq_refl)) as Hi.
  apply splits_elem in Hx. rewrite Forall_forall in Hc. specialize (Hc x Hx).
  apply not_true_is_false. intros Hall. rewrite forallb_forall in Hall. specialize (Hall c Hi).
  apply more_iff in Hall. destruct Hc as (_ & H1 & H2), Hall as (_ & H3 & H4). auto.
Qed.

(** ** In general *)
Lemma check_exact (v : atom -> tri) (c : constr) :
  (check v c = Hard <-> asks_error v c) /\ (check v c <> Hard -> (check v c = Yes <-> holds_for (yes v) c)).
Proof.
  induction c as [a|p [P1 P2] q [Q1 Q2]|p [P1 P2] q [Q1 Q2]]; cbn [check holds_for asks_error].
  - split; [reflexivity|]. unfold yes. destruct (v a); intuition congruence.
  - destruct (check v p).
    + assert (Hp : holds_for (yes v) p) by (apply P2; congruence).
      assert (Np : ~ asks_error v p) by (intros H; apply P1 in H; discriminate).
      split; [rewrite Q1; tauto|]. intros H. rewrite (Q2 H). tauto.
    + assert (Hp : ~ holds_for (yes v) p) by (intros H; apply P2 in H; congruence).
      assert (Np : ~ asks_error v p) by (intros H; apply P1 in H; discriminate).
      split; [split; [discriminate|tauto]|]. intros _. split; [discriminate|tauto].
    + assert (Np : asks_error v p) by now apply P1. split; [tauto|congruence].
  - destruct (check v p).
    + assert (Hp : holds_for (yes v) p) by (apply P2; congruence).
      assert (Np : ~ asks_error v p) by (intros H; apply P1 in H; discriminate).
      split; [split; [discriminate|tauto]|]. tauto.
    + assert (Hp : ~ holds_for (yes v) p) by (intros H; apply P2 in H; congruence).
      assert (Np : ~ asks_error v p) by (intros H; apply P1 in H; discriminate).
      split; [rewrite Q1; tauto|]. intros H. rewrite (Q2 H). tauto.
    + assert (Np : asks_error v p) by now apply P1. split; [tauto|congruence].
Qed.

Definition verdict (v : atom -> tri) (c : cand) : tri := match req c with None => Yes | Some p => check v p end.
Lemma verdict_exact v c :
  (verdict v c = Hard <-> req_error v (req c)) /\ (verdict v c <> Hard -> (verdict v c = Yes <-> req_holds (yes v) (req c))).
Proof.
  unfold verdict. destruct (req c) as [p|]; cbn [req_error req_holds]; [apply check_exact|].
  split; [split; [discriminate|tauto]|tauto].
Qed.
Definition verdict_yes v c : bool := match verdict v c with Yes => true | _ => false end.

Lemma viable_exact (v : atom -> tri) (cs : list cand) :
  viable v cs = None /\ Exists (fun c => req_error v (req c)) cs \/
  viable v cs = Some (filter (verdict_yes v) cs) /\ Forall (fun c => ~ req_error v (req c)) cs.
Proof.
  induction cs as [|c cs IH]; cbn [viable filter]; [right; auto|].
  destruct (verdict_exact v c) as [H1 H2]. unfold verdict_yes at 1. fold (verdict v c). destruct (verdict v c) eqn:E.
  - destruct IH as [[-> IH]|[-> IH]]; [left|right]; (split; [reflexivity|]).
    + now apply Exists_cons_tl.
    + constructor; [|exact IH]. intros H. apply H1 in H. discriminate.
  - destruct IH as [[-> IH]|[-> IH]]; [left|right]; (split; [reflexivity|]).
    + now apply Exists_cons_tl.
    + constructor; [|exact IH]. intros H. apply H1 in H. discriminate.
  - left. split; [reflexivity|]. apply Exists_cons_hd. now apply H1.
Qed.

Lemma splits_iff {X} (l : list X) : forall pre x o,
  In (x, o) (splits pre l) <-> exists a b, l = a ++ x :: b /\ o = rev pre ++ a ++ b.
Proof.
  induction l as [|y l IH]; intros pre x o; cbn [splits].
  - split; [intros []|]. intros (a & b & E & _). destruct a; discriminate.
  - cbn [In]. rewrite IH. cbn [rev]. split.
    + intros [E|(a & b & -> & ->)].
      * injection E as <- <-. exists [], l. auto.
      * exists (y :: a), b. split; [reflexivity|]. now rewrite <- !app_assoc.
    + intros (a & b & E & ->). destruct a as [|y' a]; cbn in E; injection E as <- ->.
      * left. reflexivity.
      * right. exists a, b. split; [reflexivity|]. now rewrite <- !app_assoc.
Qed.

(** At most one is better than all others. *)
Lemma best_unique strict (l : list cand) : forall pre, (forall x y : cand, more eqb strict x y = true -> more eqb strict y x = false) ->
  length (filter (fun x => forallb (more eqb strict (fst x)) (snd x)) (splits pre l)) <= 1.
Proof.
  induction l as [|c l IH]; intros pre Hm; [cbn; lia|]. cbn [splits filter fst snd].
  destruct (forallb (more eqb strict c) (rev pre ++ l)) eqn:E; [|apply IH; exact Hm].
  rewrite filter_none; [cbn; lia|]. intros [x o] Hx. cbn [fst snd].
  apply not_true_is_false. intros Hall. rewrite forallb_forall in Hall, E.
  pose proof (splits_in _ _ _ _ Hx c (or_introl eq_refl)) as Hi. specialize (Hall c Hi).
  apply splits_elem in Hx. apply Hm in Hall. rewrite (E x) in Hall; [discriminate|]. apply in_or_app. now right.
Qed.

Lemma more_asym strict (x y : cand) : more eqb strict x y = true -> more eqb strict y x = false.
Proof. unfold more. destruct (at_least eqb strict x y), (at_least eqb strict y x); cbn; congruence. Qed.

(** Filtering a list with a distinguished element. *)
Lemma filter_split {X} (f : X -> bool) (l : list X) : forall a x b, filter f l = a ++ x :: b ->
  exists a' b', l = a' ++ x :: b' /\ a = filter f a' /\ b = filter f b' /\ f x = true.
Proof.
  induction l as [|y l IH]; intros a x b E; cbn [filter] in E; [destruct a; discriminate|].
  destruct (f y) eqn:Ey.
  - destruct a as [|z a]; cbn in E.
    + injection E as <- <-. exists [], l. auto.
    + injection E as <- E. destruct (IH _ _ _ E) as (a' & b' & -> & -> & -> & Hx).
      exists (y :: a'), b'. cbn [filter app]. rewrite Ey. auto.
  - destruct (IH _ _ _ E) as (a' & b' & -> & -> & -> & Hx). exists (y :: a'), b'. cbn [filter app]. rewrite Ey. auto.
Qed.

Theorem resolution strict (v : atom -> tri) (cs : list cand) :
  (resolve eqb strict v cs = IllFormed <-> Exists (fun c => req_error v (req c)) cs) /\
  (resolve eqb strict v cs = NoMatch <-> Forall (fun c => ~ req_error v (req c) /\ ~ req_holds (yes v) (req c)) cs) /\
  (forall k, resolve eqb strict v cs = Chosen k <->
     Forall (fun c => ~ req_error v (req c)) cs /\ exists c, best strict v cs c /\ what c = k).
Proof.
  unfold resolve. destruct (viable_exact v cs) as [[-> He]|[-> Hn]].
  { assert (Hx : forall P : cand -> Prop, (forall c, P c -> ~ req_error v (req c)) -> ~ Forall P cs).
    { intros P HP HF. apply Exists_exists in He. destruct He as (c & Hc & H). rewrite Forall_forall in HF.
      exact (HP _ (HF _ Hc) H). }
    split; [split; auto|]. split.
    - split; [discriminate|]. intros H. apply Hx in H; [destruct H|]. intros c [H1 _]. exact H1.
    - intros k. split; [discriminate|]. intros [H _]. apply Hx in H; [destruct H|]. auto. }
  assert (Hy : forall c, In c cs -> (verdict_yes v c = true <-> req_holds (yes v) (req c))).
  { intros c Hc. rewrite Forall_forall in Hn. specialize (Hn c Hc). destruct (verdict_exact v c) as [H1 H2].
    rewrite <- H2; [|intros E; apply Hn; now apply H1]. unfold verdict_yes. destruct (verdict v c); intuition congruence. }
  assert (NE : ~ Exists (fun c => req_error v (req c)) cs).
  { intros He. apply Exists_exists in He. destruct He as (c & Hc & H). rewrite Forall_forall in Hn. exact (Hn c Hc H). }
  set (vs := filter (verdict_yes v) cs).
  set (good := filter (fun x => forallb (more eqb strict (fst x)) (snd x)) (splits [] vs)).
  assert (Hb : forall c o, In (c, o) good <-> exists a b, vs = a ++ c :: b /\ o = a ++ b /\ forall d, In d o -> narrower strict c d).
  { intros c o. unfold good. rewrite filter_In, splits_iff. cbn [fst snd rev app]. rewrite forallb_forall. split.
    - intros [(a & b & E & ->) H]. exists a, b. split; [exact E|]. split; [reflexivity|]. intros d Hd. apply more_iff. auto.
    - intros (a & b & E & -> & H). split; [eauto|]. intros d Hd. apply more_iff. auto. }
  assert (Hbest : forall c, (exists o, In (c, o) good) <-> best strict v cs c).
  { intros c. split.
    - intros (o & Ho). apply Hb in Ho. destruct Ho as (a & b & E & -> & H).
      destruct (filter_split _ _ _ _ _ E) as (a' & b' & Ec & -> & -> & Hc). exists a', b'.
      split; [exact Ec|]. split; [apply Hy; [rewrite Ec; apply in_elt|exact Hc]|].
      apply Forall_forall. intros d Hd Hh. apply H. rewrite <- filter_app. apply filter_In. split; [exact Hd|].
      apply Hy; [|exact Hh]. rewrite Ec. apply in_app_or in Hd. apply in_or_app. cbn [In]. tauto.
    - intros (pre & post & -> & Hc & Hall). exists (filter (verdict_yes v) pre ++ filter (verdict_yes v) post).
      apply Hb. exists (filter (verdict_yes v) pre), (filter (verdict_yes v) post). split; [|split; [reflexivity|]].
      + unfold vs. rewrite filter_app. cbn [filter]. apply Hy in Hc; [|apply in_elt]. now rewrite Hc.
      + intros d Hd. rewrite <- filter_app in Hd. apply filter_In in Hd. destruct Hd as [Hd Hv].
        rewrite Forall_forall in Hall. apply Hall; [exact Hd|]. apply Hy; [|exact Hv].
        apply in_app_or in Hd. apply in_or_app. cbn [In]. tauto. }
  assert (Hlen : length good <= 1) by (apply best_unique; apply more_asym).
  assert (Hnone : vs = [] <-> Forall (fun c => ~ req_error v (req c) /\ ~ req_holds (yes v) (req c)) cs).
  { split.
    - intros E. apply Forall_forall. intros c Hc. split; [rewrite Forall_forall in Hn; auto|]. intros Hh.
      apply Hy in Hh; [|exact Hc]. assert (Hi : In c vs) by (apply filter_In; auto). now rewrite E in Hi.
    - intros HF. apply filter_none. intros c Hc. rewrite Forall_forall in HF. destruct (HF c Hc) as [_ H].
      apply not_true_is_false. intros Ht. apply H. now apply Hy. }
  destruct vs as [|c0 vs'] eqn:Evs.
  - split; [split; [discriminate|tauto]|]. split; [split; [intros _; now apply Hnone|reflexivity]|].
    intros k. split; [discriminate|]. intros [_ (c & Hc & _)]. apply Hbest in Hc. destruct Hc as (o & Ho).
    apply Hb in Ho. destruct Ho as (a & b & E & _). destruct a; discriminate.
  - assert (NN : ~ Forall (fun c => ~ req_error v (req c) /\ ~ req_holds (yes v) (req c)) cs).
    { intros H. apply Hnone in H. discriminate. }
    clear Hnone Hb. revert Hlen Hbest. clearbody good. intros Hlen Hbest. destruct good as [|[c o] [|? ?]]; [| |cbn in Hlen; lia].
    + split; [split; [discriminate|tauto]|]. split; [split; [discriminate|tauto]|].
      intros k. split; [discriminate|]. intros [_ (c & Hc & _)]. apply Hbest in Hc. destruct Hc as (o & []).
    + cbn [fst]. split; [split; [discriminate|tauto]|]. split; [split; [discriminate|tauto]|].
      intros k. split.
      * intros E. injection E as <-. split; [exact Hn|]. exists c. split; [|reflexivity]. apply Hbest. exists o. now left.
      * intros [_ (c' & Hc & <-)]. apply Hbest in Hc. destruct Hc as (o' & [E|[]]). injection E as -> _. reflexivity.
Qed.
End Constraints.

(** ** Dependencies *)
Lemma datom_eqb_spec a b : datom_eqb a b = true <-> a = b.
Proof. destruct a, b; cbn; intuition congruence. Qed.

Definition lazy_probe (p : probe) : bool :=
  match p with Returns r => negb (r_void r) && r_value r && r_changed r | _ => false end.
Lemma lazy_probe_iff p : lazy_probe p = true <->
  exists r, p = Returns r /\ r_void r = false /\ r_value r = true /\ r_changed r = true.
Proof.
  destruct p as [|[a b c]|]; cbn; split; try discriminate; try (intros (r & E & _); discriminate).
  - rewrite !andb_true_iff, negb_true_iff. intros [[-> ->] ->]. eexists. repeat split; reflexivity.
  - intros (r & E & H1 & H2 & H3). injection E as <-. cbn in *. now subst.
Qed.

Lemma kind_eq strict d : ensure_lazy_kind strict d =
  match d AsLvalue Nullptr, d AsRvalue Nothing with
  | Error, _ | _, Error => IllFormed
  | _, NotCallable => Chosen KValue
  | p, Returns _ => Chosen (if lazy_probe p then KLazy else KFunction)
  end.
Proof.
  unfold ensure_lazy_kind, resolve.
  cbn [viable ensure_lazy_cands req check lazy_function_unwrapped check_dep].
  destruct (d AsLvalue Nullptr) as [|r|]; [|cbn [lazy_probe]; destruct (negb (r_void r) && r_value r && r_changed r)|];
    destruct (d AsRvalue Nothing) as [|r'|]; destruct strict; reflexivity.
Qed.

Theorem kind_exact strict d :
  (ensure_lazy_kind strict d = IllFormed <-> d AsLvalue Nullptr = Error \/ d AsRvalue Nothing = Error) /\
  (ensure_lazy_kind strict d = Chosen KLazy <->
   (exists r, d AsLvalue Nullptr = Returns r /\ r_void r = false /\ r_value r = true /\ r_changed r = true) /\
   exists r, d AsRvalue Nothing = Returns r) /\
  (ensure_lazy_kind strict d = Chosen KFunction <->
   d AsLvalue Nullptr <> Error /\
   ~ (exists r, d AsLvalue Nullptr = Returns r /\ r_void r = false /\ r_value r = true /\ r_changed r = true) /\
   exists r, d AsRvalue Nothing = Returns r) /\
  (ensure_lazy_kind strict d = Chosen KValue <-> d AsLvalue Nullptr <> Error /\ d AsRvalue Nothing = NotCallable) /\
  ensure_lazy_kind strict d <> Ambiguous /\ ensure_lazy_kind strict d <> NoMatch.
Proof.
  rewrite kind_eq, <- lazy_probe_iff.
  assert (HE : forall r : rtype, (exists r0, Returns r = Returns r0) <-> True) by (intros r; split; eauto).
  assert (HE1 : (exists r0, NotCallable = Returns r0) <-> False) by (split; [intros (? & ?); discriminate|tauto]).
  assert (HE2 : (exists r0, Error = Returns r0) <-> False) by (split; [intros (? & ?); discriminate|tauto]).
  destruct (d AsLvalue Nullptr) as [|r|] eqn:E1; [|destruct (lazy_probe (Returns r))|]; cbn [lazy_probe];
    destruct (d AsRvalue Nothing) as [|r'|] eqn:E2; rewrite ?HE, ?HE1, ?HE2; intuition congruence.
Qed.

(** Dependencies that the library can use. *)
Theorem accepted_exact strict d :
  (exists k, ensure_lazy_kind strict d = Chosen k /\ can_use d k = true) <->
  d AsLvalue Nullptr <> Error /\
  (d AsRvalue Nothing = NotCallable \/
   (exists r0, d AsRvalue Nothing = Returns r0) /\
   ((exists r, d AsLvalue Nullptr = Returns r /\ r_void r = false /\ r_value r = true /\ r_changed r = true) \/
    exists r, d AsLvalue Nothing = Returns r /\ r_void r = false)).
Proof.
  destruct (kind_exact strict d) as (HI & HL & HF & HV & HA & HN). split.
  - intros (k & E & Hu). destruct k; cbn [can_use] in Hu.
    + apply HL in E. destruct E as [E1 E2]. split; [destruct E1 as (r & E1 & _); congruence|]. right. split; [exact E2|]. now left.
    + apply HF in E. destruct E as (E1 & E2 & E3). split; [exact E1|]. right. split; [exact E3|]. right.
      destruct (d AsLvalue Nothing) as [|r|]; try discriminate. exists r. split; [reflexivity|]. now apply negb_true_iff.
    + apply HV in E. destruct E as [E1 E2]. split; [exact E1|]. now left.
  - intros (H1 & [H2|(H2 & H3)]).
    + exists KValue. split; [now apply HV|reflexivity].
    + destruct H3 as [H3|H3].
      * exists KLazy. split; [now apply HL|]. destruct H3 as (r & E & R1 & R2 & R3). cbn [can_use]. now rewrite E, R1, R2, R3.
      * assert (D : (exists r, d AsLvalue Nullptr = Returns r /\ r_void r = false /\ r_value r = true /\ r_changed r = true) \/
                    ~ (exists r, d AsLvalue Nullptr = Returns r /\ r_void r = false /\ r_value r = true /\ r_changed r = true)).
        { destruct (d AsLvalue Nullptr) as [|[a b c]|]; [right|destruct a, b, c|right];
            try (left; eexists; repeat split; reflexivity); try right; intros (r & E & E1 & E2 & E3); try discriminate;
            injection E as <-; discriminate. }
        destruct D as [D|D].
        -- exists KLazy. split; [now apply HL|]. destruct D as (r & E & R1 & R2 & R3). cbn [can_use]. now rewrite E, R1, R2, R3.
        -- exists KFunction. split; [now apply HF|]. destruct H3 as (r & E & R). cbn [can_use]. now rewrite E, R.
Qed.

(** By [std::ref]. *)
Theorem ref_exact strict d :
  (ensure_lazy_kind strict (ref_type d) = Chosen KFunction <->
   d AsLvalue Nullptr <> Error /\
   ~ (exists r, d AsLvalue Nullptr = Returns r /\ r_void r = false /\ r_value r = true /\ r_changed r = true) /\
   exists r, d AsLvalue Nothing = Returns r) /\
  (forall k, ensure_lazy_kind strict (ref_type d) = Chosen k -> can_use (ref_type d) k = false ->
   k = KFunction /\ exists r, d AsLvalue Nothing = Returns r /\ r_void r = true).
Proof.
  destruct (kind_exact strict (ref_type d)) as (HI & HL & HF & HV & HA & HN). split; [exact HF|].
  intros k E Hu. destruct k.
  - apply HL in E. destruct E as [(r & E & R1 & R2 & R3) _]. cbn [can_use] in Hu. rewrite E, R1, R2, R3 in Hu. discriminate.
  - split; [reflexivity|]. apply HF in E. destruct E as (_ & _ & r & E). unfold ref_type in *. cbn [can_use] in Hu.
    rewrite E in Hu. exists r. split; [exact E|]. now apply negb_false_iff.
  - discriminate.
Qed.

Theorem own_types strict r :
  ensure_lazy_kind strict (lazy_type r) = Chosen KLazy /\
  ensure_lazy_kind strict (ref_type (lazy_type r)) = Chosen KLazy /\
  ensure_lazy_kind strict detail_type = Chosen KValue.
Proof. destruct strict; repeat split; reflexivity. Qed.

Theorem element_exact e :
  element_kind false e = Chosen (if e then KEmpty else KStored) /\
  element_kind true e = if e then Ambiguous else Chosen KStored.
Proof. destruct e; split; reflexivity. Qed.

(** ** What one might expect *)
Definition int_type : rtype := mkR false false false.
(** Function objects whose call operator is for lvalues, or for rvalues, only. *)
Definition lvalue_only : dtype :=
  fun c g => match c, g with AsLvalue, Nothing => Returns int_type | _, _ => NotCallable end.
Definition rvalue_only : dtype :=
  fun c g => match c, g with AsRvalue, Nothing => Returns int_type | _, _ => NotCallable end.

Theorem called_refuted : exists d r,
  d AsLvalue Nothing = Returns r /\ r_void r = false /\ d AsLvalue Nullptr = NotCallable /\
  forall strict, ensure_lazy_kind strict d = Chosen KValue.
Proof. exists lvalue_only, int_type. split; [reflexivity|]. split; [reflexivity|]. split; [reflexivity|]. intros [|]; reflexivity. Qed.

Theorem usable_refuted : exists d r,
  d AsRvalue Nothing = Returns r /\ r_void r = false /\ d AsLvalue Nullptr = NotCallable /\
  forall strict, ensure_lazy_kind strict d = Chosen KFunction /\ can_use d KFunction = false.
Proof. exists rvalue_only, int_type. split; [reflexivity|]. split; [reflexivity|]. split; [reflexivity|]. intros [|]; split; reflexivity. Qed.

(** [lazy_function<F> && std::is_invocable_v<F>] instead of [... && std::invocable<F>]. *)
Definition trait_cands : list (cand datom dkind) :=
  [mkCand 0 (Some (CAnd (CAtom ALazy) (CAtom AIsInvocable))) KLazy;
   mkCand 0 (Some (CAtom AInvocable)) KFunction;
   mkCand 0 None KValue].
Theorem trait_ambiguous strict r : resolve datom_eqb strict (check_dep (lazy_type r)) trait_cands = Ambiguous.
Proof. destruct strict; reflexivity. Qed.
