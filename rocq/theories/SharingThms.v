(** Proofs about lazy functions that share others by reference (C63). *)
From Coq Require Import List Bool Arith Lia.
From Verif Require Import Value TupleAlg TupleAlgProofs LazyModel LazySpec LazySpec2 LazyProofs LazyGeneral LazyThms
  SharedModel SharedProofs SharingSpec StreamThms.
Import ListNotations.

Section Sharing.
Context {A W fid did : Type}.
Notation value := (val A).
Notation event := (event A fid did).
Notation expr := (expr A fid did).
Notation lz := (lz A fid did).
Notation slz := (slz A fid did).
Notation sdep := (sdep A did).
Variable U : user A W fid did.
Variable pf : fid -> list value -> option value.
Variable rd : did -> W -> value.
Hypothesis Hpure : pure_user U pf rd.
Hypothesis Hexact : exact_eq U.
Notation eqb := (veq (aeq U)).

(** ** Trees without references *)
Fixpoint emb (l : lz) : slz :=
  match l with
  | LValue v ch => SValue v ch
  | LCore g c ds => SCore g c (map emb ds)
  end.

Lemma read_refs_emb vs ds rs : read_refs vs (map emb ds) rs = rs.
Proof.
  revert rs. induction ds as [|d ds IH]; intros [|r rs]; cbn [map read_refs]; try reflexivity.
  rewrite IH. now destruct d.
Qed.

Lemma emb_step n l : forall vs w,
  sstep U n (emb l) vs w = Some (let '(r, l', w', lg) := step U l w in (r, emb l', vs, w', lg)).
Proof.
  induction l as [v ch|g c ds IH] using lz_ind'; intros vs w.
  - rewrite sstep_eq. reflexivity.
  - rewrite sstep_eq, step_core. cbn [emb].
    assert (E : forall w, ssteps_with (sstep U n) (map emb ds) vs w
              = Some (let '(r, ls', w', lg) := steps U ds w in (r, map emb ls', vs, w', lg))).
    { clear -IH. induction IH as [|d ds Hd _ IHs]; intros w.
      - reflexivity.
      - cbn [map]. rewrite ssteps_cons, steps_cons, Hd.
        destruct (step U d w) as [[[[x| |] d'] w1] l1]; try reflexivity.
        rewrite IHs. destruct (steps U ds w1) as [[[[xs| |] ds'] w2] l2]; reflexivity. }
    rewrite E. destruct (steps U ds w) as [[[[xs| |] ds'] w1] l1]; try reflexivity.
    cbv zeta. rewrite ctad_none, read_refs_emb. destruct (core U g c xs w1) as [[[r c'] w2] l2]. reflexivity.
Qed.

(** ** Expressions last involved in a call at one moment *)
Lemma since_erase (o : option W) (e : expr) : erase (since o e) = e.
Proof.
  revert e. fix IH 1. intros [v|d|f es]; cbn; auto. f_equal.
  induction es as [|e es IHes]; cbn; auto. now rewrite IH, IHes.
Qed.

Lemma touch_since (w : W) o (e : expr) : touch w (since o e) = since (Some w) e.
Proof.
  revert e. fix IH 1. intros [v|d|f es]; cbn; auto. f_equal.
  induction es as [|e es IHes]; cbn; auto. now rewrite IH, IHes.
Qed.

Lemma fresh_rel (e : expr) : forall l, has_shape U e l -> fresh l -> rel U pf rd (since None e) l.
Proof.
  induction e as [v|d|f es IH] using expr_ind_deps; intros l Hs Hf; inversion Hs; subst.
  - constructor.
  - destruct (proj1 (fresh_core _ _ _) Hf) as [-> _]. exact (rel_fun U pf rd d None).
  - destruct (proj1 (fresh_core _ _ _) Hf) as [-> Hfs]. cbn [since].
    refine (rel_app U pf rd f None (map (since None) es) ls _ _); [|discriminate].
    clear -IH H2 Hfs. revert ls H2 Hfs. induction IH as [|e es He _ IHs]; intros ls H2 Hfs; inversion H2; subst.
    + constructor.
    + inversion Hfs; subst. cbn [map]. constructor; auto.
Qed.

Lemma since_step o (e : expr) l w :
  rel U pf rd (since o e) l -> regular pf rd e -> never_null pf rd e ->
  exists l', step U l w = (Ok (eval pf rd e w, differs pf rd eqb (since o e) w), l', w, expected pf rd eqb (since o e) w)
             /\ rel U pf rd (since (Some w) e) l'.
Proof.
  intros Hr Hreg Hnn.
  destruct (step_spec U pf rd Hpure Hexact (since o e) l w Hr) as (l' & Hs & Hr');
    rewrite ?since_erase; auto.
  rewrite since_erase in Hs. exists l'. split; auto. now rewrite touch_since in Hr'.
Qed.

(** ** The invariant *)
Variable es : list expr.
Variable cs : list (fid * list sdep).
Hypothesis Hsrc : Forall (of_sources (length es)) cs.
Hypothesis Hreg : Forall (regular pf rd) es.
Hypothesis Hnn : Forall (never_null pf rd) es.
Hypothesis Hcreg : Forall (fun c => regular pf rd (consumer_expr es c)) cs.
Hypothesis Hcnn : Forall (fun c => never_null pf rd (consumer_expr es c)) cs.

Notation history := (@history A W).
Notation lastw := (@last_world A W).

Definition source_ok (H : history) (j : nat) (e : expr) (l : slz) : Prop :=
  exists t, l = emb t /\ rel U pf rd (since (lastw H j) e) t.

Inductive dep_ok (o : option W) : sdep -> slz -> Prop :=
| dok_ref j : dep_ok o (SDRef j) (SRef j)
| dok_own s t : rel U pf rd (since o (dep_expr es (SDep s))) t -> dep_ok o (SDep s) (emb t).

Definition consumer_ok (H : history) (x : nat) (c : fid * list sdep) (l : slz) : Prop :=
  exists ds, l = SCore (FnUser (fst c)) (option_map snd (last_reached H x)) ds /\
             Forall2 (dep_ok (lastw H x)) (snd c) ds.

Definition inv (H : history) (vs : list slz) : Prop :=
  length vs = length es + length cs /\
  (forall j e, nth_error es j = Some e -> exists l, nth_error vs j = Some l /\ source_ok H j e l) /\
  (forall i c, nth_error cs i = Some c ->
     exists l, nth_error vs (length es + i) = Some l /\ consumer_ok H (length es + i) c l).

Lemma last_same (H : history) x w v : last_reached ((x, w, v) :: H) x = Some (w, v).
Proof. cbn. now rewrite Nat.eqb_refl. Qed.

Lemma last_other (H : history) x y w v : x <> y -> last_reached ((y, w, v) :: H) x = last_reached H x.
Proof. intros Hne. cbn. destruct (Nat.eqb_spec x y); [contradiction|reflexivity]. Qed.

Lemma inv_source H vs j e w v t :
  inv H vs -> nth_error es j = Some e -> rel U pf rd (since (Some w) e) t ->
  inv ((j, w, v) :: H) (update j (emb t) vs).
Proof.
  intros (Hlen & Hs & Hc) He Hr.
  assert (Hj : j < length es) by (apply nth_error_Some; congruence).
  split; [|split].
  - now rewrite update_length.
  - intros j' e' He'. destruct (Nat.eq_dec j' j) as [->|Hne].
    + rewrite He in He'. injection He' as <-. exists (emb t).
      rewrite nth_error_update, Nat.eqb_refl.
      assert (Hlt : j <? length vs = true) by (apply Nat.ltb_lt; lia). rewrite Hlt. split; auto.
      exists t. split; auto. unfold last_world. now rewrite last_same.
    + destruct (Hs _ _ He') as (l & Hl & t' & -> & Hr'). exists (emb t').
      rewrite nth_error_update. destruct (Nat.eqb_spec j j'); [congruence|]. destruct (Nat.eqb_spec j' j); [congruence|].
      split; auto. exists t'. split; auto. unfold last_world in *. now rewrite last_other.
  - intros i c Hi. destruct (Hc _ _ Hi) as (l & Hl & ds & -> & Hds). eexists.
    rewrite nth_error_update. destruct (Nat.eqb_spec j (length es + i)); [lia|].
    destruct (Nat.eqb_spec (length es + i) j); [lia|]. split; [exact Hl|].
    exists ds. unfold last_world. rewrite last_other by lia. split; auto.
Qed.

Lemma inv_consumer H vs i c w v ds :
  inv H vs -> nth_error cs i = Some c -> Forall2 (dep_ok (Some w)) (snd c) ds ->
  inv ((length es + i, w, v) :: H) (update (length es + i) (SCore (FnUser (fst c)) (Some v) ds) vs).
Proof.
  intros (Hlen & Hs & Hc) He Hr.
  assert (Hj : i < length cs) by (apply nth_error_Some; congruence).
  split; [|split].
  - now rewrite update_length.
  - intros j' e' He'. assert (j' < length es) by (apply nth_error_Some; congruence).
    destruct (Hs _ _ He') as (l & Hl & t' & -> & Hr'). exists (emb t').
    rewrite nth_error_update. destruct (Nat.eqb_spec (length es + i) j'); [lia|].
    destruct (Nat.eqb_spec j' (length es + i)); [lia|].
    split; auto. exists t'. split; auto. unfold last_world in *. rewrite last_other by lia. auto.
  - intros i' c' Hi. destruct (Nat.eq_dec i' i) as [->|Hne].
    + rewrite He in Hi. injection Hi as <-. eexists.
      rewrite nth_error_update, Nat.eqb_refl.
      assert (Hlt : length es + i <? length vs = true) by (apply Nat.ltb_lt; lia). rewrite Hlt.
      split; [reflexivity|]. exists ds. unfold last_world. rewrite last_same. auto.
    + destruct (Hc _ _ Hi) as (l & Hl & ds' & -> & Hds). eexists.
      rewrite nth_error_update. destruct (Nat.eqb_spec (length es + i) (length es + i')); [lia|].
      destruct (Nat.eqb_spec (length es + i') (length es + i)); [lia|]. split; [exact Hl|].
      exists ds'. unfold last_world. rewrite last_other by lia. split; auto.
Qed.

Definition dep_good (s : sdep) : Prop :=
  match s with SDRef j | SDep (DVar j) => j < length es | _ => True end /\
  regular pf rd (dep_expr es s) /\ never_null pf rd (dep_expr es s).

(** A source reached at [w] holds its value there. *)
Lemma read_source H vs j e w ch : inv H vs -> nth_error es j = Some e -> lastw H j = Some w ->
  read_ref vs (SRef j) (eval pf rd e w, ch) = (eval pf rd e w, ch).
Proof.
  intros (_ & Hs & _) He Hw. destruct (Hs _ _ He) as (l & Hl & t & -> & Hrel). rewrite Hw in Hrel.
  assert (E : match emb t with SCore _ (Some c) _ => c = eval pf rd e w | _ => True end).
  { clear - Hrel. destruct e as [v|d|f us]; cbn [since] in Hrel; inversion Hrel; subst; cbn [emb option_map]; auto.
    f_equal. f_equal. rewrite map_map. f_equal. rewrite <- (map_id us) at 2. apply map_ext. intros u. apply since_erase. }
  unfold read_ref. cbn [fst snd]. rewrite Hl. destruct (eval pf rd e w) eqn:Ev; try reflexivity;
    destruct (emb t) as [|g [c|] ds|]; try reflexivity; now rewrite E.
Qed.

Lemma reach_all_ok x n w : length es <= x -> forall ss H vs ds,
  inv H vs -> Forall dep_good ss -> Forall2 (dep_ok (lastw H x)) ss ds ->
  let '(rs, lg, H1) := reach_all pf rd eqb es H x ss w in
  exists ds' vs', ssteps_with (sstep U (S n)) ds vs w = Some (Ok rs, ds', vs', w, lg) /\
    Forall2 (dep_ok (Some w)) ss ds' /\ inv H1 vs' /\ last_reached H1 x = last_reached H x /\
    map fst rs = map (fun s => eval pf rd (dep_expr es s) w) ss /\
    (forall j, lastw H j = Some w -> lastw H1 j = Some w) /\ read_refs vs' ds' rs = rs.
Proof.
  intros Hx. induction ss as [|s ss IH]; intros H vs ds Hi Hg Hd; inversion Hd as [|? d ? ds0 Hd1 Hd2]; subst.
  - cbn. exists [], vs. repeat split; auto; apply Hi.
  - inversion Hg as [|? ? [Hb [Hr Hn]] Hg2]; subst. cbn [reach_all].
    unfold reach. cbv zeta.
    destruct Hd1 as [j|s t Hrel].
    + assert (Ej : exists e, nth_error es j = Some e).
      { destruct (nth_error es j) eqn:E; eauto. apply nth_error_None in E. lia. }
      destruct Ej as [e Ej].
      assert (Ed : dep_expr es (SDRef j) = e) by (cbn; now apply nth_error_nth).
      rewrite Ed in *. destruct Hi as (Hlen & Hs & Hc).
      destruct (Hs _ _ Ej) as (l & Hl & t & -> & Hrel).
      destruct (since_step _ e t w Hrel Hr Hn) as (t' & Hst & Hrel').
      pose proof (inv_source H vs j e w (eval pf rd e w) t' (conj Hlen (conj Hs Hc)) Ej Hrel') as Hi'.
      assert (Hlast : last_reached ((j, w, eval pf rd e w) :: H) x = last_reached H x) by (apply last_other; lia).
      specialize (IH _ _ ds0 Hi' Hg2). unfold last_world in IH. rewrite Hlast in IH. specialize (IH Hd2).
      destruct (reach_all pf rd eqb es ((j, w, eval pf rd e w) :: H) x ss w) as [[rs lg2] H2].
      destruct IH as (ds' & vs' & E & Hds' & Hi2 & Hl2 & Hv & Hlw & Hrr).
      assert (Hjw : lastw H2 j = Some w) by (apply Hlw; unfold last_world; now rewrite last_same).
      exists (SRef j :: ds'), vs'. rewrite ssteps_cons, sstep_eq, Hl, emb_step, Hst, E.
      repeat split; auto; try apply Hi2.
      * constructor; auto. constructor.
      * cbn [map fst]. now rewrite Hv, Ed.
      * intros j' Hj'. apply Hlw. unfold last_world in *. destruct (Nat.eq_dec j' j) as [->|Hne].
        -- now rewrite last_same.
        -- now rewrite last_other.
      * cbn [read_refs]. rewrite Hrr. f_equal. eapply read_source; eassumption.
    + destruct (since_step _ _ t w Hrel Hr Hn) as (t' & Hst & Hrel').
      specialize (IH _ _ ds0 Hi Hg2 Hd2).
      destruct (reach_all pf rd eqb es H x ss w) as [[rs lg2] H2].
      destruct IH as (ds' & vs' & E & Hds' & Hi2 & Hl2 & Hv & Hlw & Hrr).
      exists (emb t' :: ds'), vs'. rewrite ssteps_cons, emb_step, Hst, E.
      repeat split; auto; try apply Hi2.
      * constructor; auto. now constructor.
      * cbn [map fst]. now rewrite Hv.
      * cbn [read_refs]. rewrite Hrr. f_equal. now destruct t'.
Qed.

Lemma consumer_good c : In c cs -> Forall dep_good (snd c).
Proof.
  intros Hin. rewrite Forall_forall in Hsrc, Hcreg, Hcnn.
  specialize (Hsrc c Hin). specialize (Hcreg c Hin). specialize (Hcnn c Hin).
  apply regular_app in Hcreg as [_ H1]. apply all_results_app in Hcnn as [_ H2].
  unfold of_sources in Hsrc. rewrite Forall_forall in *.
  intros s Hs. split; [now apply Hsrc|]. split; [apply H1|apply H2]; now apply in_map.
Qed.

Lemma call_ok H vs x w : inv H vs -> x < length es + length cs ->
  exists v lg H1 l l' vs' r, shared_call pf rd eqb es cs H x w = Some (v, lg, H1) /\
    nth_error vs x = Some l /\ sstep U (length vs) l vs w = Some (r, l', vs', w, lg) /\
    api_result r = Ok (visible v) /\ inv H1 (update x l' vs').
Proof.
  intros Hi Hx. pose proof Hi as (Hlen & Hs & Hc). unfold shared_call.
  destruct (nth_error es x) as [e|] eqn:Ee.
  - destruct (Hs _ _ Ee) as (l & Hl & t & -> & Hrel).
    assert (Hr : regular pf rd e) by (rewrite Forall_forall in Hreg; apply Hreg; eapply nth_error_In; eauto).
    assert (Hn : never_null pf rd e) by (rewrite Forall_forall in Hnn; apply Hnn; eapply nth_error_In; eauto).
    destruct (since_step _ e t w Hrel Hr Hn) as (t' & Hst & Hrel').
    do 7 eexists. split; [reflexivity|]. split; [exact Hl|]. rewrite emb_step, Hst.
    split; [reflexivity|]. split; [apply api_result_visible|].
    eapply inv_source; eauto.
  - apply nth_error_None in Ee.
    destruct (nth_error cs (x - length es)) as [c|] eqn:Ec; [|apply nth_error_None in Ec; lia].
    pose proof (nth_error_In _ _ Ec) as Hin.
    destruct (Hc _ _ Ec) as (l & Hl & ds & -> & Hds).
    replace (length es + (x - length es)) with x in * by lia.
    assert (Hn : exists n, length vs = S n) by (exists (pred (length vs)); lia). destruct Hn as [n Hn].
    pose proof (reach_all_ok x n w Ee (snd c) H vs ds Hi (consumer_good c Hin) Hds) as Hra.
    unfold consume. destruct (reach_all pf rd eqb es H x (snd c) w) as [[rs lg] H1].
    destruct Hra as (ds' & vs' & E & Hds' & Hi1 & Hl1 & Hv & _ & Hrr).
    pose proof Hcreg as Hreg'. rewrite Forall_forall in Hreg'. specialize (Hreg' c Hin).
    pose proof Hcnn as Hnn'. rewrite Forall_forall in Hnn'. specialize (Hnn' c Hin).
    apply regular_app in Hreg' as [Hone _]. apply all_results_app in Hnn' as [Hnull _].
    assert (Hct : ctad_tuple as_tuple (map fst rs) = map fst rs).
    { apply ctad_regular. intros v0 Hv0. rewrite Hv0 in Hv.
      destruct (snd c) as [|s1 [|s2 ss]]; try discriminate. injection Hv as ->. apply Hone. }
    destruct Hpure as [Hsem _].
    assert (Hargs : fval pf (fst c) (map fst rs) = eval pf rd (consumer_expr es c) w).
    { cbn. rewrite Hv, map_map. reflexivity. }
    assert (Hstep : forall cache v b lg2,
      core U (FnUser (fst c)) cache rs w = (Ok (v, b), Some v, w, lg2) ->
      sstep U (S n) (SCore (FnUser (fst c)) cache ds) vs w
        = Some (Ok (v, b), SCore (FnUser (fst c)) (Some v) ds', vs', w, lg ++ lg2)).
    { intros cache v b lg2 Hcore. rewrite sstep_eq, E. cbv zeta. rewrite ctad_none, Hrr, Hcore. reflexivity. }
    assert (Hreg2 : regularized (FRet (pf (fst c) (map fst rs))) = VRet (fval pf (fst c) (map fst rs))).
    { unfold regularized, fval. now destruct (pf (fst c) _). }
    assert (Hinv : forall v, inv ((x, w, v) :: H1) (update x (SCore (FnUser (fst c)) (Some v) ds') vs')).
    { intros v. replace x with (length es + (x - length es)) by lia. apply inv_consumer; auto. }
    rewrite Hn.
    destruct (last_reached H x) as [[w0 old]|] eqn:El.
    + destruct (existsb snd rs) eqn:Ex.
      * do 7 eexists. split; [reflexivity|]. split; [exact Hl|]. cbn [option_map snd].
        erewrite Hstep.
        2:{ rewrite core_eq, Hct, Ex. cbn [is_some negb orb call_fn]. rewrite Hsem, Hreg2. reflexivity. }
        split; [reflexivity|]. split; [apply api_result_visible|]. apply Hinv.
      * do 7 eexists. split; [reflexivity|]. split; [exact Hl|]. cbn [option_map snd].
        erewrite Hstep.
        2:{ rewrite core_eq, Hct, Ex. cbn [is_some negb orb]. reflexivity. }
        split; [rewrite app_nil_r; reflexivity|]. split; [apply api_result_visible|]. apply Hinv.
    + do 7 eexists. split; [reflexivity|]. split; [exact Hl|]. cbn [option_map snd].
      erewrite Hstep.
      2:{ rewrite core_eq, Hct. cbn [is_some negb orb call_fn]. rewrite Hsem, Hreg2. reflexivity. }
      split; [reflexivity|]. split; [apply api_result_visible|]. apply Hinv.
Qed.

Lemma calls_ok calls : forall H vs w, inv H vs ->
  Forall (fun c => fst c < length es + length cs) calls ->
  exists outs H1 s, shared_calls pf rd eqb es cs H calls = Some (outs, H1) /\
    srun U (calls_in calls) (mkSState vs w) = Some (s, outputs_of_calls outs).
Proof.
  induction calls as [|[x w1] calls IH]; intros H vs w Hi Hb.
  - cbn. eauto.
  - inversion Hb as [|? ? Hx Hb2]; subst. cbn in Hx.
    destruct (call_ok H vs x w1 Hi Hx) as (v & lg & H1 & l & l' & vs' & r & Ec & Hl & Hst & Hr & Hi').
    destruct (IH _ _ w1 Hi' Hb2) as (outs & H2 & s & E1 & E2).
    cbn [shared_calls]. rewrite Ec, E1. do 3 eexists. split; [reflexivity|].
    cbn [calls_in flat_map app srun sexec svars sworld fst snd]. rewrite Hl, Hst.
    unfold calls_in in E2. rewrite E2. cbn [outputs_of_calls flat_map app fst snd]. rewrite Hr. reflexivity.
Qed.

(** ** Creation *)
Lemma emb_deps (es0 : list expr) ls ss : Forall2 (has_shape U) es0 ls -> Forall fresh ls ->
  forall us, spec_deps EConst EFun es0 ss = Some us ->
  exists ds, sdeps_of U (map emb ls) (map SDep ss) = Some (map emb ds) /\ Forall2 (has_shape U) us ds /\ Forall fresh ds.
Proof.
  intros Hs Hf. induction ss as [|s ss IH]; intros us Hu; cbn [spec_deps] in Hu.
  - injection Hu as <-. exists []. repeat split; constructor.
  - destruct (match s with DVar x => nth_error es0 x | DFun d => Some (EFun d) | DConst v => Some (EConst v) end)
      as [u|] eqn:Es; [|discriminate].
    destruct (spec_deps EConst EFun es0 ss) as [us'|]; [|discriminate]. injection Hu as <-.
    destruct (IH _ eq_refl) as (ds & Ed & Hds & Hfs).
    assert (H1 : exists d, sdep_of U (map emb ls) (SDep s) = Some (emb d) /\ has_shape U u d /\ fresh d).
    { destruct s as [x|d|v]; cbn.
      - destruct (Forall2_nth_error _ _ _ _ _ Hs Es) as (l & Hl & Hsh). exists l.
        rewrite nth_error_map, Hl. split; [reflexivity|]. split; auto. exact (fresh_nth _ _ _ Hf Hl).
      - injection Es as <-. exists (LCore (FnSample d) None [LValue (VAtom (int0 U)) true]).
        split; [reflexivity|]. split; [constructor|]. cbn. auto.
      - injection Es as <-. exists (LValue v false). split; [reflexivity|]. split; [constructor|exact I]. }
    destruct H1 as (d & Ed1 & Hd & Hfd). exists (d :: ds). cbn [map sdeps_of]. rewrite Ed1, Ed.
    repeat split; constructor; auto.
Qed.

Lemma create_sources p : forall es0 ls w es', no_call p -> shapes p es0 = Some es' ->
  Forall2 (has_shape U) es0 ls -> Forall fresh ls ->
  exists ls' w', srun U (map unshared p) (mkSState (map emb ls) w)
                 = Some (mkSState (map emb ls') w', repeat (None, []) (length p)) /\
    Forall2 (has_shape U) es' ls' /\ Forall fresh ls'.
Proof.
  induction p as [|o p IH]; intros es0 ls w es' Hn Hs Hsh Hf.
  - cbn in Hs. injection Hs as <-. exists ls, w. auto.
  - inversion Hn as [|? ? Ho Hn']; subst.
    destruct o as [f ss|x|x|h]; cbn [shapes] in Hs; [| |destruct Ho|]; cbn [map unshared srun sexec svars sworld length repeat].
    + destruct (spec_deps EConst EFun es0 ss) as [us|] eqn:Es; [|discriminate].
      destruct (emb_deps es0 ls ss Hsh Hf us Es) as (ds & Ed & Hds & Hfs). rewrite Ed.
      destruct (IH (es0 ++ [EApp f us]) (ls ++ [LCore (FnUser f) None ds]) w es' Hn' Hs) as (ls' & w' & E & H1 & H2).
      * apply Forall2_app; auto. repeat constructor; auto.
      * apply Forall_app. split; auto. constructor; auto. now apply fresh_core.
      * rewrite map_app in E. cbn [map emb] in E. rewrite E. exists ls', w'. auto.
    + destruct (nth_error es0 x) as [e|] eqn:Ee; [|discriminate].
      destruct (Forall2_nth_error _ _ _ _ _ Hsh Ee) as (l & Hl & Hel).
      rewrite nth_error_map, Hl. cbn [option_map].
      destruct (IH (es0 ++ [e]) (ls ++ [l]) w es' Hn' Hs) as (ls' & w' & E & H1 & H2).
      * apply Forall2_app; auto.
      * apply Forall_app. split; auto. constructor; auto. exact (fresh_nth _ _ _ Hf Hl).
      * rewrite map_app in E. cbn [map emb] in E. rewrite E. exists ls', w'. auto.
    + destruct (IH es0 ls (h w) es' Hn' Hs Hsh Hf) as (ls' & w' & E & H1 & H2).
      rewrite E. exists ls', w'. auto.
Qed.

Lemma consumer_deps (ls : list lz) ext ss : Forall2 (has_shape U) es ls -> Forall fresh ls ->
  Forall (fun s => match s with SDRef j | SDep (DVar j) => j < length es | _ => True end) ss ->
  exists ds, sdeps_of U (map emb ls ++ ext) ss = Some ds /\ Forall2 (dep_ok None) ss ds.
Proof.
  intros Hsh Hf. induction 1 as [|s ss Hs Hss IH].
  - exists []. split; [reflexivity|constructor].
  - destruct IH as (ds & Ed & Hds).
    assert (Hv : forall j, j < length es -> exists l, nth_error (map emb ls ++ ext) j = Some (emb l) /\
              rel U pf rd (since None (nth j es (EConst VVoid))) l).
    { intros j Hj. destruct (nth_error es j) as [e|] eqn:Ee; [|apply nth_error_None in Ee; lia].
      destruct (Forall2_nth_error _ _ _ _ _ Hsh Ee) as (l & Hl & Hel). exists l.
      rewrite nth_error_app1 by (apply nth_error_Some; rewrite nth_error_map, Hl; discriminate).
      rewrite nth_error_map, Hl. split; auto. rewrite (nth_error_nth _ _ _ Ee).
      apply fresh_rel; auto. exact (fresh_nth _ _ _ Hf Hl). }
    assert (H1 : exists d, sdep_of U (map emb ls ++ ext) s = Some d /\ dep_ok None s d).
    { destruct s as [j|[j|d|v]]; cbn.
      - destruct (Hv j Hs) as (l & -> & _). eexists; split; [reflexivity|constructor].
      - destruct (Hv j Hs) as (l & -> & Hr). eexists; split; [reflexivity|now constructor].
      - exists (emb (LCore (FnSample d) None [LValue (VAtom (int0 U)) true])). split; [reflexivity|].
        constructor. exact (rel_fun U pf rd d None).
      - exists (emb (LValue v false)). split; [reflexivity|]. constructor. constructor. }
    destruct H1 as (d & Ed1 & Hd). exists (d :: ds). cbn [sdeps_of]. rewrite Ed1, Ed. split; [reflexivity|now constructor].
Qed.

Lemma create_consumers (ls : list lz) : Forall2 (has_shape U) es ls -> Forall fresh ls ->
  forall l2 ext w, Forall (of_sources (length es)) l2 ->
  exists ext', srun U (creations l2) (mkSState (map emb ls ++ ext) w)
               = Some (mkSState (map emb ls ++ ext ++ ext') w, repeat (None, []) (length l2)) /\
    Forall2 (fun c l => exists ds, l = SCore (FnUser (fst c)) None ds /\ Forall2 (dep_ok None) (snd c) ds) l2 ext'.
Proof.
  intros Hsh Hf. induction l2 as [|c l2 IH]; intros ext w Hs.
  - exists []. rewrite app_nil_r. split; [reflexivity|constructor].
  - inversion Hs; subst. cbn [creations map srun sexec svars sworld length repeat].
    destruct (consumer_deps ls ext (snd c) Hsh Hf) as (ds & Ed & Hds); [assumption|].
    rewrite Ed. destruct (IH (ext ++ [SCore (FnUser (fst c)) None ds]) w) as (ext' & E & He); [assumption|].
    unfold creations in E. rewrite app_assoc in E. rewrite E.
    exists (SCore (FnUser (fst c)) None ds :: ext'). split.
    + now rewrite <- !app_assoc.
    + constructor; eauto.
Qed.

Lemma created_inv (ls : list lz) ext : Forall2 (has_shape U) es ls -> Forall fresh ls ->
  Forall2 (fun c l => exists ds, l = SCore (FnUser (fst c)) None ds /\ Forall2 (dep_ok None) (snd c) ds) cs ext ->
  inv [] (map emb ls ++ ext).
Proof.
  intros Hsh Hf He. pose proof (Forall2_length _ _ _ Hsh) as L1. pose proof (Forall2_length _ _ _ He) as L2.
  split; [|split].
  - rewrite app_length, map_length. lia.
  - intros j e Ee. destruct (Forall2_nth_error _ _ _ _ _ Hsh Ee) as (l & Hl & Hel). exists (emb l).
    rewrite nth_error_app1 by (apply nth_error_Some; rewrite nth_error_map, Hl; discriminate).
    rewrite nth_error_map, Hl. split; auto. exists l. split; auto.
    apply fresh_rel; auto. exact (fresh_nth _ _ _ Hf Hl).
  - intros i c Ec. destruct (Forall2_nth_error _ _ _ _ _ He Ec) as (l & Hl & ds & -> & Hds).
    eexists. rewrite nth_error_app2 by (rewrite map_length; lia).
    rewrite map_length, L1. replace (length ls + i - length ls) with i by lia.
    split; [exact Hl|]. exists ds. auto.
Qed.

Lemma srun_app p q : forall s, srun U (p ++ q) s =
  match srun U p s with
  | Some (s1, o1) => match srun U q s1 with Some (s2, o2) => Some (s2, o1 ++ o2) | None => None end
  | None => None
  end.
Proof.
  induction p as [|o p IH]; intros s; cbn [app srun].
  - destruct (srun U q s) as [[s2 o2]|]; reflexivity.
  - destruct (sexec U o s) as [[s1 o1]|]; [|reflexivity]. rewrite IH.
    destruct (srun U p s1) as [[s2 o2]|]; [|reflexivity].
    destruct (srun U q s2) as [[s3 o3]|]; reflexivity.
Qed.

Lemma exact_sharing_in p w calls : no_call p -> shapes p [] = Some es ->
  Forall (fun c => fst c < length es + length cs) calls ->
  exists s outs H, shared_calls pf rd eqb es cs [] calls = Some (outs, H) /\
    srun U (sharing_program p cs calls) (mkSState [] w)
    = Some (s, repeat (None, []) (length p + length cs) ++ outputs_of_calls outs).
Proof.
  intros Hn Hs Hb.
  destruct (create_sources p [] [] w es Hn Hs (Forall2_nil _) (Forall_nil _)) as (ls & w1 & E1 & Hsh & Hf).
  destruct (create_consumers ls Hsh Hf cs [] w1 Hsrc) as (ext & E2 & He).
  rewrite app_nil_r in E2. cbn [app] in E2.
  destruct (calls_ok calls [] _ w1 (created_inv ls ext Hsh Hf He) Hb) as (outs & H & s & E3 & E4).
  exists s, outs, H. split; auto. unfold sharing_program. cbn [map] in E1.
  rewrite srun_app, E1, srun_app, E2, E4. now rewrite repeat_app, app_assoc.
Qed.
End Sharing.

(** ** Consequences of the specification *)
Section Consequences.
Context {A W fid did : Type}.
Notation value := (val A).
Notation expr := (expr A fid did).
Notation sdep := (sdep A did).
Variable pf : fid -> list value -> option value.
Variable rd : did -> W -> value.
Variable eqb : value -> value -> bool.
Hypothesis eqb_spec : forall x y, eqb x y = true <-> x = y.
Variable es : list expr.
Variable cs : list (fid * list sdep).
Hypothesis Hsrc : Forall (of_sources (length es)) cs.
Notation eval := (eval pf rd).
Notation lastw := (@last_world A W).

Lemma differs_since w0 (e : expr) w : differs pf rd eqb (since (Some w0) e) w = false <-> eval e w0 = eval e w.
Proof.
  destruct e as [v|d|f es0]; cbn [since].
  - cbn. tauto.
  - unfold differs. cbn [last_of erase]. rewrite negb_false_iff. apply eqb_spec.
  - unfold differs. cbn [last_of]. rewrite negb_false_iff, eqb_spec.
    pose proof (since_erase (Some w0) (EApp f es0)) as E. cbn [since] in E. rewrite E. tauto.
Qed.

Definition ref_of (s : sdep) (j : nat) : bool := match s with SDRef i => Nat.eqb i j | _ => false end.

Lemma reach_all_facts x w : length es <= x -> forall ss H,
  Forall (fun s => match s with SDRef j | SDep (DVar j) => j < length es | _ => True end) ss ->
  let '(rs, lg, H1) := reach_all pf rd eqb es H x ss w in
  map fst rs = map (fun s => eval (dep_expr es s) w) ss /\
  (forall y, length es <= y -> last_reached H1 y = last_reached H y) /\
  (forall j, j < length es -> lastw H1 j = if existsb (fun s => ref_of s j) ss then Some w else lastw H j) /\
  ((forall s, In s ss -> exists w0, lastw H (match s with SDRef j => j | _ => x end) = Some w0 /\
                                    eval (dep_expr es s) w0 = eval (dep_expr es s) w) ->
   existsb snd rs = false) /\
  (existsb snd rs = false ->
   forall s w0, In s ss -> lastw H (match s with SDRef j => j | _ => x end) = Some w0 ->
                eval (dep_expr es s) w0 = eval (dep_expr es s) w).
Proof.
  intros Hx. induction ss as [|s ss IH]; intros H Hb.
  - cbn. repeat split; auto. contradiction.
  - inversion Hb as [|? ? Hs Hb2]; subst. cbn [reach_all]. unfold reach. cbv zeta.
    set (H0 := match s with SDRef j => (j, w, eval (dep_expr es s) w) :: H | _ => H end).
    specialize (IH H0 Hb2). destruct (reach_all pf rd eqb es H0 x ss w) as [[rs lg] H1].
    destruct IH as (I1 & I2 & I3 & I4 & I5).
    assert (Hy : forall y, length es <= y -> last_reached H0 y = last_reached H y).
    { intros y Hy. subst H0. destruct s as [j|s]; auto. apply last_other. lia. }
    assert (Hj : forall j, lastw H0 j = if ref_of s j then Some w else lastw H j).
    { intros j. subst H0. destruct s as [i|s]; auto. cbn [ref_of]. unfold last_world. cbn [last_reached].
      rewrite Nat.eqb_sym. now destruct (Nat.eqb i j). }
    assert (Hk : forall s', In s' ss -> exists o, lastw H0 (match s' with SDRef j => j | _ => x end) = o /\
               (o = Some w \/ o = lastw H (match s' with SDRef j => j | _ => x end))).
    { intros s' _. eexists; split; [reflexivity|]. destruct s' as [j|s'].
      - rewrite Hj. destruct (ref_of s j); auto.
      - right. unfold last_world. now rewrite Hy. }
    split; [cbn [map fst]; now rewrite I1|].
    split; [intros y Hy'; now rewrite I2, Hy|].
    split.
    { intros j Hjl. rewrite I3 by auto. cbn [existsb]. rewrite Hj. destruct (ref_of s j); cbn; auto.
      now destruct (existsb _ ss). }
    split.
    + intros Hall. cbn [existsb snd]. apply orb_false_iff. split.
      * destruct (Hall s (or_introl eq_refl)) as (w0 & -> & E). now apply differs_since.
      * apply I4. intros s' Hs'. destruct (Hk s' Hs') as (o & Eo & [->| ->]).
        -- exists w. auto.
        -- destruct (Hall s' (or_intror Hs')) as (w0 & E0 & E). exists w0. split; [now rewrite Eo|exact E].
    + cbn [existsb snd]. intros Hex. apply orb_false_iff in Hex as [Hd Hex]. intros s' w0 [<-|Hs'] E0.
      * rewrite E0 in Hd. now apply differs_since in Hd.
      * destruct (Hk s' Hs') as (o & Eo & [Ho|Ho]); rewrite Ho in Eo.
        -- (* reached by this very call *)
           destruct s' as [j|s'].
           ++ rewrite Hj in Eo. destruct (ref_of s j) eqn:Er.
              ** destruct s as [i|s]; [|discriminate]. cbn in Er. apply Nat.eqb_eq in Er. subst i.
                 rewrite E0 in Hd. now apply differs_since in Hd.
              ** rewrite E0 in Eo. injection Eo as ->. reflexivity.
           ++ unfold last_world in Eo, E0. rewrite Hy in Eo by auto. rewrite E0 in Eo. injection Eo as ->. reflexivity.
        -- apply (I5 Hex s' w0 Hs'). rewrite Eo. exact E0.
Qed.

Notation shared_call := (shared_call pf rd eqb es cs).
Notation shared_calls := (shared_calls pf rd eqb es cs).
Notation reaches := (reaches (length es) cs).
Notation history := (@history A W).

Lemma nth_consumer x c : length es <= x -> nth_error cs (x - length es) = Some c -> In c cs.
Proof. intros _. apply nth_error_In. Qed.

Lemma call_facts (H : history) x w v lg H1 : shared_call H x w = Some (v, lg, H1) ->
  (forall y, length es <= y -> y <> x -> last_reached H1 y = last_reached H y) /\
  (length es <= x -> last_reached H1 x = Some (w, v)) /\
  (forall j, j < length es ->
     (reaches x j /\ lastw H1 j = Some w) \/ (~ reaches x j /\ lastw H1 j = lastw H j)).
Proof.
  unfold SharingSpec.shared_call. destruct (nth_error es x) as [e|] eqn:Ee.
  - intros E. injection E as <- <- <-.
    assert (Hx : x < length es) by (apply nth_error_Some; congruence).
    split; [|split].
    + intros y Hy Hne. now apply last_other.
    + lia.
    + intros j Hj. destruct (Nat.eq_dec x j) as [->|Hne].
      * left. split; [now left|]. unfold last_world. now rewrite last_same.
      * right. split.
        -- intros [E|(i & c & -> & _)]; [congruence|lia].
        -- unfold last_world. now rewrite last_other by congruence.
  - apply nth_error_None in Ee. destruct (nth_error cs (x - length es)) as [c|] eqn:Ec; [|discriminate].
    unfold consume. pose proof (nth_error_In _ _ Ec) as Hin.
    pose proof (proj1 (Forall_forall _ _) Hsrc c Hin) as Hb.
    pose proof (reach_all_facts x w Ee (snd c) H Hb) as Hf.
    destruct (reach_all pf rd eqb es H x (snd c) w) as [[rs lg1] H2].
    destruct Hf as (_ & F2 & F3 & _ & _).
    intros E. assert (E1 : H1 = (x, w, v) :: H2).
    { destruct (last_reached H x) as [[w0 old]|]; [destruct (existsb snd rs)|]; injection E; congruence. }
    subst H1. split; [|split].
    + intros y Hy Hne. rewrite last_other by auto. now apply F2.
    + intros _. apply last_same.
    + intros j Hj. assert (Hl : lastw ((x, w, v) :: H2) j = lastw H2 j)
        by (unfold last_world; now rewrite last_other by lia).
      rewrite Hl, F3 by auto. destruct (existsb (fun s => ref_of s j) (snd c)) eqn:Ex.
      * left. split; auto. right. exists (x - length es), c. split; [lia|]. split; auto.
        apply existsb_exists in Ex as (s & Hs & Er). destruct s as [k|s]; [|discriminate].
        apply Nat.eqb_eq in Er. now subst k.
      * right. split; auto. intros [E1|(k & c' & E1 & Ec' & Hr)]; [lia|].
        assert (k = x - length es) by lia. subst k. rewrite Ec in Ec'. injection Ec' as <-.
        assert (Ht : existsb (fun s => ref_of s j) (snd c) = true).
        { apply existsb_exists. exists (SDRef j). split; auto. cbn. apply Nat.eqb_refl. }
        congruence.
Qed.

Lemma calls_other y calls : length es <= y -> forall (H : history) outs H1,
  shared_calls H calls = Some (outs, H1) -> (forall z w, In (z, w) calls -> z <> y) ->
  last_reached H1 y = last_reached H y.
Proof.
  intros Hy. induction calls as [|[x w] calls IH]; intros H outs H1 E Hne; cbn in E.
  - now injection E as _ <-.
  - destruct (shared_call H x w) as [[[v lg] H2]|] eqn:Ec; [|discriminate].
    destruct (shared_calls H2 calls) as [[outs2 H3]|] eqn:Es; [|discriminate]. injection E as <- <-.
    rewrite (IH _ _ _ Es) by (intros z wz Hz; apply (Hne z wz); now right).
    apply (call_facts _ _ _ _ _ _ Ec); auto. intros ->. apply (Hne x w); [now left|reflexivity].
Qed.

Lemma calls_reach (P : W -> Prop) j calls : j < length es -> forall (H : history) outs H1,
  shared_calls H calls = Some (outs, H1) ->
  (forall z w, In (z, w) calls -> reaches z j -> P w) ->
  (exists w0, lastw H j = Some w0 /\ P w0) \/ (exists z w, In (z, w) calls /\ reaches z j) ->
  exists w0, lastw H1 j = Some w0 /\ P w0.
Proof.
  intros Hj. induction calls as [|[x w] calls IH]; intros H outs H1 E HP Hor; cbn in E.
  - injection E as _ <-. destruct Hor as [?|(z & w & [] & _)]. assumption.
  - destruct (shared_call H x w) as [[[v lg] H2]|] eqn:Ec; [|discriminate].
    destruct (shared_calls H2 calls) as [[outs2 H3]|] eqn:Es; [|discriminate]. injection E as <- <-.
    apply (IH _ _ _ Es); [intros z wz Hz; apply HP; now right|].
    destruct (proj2 (proj2 (call_facts _ _ _ _ _ _ Ec)) j Hj) as [[Hr Hl]|[Hr Hl]].
    + left. exists w. split; auto. apply (HP x w); auto. now left.
    + destruct Hor as [(w0 & E0 & Hp)|(z & wz & [Hz|Hz] & Hrz)].
      * left. exists w0. split; auto. congruence.
      * injection Hz as -> ->. contradiction.
      * right. eauto.
Qed.

Lemma shared_calls_app a b : forall (H : history), shared_calls H (a ++ b) =
  match shared_calls H a with
  | Some (o1, H1) => match shared_calls H1 b with Some (o2, H2) => Some (o1 ++ o2, H2) | None => None end
  | None => None
  end.
Proof.
  induction a as [|[x w] a IH]; intros H; cbn.
  - destruct (shared_calls H b) as [[o2 H2]|]; reflexivity.
  - destruct (shared_call H x w) as [[[v lg] H2]|]; [|reflexivity]. rewrite IH.
    destruct (shared_calls H2 a) as [[o1 H3]|]; [|reflexivity].
    destruct (shared_calls H3 b) as [[o2 H4]|]; reflexivity.
Qed.

Lemma shared_calls_length calls : forall (H : history) outs H1,
  shared_calls H calls = Some (outs, H1) -> length outs = length calls.
Proof.
  induction calls as [|[x w] calls IH]; intros H outs H1 E; cbn in E.
  - now injection E as <- _.
  - destruct (shared_call H x w) as [[[v lg] H2]|]; [|discriminate].
    destruct (shared_calls H2 calls) as [[o2 H3]|] eqn:Es; [|discriminate]. injection E as <- <-.
    cbn. f_equal. eauto.
Qed.

(** The two calls of [y], and the history before the second. *)
Lemma two_calls i c calls1 w0 mid w outs H :
  nth_error cs i = Some c -> let y := length es + i in
  shared_calls [] (calls1 ++ (y, w0) :: mid ++ [(y, w)]) = Some (outs, H) ->
  (forall z wz, In (z, wz) mid -> z <> y) ->
  exists (H1 H2 H3 : history) o0 lg0 o lg outs2,
    shared_call H1 y w0 = Some (o0, lg0, H2) /\ shared_calls H2 mid = Some (outs2, H3) /\
    shared_call H3 y w = Some (o, lg, H) /\
    nth_error outs (length calls1) = Some (o0, lg0) /\
    nth_error outs (length calls1 + S (length mid)) = Some (o, lg) /\
    last_reached H2 y = Some (w0, o0) /\ last_reached H3 y = Some (w0, o0).
Proof.
  intros Hc y E Hne. rewrite shared_calls_app in E.
  destruct (shared_calls [] calls1) as [[o1 H1]|] eqn:E1; [|discriminate].
  cbn [SharingSpec.shared_calls] in E.
  destruct (shared_call H1 y w0) as [[[o0 lg0] H2]|] eqn:E2; [|discriminate].
  rewrite shared_calls_app in E. destruct (shared_calls H2 mid) as [[o3 H3]|] eqn:E3; [|discriminate].
  cbn [SharingSpec.shared_calls] in E.
  destruct (shared_call H3 y w) as [[[o lg] H4]|] eqn:E4; [|discriminate]. injection E as <- <-.
  pose proof (shared_calls_length _ _ _ _ E1) as L1. pose proof (shared_calls_length _ _ _ _ E3) as L3.
  exists H1, H2, H3, o0, lg0, o, lg, o3.
  assert (Hl : last_reached H2 y = Some (w0, o0)) by (apply (call_facts _ _ _ _ _ _ E2); subst y; lia).
  repeat split; auto.
  - rewrite nth_error_app2 by lia. now rewrite L1, Nat.sub_diag.
  - rewrite nth_error_app2 by lia. rewrite L1.
    replace (length calls1 + S (length mid) - length calls1) with (S (length mid)) by lia. cbn.
    rewrite nth_error_app2 by lia. now rewrite L3, Nat.sub_diag.
  - rewrite <- Hl. apply (calls_other y mid) with (2 := E3); auto. subst y; lia.
Qed.

(** The result of a consumer that was called before. *)
Lemma consume_facts (H : history) i c w0 old w o lg H1 : nth_error cs i = Some c -> let y := length es + i in
  last_reached H y = Some (w0, old) -> shared_call H y w = Some (o, lg, H1) ->
  ((forall s, In s (snd c) -> exists w', lastw H (match s with SDRef j => j | _ => y end) = Some w' /\
                                    eval (dep_expr es s) w' = eval (dep_expr es s) w) -> o = old) /\
  (o = eval (consumer_expr es c) w \/
   o = old /\ forall s w', In s (snd c) -> lastw H (match s with SDRef j => j | _ => y end) = Some w' ->
                   eval (dep_expr es s) w' = eval (dep_expr es s) w).
Proof.
  intros Hc y Hl E. unfold SharingSpec.shared_call in E.
  assert (Hn : nth_error es y = None) by (apply nth_error_None; subst y; lia). rewrite Hn in E.
  replace (y - length es) with i in E by (subst y; lia). rewrite Hc in E.
  pose proof (proj1 (Forall_forall _ _) Hsrc c (nth_error_In _ _ Hc)) as Hb.
  assert (Hy : length es <= y) by (subst y; lia).
  pose proof (reach_all_facts y w Hy (snd c) H Hb) as Hf. unfold consume in E.
  destruct (reach_all pf rd eqb es H y (snd c) w) as [[rs lg1] H2].
  destruct Hf as (F1 & _ & _ & F4 & F5). rewrite Hl in E.
  destruct (existsb snd rs) eqn:Ex.
  - injection E as <- _ _. split; [intros Hall; specialize (F4 Hall); discriminate|].
    left. cbn. f_equal. rewrite F1. now rewrite map_map.
  - injection E as <- _ _. split; [auto|]. right. split; auto.
Qed.

Lemma eval_consumer_same c w w' :
  (forall s, In s (snd c) -> eval (dep_expr es s) w' = eval (dep_expr es s) w) ->
  eval (consumer_expr es c) w' = eval (consumer_expr es c) w.
Proof.
  intros Hs. cbn. f_equal. rewrite !map_map. apply map_ext_in. auto.
Qed.

Lemma stale_spec i c calls1 w0 mid late w outs H :
  nth_error cs i = Some c -> let y := length es + i in
  shared_calls [] (calls1 ++ (y, w0) :: (mid ++ late) ++ [(y, w)]) = Some (outs, H) ->
  (forall z wz, In (z, wz) (mid ++ late) -> z <> y) ->
  (forall z wz, In (z, wz) late -> wz = w) ->
  (forall j, In (SDRef j) (snd c) -> exists z wz, In (z, wz) late /\ reaches z j) ->
  (forall s, In (SDep s) (snd c) -> eval (dep_expr es (SDep s)) w0 = eval (dep_expr es (SDep s)) w) ->
  option_map fst (nth_error outs (length calls1 + S (length (mid ++ late))))
  = option_map fst (nth_error outs (length calls1)).
Proof.
  intros Hc y E Hne Hlate Href Hown.
  destruct (two_calls i c calls1 w0 (mid ++ late) w outs H Hc E Hne)
    as (H1 & H2 & H3 & o0 & lg0 & o & lg & o3 & E1 & E2 & E3 & N1 & N2 & L2 & L3).
  fold y in E1, E3, L2, L3. rewrite N1, N2. cbn. f_equal.
  apply (proj1 (consume_facts H3 i c w0 o0 w o lg H Hc L3 E3)).
  rewrite shared_calls_app in E2. destruct (shared_calls H2 mid) as [[o4 H4]|]; [|discriminate].
  destruct (shared_calls H4 late) as [[o5 H5]|] eqn:E5; [|discriminate]. injection E2 as <- <-.
  intros [j|s] Hs.
  - assert (Hj : j < length es).
    { pose proof (proj1 (Forall_forall _ _) Hsrc c (nth_error_In _ _ Hc)) as Hb.
      exact (proj1 (Forall_forall _ _) Hb _ Hs). }
    destruct (calls_reach (fun w' => w' = w) j late Hj H4 o5 H5 E5) as (w' & -> & ->).
    + intros z wz Hz _. eapply Hlate; eauto.
    + right. now apply Href.
    + exists w. auto.
  - exists w0. unfold last_world. fold y. rewrite L3. split; auto.
Qed.

Lemma right_spec i c calls1 w0 mid w outs H lg0 :
  nth_error cs i = Some c -> let y := length es + i in
  shared_calls [] (calls1 ++ (y, w0) :: mid ++ [(y, w)]) = Some (outs, H) ->
  (forall z wz, In (z, wz) mid -> z <> y) ->
  nth_error outs (length calls1) = Some (eval (consumer_expr es c) w0, lg0) ->
  (forall j z wz, In (SDRef j) (snd c) -> In (z, wz) mid -> reaches z j ->
     eval (dep_expr es (SDRef j)) wz = eval (dep_expr es (SDRef j)) w0) ->
  option_map fst (nth_error outs (length calls1 + S (length mid))) = Some (eval (consumer_expr es c) w).
Proof.
  intros Hc y E Hne Hright Hmid.
  destruct (two_calls i c calls1 w0 mid w outs H Hc E Hne)
    as (H1 & H2 & H3 & o0 & lg1 & o & lg & o3 & E1 & E2 & E3 & N1 & N2 & L2 & L3).
  fold y in E1, E3, L2, L3. rewrite N2. cbn. f_equal. rewrite N1 in Hright. injection Hright as -> <-.
  destruct (proj2 (consume_facts H3 i c w0 _ w o lg H Hc L3 E3)) as [Ho|[-> Hall]]; [exact Ho|].
  apply eval_consumer_same. intros [j|s] Hs.
  - assert (Hj : j < length es).
    { pose proof (proj1 (Forall_forall _ _) Hsrc c (nth_error_In _ _ Hc)) as Hb.
      exact (proj1 (Forall_forall _ _) Hb _ Hs). }
    destruct (calls_reach (fun w' => eval (dep_expr es (SDRef j)) w' = eval (dep_expr es (SDRef j)) w0)
                j mid Hj H2 o3 H3 E2) as (w' & Ew & Hw').
    + intros z wz Hz Hr. eapply Hmid; eauto.
    + left. exists w0. split; auto.
      destruct (proj2 (proj2 (call_facts _ _ _ _ _ _ E1)) j Hj) as [[_ Hl]|[Hr _]]; [exact Hl|].
      exfalso. apply Hr. right. exists i, c. auto.
    + rewrite <- Hw'. apply (Hall (SDRef j) w' Hs Ew).
  - apply (Hall (SDep s) w0 Hs). unfold last_world. fold y. now rewrite L3.
Qed.

(** A consumer returns what its function computes from the inputs of one of its own calls,
    at its first call from the present ones. *)
Lemma one_moment_spec i c : nth_error cs i = Some c -> let y := length es + i in
  forall calls w outs H, shared_calls [] (calls ++ [(y, w)]) = Some (outs, H) ->
  exists w' lg, nth_error outs (length calls) = Some (eval (consumer_expr es c) w', lg) /\
    (w' = w \/ In (y, w') calls).
Proof.
  intros Hc y.
  assert (Hinv : forall calls (H : history) outs H1 (P : W -> Prop),
    shared_calls H calls = Some (outs, H1) ->
    (forall w0 v, last_reached H y = Some (w0, v) -> exists w', v = eval (consumer_expr es c) w' /\ P w') ->
    forall w0 v, last_reached H1 y = Some (w0, v) ->
    exists w', v = eval (consumer_expr es c) w' /\ (P w' \/ In (y, w') calls)).
  { induction calls as [|[x w] calls IH]; intros H outs H1 P E HP w0 v Hl; cbn in E.
    - injection E as _ <-. destruct (HP _ _ Hl) as (w' & Hv & Hp). eauto.
    - destruct (shared_call H x w) as [[[v1 lg] H2]|] eqn:Ec; [|discriminate].
      destruct (shared_calls H2 calls) as [[outs2 H3]|] eqn:Es; [|discriminate]. injection E as <- <-.
      destruct (IH H2 outs2 H3 (fun w' => P w' \/ w' = w /\ x = y) Es) with (w0 := w0) (v := v)
        as (w' & Hv & Hp); auto.
      + intros w1 v2 Hl2. destruct (Nat.eq_dec x y) as [->|Hxy].
        * rewrite (proj1 (proj2 (call_facts _ _ _ _ _ _ Ec))) in Hl2 by (subst y; lia).
          injection Hl2 as <- <-.
          destruct (last_reached H y) as [[wo old]|] eqn:Elo.
          -- destruct (proj2 (consume_facts H i c wo old w v1 lg H2 Hc Elo Ec)) as [->|[-> _]].
             ++ exists w. auto.
             ++ destruct (HP _ _ eq_refl) as (w' & Hv' & Hp). exists w'. auto.
          -- exists w. split; [|auto]. unfold SharingSpec.shared_call in Ec.
             assert (Hn : nth_error es y = None) by (apply nth_error_None; subst y; lia). rewrite Hn in Ec.
             replace (y - length es) with i in Ec by (subst y; lia). rewrite Hc in Ec.
             pose proof (proj1 (Forall_forall _ _) Hsrc c (nth_error_In _ _ Hc)) as Hb.
             assert (Hy : length es <= y) by (subst y; lia).
             pose proof (reach_all_facts y w Hy (snd c) H Hb) as Hf. unfold consume in Ec.
             destruct (reach_all pf rd eqb es H y (snd c) w) as [[rs lg1] H4].
             destruct Hf as (F1 & _). rewrite Elo in Ec. injection Ec as <- _ _.
             cbn. f_equal. rewrite F1. now rewrite map_map.
        * rewrite (proj1 (call_facts _ _ _ _ _ _ Ec)) in Hl2 by (subst y; auto; lia).
          destruct (HP _ _ Hl2) as (w' & Hv' & Hp). exists w'. auto.
      + exists w'. split; auto. destruct Hp as [[Hp|[-> ->]]|Hp]; [now left| |]; right; [now left|now right]. }
  intros calls w outs H E. pose proof E as E0. rewrite shared_calls_app in E.
  destruct (shared_calls [] calls) as [[o1 H1]|] eqn:E1; [|discriminate]. cbn [SharingSpec.shared_calls] in E.
  destruct (shared_call H1 y w) as [[[o lg] H2]|] eqn:E2; [|discriminate]. injection E as <- <-.
  pose proof (shared_calls_length _ _ _ _ E1) as L1.
  assert (Hl : last_reached H2 y = Some (w, o)) by (apply (call_facts _ _ _ _ _ _ E2); subst y; lia).
  destruct (Hinv _ [] _ _ (fun _ => False) E0 ltac:(discriminate) w o Hl) as (w' & -> & [[]|Hin]).
  exists w', lg. rewrite nth_error_app2 by lia. rewrite L1, Nat.sub_diag. split; auto.
  apply in_app_or in Hin as [Hin|[Hin|[]]]; [now right|]. injection Hin as ->. now left.
Qed.
End Consequences.

(** ** The properties *)
Section Properties.
Context {A W fid did : Type}.
Notation value := (val A).
Notation expr := (expr A fid did).
Notation sdep := (sdep A did).
Variable U : user A W fid did.
Variable pf : fid -> list value -> option value.
Variable rd : did -> W -> value.
Hypothesis Hpure : pure_user U pf rd.
Hypothesis Hexact : exact_eq U.

Lemma exact_sharing p es cs calls w : sharing pf rd p es cs calls ->
  exists s outs H, shared_calls pf rd (veq (aeq U)) es cs [] calls = Some (outs, H) /\
    srun U (sharing_program p cs calls) (mkSState [] w)
    = Some (s, repeat (None, []) (length p + length cs) ++ outputs_of_calls outs).
Proof. intros (H1 & H2 & H3 & H4 & H5 & H6 & H7 & H8). now apply exact_sharing_in. Qed.

Lemma results_outputs n (outs : list (value * list (event A fid did))) :
  results (repeat (None, []) n ++ outputs_of_calls outs) = map (fun o => Ok (visible (fst o))) outs.
Proof.
  induction n as [|n IH]; [|exact IH]. cbn [repeat app].
  induction outs as [|[v lg] outs IH]; [reflexivity|]. cbn. f_equal. exact IH.
Qed.

Lemma sharing_results p es cs calls w s outs : sharing pf rd p es cs calls ->
  srun U (sharing_program p cs calls) (mkSState [] w) = Some (s, outs) ->
  exists os H, shared_calls pf rd (veq (aeq U)) es cs [] calls = Some (os, H) /\
    results outs = map (fun o => Ok (visible (fst o))) os.
Proof.
  intros Hsh Hr. destruct (exact_sharing p es cs calls w Hsh) as (s1 & os & H & E1 & E2).
  rewrite E2 in Hr. injection Hr as <- <-. exists os, H. split; auto. apply results_outputs.
Qed.

Lemma map_nth_fst {X Y Z} (f : X -> Z) (l : list (X * Y)) k x :
  option_map fst (nth_error l k) = Some x -> nth_error (map (fun o => f (fst o)) l) k = Some (f x).
Proof. intros H. rewrite nth_error_map. destruct (nth_error l k) as [[a b]|]; [|discriminate]. cbn in *. now injection H as ->. Qed.

Lemma visible_inj (v v' : value) : visible v = visible v' -> v = v'.
Proof. destruct v, v'; cbn; congruence. Qed.

Lemma one_moment p es cs calls i c w0 w s outs :
  nth_error cs i = Some c -> let y := length es + i in
  sharing pf rd p es cs (calls ++ [(y, w)]) ->
  srun U (sharing_program p cs (calls ++ [(y, w)])) (mkSState [] w0) = Some (s, outs) ->
  exists w', nth_error (results outs) (length calls) = Some (Ok (visible (eval pf rd (consumer_expr es c) w'))) /\
    (w' = w \/ In (y, w') calls).
Proof.
  intros Hc y Hsh Hr. destruct (sharing_results _ _ _ _ _ _ _ Hsh Hr) as (os & H & E & Hres).
  destruct Hsh as (_ & _ & H3 & _).
  destruct (one_moment_spec pf rd (veq (aeq U)) (eqb_spec U Hexact) es cs H3 i c Hc calls w os H E)
    as (w' & lg & Hn & Hor).
  exists w'. split; auto. rewrite Hres. rewrite nth_error_map, Hn. reflexivity.
Qed.

Lemma missed_change p es cs i c calls mid late w00 w0 w s outs :
  nth_error cs i = Some c -> let y := length es + i in
  let calls' := calls ++ (y, w0) :: (mid ++ late) ++ [(y, w)] in
  sharing pf rd p es cs calls' ->
  srun U (sharing_program p cs calls') (mkSState [] w00) = Some (s, outs) ->
  (forall z wz, In (z, wz) (mid ++ late) -> z <> y) ->
  (forall z wz, In (z, wz) late -> wz = w) ->
  (forall j, In (SDRef j) (snd c) -> exists z wz, In (z, wz) late /\ reaches (length es) cs z j) ->
  (forall d, In (SDep d) (snd c) ->
     eval pf rd (dep_expr es (SDep d)) w0 = eval pf rd (dep_expr es (SDep d)) w) ->
  exists v, nth_error (results outs) (length calls) = Some (Ok v) /\
            nth_error (results outs) (length calls + S (length (mid ++ late))) = Some (Ok v).
Proof.
  intros Hc y calls' Hsh Hr Hne Hlate Href Hown.
  destruct (sharing_results _ _ _ _ _ _ _ Hsh Hr) as (os & H & E & Hres).
  destruct Hsh as (_ & _ & H3 & _).
  pose proof (stale_spec pf rd (veq (aeq U)) (eqb_spec U Hexact) es cs H3 i c calls w0 mid late w os H Hc E Hne Hlate Href Hown) as Hs.
  assert (Hlen : length os = length calls') by (eapply shared_calls_length; eauto).
  subst calls'. rewrite app_length in Hlen. cbn in Hlen. rewrite app_length in Hlen. cbn in Hlen.
  destruct (nth_error os (length calls)) as [[v lg]|] eqn:En; [|apply nth_error_None in En; lia].
  cbn in Hs. exists (visible v). rewrite Hres. split.
  - rewrite nth_error_map, En. reflexivity.
  - exact (map_nth_fst (fun x => Ok (visible x)) os _ v Hs).
Qed.

Lemma undisturbed p es cs i c calls mid w00 w0 w s outs :
  nth_error cs i = Some c -> let y := length es + i in
  let calls' := calls ++ (y, w0) :: mid ++ [(y, w)] in
  sharing pf rd p es cs calls' ->
  srun U (sharing_program p cs calls') (mkSState [] w00) = Some (s, outs) ->
  (forall z wz, In (z, wz) mid -> z <> y) ->
  nth_error (results outs) (length calls) = Some (Ok (visible (eval pf rd (consumer_expr es c) w0))) ->
  (forall j z wz, In (SDRef j) (snd c) -> In (z, wz) mid -> reaches (length es) cs z j ->
     eval pf rd (dep_expr es (SDRef j)) wz = eval pf rd (dep_expr es (SDRef j)) w0) ->
  nth_error (results outs) (length calls + S (length mid))
  = Some (Ok (visible (eval pf rd (consumer_expr es c) w))).
Proof.
  intros Hc y calls' Hsh Hr Hne Hright Hmid.
  destruct (sharing_results _ _ _ _ _ _ _ Hsh Hr) as (os & H & E & Hres).
  destruct Hsh as (_ & _ & H3 & _). rewrite Hres in *. rewrite nth_error_map in Hright.
  destruct (nth_error os (length calls)) as [[v lg]|] eqn:En; [|discriminate].
  cbn [option_map fst] in Hright. injection Hright as Hright. apply visible_inj in Hright. subst v.
  pose proof (right_spec pf rd (veq (aeq U)) (eqb_spec U Hexact) es cs H3 i c calls w0 mid w os H lg Hc E Hne En Hmid) as Hs.
  exact (map_nth_fst (fun x => Ok (visible x)) os _ _ Hs).
Qed.
End Properties.
