(** Proofs about the cost of calls with sharing (C78). *)
From Coq Require Import List Bool Arith Lia.
From Verif Require Import Value TupleAlg TupleAlgProofs LazyModel LazySpec LazySpec2 LazyProofs LazyGeneral LazyThms
  SharedModel SharedProofs HistorySpec HistoryThms ShareThms CostSpec.
Import ListNotations.

Section Proofs.
Context {A W fid did : Type}.
Notation value := (val A).
Notation event := (event A fid did).
Notation expr := (expr A fid did).
Notation slz := (slz A fid did).
Notation sop := (sop A W fid did).
Variable U : user A W fid did.

(** ** Samples and evaluations, by paths *)

(** [l] stands for [e]. *)
Inductive stands (es : list expr) : expr -> slz -> Prop :=
| stands_const v : stands es (EConst v) (SValue v false)
| stands_fun d c : stands es (EFun d) (SCore (FnSample d) c [SValue (VAtom (int0 U)) true])
| stands_app f c us ds : Forall2 (stands es) us ds -> stands es (EApp f us) (SCore (FnUser f) c ds)
| stands_ref x e : nth_error es x = Some e -> stands es e (SRef x).

Lemma stands_ext es ext l : forall e, stands es e l -> stands (es ++ ext) e l.
Proof.
  induction l as [v ch|g cache deps IH|x] using slz_ind'; intros e H; inversion H; subst; try constructor.
  - match goal with Hd : Forall2 (stands es) _ _ |- _ => rename Hd into Hf end.
    clear - Hf IH. induction Hf as [|u d us ds Hud Hf IHf]; [constructor|].
    inversion IH; subst. constructor; auto.
  - rewrite nth_error_app1; auto. apply nth_error_Some. congruence.
Qed.

Lemma Forall2_stands_ext es ext us vs :
  Forall2 (stands es) us vs -> Forall2 (stands (es ++ ext)) us vs.
Proof. induction 1; constructor; auto using stands_ext. Qed.

Lemma evaluations_app (a b : list event) : evaluations (a ++ b) = evaluations a ++ evaluations b.
Proof. unfold evaluations. apply flat_map_app. Qed.

Definition logs {T} (e : list did * list (fid + did)) (r : res T) (lg : list event) : Prop :=
  subseq (evaluations lg) (snd e) /\ match r with Ok _ => samples lg = fst e | _ => True end.

Definition path_step (n : nat) (es : list expr) (l : slz) : Prop :=
  forall e vs w r l' vs' w' lg,
    stands es e l -> Forall2 (stands es) es vs ->
    sstep U n l vs w = Some (r, l', vs', w', lg) ->
    stands es e l' /\ Forall2 (stands es) es vs' /\ logs (plain_functions e, postorder e) r lg.

Lemma ssteps_path n es ls : Forall (path_step n es) ls ->
  forall us vs w r ls' vs' w' lg,
    Forall2 (stands es) us ls -> Forall2 (stands es) es vs ->
    ssteps_with (sstep U n) ls vs w = Some (r, ls', vs', w', lg) ->
    Forall2 (stands es) us ls' /\ Forall2 (stands es) es vs' /\
    logs (flat_map plain_functions us, flat_map postorder us) r lg.
Proof.
  unfold logs. cbn [fst snd].
  induction 1 as [|l ls Hl Hls IH]; intros us vs w r ls' vs' w' lg Hu Hv Hs.
  - inversion Hu; subst. cbn in Hs. injection Hs as <- <- <- <- <-.
    split; [constructor|]. split; [exact Hv|]. split; [constructor|reflexivity].
  - inversion Hu as [|e ? us' ? He Hus]; subst. rewrite ssteps_cons in Hs.
    destruct (sstep U n l vs w) as [[[[[r1 l1] vs1] w1] lg1]|] eqn:E1; [|discriminate].
    destruct (Hl _ _ _ _ _ _ _ _ He Hv E1) as (Hl1 & Hv1 & Hr1 & Hs1). cbn [fst snd] in Hr1, Hs1.
    cbn [flat_map]. destruct r1 as [xc| |].
    + destruct (ssteps_with (sstep U n) ls vs1 w1) as [[[[[r2 ls2] vs2] w2] lg2]|] eqn:E2; [|discriminate].
      destruct (IH _ _ _ _ _ _ _ _ Hus Hv1 E2) as (Hl2 & Hv2 & Hr2 & Hs2).
      injection Hs as <- <- <- <- <-. split; [now constructor|]. split; [exact Hv2|].
      rewrite evaluations_app, samples_app. split; [now apply subseq_app|].
      destruct r2; auto. now rewrite Hs1, Hs2.
    + injection Hs as <- <- <- <- <-. split; [now constructor|]. split; [exact Hv1|].
      split; [now apply subseq_app_r|exact I].
    + injection Hs as <- <- <- <- <-. split; [now constructor|]. split; [exact Hv1|].
      split; [now apply subseq_app_r|exact I].
Qed.

Lemma sstep_path n es : forall l, path_step n es l.
Proof.
  unfold path_step, logs. cbn [fst snd].
  induction n as [n IHn] using lt_wf_ind. intros l.
  induction l as [v ch|g cache deps IH|x] using slz_ind'; intros e vs w r l' vs' w' lg Hf Hv Hs;
    rewrite sstep_eq in Hs.
  - inversion Hf; subst. injection Hs as <- <- <- <- <-. repeat split; auto. constructor.
  - inversion Hf as [|d c|f c us ds Hus|]; subst.
    + rewrite ssteps_cons, sstep_eq in Hs. cbn in Hs. rewrite core_eq in Hs.
      cbn [existsb snd map fst] in Hs. rewrite orb_true_r in Hs. cbn [call_fn] in Hs.
      destruct (dsem U d w) as [[o|] w1]; injection Hs as <- <- <- <- <-;
        (split; [constructor|]); (split; [exact Hv|]).
      * destruct cache; (split; [apply subseq_refl|reflexivity]).
      * split; [apply subseq_refl|exact I].
    + destruct (ssteps_with (sstep U n) deps vs w) as [[[[[rs ds'] vs1] w1] lg1]|] eqn:Es; [|discriminate].
      destruct (ssteps_path n es deps IH _ _ _ _ _ _ _ _ Hus Hv Es) as (Hds & Hv1 & Hr & Hsm).
      cbn [fst snd] in Hr, Hsm. cbn [plain_functions postorder].
      destruct rs as [rs| |].
      * cbv zeta in Hs. rewrite core_eq in Hs. cbn [call_fn] in Hs.
        destruct (negb (is_some cache) || existsb snd _).
        -- destruct (sem U f _ w1) as [o w2].
           destruct (regularized o) as [u|]; injection Hs as <- <- <- <- <-;
             (split; [now constructor|]); (split; [exact Hv1|]);
             rewrite evaluations_app; try rewrite samples_app.
           ++ split; [apply subseq_app; [exact Hr|]|].
              ** destruct cache; apply subseq_refl.
              ** rewrite <- (app_nil_r (flat_map plain_functions us)), <- Hsm. f_equal. now destruct cache.
           ++ split; [apply subseq_app; [exact Hr|apply subseq_refl]|exact I].
        -- destruct cache as [c|]; injection Hs as <- <- <- <- <-;
             (split; [now constructor|]); (split; [exact Hv1|]); rewrite app_nil_r;
             (split; [now apply subseq_app_r|]); auto.
      * injection Hs as <- <- <- <- <-. split; [now constructor|]. split; [exact Hv1|].
        split; [now apply subseq_app_r|exact I].
      * injection Hs as <- <- <- <- <-. split; [now constructor|]. split; [exact Hv1|].
        split; [now apply subseq_app_r|exact I].
  - inversion Hf as [| | |? ? Hx]; subst. destruct n as [|n]; [discriminate|].
    destruct (Forall2_nth_error _ _ _ _ _ Hv Hx) as (l0 & Hl0 & Hfl). rewrite Hl0 in Hs.
    destruct (sstep U n l0 vs w) as [[[[[r0 l1] vs1] w1] lg1]|] eqn:E0; [|discriminate].
    injection Hs as <- <- <- <- <-.
    destruct (IHn n (Nat.lt_succ_diag_r n) l0 _ _ _ _ _ _ _ _ Hfl Hv E0) as (Hl1 & Hv1 & Hr).
    split; [now constructor|]. split; [eapply update_Forall2; eauto|exact Hr].
Qed.

Lemma sdeps_stand es vs ss us ds :
  Forall2 (stands es) es vs ->
  spec_deps EConst EFun es (map by_value_dep ss) = Some us -> sdeps_of U vs ss = Some ds ->
  Forall2 (stands es) us ds.
Proof.
  intros Hv. revert us ds. induction ss as [|s ss IH]; intros us ds Hu Hd; cbn in Hu, Hd.
  - injection Hu as <-. injection Hd as <-. constructor.
  - destruct (sdep_of U vs s) as [o|] eqn:Eo; [|discriminate].
    destruct (sdeps_of U vs ss) as [os|]; [|discriminate]. injection Hd as <-.
    destruct (spec_deps EConst EFun es (map by_value_dep ss)) as [ts|];
      [|destruct s as [x|[x|d|v]]; cbn in Hu; try destruct (nth_error es x); discriminate].
    destruct s as [x|[x|d|v]]; cbn in Hu, Eo.
    + destruct (nth_error es x) as [t|] eqn:Et; [|discriminate]. injection Hu as <-.
      destruct (nth_error vs x); [|discriminate]. injection Eo as <-. constructor; auto. now constructor.
    + destruct (nth_error es x) as [t|] eqn:Et; [|discriminate]. injection Hu as <-.
      destruct (Forall2_nth_error _ _ _ _ _ Hv Et) as (l & El & Hl). rewrite El in Eo. injection Eo as <-.
      constructor; auto.
    + injection Hu as <-. injection Eo as <-. constructor; auto. constructor.
    + injection Hu as <-. injection Eo as <-. constructor; auto. constructor.
Qed.

Lemma srun_stands p : forall es vs w s outs es',
  Forall2 (stands es) es vs ->
  srun U p (mkSState vs w) = Some (s, outs) -> shapes (map by_value p) es = Some es' ->
  Forall2 (stands es') es' (svars s).
Proof.
  induction p as [|o p IH]; intros es vs w s outs es' Hv Hr Hsh.
  - cbn in *. injection Hr as <- <-. now injection Hsh as <-.
  - destruct o as [f ss|x|x|h]; cbn [srun sexec svars sworld map by_value shapes] in *.
    + destruct (sdeps_of U vs ss) as [ds|] eqn:Ed; [|discriminate].
      destruct (srun U p _) as [[s2 outs2]|] eqn:Er; [|discriminate]. injection Hr as <- <-.
      destruct (spec_deps EConst EFun es (map by_value_dep ss)) as [us|] eqn:Eu; [|discriminate].
      refine (IH _ _ _ _ _ _ _ Er Hsh).
      apply Forall2_app; [now apply Forall2_stands_ext|].
      constructor; [|constructor]. constructor. apply Forall2_stands_ext. eapply sdeps_stand; eauto.
    + destruct (nth_error es x) as [e|] eqn:Ee; [|discriminate].
      destruct (Forall2_nth_error _ _ _ _ _ Hv Ee) as (l & El & Hl). rewrite El in Hr.
      destruct (srun U p _) as [[s2 outs2]|] eqn:Er; [|discriminate]. injection Hr as <- <-.
      refine (IH _ _ _ _ _ _ _ Er Hsh).
      apply Forall2_app; [now apply Forall2_stands_ext|].
      constructor; [|constructor]. now apply stands_ext.
    + destruct (nth_error es x) as [e|] eqn:Ee; [|discriminate].
      destruct (Forall2_nth_error _ _ _ _ _ Hv Ee) as (l & El & Hl). rewrite El in Hr.
      destruct (sstep U (length vs) l vs w) as [[[[[r l'] vs'] w'] lg]|] eqn:Es; [|discriminate].
      destruct (srun U p _) as [[s2 outs2]|] eqn:Er; [|discriminate]. injection Hr as <- <-.
      destruct (sstep_path _ _ _ _ _ _ _ _ _ _ _ Hl Hv Es) as (Hl' & Hv' & _).
      refine (IH _ _ _ _ _ _ _ Er Hsh). eapply update_Forall2; eauto.
    + destruct (srun U p _) as [[s2 outs2]|] eqn:Er; [|discriminate]. injection Hr as <- <-.
      eapply IH; eauto.
Qed.

Lemma call_paths p w s outs es x e s' r lg :
  srun U p (mkSState [] w) = Some (s, outs) -> shapes (map by_value p) [] = Some es ->
  nth_error es x = Some e -> sexec U (SCall x) s = Some (s', (Some r, lg)) ->
  subseq (evaluations lg) (postorder e) /\
  ((exists v, r = Ok v) -> samples lg = plain_functions e).
Proof.
  intros Hr Hsh He Hx. pose proof (srun_stands p [] [] w s outs es (Forall2_nil _) Hr Hsh) as Hv.
  destruct (Forall2_nth_error _ _ _ _ _ Hv He) as (l & El & Hl). cbn in Hx. rewrite El in Hx.
  destruct (sstep U (length (svars s)) l (svars s) (sworld s)) as [[[[[r0 l'] vs'] w'] lg']|] eqn:Es; [|discriminate].
  injection Hx as <- <- <-.
  destruct (sstep_path _ _ _ _ _ _ _ _ _ _ _ Hl Hv Es) as (_ & _ & Hsub & Hsm).
  split; [exact Hsub|]. intros [v Ev]. destruct r0 as [[u b]| |]; [exact Hsm|discriminate|discriminate].
Qed.

(** ** Functions called, by nodes *)
Section Once.
Variable pf : fid -> list value -> option value.
Variable rd : did -> W -> value.
Hypothesis Hpt : pure_or_throw U pf rd.
Hypothesis Hrefl : forall a, aeq U a a = true.
Hypothesis Hnull : forall d w, has_nullopt (rd d w) = false.
Variable q : fid -> bool.
Variable w : W.

(** Nothing to do: [D] are the variables known to have nothing to do. *)
Fixpoint settled (D : nat -> bool) (l : slz) : bool :=
  match l with
  | SValue _ ch => negb ch
  | SCore (FnSample d) (Some c) _ => negb (opt_ne (aeq U) (Some c) (rd d w))
  | SCore (FnUser f) (Some c) ds => forallb (settled D) ds
  | SCore _ None _ => false
  | SRef x => D x
  end.

(** The nodes of functions in [q] that may have something to do. *)
Fixpoint todo (D : nat -> bool) (l : slz) : nat :=
  match l with
  | SCore (FnUser f) c ds =>
      (if q f && negb (settled D l) then 1 else 0) + list_sum (map (todo D) ds)
  | _ => 0
  end.

Definition more (D D' : nat -> bool) : Prop := forall x, D x = true -> D' x = true.

Lemma settled_more D D' l : more D D' -> settled D l = true -> settled D' l = true.
Proof.
  intros HD. induction l as [v ch|g cache deps IH|x] using slz_ind'; cbn; auto.
  destruct g as [f|d]; destruct cache as [c|]; auto. intros H.
  induction IH as [|l ls Hl _ IHl]; cbn in *; auto.
  apply andb_true_iff in H as [H1 H2]. rewrite (Hl H1). auto.
Qed.

Lemma todo_more D D' l : more D D' -> todo D' l <= todo D l.
Proof.
  intros HD. induction l as [v ch|g cache deps IH|x] using slz_ind'; auto.
  destruct g as [f|d]; auto.
  change (todo D' (SCore (FnUser f) cache deps)) with
    ((if q f && negb (settled D' (SCore (FnUser f) cache deps)) then 1 else 0) + list_sum (map (todo D') deps)).
  change (todo D (SCore (FnUser f) cache deps)) with
    ((if q f && negb (settled D (SCore (FnUser f) cache deps)) then 1 else 0) + list_sum (map (todo D) deps)).
  assert (H1 : list_sum (map (todo D') deps) <= list_sum (map (todo D) deps)).
  { unfold list_sum. induction IH; cbn [map fold_right]; lia. }
  destruct (settled D (SCore (FnUser f) cache deps)) eqn:Es.
  - rewrite (settled_more _ _ _ HD Es). lia.
  - destruct (q f), (settled D' (SCore (FnUser f) cache deps)); cbn [andb negb]; lia.
Qed.

Fixpoint below (D : nat -> bool) (vs : list slz) (b : nat) : nat :=
  match b with
  | 0 => 0
  | S b' => below D vs b' + match nth_error vs b' with Some l => todo D l | None => 0 end
  end.

Lemma below_more D D' vs vs' b : more D D' -> (forall y, y < b -> nth_error vs' y = nth_error vs y) ->
  below D' vs' b <= below D vs b.
Proof.
  intros HD. induction b as [|b IH]; intros Hy; cbn; [lia|].
  rewrite (Hy b) by lia. assert (below D' vs' b <= below D vs b) by (apply IH; intros; apply Hy; lia).
  destruct (nth_error vs b) as [l|]; [|lia]. pose proof (todo_more D D' l HD). lia.
Qed.

Lemma below_split D D' vs vs' x l l' b :
  more D D' -> x < b -> nth_error vs x = Some l -> nth_error vs' x = Some l' ->
  (forall y, x < y -> nth_error vs' y = nth_error vs y) ->
  below D' vs' b + (todo D l + below D vs x) <= below D vs b + (todo D' l' + below D' vs' x).
Proof.
  intros HD Hb Hl Hl' Hy. induction b as [|b IH]; [lia|]. cbn [below].
  destruct (Nat.eq_dec x b) as [->|Hne].
  - rewrite Hl, Hl'. lia.
  - rewrite (Hy b) by lia. assert (x < b) by lia. specialize (IH H).
    destruct (nth_error vs b) as [k|]; [|lia]. pose proof (todo_more D D' k HD). lia.
Qed.

Lemma times_app (a b : list event) : times q (a ++ b) = times q a + times q b.
Proof. unfold times. now rewrite flat_map_app, filter_app, app_length. Qed.

Definition known (D : nat -> bool) (vs : list slz) : Prop :=
  forall x l, D x = true -> nth_error vs x = Some l -> settled D l = true.

Definition once_step (n : nat) (es : list expr) (l : slz) : Prop :=
  forall D e vs b r l' vs' w' lg,
    stands es e l -> Forall2 (stands es) es vs -> ordered vs ->
    (forall y, In y (srefs l) -> y < b) -> known D vs ->
    sstep U n l vs w = Some (r, l', vs', w', lg) ->
    match r with
    | Ok xc =>
        w' = w /\ srefs l' = srefs l /\ ordered vs' /\ length vs' = length vs /\
        (forall y, b <= y -> nth_error vs' y = nth_error vs y) /\
        (settled D l = true -> snd xc = false) /\
        exists D', more D D' /\ known D' vs' /\ settled D' l' = true /\
          times q lg + todo D' l' + below D' vs' b <= todo D l + below D vs b
    | _ => times q lg <= todo D l + below D vs b
    end.

Lemma ssteps_once n es ls : Forall (once_step n es) ls ->
  forall D us vs b r ls' vs' w' lg,
    Forall2 (stands es) us ls -> Forall2 (stands es) es vs -> ordered vs ->
    (forall y, In y (flat_map srefs ls) -> y < b) -> known D vs ->
    ssteps_with (sstep U n) ls vs w = Some (r, ls', vs', w', lg) ->
    match r with
    | Ok rs =>
        w' = w /\ flat_map srefs ls' = flat_map srefs ls /\ ordered vs' /\ length vs' = length vs /\
        (forall y, b <= y -> nth_error vs' y = nth_error vs y) /\
        (forallb (settled D) ls = true -> existsb snd rs = false) /\
        exists D', more D D' /\ known D' vs' /\ forallb (settled D') ls' = true /\
          times q lg + list_sum (map (todo D') ls') + below D' vs' b <= list_sum (map (todo D) ls) + below D vs b
    | _ => times q lg <= list_sum (map (todo D) ls) + below D vs b
    end.
Proof.
  induction 1 as [|l ls Hl Hls IH]; intros D us vs b r ls' vs' w' lg Hu Hv Ho Hb Hk Hs.
  - cbn in Hs. injection Hs as <- <- <- <- <-.
    repeat (split; [auto; reflexivity|]). exists D. split; [intros x Hx; exact Hx|]. auto.
  - inversion Hu as [|e ? us' ? He Hus]; subst. rewrite ssteps_cons in Hs. cbn in Hb.
    destruct (sstep U n l vs w) as [[[[[r1 l1] vs1] w1] lg1]|] eqn:E1; [|discriminate].
    destruct (sstep_path _ _ _ _ _ _ _ _ _ _ _ He Hv E1) as (_ & Hv1 & _).
    apply (Hl D e vs b) in E1; auto; [|intros y Hy; apply Hb; apply in_or_app; now left].
    cbn [map list_sum fold_right flat_map forallb].
    change (fold_right plus 0) with list_sum.
    destruct r1 as [xc| |].
    + destruct E1 as (-> & Hr1 & Ho1 & Hlen1 & Hy1 & Hf1 & D1 & HD1 & Hk1 & Hs1 & Hc1).
      destruct (ssteps_with (sstep U n) ls vs1 w) as [[[[[r2 ls2] vs2] w2] lg2]|] eqn:E2; [|discriminate].
      apply (IH D1 us' vs1 b) in E2; auto; [|intros y Hy; apply Hb; apply in_or_app; now right].
      injection Hs as <- <- <- <- <-. rewrite times_app.
      assert (Hls1 : list_sum (map (todo D1) ls) <= list_sum (map (todo D) ls)).
      { clear - HD1. unfold list_sum. induction ls; cbn [map fold_right]; [lia|]. pose proof (todo_more D D1 a HD1). lia. }
      destruct r2 as [rs| |]; [|lia|lia].
      destruct E2 as (-> & Hr2 & Ho2 & Hlen2 & Hy2 & Hf2 & D2 & HD2 & Hk2 & Hs2 & Hc2).
      split; [reflexivity|]. split; [cbn; now rewrite Hr1, Hr2|]. split; [exact Ho2|]. split; [congruence|].
      split; [intros y Hy; rewrite Hy2, Hy1; auto|].
      split.
      { intros Hset. apply andb_true_iff in Hset as [H1 H2]. cbn. rewrite (Hf1 H1). apply Hf2.
        apply forallb_forall. intros k Hin. apply (settled_more D D1); auto.
        now apply (proj1 (forallb_forall _ _) H2). }
      exists D2. split; [intros y Hy; auto|]. split; [exact Hk2|].
      split; [cbn; now rewrite (settled_more D1 D2 l1 HD2 Hs1), Hs2|].
      pose proof (todo_more D1 D2 l1 HD2). cbn [map list_sum fold_right]. change (fold_right plus 0) with list_sum. lia.
    + injection Hs as <- <- <- <- <-. lia.
    + injection Hs as <- <- <- <- <-. lia.
Qed.

Lemma existsb_read_refs (vs ds : list slz) rs : existsb snd (read_refs vs ds rs) = existsb snd rs.
Proof.
  revert rs. induction ds as [|d ds IH]; intros [|r rs]; try reflexivity.
  cbn [read_refs existsb]. rewrite IH. f_equal.
  destruct d as [| |x]; try reflexivity. unfold read_ref.
  destruct (nth_error vs x) as [[| g [c|] ds'|]|]; destruct (fst r); reflexivity.
Qed.

Lemma sstep_once n es : forall l, once_step n es l.
Proof.
  unfold once_step.
  destruct Hpt as [Hsem Hdsem].
  induction n as [n IHn] using lt_wf_ind. intros l.
  induction l as [v ch|g cache deps IH|x] using slz_ind'; intros D e vs b r l' vs' w' lg Hf Hv Ho Hb Hk Hs;
    rewrite sstep_eq in Hs.
  - inversion Hf; subst. injection Hs as <- <- <- <- <-.
    repeat (split; [auto; reflexivity|]). exists D. split; [intros x Hx; exact Hx|]. auto.
  - inversion Hf as [|d c|f c us ds Hus|]; subst.
    + rewrite ssteps_cons, sstep_eq in Hs. cbn in Hs. rewrite core_eq in Hs.
      cbn [existsb snd map fst] in Hs. rewrite orb_true_r in Hs. cbn [call_fn] in Hs.
      destruct (Hdsem d w) as [Hd|Hd]; rewrite Hd in Hs; injection Hs as <- <- <- <- <-; [|cbn; lia].
      split; [reflexivity|]. split; [reflexivity|]. split; [exact Ho|]. split; [reflexivity|].
      split; [reflexivity|]. split.
      { cbn. destruct cache as [c|]; [|discriminate]. intros H. now apply negb_true_iff in H. }
      exists D. split; [intros y Hy; exact Hy|]. split; [exact Hk|]. split.
      { cbn [settled]. rewrite opt_ne_nonnull by apply Hnull. now rewrite (veq_refl _ Hrefl). }
      destruct cache; cbn; lia.
    + destruct (ssteps_with (sstep U n) deps vs w) as [[[[[rs ds'] vs1] w1] lg1]|] eqn:Es; [|discriminate].
      pose proof (ssteps_once n es deps IH D us vs b _ _ _ _ _ Hus Hv Ho Hb Hk Es) as Hd.
      assert (Htd : forall D c ds, todo D (SCore (FnUser f) c ds) =
        (if q f && negb (settled D (SCore (FnUser f) c ds)) then 1 else 0) + list_sum (map (todo D) ds))
        by reflexivity.
      rewrite !Htd.
      destruct rs as [rs| |].
      * destruct Hd as (-> & Hr & Ho1 & Hlen & Hy & Hfl & D1 & HD1 & Hk1 & Hs1 & Hc1).
        cbv zeta in Hs. rewrite ctad_none, core_eq, existsb_read_refs in Hs. cbn [call_fn] in Hs.
        destruct (settled D (SCore (FnUser f) cache deps)) eqn:Eset.
        -- cbn [settled] in Eset. destruct cache as [c|]; [|discriminate].
           rewrite (Hfl Eset) in Hs. cbn in Hs. injection Hs as <- <- <- <- <-.
           split; [reflexivity|]. split; [exact Hr|]. split; [exact Ho1|]. split; [exact Hlen|].
           split; [exact Hy|]. split; [reflexivity|].
           exists D1. split; [exact HD1|]. split; [exact Hk1|]. split; [exact Hs1|].
           rewrite Htd. cbn [settled]. rewrite Hs1, app_nil_r. rewrite andb_false_r. lia.
        -- cbn [negb]. rewrite andb_true_r.
           destruct (negb (is_some cache) || existsb snd rs) eqn:Ech.
           ++ destruct (Hsem f (ctad_tuple as_tuple (map fst (read_refs vs1 ds' rs))) w) as [Hfe|Hfe];
                rewrite Hfe in Hs.
              ** set (args := ctad_tuple as_tuple (map fst (read_refs vs1 ds' rs))) in *. clearbody args.
                 assert (Hreg : regularized (FRet (pf f args)) = VRet (fval pf f args)).
                 { unfold regularized, fval. now destruct (pf f _). }
                 rewrite Hreg in Hs. injection Hs as <- <- <- <- <-.
                 split; [reflexivity|]. split; [exact Hr|]. split; [exact Ho1|]. split; [exact Hlen|].
                 split; [exact Hy|]. split; [discriminate|].
                 exists D1. split; [exact HD1|]. split; [exact Hk1|]. split; [exact Hs1|].
                 rewrite Htd. cbn [settled]. rewrite Hs1, andb_false_r, times_app.
                 match goal with |- times q lg1 + times q ?t + _ + _ <= _ =>
                   assert (Ht : times q t = if q f then 1 else 0)
                     by (unfold times; destruct cache; cbn; destruct (q f); reflexivity) end.
                 rewrite Ht. lia.
              ** injection Hs as <- <- <- <- <-. rewrite times_app. unfold times at 2. cbn.
                 destruct (q f); cbn; lia.
           ++ apply orb_false_iff in Ech as [Hcache _]. destruct cache as [c|]; [|discriminate].
              injection Hs as <- <- <- <- <-.
              split; [reflexivity|]. split; [exact Hr|]. split; [exact Ho1|]. split; [exact Hlen|].
              split; [exact Hy|]. split; [discriminate|].
              exists D1. split; [exact HD1|]. split; [exact Hk1|]. split; [exact Hs1|].
              rewrite Htd. cbn [settled]. rewrite Hs1, andb_false_r, app_nil_r. lia.
      * injection Hs as <- <- <- <- <-. lia.
      * injection Hs as <- <- <- <- <-. lia.
  - inversion Hf as [| | |? ? Hx]; subst. destruct n as [|n]; [discriminate|].
    destruct (Forall2_nth_error _ _ _ _ _ Hv Hx) as (l0 & Hl0 & Hfl). rewrite Hl0 in Hs.
    destruct (sstep U n l0 vs w) as [[[[[r0 l1] vs1] w1] lg1]|] eqn:E0; [|discriminate].
    injection Hs as <- <- <- <- <-.
    assert (Hxb : x < b) by (apply Hb; now left).
    pose proof (IHn n (Nat.lt_succ_diag_r n) l0 D _ vs x _ _ _ _ _ Hfl Hv Ho (Ho _ _ Hl0) Hk E0) as H.
    cbn [todo].
    assert (Hsum : todo D l0 + below D vs x <= below D vs b).
    { clear - Hxb Hl0. induction b as [|b IHb]; [lia|]. cbn [below].
      destruct (Nat.eq_dec x b) as [->|]; [rewrite Hl0; lia|].
      assert (todo D l0 + below D vs x <= below D vs b) by (apply IHb; lia). lia. }
    destruct r0 as [xc| |]; [|lia|lia].
    destruct H as (-> & Hr & Ho1 & Hlen & Hy & Hflag & D1 & HD1 & Hk1 & Hs1 & Hc1).
    assert (Hx1 : nth_error vs1 x = Some l0) by (rewrite Hy; auto).
    assert (Hxl : x < length vs1) by (apply nth_error_Some; congruence).
    assert (Hup : nth_error (update x l1 vs1) x = Some l1).
    { rewrite nth_error_update, Nat.eqb_refl. now apply Nat.ltb_lt in Hxl as ->. }
    split; [reflexivity|]. split; [reflexivity|].
    split; [eapply ordered_update; eauto|]. split; [now rewrite update_length|].
    assert (Hne : forall y, y <> x -> nth_error (update x l1 vs1) y = nth_error vs1 y).
    { intros y Hyx. rewrite nth_error_update. destruct (Nat.eqb_spec x y); [congruence|reflexivity]. }
    split; [intros y Hyb; rewrite Hne by lia; apply Hy; lia|].
    split; [cbn; intros HDx; apply Hflag; now apply (Hk x)|].
    set (D2 := fun y => D1 y || Nat.eqb y x).
    assert (HD2 : more D1 D2) by (intros y Hd; unfold D2; now rewrite Hd).
    exists D2. split; [intros y Hd; apply HD2, HD1, Hd|]. split.
    + intros y k Hd Hyk. destruct (Nat.eq_dec y x) as [->|Hyx].
      * rewrite Hup in Hyk. injection Hyk as <-. now apply (settled_more D1).
      * rewrite Hne in Hyk by exact Hyx. unfold D2 in Hd. apply Nat.eqb_neq in Hyx. rewrite Hyx, orb_false_r in Hd.
        apply (settled_more D1); eauto.
    + split; [unfold D2; cbn; now rewrite Nat.eqb_refl, orb_true_r|].
      assert (HD : more D D2) by (intros y Hd; apply HD2, HD1, Hd).
      pose proof (below_split D D2 vs (update x l1 vs1) x l0 l1 b HD Hxb Hl0 Hup) as Hsp.
      assert (Hrest : forall y, x < y -> nth_error (update x l1 vs1) y = nth_error vs y).
      { intros y Hxy. rewrite Hne by lia. apply Hy. lia. }
      specialize (Hsp Hrest).
      pose proof (todo_more D1 D2 l1 HD2).
      assert (below D2 (update x l1 vs1) x <= below D1 vs1 x).
      { apply below_more; auto. intros y Hyx. apply Hne. lia. }
      lia.
Qed.
End Once.

(** ** Counting nodes *)
Section Count.
Variable q : fid -> bool.

Fixpoint count (l : slz) : nat :=
  match l with
  | SCore (FnUser f) _ ds => (if q f then 1 else 0) + list_sum (map count ds)
  | _ => 0
  end.

Lemma todo_count rd w D l : todo rd q w D l <= count l.
Proof.
  induction l as [v ch|g cache deps IH|x] using slz_ind'; auto. destruct g as [f|d]; auto.
  change (todo rd q w D (SCore (FnUser f) cache deps)) with
    ((if q f && negb (settled rd w D (SCore (FnUser f) cache deps)) then 1 else 0)
      + list_sum (map (todo rd q w D) deps)).
  cbn [count]. unfold list_sum.
  assert (fold_right plus 0 (map (todo rd q w D) deps) <= fold_right plus 0 (map count deps)).
  { induction IH; cbn [map fold_right]; lia. }
  destruct (q f), (settled rd w D (SCore (FnUser f) cache deps)); cbn [andb negb]; lia.
Qed.

Definition counted (n : nat) (l : slz) : Prop :=
  forall vs w r l' vs' w' lg, sstep U n l vs w = Some (r, l', vs', w', lg) ->
    count l' = count l /\ map count vs' = map count vs.

Lemma map_update {X Y} (h : X -> Y) n x (l : list X) : map h (update n x l) = update n (h x) (map h l).
Proof. revert n. induction l as [|y l IH]; intros [|n]; cbn; auto. now rewrite IH. Qed.

Lemma update_same {X} n (x : X) l : nth_error l n = Some x -> update n x l = l.
Proof. revert n. induction l as [|y l IH]; intros [|n] H; cbn in *; try congruence. now rewrite IH. Qed.

Lemma ssteps_count n ls : Forall (counted n) ls ->
  forall vs w r ls' vs' w' lg, ssteps_with (sstep U n) ls vs w = Some (r, ls', vs', w', lg) ->
    map count ls' = map count ls /\ map count vs' = map count vs.
Proof.
  induction 1 as [|l ls Hl Hls IH]; intros vs w r ls' vs' w' lg Hs.
  - cbn in Hs. injection Hs as <- <- <- <- <-. auto.
  - rewrite ssteps_cons in Hs.
    destruct (sstep U n l vs w) as [[[[[r1 l1] vs1] w1] lg1]|] eqn:E1; [|discriminate].
    apply Hl in E1 as (Hl1 & Hv1). destruct r1 as [xc| |].
    + destruct (ssteps_with (sstep U n) ls vs1 w1) as [[[[[r2 ls2] vs2] w2] lg2]|] eqn:E2; [|discriminate].
      apply IH in E2 as [Hl2 Hv2]. injection Hs as <- <- <- <- <-. cbn. split; congruence.
    + injection Hs as <- <- <- <- <-. cbn. split; congruence.
    + injection Hs as <- <- <- <- <-. cbn. split; congruence.
Qed.

Lemma count_node g c c' ds ds' : map count ds' = map count ds -> count (SCore g c' ds') = count (SCore g c ds).
Proof. intros H. destruct g; cbn; congruence. Qed.

Lemma sstep_count n : forall l, counted n l.
Proof.
  induction n as [n IHn] using lt_wf_ind. intros l.
  induction l as [v ch|g cache deps IH|x] using slz_ind'; intros vs w r l' vs' w' lg Hs;
    rewrite sstep_eq in Hs.
  - injection Hs as <- <- <- <- <-. auto.
  - destruct (ssteps_with (sstep U n) deps vs w) as [[[[[rs ds'] vs1] w1] lg1]|] eqn:Es; [|discriminate].
    apply (ssteps_count n deps IH) in Es as [Hd Hv].
    destruct rs as [rs| |].
    + cbv zeta in Hs. destruct (core U g cache _ w1) as [[[r0 c'] w2] l2]. injection Hs as <- <- <- <- <-.
      split; [now apply count_node|exact Hv].
    + injection Hs as <- <- <- <- <-. split; [now apply count_node|exact Hv].
    + injection Hs as <- <- <- <- <-. split; [now apply count_node|exact Hv].
  - destruct n as [|n]; [discriminate|].
    destruct (nth_error vs x) as [l0|] eqn:El; [|discriminate].
    destruct (sstep U n l0 vs w) as [[[[[r0 l1] vs1] w1] lg1]|] eqn:E0; [|discriminate].
    apply (IHn n (Nat.lt_succ_diag_r n)) in E0 as (Hc & Hv). injection Hs as <- <- <- <- <-.
    split; [reflexivity|]. rewrite map_update, Hc, Hv. apply update_same. now apply map_nth_error.
Qed.

Lemma nth_count (vs : list slz) x l : nth_error vs x = Some l -> nth x (map count vs) 0 = count l.
Proof. intros H. apply nth_error_nth. now apply map_nth_error. Qed.

Lemma sdeps_count vs ss ds : sdeps_of U vs ss = Some ds ->
  map count ds = map (fun s => match s with SDep (DVar x) => nth x (map count vs) 0 | _ => 0 end) ss.
Proof.
  revert ds. induction ss as [|s ss IH]; intros ds Hd; cbn in Hd.
  - now injection Hd as <-.
  - destruct (sdep_of U vs s) as [o|] eqn:Eo; [|discriminate].
    destruct (sdeps_of U vs ss) as [os|]; [|discriminate]. injection Hd as <-.
    cbn [map]. rewrite (IH os eq_refl). f_equal.
    destruct s as [x|[x|d|v]]; cbn in Eo.
    + destruct (nth_error vs x); [|discriminate]. now injection Eo as <-.
    + symmetry. now apply nth_count.
    + now injection Eo as <-.
    + now injection Eo as <-.
Qed.

Lemma srun_count p : forall vs w s outs, ordered vs -> srun U p (mkSState vs w) = Some (s, outs) ->
  ordered (svars s) /\ map count (svars s) = owned q p (map count vs).
Proof.
  induction p as [|o p IH]; intros vs w s outs Ho Hr.
  - cbn in *. injection Hr as <- <-. auto.
  - destruct o as [f ss|x|x|h]; cbn [srun sexec svars sworld owned] in *.
    + destruct (sdeps_of U vs ss) as [ds|] eqn:Ed; [|discriminate].
      destruct (srun U p _) as [[s2 outs2]|] eqn:Er; [|discriminate]. injection Hr as <- <-.
      apply IH in Er as [H1 H2]; [|apply ordered_snoc; auto; exact (sdeps_refs U vs ss ds Ho Ed)].
      split; [exact H1|]. rewrite H2, map_app. cbn [map count]. now rewrite (sdeps_count _ _ _ Ed).
    + destruct (nth_error vs x) as [l|] eqn:El; [|discriminate].
      destruct (srun U p _) as [[s2 outs2]|] eqn:Er; [|discriminate]. injection Hr as <- <-.
      apply IH in Er as [H1 H2].
      2:{ apply ordered_snoc; auto. intros y Hy. pose proof (Ho _ _ El y Hy).
          assert (x < length vs) by (apply nth_error_Some; congruence). lia. }
      split; [exact H1|]. rewrite H2, map_app. cbn [map]. now rewrite (nth_count _ _ _ El).
    + destruct (nth_error vs x) as [l|] eqn:El; [|discriminate].
      destruct (sstep U (length vs) l vs w) as [[[[[r l'] vs'] w'] lg]|] eqn:Es; [|discriminate].
      destruct (srun U p _) as [[s2 outs2]|] eqn:Er; [|discriminate]. injection Hr as <- <-.
      assert (Hx : x < length vs) by (apply nth_error_Some; congruence).
      destruct (sstep_done U (length vs) l vs w Ho) as (r1 & l1 & vs1 & w1 & lg1 & E1 & Er1 & Ho1 & Hl1).
      { intros y Hy. pose proof (Ho _ _ El y Hy). lia. }
      rewrite Es in E1. injection E1 as <- <- <- <- <-.
      apply (sstep_count (length vs)) in Es as (Hc & Hv).
      apply IH in Er as [H1 H2].
      * split; [exact H1|]. rewrite H2, map_update, Hc, Hv. f_equal. apply update_same. now apply map_nth_error.
      * intros y k Hy. rewrite nth_error_update in Hy.
        destruct (Nat.eqb_spec x y) as [->|]; [|now apply Ho1].
        destruct (y <? length vs'); [|discriminate]. injection Hy as <-. rewrite Er1. now apply Ho.
    + destruct (srun U p _) as [[s2 outs2]|] eqn:Er; [|discriminate]. injection Hr as <- <-.
      eapply IH; eauto.
Qed.

Lemma below_count rd w D vs b : below rd q w D vs b <= list_sum (firstn b (map count vs)).
Proof.
  induction b as [|b IH]; [cbn; lia|]. cbn [below].
  assert (Hs : list_sum (firstn (S b) (map count vs)) =
               list_sum (firstn b (map count vs)) + match nth_error vs b with Some l => count l | None => 0 end).
  { clear. revert b. induction vs as [|v vs IH]; intros [|b]; try reflexivity.
    - cbn. lia.
    - cbn [map]. rewrite !firstn_cons. specialize (IH b). cbn [nth_error].
      unfold list_sum in *. cbn [fold_right]. lia. }
  rewrite Hs. destruct (nth_error vs b) as [l|]; [|lia]. pose proof (todo_count rd w D l). lia.
Qed.

Lemma nodes_once pf rd (Hpt : pure_or_throw U pf rd) (Hrefl : forall a, aeq U a a = true)
    (Hnull : forall d w, has_nullopt (rd d w) = false) p w s outs es x s' r lg :
  srun U p (mkSState [] w) = Some (s, outs) -> shapes (map by_value p) [] = Some es ->
  sexec U (SCall x) s = Some (s', (Some r, lg)) ->
  times q lg <= list_sum (firstn (S x) (owned q p [])).
Proof.
  intros Hr Hsh Hx. pose proof (srun_stands p [] [] w s outs es (Forall2_nil _) Hr Hsh) as Hv.
  destruct (srun_count p [] w s outs) as [Ho Hc]; auto; [intros [|y]; discriminate|].
  cbn in Hx. destruct (nth_error (svars s) x) as [l|] eqn:El; [|discriminate].
  destruct (Forall2_nth_error_r _ _ _ _ _ Hv El) as (e & He & Hl).
  destruct (sstep U (length (svars s)) l (svars s) (sworld s)) as [[[[[r0 l'] vs'] w'] lg']|] eqn:Es; [|discriminate].
  injection Hx as <- <- <-.
  assert (Hk : known rd (sworld s) (fun _ => false) (svars s)) by (intros y k Hd; discriminate).
  pose proof (sstep_once pf rd Hpt Hrefl Hnull q (sworld s) _ es l (fun _ => false) e (svars s) x
                _ _ _ _ _ Hl Hv Ho (Ho _ _ El) Hk Es) as H.
  pose proof (below_count rd (sworld s) (fun _ => false) (svars s) (S x)) as Hb.
  cbn [below] in Hb. rewrite El, Hc in Hb. cbn [map] in Hb.
  destruct r0 as [xc| |]; [destruct H as (_ & _ & _ & _ & _ & _ & D' & _ & _ & _ & H)| |]; lia.
Qed.
End Count.

(** ** The ladder *)
Lemma ladder_S f g d n :
  ladder f g d (S n) = ladder f g d n ++ [SNew g [SDRef n; SDRef n] : sop].
Proof. unfold ladder. rewrite seq_S, map_app. reflexivity. Qed.

Lemma shapes_app (p1 p2 : list (op A W fid did)) : forall es es1,
  shapes p1 es = Some es1 -> shapes (p1 ++ p2) es = shapes p2 es1.
Proof.
  induction p1 as [|o p1 IH]; intros es es1 H; cbn in H |- *; [congruence|].
  destruct o as [f ss|x|x|h]; auto.
  - destruct (spec_deps EConst EFun es ss); [auto|discriminate].
  - destruct (nth_error es x); [auto|discriminate].
  - destruct (nth_error es x); [auto|discriminate].
Qed.

Lemma ladder_shapes f g d n :
  shapes (map by_value (ladder f g d n : list sop)) [] = Some (map (ladder_expr f g d) (seq 0 (S n))).
Proof.
  induction n as [|n IH]; [reflexivity|].
  rewrite ladder_S, map_app, (shapes_app _ _ _ _ IH).
  assert (Hn : nth_error (map (ladder_expr (A:=A) f g d) (seq 0 (S n))) n = Some (ladder_expr f g d n)).
  { apply map_nth_error. rewrite (nth_error_nth' _ 0) by (rewrite seq_length; lia).
    now rewrite seq_nth by lia. }
  cbn [map by_value shapes by_value_dep spec_deps]. rewrite Hn.
  rewrite (seq_S (S n)), map_app. reflexivity.
Qed.

Lemma ladder_samples f g d n : plain_functions (ladder_expr f g d n : expr) = repeat d (2 ^ n).
Proof.
  induction n as [|n IH]; [reflexivity|].
  cbn [ladder_expr plain_functions flat_map]. rewrite IH, app_nil_r, <- repeat_app.
  f_equal. cbn [Nat.pow]. lia.
Qed.

Lemma owned_app (q : fid -> bool) (p1 p2 : list sop) : forall ns,
  owned q (p1 ++ p2) ns = owned q p2 (owned q p1 ns).
Proof. induction p1 as [|[f ss|x|x|h] p1 IH]; intros ns; cbn; auto. Qed.

Lemma owned_ext (q : fid -> bool) (p : list sop) : forall ns, exists ext, owned q p ns = ns ++ ext.
Proof.
  induction p as [|[f ss|x|x|h] p IH]; intros ns; cbn [owned].
  - exists []. now rewrite app_nil_r.
  - destruct (IH (ns ++ [(if q f then 1 else 0) + list_sum (map (fun s => match s with SDep (DVar x) => nth x ns 0 | _ => 0 end) ss)])) as [ext ->].
    eexists. now rewrite <- app_assoc.
  - destruct (IH (ns ++ [nth x ns 0])) as [ext ->]. eexists. now rewrite <- app_assoc.
  - apply IH.
  - apply IH.
Qed.

Lemma ladder_owned (q : fid -> bool) f g d n :
  owned q (ladder f g d n : list sop) [] = (if q f then 1 else 0) :: repeat (if q g then 1 else 0) n.
Proof.
  induction n as [|n IH].
  - cbn. now rewrite Nat.add_0_r.
  - rewrite ladder_S, owned_app, IH. cbn [owned map list_sum fold_right]. rewrite !Nat.add_0_r.
    cbn [app]. now rewrite <- repeat_cons.
Qed.

Lemma list_sum_repeat k n : list_sum (repeat k n) = n * k.
Proof. induction n as [|n IH]; [reflexivity|]. cbn [repeat]. unfold list_sum in *. cbn [fold_right]. lia. Qed.

Lemma ladder_cost f g d n p w s outs es s' r lg :
  srun U (ladder f g d n ++ p) (mkSState [] w) = Some (s, outs) ->
  shapes (map by_value (ladder f g d n ++ p)) [] = Some es ->
  sexec U (SCall n) s = Some (s', (Some r, lg)) ->
  ((exists v, r = Ok v) -> samples lg = repeat d (2 ^ n)) /\
  (forall pf rd, pure_or_throw U pf rd -> (forall a, aeq U a a = true) ->
   (forall d w, has_nullopt (rd d w) = false) -> times (fun _ => true) lg <= S n).
Proof.
  intros Hr Hsh Hx. split.
  - intros Hv. rewrite <- (ladder_samples f g d n).
    apply (call_paths (ladder f g d n ++ p) w s outs es n _ s' r lg Hr Hsh); auto.
    rewrite map_app, (shapes_app _ _ _ _ (ladder_shapes f g d n)) in Hsh.
    eapply shapes_nth; [exact Hsh|]. apply map_nth_error.
    rewrite (nth_error_nth' _ 0) by (rewrite seq_length; lia). now rewrite seq_nth by lia.
  - intros pf rd Hpt Hrefl Hnull.
    pose proof (nodes_once (fun _ => true) pf rd Hpt Hrefl Hnull _ w s outs es n s' r lg Hr Hsh Hx) as H.
    rewrite owned_app, ladder_owned in H. destruct (owned_ext (fun _ => true) p (1 :: repeat 1 n)) as [ext E].
    rewrite E in H. rewrite firstn_app in H. rewrite firstn_all2 in H by (cbn; rewrite repeat_length; lia).
    replace (S n - length (1 :: repeat 1 n)) with 0 in H by (cbn; rewrite repeat_length; lia).
    rewrite firstn_O, app_nil_r in H. change (1 :: repeat 1 n) with (repeat 1 (S n)) in H.
    rewrite list_sum_repeat in H. lia.
Qed.

(** By value, all of them are called. *)
Lemma times_evaluations (lg : list event) :
  times (fun _ => true) lg = length (filter (fun k => match k with inl _ => true | inr _ => false end) (evaluations lg)).
Proof.
  unfold times, evaluations. induction lg as [|[f a|d|a b] lg IH]; cbn; auto.
Qed.

Lemma ladder_functions f g d n :
  length (filter (fun k => match k with inl _ => true | inr _ => false end) (postorder (ladder_expr f g d n : expr)))
  = 2 ^ S n - 1.
Proof.
  induction n as [|n IH]; [reflexivity|].
  cbn [ladder_expr postorder flat_map]. rewrite app_nil_r, !filter_app, !app_length, IH. cbn [filter length].
  assert (1 <= 2 ^ S n) by (apply Nat.neq_0_lt_0, Nat.pow_nonzero; lia).
  change (2 ^ S (S n)) with (2 * 2 ^ S n). lia.
Qed.

Lemma ladder_by_value f g d n w s outs s' v lg :
  run U (map by_value (ladder f g d n)) (mkState [] w) = Some (s, outs) ->
  exec U (Call n) s = Some (s', (Some (Ok v), lg)) ->
  times (fun _ => true) lg = 2 ^ S n - 1.
Proof.
  intros Hr Hx. rewrite times_evaluations, <- (ladder_functions f g d n).
  rewrite (first_call_evaluates_all U (map by_value (ladder f g d n)) w s outs
             (map (ladder_expr f g d) (seq 0 (S n))) n (ladder_expr f g d n) s' v lg); auto.
  - apply Forall_forall. intros o Ho. apply in_map_iff in Ho as (u & <- & Hu).
    destruct Hu as [<-|Hu]; [exact I|]. apply in_map_iff in Hu as (k & <- & _). exact I.
  - apply ladder_shapes.
  - apply map_nth_error. rewrite (nth_error_nth' _ 0) by (rewrite seq_length; lia). now rewrite seq_nth by lia.
Qed.
End Proofs.
