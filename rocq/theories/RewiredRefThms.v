(** Whole programs with [std::ref] and [byref] (C67): the machine runs exactly as
    [SharedModel]. *)
From Coq Require Import List Bool Arith Lia.
From Verif Require Import RewiredThms.
From Verif Require Import Value Machine MachineSpec MachineLib Composed MachineThms BindSpec Programs
  RewiredSpec Rewired RefPrograms RewiredRefSpec RewiredRefs RewiredRefCalls RewiredRefLazy.
From Verif Require LazyModel SharedModel SharedProofs HistoryThms ShareThms.
Import ListNotations.

Section Programs.
Context {A W F S : Type}.
Notation value := (val A).
Notation obj := (obj A F S).
Notation mstate := (mstate A W F S).
Notation mevent := (mevent A F).
Notation cell := (bool * obj)%type.
Notation fn := (F * option S)%type.
Notation slz := (SharedModel.slz A fn fn).
Notation data := (@Machine.data A F S).
Notation dead := (@MachineLib.dead A F S).
Notation rop := (rop A W F S).
Notation rsource := (rsource A F S).
Variable ve : value -> bool.
Variable C : config.
Variable U : muser A W F S.
Implicit Type st : mstate.
Implicit Type sto : list cell.
Implicit Type vs : list slz.
Hypothesis rewired : byref C = true.

Notation KU := (kept_user U).
Notation fits := (RewiredRefs.fits U).
Notation vars_fit := (RewiredRefs.vars_fit U).
Notation sk := (@skept A F S).

(** ** The variables *)
Definition env_refs (base : list cell) sto (rs : list ref) vs : Prop :=
  length vs = length rs /\ NoDup (map fst rs) /\ Forall (fun r => length base <= fst r) rs /\
  stored rs (length rs) vs sto /\ vars_fit vs.

Lemma sk_more rs r l : forall k n, fits k n l -> k <= length rs -> sk (rs ++ [r]) l = sk rs l.
Proof.
  induction l as [v ch|g c ds IH|x] using HistoryThms.slz_ind'; intros k n H Hk; [reflexivity| |].
  - assert (E : map (sk (rs ++ [r])) ds = map (sk rs) ds).
    { inversion H as [|? j p ? ? _ _ _ Hds| |]; subst; [|reflexivity].
      clear H. induction Hds as [|d ds Hd Hds IHd]; [reflexivity|]. inversion IH as [|? ? I1 I2]; subst.
      cbn [map]. f_equal; [eapply I1; [exact Hd|exact Hk]|now apply IHd]. }
    destruct g as [p|p]; cbn [skept]; now rewrite E.
  - inversion H as [| | |? ? Hx _]; subst. cbn [skept]. rewrite app_nth1; [reflexivity|].
    unfold ref in *. lia.
Qed.

Lemma fits_refs k n l : fits k n l -> forall y, In y (ShareThms.srefs l) -> y < k.
Proof.
  revert n. induction l as [v ch|g c ds IH|x] using HistoryThms.slz_ind'; intros n H y Hy; cbn in Hy.
  - destruct Hy.
  - inversion H as [|? j p ? ? _ _ _ Hds| |]; subst; [|destruct Hy].
    apply in_flat_map in Hy. destruct Hy as (d & Hd & Hy). rewrite Forall_forall in IH, Hds.
    eapply (IH d Hd); [now apply Hds|exact Hy].
  - inversion H; subst. now destruct Hy as [<-|[]].
Qed.

Lemma fit_ordered vs : vars_fit vs -> ShareThms.ordered vs.
Proof. intros H x l E y Hy. destruct (H _ _ E) as [_ Hf]. exact (fits_refs _ _ _ Hf y Hy). Qed.

Lemma env_refs_app base sto l rs vs : env_refs base sto rs vs -> env_refs base (sto ++ l) rs vs.
Proof. intros (H1 & H2 & H3 & H4 & H5). repeat (split; [assumption|]). split; [now apply stored_app|exact H5]. Qed.

Lemma env_refs_new base sto rs vs r l :
  env_refs base sto rs vs -> holds sto r (sk rs l) -> ~ In (fst r) (map fst rs) -> length base <= fst r ->
  is_user l -> fits (length rs) (bound (length rs)) l -> env_refs base sto (rs ++ [r]) (vs ++ [l]).
Proof.
  intros (H1 & H2 & H3 & [_ H4] & H5) Hr Hn Hb Hu Hf.
  assert (Hnth : forall i, i < length rs -> nth i (rs ++ [r]) (0, []) = nth i rs (0, [])).
  { intros i Hi. apply app_nth1. exact Hi. }
  assert (Hlast : nth (length rs) (rs ++ [r]) (0, []) = r).
  { rewrite app_nth2 by (apply le_n). now rewrite Nat.sub_diag. }
  split; [now rewrite !app_length, H1|]. split; [rewrite map_app; now apply NoDup_snoc|].
  split; [apply Forall_app; auto|]. split.
  - split; [apply le_n|]. intros i Hi. rewrite app_length in Hi. cbn [length] in Hi.
    unfold RewiredRefs.at_var, val_of. destruct (Nat.eq_dec i (length rs)) as [->|Hne].
    + rewrite Hlast. rewrite app_nth2 by (unfold ref in *; lia). rewrite H1, Nat.sub_diag. cbn [nth].
      erewrite sk_more; [exact Hr|exact Hf|apply le_n].
    + assert (Hi' : i < length rs) by lia. rewrite Hnth by exact Hi'. rewrite app_nth1 by (unfold ref in *; lia).
      specialize (H4 i Hi'). unfold RewiredRefs.at_var, val_of in H4.
      destruct (nth_error vs i) as [l0|] eqn:E.
      2: { exfalso. apply nth_error_None in E. unfold ref in *. lia. }
      rewrite (nth_error_nth _ _ _ E) in *. destruct (H5 _ _ E) as [_ Hf0].
      erewrite sk_more; [exact H4|exact Hf0|lia].
  - intros i l0 E. destruct (Nat.eq_dec i (length vs)) as [->|Hne].
    + rewrite nth_error_app2, Nat.sub_diag in E by lia. injection E as <-. rewrite H1. auto.
    + assert (i < length (vs ++ [l])) by (apply nth_error_Some; congruence).
      rewrite app_length in *. cbn [length] in *. rewrite nth_error_app1 in E by lia. now apply H5.
Qed.

Lemma fresh_var rs vs sto (r : ref) : stored rs (length rs) vs sto -> length sto <= fst r ->
  ~ In (fst r) (map fst rs).
Proof.
  intros [_ H] Hl Hi. apply in_map_iff in Hi. destruct Hi as (r' & E & Hr').
  destruct (In_nth _ _ (0, []) Hr') as (i & Hi & En). specialize (H i Hi).
  apply holds_lt in H. unfold RewiredRefs.at_var, ref in *. rewrite En in H. lia.
Qed.

Lemma env_refs_nth base sto rs vs x : env_refs base sto rs vs -> x < length vs ->
  exists l, nth_error vs x = Some l /\ holds sto (nth x rs (0, [])) (sk rs l) /\ is_user l /\ fits x (bound x) l.
Proof.
  intros (H1 & _ & _ & [_ H4] & H5) Hx.
  destruct (nth_error vs x) as [l|] eqn:E; [|apply nth_error_None in E; lia].
  exists l. split; [reflexivity|]. destruct (H5 _ _ E) as [Hu Hf]. split; [|auto].
  specialize (H4 x ltac:(unfold ref in *; lia)). now rewrite (nth_of rs vs x _ E) in H4.
Qed.

Lemma set_vars_base rs (base : list cell) vs : Forall (fun r => length base <= fst r) rs ->
  forall k c, k <= length rs -> exists c', set_vars rs k vs (base ++ c) = base ++ c'.
Proof.
  intros H. induction k as [|k IH]; intros c Hk; [exists c; reflexivity|].
  destruct (IH c ltac:(lia)) as (c' & E). cbn [set_vars]. rewrite E. apply mset_base.
  unfold RewiredRefs.at_var. rewrite Forall_forall in H. apply H. apply nth_In. exact Hk.
Qed.

(** ** Construction *)
Definition room (rs : list ref) : nat := 8 + 11 * length rs.

Lemma rsources_hand base rs vs : forall (deps : list rsource) st,
  env_refs base (store st) rs vs -> Forall (source_ok (length vs)) (map (@unref A F S) deps) ->
  Forall (source_steady U) (map (@unref A F S) deps) ->
  exists xs cells ds,
    mapM (rsource_arg rs) deps st = (Done xs, mkSt (store st ++ cells) (mworld st) (trace st)) /\
    SharedModel.sdeps_of KU vs (map (@kept_rsource A F S) deps) = Some ds /\
    Forall2 (hands U (store st ++ cells)) xs (map (sk rs) ds) /\
    Forall (fits (length rs) (room rs)) ds.
Proof.
  induction deps as [|d deps IH]; intros st He Hd Hs.
  - exists [], [], []. rewrite app_nil_r, st_eta. repeat split; constructor.
  - cbn [map] in Hd, Hs. inversion Hd as [|? ? H1 H2]; subst. inversion Hs as [|? ? S1 S2]; subst.
    assert (Hl : length vs = length rs) by apply He.
    destruct d as [x|[x|g t|v]]; cbn [mapM rsource_arg source_arg map kept_rsource kept_source SharedModel.sdeps_of SharedModel.sdep_of].
    + cbn [unref source_ok] in H1.
      destruct (env_refs_nth _ _ _ _ x He H1) as (l & El & _ & _ & _).
      set (o := @std_ref A F S (nth x rs (0, []))).
      destruct (IH (mkSt (store st ++ [(true, o)]) (mworld st) (trace st))) as (xs & cells & ds & Em & Ed & Hh & Hfs); auto.
      { now apply env_refs_app. }
      cbn [store mworld trace] in *. rewrite El, Ed.
      exists ((CLazy, lv (length (store st), [])) :: xs), ([(true, o)] ++ cells), (SharedModel.SRef x :: ds).
      rewrite app_assoc. split; [|split; [reflexivity|split]].
      * rewrite bind_assoc. erewrite bind_done by reflexivity. rewrite bind_ret. erewrite bind_done by exact Em. reflexivity.
      * constructor; [|exact Hh]. unfold hands. cbn [fst snd lv aref]. apply holds_app. apply holds_new.
      * constructor; [|exact Hfs]. constructor; unfold room, bound, ref in *; lia.
    + cbn [unref source_ok] in H1.
      destruct (env_refs_nth _ _ _ _ x He H1) as (l & El & Hl0 & _ & Hf).
      destruct (IH st He H2 S2) as (xs & cells & ds & Em & Ed & Hh & Hfs).
      rewrite El, Ed. exists ((CLazy, lv (nth x rs (0, []))) :: xs), cells, (l :: ds).
      split; [|split; [reflexivity|split]].
      * rewrite bind_ret. erewrite bind_done by exact Em. reflexivity.
      * constructor; [|exact Hh]. unfold hands. cbn [fst snd lv aref]. now apply holds_app.
      * constructor; [|exact Hfs]. eapply fits_more; [exact Hf|unfold ref in *; lia|unfold room, bound, ref in *; lia].
    + destruct (IH (mkSt (store st ++ [(true, fun_obj g t)]) (mworld st) (trace st))) as (xs & cells & ds & Em & Ed & Hh & Hfs); auto.
      { now apply env_refs_app. }
      cbn [store mworld trace] in *. rewrite Ed.
      exists ((CInvocable, lv (length (store st), [])) :: xs), ([(true, fun_obj g t)] ++ cells),
        (SharedModel.SCore (LazyModel.FnSample (g, t)) None [SharedModel.SValue (VAtom (uint0 U)) true] :: ds).
      rewrite app_assoc. split; [|split; [reflexivity|split]].
      * rewrite bind_assoc. erewrite bind_done by reflexivity. rewrite bind_ret. erewrite bind_done by exact Em. reflexivity.
      * constructor; [|exact Hh]. unfold hands. cbn [fst snd lv aref]. exists g, t. split; [|reflexivity].
        apply holds_app. apply holds_new.
      * constructor; [|exact Hfs]. apply fits_sample; [unfold room; lia|exact S1].
    + destruct (IH (mkSt (store st ++ [(true, data v)]) (mworld st) (trace st))) as (xs & cells & ds & Em & Ed & Hh & Hfs); auto.
      { now apply env_refs_app. }
      cbn [store mworld trace] in *. rewrite Ed.
      exists ((COther, lv (length (store st), [])) :: xs), ([(true, data v)] ++ cells), (SharedModel.SValue v false :: ds).
      rewrite app_assoc. split; [|split; [reflexivity|split]].
      * rewrite bind_assoc. erewrite bind_done by reflexivity. rewrite bind_ret. erewrite bind_done by exact Em. reflexivity.
      * constructor; [|exact Hh]. unfold hands. cbn [fst snd lv aref]. exists v. split; [|reflexivity].
        apply holds_app. apply holds_new.
      * constructor; [|exact Hfs]. constructor. unfold room. lia.
Qed.

Lemma rnew_kept base st rs vs f s (deps : list rsource) :
  env_refs base (store st) rs vs -> Forall (source_ok (length vs)) (map (@unref A F S) deps) ->
  Forall (source_steady U) (map (@unref A F S) deps) -> wrapped_ok U f s ->
  exists r cells ds,
    SharedModel.sdeps_of KU vs (map (@kept_rsource A F S) deps) = Some ds /\
    rnew_lazy ve C U rs f s deps st = (Done r, mkSt (store st ++ cells) (mworld st) (trace st)) /\
    holds (store st ++ cells) r (sk rs (SharedModel.SCore (LazyModel.FnUser (f, s)) None ds)) /\
    length (store st) <= fst r /\
    fits (length rs) (bound (length rs)) (SharedModel.SCore (LazyModel.FnUser (f, s)) None ds).
Proof.
  intros He Hd Hs Hf. unfold rnew_lazy. erewrite bind_done by reflexivity.
  set (st1 := mkSt (store st ++ [(true, fun_obj f s)]) (mworld st) (trace st)).
  destruct (rsources_hand base rs vs deps st1) as (xs & c1 & ds & Em & Ed & Hh & Hfs); auto.
  { cbn [st1 store]. now apply env_refs_app. }
  erewrite bind_done by exact Em.
  set (st2 := mkSt (store st1 ++ c1) (mworld st1) (trace st1)) in *.
  assert (Hfn : holds (store st2) (aref (lv (length (store st), []))) (fun_obj f s)).
  { cbn [st2 st1 store lv aref]. apply holds_app. apply holds_new. }
  destruct (pigro_lazy_hands ve C U st2 _ f s xs _ Hfn Hh) as (c2 & Ep).
  erewrite bind_done by exact Ep. unfold alloc. cbn [st2 st1 store mworld trace].
  set (o := wrap_obj _).
  exists (length ((((store st ++ [(true, fun_obj f s)]) ++ c1) ++ c2)), []),
    ([(true, fun_obj f s)] ++ c1 ++ c2 ++ [(true, o)]), ds.
  split; [exact Ed|]. split; [rewrite <- !app_assoc; reflexivity|]. split; [|split].
  - rewrite !app_assoc. apply holds_new.
  - cbn [fst]. rewrite !app_length. lia.
  - apply fits_user with (j := room rs); auto; unfold room, bound; lia.
Qed.

Lemma refs_run m : forall (p : list rop) base rs vs st,
  env_refs base (store st) rs vs -> 19 + 11 * (length rs + length p) <= m ->
  prog_ok (length vs) (by_values p) -> Forall (rop_steady U) p ->
  (exists c, store st = base ++ c) ->
  exists s' outs cells,
    SharedModel.srun KU (map (@kept_rop A W F S) p) (SharedModel.mkSState vs (mworld st)) = Some (s', outs) /\
    run_refs ve C U m rs p st =
      (map (@kept_shows A F S) outs, mkSt (base ++ cells) (SharedModel.sworld s') (trace st ++ kept_actions outs)) /\
    Forall (fun o => fst o <> Some LazyModel.UB) outs.
Proof.
  induction p as [|op p IH]; intros base rs vs st He Hm Hp Hst (c0 & Hc0).
  - exists (SharedModel.mkSState vs (mworld st)), [], c0. split; [reflexivity|].
    split; [cbn; now rewrite app_nil_r, <- Hc0, st_eta|constructor].
  - inversion Hst as [|? ? S1 S2]; subst. cbn [length] in Hm. unfold by_values in Hp. cbn [map] in Hp.
    fold (by_values p) in Hp.
    destruct op as [f s deps|x|x|h];
      cbn [map kept_rop SharedModel.srun SharedModel.sexec run_refs prog_ok unref_op SharedModel.svars SharedModel.sworld] in *.
    + destruct Hp as [Hd Hp]. destruct S1 as [Sf Sd].
      destruct (rnew_kept base st rs vs f s deps He Hd Sd Sf) as (r & c1 & ds & Ed & En & Hr & Hge & Hfit).
      rewrite Ed, En. set (l := SharedModel.SCore (LazyModel.FnUser (f, s)) None ds) in *.
      destruct (IH base (rs ++ [r]) (vs ++ [l]) (mkSt (store st ++ c1) (mworld st) (trace st)))
        as (s' & outs & cells & E1 & E2 & E3); cbn [store mworld trace]; auto.
      { apply env_refs_new; auto.
        - now apply env_refs_app.
        - eapply fresh_var; [apply He|exact Hge].
        - rewrite Hc0, app_length in Hge. lia.
        - exact I. }
      { rewrite app_length. cbn [length]. unfold ref in *. lia. }
      { rewrite app_length, Nat.add_1_r. exact Hp. }
      { exists (c0 ++ c1). now rewrite Hc0, app_assoc. }
      cbn [mworld trace] in E1, E2. rewrite E1, E2. exists s', ((None, []) :: outs), cells.
      split; [reflexivity|]. split; [reflexivity|]. constructor; [discriminate|exact E3].
    + destruct Hp as [Hx Hp].
      destruct (env_refs_nth _ _ _ _ x He Hx) as (l & El & Hl & Hu & Hf). rewrite El.
      rewrite (by_value_ok ve C st (lv (nth x rs (0, []))) _ Hl).
      assert (Hlen : length vs = length rs) by apply He.
      destruct (IH base (rs ++ @cons ref (length (store st), []) nil) (vs ++ [l])
                  (mkSt (store st ++ [(true, sk rs l)]) (mworld st) (trace st)))
        as (s' & outs & cells & E1 & E2 & E3); cbn [store mworld trace]; auto.
      { apply env_refs_new; auto.
        - now apply env_refs_app.
        - apply holds_new.
        - eapply fresh_var; [apply He|cbn; lia].
        - cbn. rewrite Hc0, app_length. lia.
        - eapply fits_more; [exact Hf|unfold ref in *; lia|unfold bound, ref in *; lia]. }
      { rewrite app_length. cbn [length]. unfold ref in *. lia. }
      { rewrite app_length, Nat.add_1_r. exact Hp. }
      { exists (c0 ++ [(true, sk rs l)]). now rewrite Hc0, app_assoc. }
      cbn [mworld trace] in E1, E2. rewrite E1, E2. exists s', ((None, []) :: outs), cells.
      split; [reflexivity|]. split; [reflexivity|]. constructor; [discriminate|exact E3].
    + destruct Hp as [Hx Hp].
      destruct (env_refs_nth _ _ _ _ x He Hx) as (l & El & Hl & Hu & Hf). rewrite El.
      destruct He as (Hlen & Hnd & Hbase & Hstored & Hvf).
      assert (Hxr : x < length rs) by (unfold ref in *; lia).
      destruct (ShareThms.sstep_done KU (length vs) l vs (mworld st) (fit_ordered vs Hvf))
        as (r & l' & vs' & w' & lg & Es & _).
      { intros y Hy. pose proof (fits_refs _ _ _ Hf y Hy). lia. }
      rewrite Es.
      destruct (sstep_keeps U (length vs) l _ _ _ _ _ _ _ _ _ Hvf Hf Es) as (Hf1 & Hk1 & Hv1 & Hub).
      destruct l as [v ch|[q|q] c ds|]; try contradiction.
      destruct (var_shared ve C U rewired rs Hnd (length vs) x (bound x) q c ds Hf m st (nth x rs (0, [])) vs
                  r (sk rs l') vs' w' (map kept_event lg) ltac:(unfold bound, ref in *; lia) Hl
                  (var_outside rs Hnd x x (le_n _) Hxr) (stored_less rs _ _ _ _ Hstored (Nat.lt_le_incl _ _ Hxr)) Hvf)
        as (c1 & HC).
      { unfold skstep. now rewrite Es. }
      set (rx := nth x rs (0, [])) in *.
      set (vs2 := update x l' vs').
      assert (Elev : set_vars rs (length rs) vs2 (store st) = mset (set_vars rs x vs' (store st)) rx (sk rs l')).
      { eapply set_vars_level; [exact Hnd|exact Hxr|exact Hstored|apply Hv1|rewrite (proj1 Hv1); exact Hx|apply Hv1]. }
      rewrite <- Elev in HC.
      assert (E : call_lazy ve C U m rx st =
                  (kept_result (LazyModel.api_result r),
                   mkSt (set_vars rs (length rs) vs2 (store st) ++ map dead c1) w' (trace st ++ map kept_event lg))).
      { unfold call_lazy. destruct r as [[v b]| |].
        - erewrite bind_done by exact HC. rewrite observe_api. cbn [LazyModel.api_result].
          destruct v; reflexivity.
        - erewrite bind_err by exact HC. reflexivity.
        - congruence. }
      rewrite E. fold vs2.
      assert (Hv2 : vars_keep U (length rs) vs vs2).
      { eapply update_keeps; [exact Hxr|exact El|exact Hv1|exact Hk1|exact I|exact Hf1]. }
      assert (Hlen2 : length vs2 = length vs) by apply Hv2.
      destruct (IH base rs vs2
                  (mkSt (set_vars rs (length rs) vs2 (store st) ++ map dead c1) w' (trace st ++ map kept_event lg)))
        as (s' & outs & cells & E1 & E2 & E3); cbn [store mworld trace]; auto.
      { apply env_refs_app. split; [now rewrite Hlen2|]. split; [exact Hnd|]. split; [exact Hbase|].
        split; [eapply stored_set; [exact Hnd|exact Hstored]|apply Hv2]. }
      { unfold ref in *. lia. }
      { rewrite Hlen2. exact Hp. }
      { rewrite Hc0. destruct (set_vars_base rs base vs2 Hbase (length rs) c0 (le_n _)) as (c2 & ->).
        exists (c2 ++ map dead c1). now rewrite app_assoc. }
      cbn [mworld trace] in E1, E2. rewrite E1, E2.
      exists s', ((Some (LazyModel.api_result r), lg) :: outs), cells. split; [reflexivity|]. split.
      * cbn [map kept_shows fst option_map kept_actions flat_map snd]. now rewrite app_assoc.
      * constructor; [|exact E3]. cbn [fst]. destruct r as [[[] b]| |]; cbn; congruence.
    + destruct (IH base rs vs (mkSt (store st) (h (mworld st)) (trace st)))
        as (s' & outs & cells & E1 & E2 & E3); cbn [store mworld trace]; auto.
      { unfold ref in *. lia. }
      { exists c0. exact Hc0. }
      cbn [mworld trace store] in E1, E2. rewrite E1, E2. exists s', ((None, []) :: outs), cells.
      split; [reflexivity|]. split; [reflexivity|]. constructor; [discriminate|exact E3].
Qed.

End Programs.

(** C67 *)
Lemma rewired_refs_both {A W F S} (ve : val A -> bool) (b : bool) (U : muser A W F S) (p : list (rop A W F S)) :
  prog_ok 0 (by_values p) -> Forall (rop_steady U) p ->
  exists n, forall m st, n <= m -> exists s' outs cells,
    SharedModel.srun (kept_user U) (map (@kept_rop A W F S) p) (SharedModel.mkSState [] (mworld st)) = Some (s', outs) /\
    run_refs ve (mkCfg b true) U m [] p st =
      (map (@kept_shows A F S) outs,
       mkSt (store st ++ cells) (SharedModel.sworld s') (trace st ++ kept_actions outs)) /\
    Forall (fun o => fst o <> Some LazyModel.UB) outs.
Proof.
  intros Hp Hs. exists (19 + 11 * length p). intros m st Hm.
  apply (refs_run ve (mkCfg b true) U eq_refl m p (store st) [] []); auto.
  - split; [reflexivity|]. split; [constructor|]. split; [constructor|].
    split; [split; [apply le_n|cbn; intros i Hi; lia]|].
    intros i l E. now destruct i.
  - exists []. now rewrite app_nil_r.
Qed.

Theorem rewired_refs_run {A W F S} (ve : val A -> bool) (b : bool) (U : muser A W F S) (p : list (rop A W F S)) :
  prog_ok 0 (by_values p) -> Forall (rop_steady U) p ->
  exists n, forall m st, n <= m -> exists s' outs cells,
    SharedModel.srun (kept_user U) (map (@kept_rop A W F S) p) (SharedModel.mkSState [] (mworld st)) = Some (s', outs) /\
    run_refs ve (mkCfg b true) U m [] p st =
      (map (@kept_shows A F S) outs,
       mkSt (store st ++ cells) (SharedModel.sworld s') (trace st ++ kept_actions outs)).
Proof.
  intros Hp Hs. destruct (rewired_refs_both ve b U p Hp Hs) as (n & H). exists n. intros m st Hm.
  destruct (H m st Hm) as (s' & outs & cells & H1 & H2 & _). eauto.
Qed.

Theorem rewired_refs_defined {A W F S} (ve : val A -> bool) (U : muser A W F S) (p : list (rop A W F S)) :
  prog_ok 0 (by_values p) -> Forall (rop_steady U) p ->
  exists n, forall m st e, n <= m ->
    In (Some (Err e)) (fst (run_refs ve (mkCfg true true) U m [] p st)) -> e = Throw.
Proof.
  intros Hp Hs. destruct (rewired_refs_both ve true U p Hp Hs) as (n & H). exists n. intros m st e Hm Hin.
  destruct (H m st Hm) as (s' & outs & cells & _ & E & Hd). rewrite E in Hin. cbn [fst] in Hin.
  apply in_map_iff in Hin. destruct Hin as (o & Eo & Ho).
  rewrite Forall_forall in Hd. specialize (Hd o Ho).
  unfold kept_shows in Eo. destruct (fst o) as [[x| |]|]; cbn in Eo; congruence.
Qed.

(** With a single user for each lazy function, [std::ref] makes no difference. *)
Lemma by_value_kept {A W F S} (p : list (rop A W F S)) :
  map SharedModel.by_value (map (@kept_rop A W F S) p) = map (@kept_op A W F S) (by_values p).
Proof.
  unfold by_values. rewrite !map_map. apply map_ext. intros [f s deps|x|x|h]; cbn; try reflexivity.
  f_equal. rewrite !map_map. apply map_ext. intros [x|d]; reflexivity.
Qed.

Theorem rewired_refs_single {A W F S} (ve : val A -> bool) (b : bool) (U : muser A W F S) (p : list (rop A W F S)) :
  prog_ok 0 (by_values p) -> Forall (rop_steady U) p ->
  SharedModel.single_user (map (@kept_rop A W F S) p) 0 [] [] ->
  exists n, forall m st, n <= m ->
    fst (run_refs ve (mkCfg b true) U m [] p st) = fst (run_prog ve (mkCfg b true) U m [] (by_values p) st) /\
    trace (snd (run_refs ve (mkCfg b true) U m [] p st)) = trace (snd (run_prog ve (mkCfg b true) U m [] (by_values p) st)).
Proof.
  intros Hp Hs Hu. destruct (rewired_refs_run ve b U p Hp Hs) as (n1 & H1).
  assert (Hs' : Forall (op_steady U) (by_values p)).
  { unfold by_values. apply (proj2 (Forall_map (@unref_op A W F S) (op_steady U) p)). exact Hs. }
  destruct (rewired_run ve b U (by_values p) Hp Hs') as (n2 & H2).
  exists (n1 + n2). intros m st Hm.
  destruct (H1 m st ltac:(lia)) as (s1 & o1 & c1 & E1 & R1). destruct (H2 m st ltac:(lia)) as (s2 & o2 & c2 & E2 & R2).
  rewrite <- by_value_kept in E2.
  destruct (SharedProofs.single_user_same _ _ _ _ _ Hu E2) as (s3 & E3).
  rewrite E3 in E1. injection E1 as _ <-. rewrite R1, R2. split; reflexivity.
Qed.
