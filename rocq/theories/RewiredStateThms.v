(** Lazy functions over function objects with state, and whole programs over them, with
    [byref] (C74): the machine runs exactly as [StateModel]. *)
From Coq Require Import List Bool Arith Lia.
From Verif Require Import Value Machine MachineSpec MachineLib Composed MachineThms BindSpec Programs
  RewiredSpec Rewired StateModel StateThms RewiredStateSpec RewiredState.
From Verif Require LazyModel RewiredThms.
Import ListNotations.

Section RewiredState.
Context {A W F S : Type}.
Notation value := (val A).
Notation obj := (obj A F S).
Notation mstate := (mstate A W F S).
Notation mevent := (mevent A F).
Notation cell := (bool * obj)%type.
Notation slz := (slz A F (option S)).
Notation data := (@Machine.data A F S).
Notation dead := (@MachineLib.dead A F S).
Notation mop := (mop A W F S).
Notation source := (source A F S).
Variable ve : value -> bool.
Variable C : config.
Variable U : muser A W F S.
Implicit Type st : mstate.
Implicit Type sto : list cell.
Hypothesis rewired : byref C = true.

Notation invoke := (invoke ve C U).
Notation SU := (state_user U).
Notation kept := (state_obj U).

(** ** One lazy function *)

(** Calls need at most fuel [n]. *)
Inductive sfits : nat -> slz -> Prop :=
| sfits_value n v ch : 3 <= n -> sfits n (SValue v ch)
| sfits_user n k f t c ds :
    4 <= k -> 10 + k <= n -> wrapped_defined U f -> Forall (sfits k) ds -> sfits n (SUser f t c ds)
| sfits_plain n f t c : 7 <= n -> plain_defined U f -> sfits n (SPlain f t c).

Lemma sfits_more n n' l : sfits n l -> n <= n' -> sfits n' l.
Proof. intros H. inversion H; subst; intros Hn; [constructor|econstructor|constructor]; eauto; lia. Qed.

Lemma user_stays f t c ds w :
  exists t' c', snd (fst (fst (sstep SU (SUser f t c ds) w))) = SUser f t' c' (snd (fst (fst (ssteps SU ds w)))).
Proof.
  rewrite sstep_user. destruct (ssteps SU ds w) as [[[[rs| |] ds'] w1] l1]; cbn [fst snd]; eauto.
  destruct (negb (LazyModel.is_some c) || existsb snd rs).
  - destruct (ssem SU f t _ w1) as [[t' [o|]] w2]; cbn; eauto.
  - destruct c; cbn; eauto.
Qed.

Lemma sstep_fits l : forall n w, sfits n l -> sfits n (snd (fst (fst (sstep SU l w)))).
Proof.
  induction l as [v ch|f t c ds IH|f t c] using slz_ind'; intros n w H; [exact H| |].
  - destruct (user_stays f t c ds w) as (t' & c' & ->).
    inversion H as [|? k ? ? ? ? Hk Hn Hp Hds|]; subst.
    econstructor; eauto. clear - IH Hds. revert w.
    induction Hds as [|d ds Hd Hds IHds]; intros w; inversion IH as [|? ? Id Ids]; subst; [constructor|].
    rewrite ssteps_cons. specialize (Id k w Hd).
    destruct (sstep SU d w) as [[[[x| |] d'] w1] l1]; cbn [fst snd] in *; try (now constructor).
    specialize (IHds Ids w1). destruct (ssteps SU ds w1) as [[[rs ds''] w2] l2]. now constructor.
  - cbn [sstep]. inversion H; subst. destruct (sdsem SU f t w) as [[t' [v|]] w']; cbn; now constructor.
Qed.

Lemma sstep_not_ub l : forall w, fst (fst (fst (sstep SU l w))) <> LazyModel.UB.
Proof.
  induction l as [v ch|f t c ds IH|f t c] using slz_ind'; intros w.
  - cbn. discriminate.
  - rewrite sstep_user.
    assert (H : fst (fst (fst (ssteps SU ds w))) <> LazyModel.UB).
    { clear - IH. revert w. induction IH as [|d ds Hd _ IHds]; intros w; [cbn; discriminate|].
      rewrite ssteps_cons. specialize (Hd w). destruct (sstep SU d w) as [[[[x| |] d'] w1] l1]; cbn [fst snd] in *; try congruence.
      specialize (IHds w1). destruct (ssteps SU ds w1) as [[[[rs| |] ds''] w2] l2]; cbn [fst snd] in *; congruence. }
    destruct (ssteps SU ds w) as [[[[rs| |] ds'] w1] l1]; cbn [fst snd] in *; try congruence.
    destruct (negb (LazyModel.is_some c) || existsb snd rs) eqn:E.
    + destruct (ssem SU f t _ w1) as [[t' [o|]] w2]; cbn; congruence.
    + destruct c; [cbn; congruence|discriminate].
  - cbn [sstep]. destruct (sdsem SU f t w) as [[t' [v|]] w']; cbn; congruence.
Qed.

Lemma snode_user f t c ds w :
  within (fun u => right_obj (Node KUnreg []) [u])
    (within (@unwrap_obj A F S) (snode U (reg_obj (fun_obj f t)) (wrapping U f t) c ds)) w =
  sstate U (SUser f t c ds) w.
Proof.
  unfold within, snode, sstate. rewrite sstep_user.
  destruct (ssteps SU ds w) as [[[[rs| |] ds'] w1] l1]; try reflexivity.
  destruct (negb (LazyModel.is_some c) || existsb snd rs); [|destruct c; reflexivity].
  unfold wrapping, fcall. cbn [ssem state_user stored saeq].
  set (vs := ctad_tuple as_tuple (map fst rs)).
  destruct (ucall U f t vs w1) as [[r w2] l] eqn:E.
  assert (El : l = [MCall f vs]).
  { unfold ucall in E. destruct (usem U f t vs w1) as [[[s' vs'] u] w'']. now injection E. }
  subst l. destruct r as [[v|]|e]; cbn [fst snd]; rewrite ?map_app; try reflexivity;
    destruct c; reflexivity.
Qed.

Lemma snode_plain f t c w :
  snode U (sample_fn (fun_obj f t)) (sampling_st U f t) c [SValue (VAtom (uint0 U)) true] w =
  sstate U (SPlain f t c) w.
Proof.
  unfold snode, sstate. rewrite ssteps_cons, sstep_value.
  change (ssteps SU [] w) with (@LazyModel.Ok (list (value * bool)) [], @nil slz, w, @nil (sevent A F (option S))).
  cbn [map app existsb snd fst ctad_tuple as_tuple orb sampling_st].
  rewrite orb_true_r. cbn [sstep state_user sdsem stored saeq].
  destruct (dcall U f t w) as [[r w2] l] eqn:E.
  assert (El : l = [MCall f []]).
  { unfold dcall, ucall in E. destruct (usem U f t [] w) as [[[s' vs'] u] w'']. now injection E. }
  subst l. destruct r as [v|e]; [|reflexivity]. destruct c; reflexivity.
Qed.

Lemma moves_more n n' g G : fn_moves ve C U n g G -> n <= n' -> fn_moves ve C U n' g G.
Proof. intros H Hn m st r args vs Hm. apply H. lia. Qed.

Lemma user_node f t c ds k :
  4 <= k -> wrapped_defined U f ->
  Forall (fun l => kdep ve C U k (kept l) (sstate U l)) ds ->
  kdep ve C U (3 + k) (node_obj c (reg_obj (fun_obj f t)) (map kept ds))
    (snode U (reg_obj (fun_obj f t)) (wrapping U f t) c ds).
Proof.
  intros Hk Hp Hds. apply node_state; [exact rewired| | | |exact Hds].
  - eapply moves_more; [apply reg_state; exact rewired|exact Hk].
  - intros He vs w. destruct t as [t|]; [discriminate|].
    unfold wrapping. destruct (fcall U f None vs w) as [[o w'] l]. reflexivity.
  - intros w0 rs ds' w1 l1 _ w' e. unfold wrapping, fcall.
    specialize (Hp t (ctad_tuple as_tuple (map fst rs)) w').
    destruct (ucall U f t (ctad_tuple as_tuple (map fst rs)) w') as [[[[v|]|e0] w''] l]; cbn in *; try discriminate.
    intros Ee. injection Ee as <-. now apply Hp.
Qed.

Lemma lazy_state l : forall n, sfits n l -> kdep ve C U n (kept l) (sstate U l).
Proof.
  induction l as [v ch|f t c ds IH|f t c] using slz_ind'; intros n H.
  - inversion H; subst. eapply RewiredThms.kdep_more; [|eassumption].
    eapply RewiredThms.kdep_ext; [apply value_kept; exact rewired|]. reflexivity.
  - inversion H as [|? k ? ? ? ? Hk Hn Hp Hds|]; subst.
    eapply RewiredThms.kdep_more; [|exact Hn]. change (10 + k) with (3 + (4 + (3 + k))).
    eapply RewiredThms.kdep_ext; [|apply snode_user]. cbn [state_obj]. unfold wrap_obj.
    apply unreg_null_kept; [exact rewired|reflexivity|].
    apply unwrap_null_kept; [exact rewired|apply RewiredThms.node_empty|].
    apply user_node; [exact Hk|exact Hp|].
    rewrite Forall_forall in *. intros d Hd. apply (IH d Hd). now apply Hds.
  - inversion H as [| |? ? ? ? Hn Hp]; subst. eapply RewiredThms.kdep_more; [|exact Hn].
    eapply RewiredThms.kdep_ext; [|apply snode_plain].
    change (kept (SPlain f t c)) with
      (node_obj c (sample_fn (fun_obj f t)) (map kept [SValue (VAtom (uint0 U)) true])).
    change 7 with (3 + 4). apply node_state; [exact rewired| | | |].
    + apply sample_state; exact rewired.
    + intros He vs w. destruct t as [t|]; [discriminate|].
      destruct vs as [|v [|v2 vs]]; cbn [sampling_st]; try reflexivity.
      destruct (dcall U f None w) as [[o w'] l]. reflexivity.
    + intros w rs ds' w1 l1 E w' e. injection E as <- _ _ _. cbn [map fst ctad_tuple as_tuple sampling_st].
      specialize (Hp t w'). destruct (dcall U f t w') as [[o w''] l]; cbn in *. intros ->. now apply Hp.
    + constructor; [|constructor]. eapply RewiredThms.kdep_more; [|apply Nat.le_succ_diag_r].
      eapply RewiredThms.kdep_ext; [apply value_kept; exact rewired|]. reflexivity.
Qed.

(** A call of a variable. *)
Lemma var_state f t c ds n :
  sfits n (SUser f t c ds) ->
  kcall ve C U (@api_value A F S) (1 + n) (kept (SUser f t c ds)) (sstate U (SUser f t c ds)).
Proof.
  intros H. inversion H as [|? k ? ? ? ? Hk Hn Hp Hds|]; subst.
  eapply RewiredThms.kcall_ext; [|apply snode_user]. cbn [state_obj]. unfold wrap_obj.
  assert (HK : kcall ve C U (@api_value A F S) (3 + (5 + (3 + k)))
    (right_obj (Node KUnreg []) [unwrap_obj (node_obj c (reg_obj (fun_obj f t)) (map kept ds))])
    (within (fun u => right_obj (Node KUnreg []) [u])
      (within (@unwrap_obj A F S) (snode U (reg_obj (fun_obj f t)) (wrapping U f t) c ds)))).
  { apply unreg_kept; [exact rewired|reflexivity|].
    apply unwrap_kept; [exact rewired|apply RewiredThms.node_empty|].
    apply user_node; [exact Hk|exact Hp|].
    rewrite Forall_forall in *. intros d Hd. apply lazy_state. now apply Hds. }
  intros m st r Hm. apply HK. lia.
Qed.

(** ** Programs *)
Definition is_user (l : slz) : Prop := match l with SUser _ _ _ _ => True | _ => False end.

Definition env_state (base : list cell) sto (n : nat) (rs : list ref) (vs : list slz) : Prop :=
  Forall2 (fun r l => holds sto r (kept l)) rs vs /\ NoDup (map fst rs) /\
  Forall (fun r => length base <= fst r) rs /\ Forall (fun l => is_user l /\ sfits n l) vs.

Lemma env_state_app base sto l n n' rs vs : env_state base sto n rs vs -> n <= n' -> env_state base (sto ++ l) n' rs vs.
Proof.
  intros (H1 & H2 & H3 & H4) Hn. split; [|split; [|split]]; auto.
  - eapply Forall2_impl; [|exact H1]. intros. now apply holds_app.
  - eapply Forall_impl; [|exact H4]. intros x [Hu Hf]. split; [exact Hu|]. eapply sfits_more; eassumption.
Qed.

Lemma env_state_new base sto n rs vs r l :
  env_state base sto n rs vs -> holds sto r (kept l) -> ~ In (fst r) (map fst rs) -> length base <= fst r ->
  is_user l -> sfits n l -> env_state base sto n (rs ++ [r]) (vs ++ [l]).
Proof.
  intros (H1 & H2 & H3 & H4) Hr Hn Hb Hu Hf. split; [|split; [|split]].
  - apply Forall2_app; auto.
  - rewrite map_app. now apply RewiredThms.NoDup_snoc.
  - apply Forall_app. auto.
  - apply Forall_app. auto.
Qed.

Lemma fresh_ref sto rs (vs : list slz) (r : ref) : Forall2 (fun r l => holds sto r (kept l)) rs vs ->
  length sto <= fst r -> ~ In (fst r) (map fst rs).
Proof.
  intros H Hl Hi. apply in_map_iff in Hi. destruct Hi as (r' & E & Hr').
  revert r' E Hr'. induction H as [|r0 l rs vs H _ IH]; intros r' E Hr'; [destruct Hr'|].
  destruct Hr' as [->|Hr']; [|now apply (IH r')]. pose proof (holds_lt _ _ _ H). lia.
Qed.

Lemma env_state_nth base sto n rs vs x : env_state base sto n rs vs -> x < length vs ->
  exists l, nth_error vs x = Some l /\ holds sto (nth x rs (0, [])) (kept l) /\ is_user l /\ sfits n l /\
            length base <= fst (nth x rs (0, [])).
Proof.
  intros (H1 & _ & H3 & H4). revert x H3 H4. induction H1 as [|r l rs vs H H1 IH]; intros [|x] H3 H4 Hx; cbn in *; try lia;
    inversion H3 as [|? ? A1 A2]; inversion H4 as [|? ? [B1 B1'] B2]; subst.
  - exists l. auto.
  - apply IH; auto. lia.
Qed.

Lemma env_state_set base sto n rs vs x l' l : env_state base sto n rs vs -> nth_error vs x = Some l ->
  is_user l' -> sfits n l' ->
  env_state base (mset sto (nth x rs (0, [])) (kept l')) n rs (LazyModel.update x l' vs).
Proof.
  intros (H1 & H2 & H3 & H4) Hx Hu Hf. split; [|split; [|split]]; auto.
  - clear H3 H4. revert x Hx H2. induction H1 as [|r l0 rs vs H H1 IH]; intros [|x] Hx H2; cbn in *; try discriminate;
      inversion H2 as [|? ? Hni Hnd]; subst.
    + constructor; [eapply holds_mset; exact H|].
      clear - H1 Hni. induction H1 as [|r1 l1 rs vs H H1 IH]; constructor.
      * apply holds_mset_other; [|exact H]. cbn in Hni. intuition.
      * apply IH. cbn in Hni. intuition.
    + constructor; [|now apply IH].
      apply holds_mset_other; [|exact H]. intros E. apply Hni. rewrite E.
      assert (Hin : In (nth x rs (0, [])) rs).
      { apply nth_In. clear - H1 Hx. apply F2_length in H1. rewrite H1. apply nth_error_Some. now rewrite Hx. }
      now apply in_map.
  - clear - H4 Hu Hf. revert x. induction H4 as [|y ys H Hys IH]; intros [|i]; cbn; constructor; auto.
Qed.

(** Construction. *)
Lemma sources_hand base n rs vs : forall deps st,
  env_state base (store st) n rs vs -> Forall (source_ok (length vs)) deps -> Forall (fun d => match d with SrcFun g _ => plain_defined U g | _ => True end) deps -> 7 <= n ->
  exists xs cells ds,
    mapM (source_arg rs) deps st = (Done xs, mkSt (store st ++ cells) (mworld st) (trace st)) /\
    sdeps_of vs (map (@kept_source A F S) deps) = Some ds /\
    Forall2 (hands U (store st ++ cells)) xs (map kept ds) /\
    Forall (sfits n) ds.
Proof.
  induction deps as [|d deps IH]; intros st He Hd Hs Hn.
  - exists [], [], []. rewrite app_nil_r, st_eta. repeat split; constructor.
  - inversion Hd as [|? ? H1 H2]; subst. inversion Hs as [|? ? S1 S2]; subst.
    destruct d as [x|g t|v]; cbn [mapM source_arg map kept_source sdeps_of sdep_of fst snd].
    + destruct (env_state_nth _ _ _ _ _ x He H1) as (l & El & Hl & _ & Hf & _).
      destruct (IH st He H2 S2 Hn) as (xs & cells & ds & Em & Ed & Hh & Hfs).
      rewrite El, Ed. cbn [option_map]. exists ((CLazy, lv (nth x rs (0, []))) :: xs), cells, (l :: ds).
      split; [|split; [reflexivity|split]].
      * rewrite bind_ret. erewrite bind_done by exact Em. reflexivity.
      * constructor; [|exact Hh]. unfold hands. cbn [fst snd lv aref]. now apply holds_app.
      * constructor; auto.
    + destruct (IH (mkSt (store st ++ [(true, fun_obj g t)]) (mworld st) (trace st))) as (xs & cells & ds & Em & Ed & Hh & Hfs); auto.
      { eapply env_state_app; [exact He|lia]. }
      cbn [store mworld trace] in *. rewrite Ed.
      exists ((CInvocable, lv (length (store st), [])) :: xs), ([(true, fun_obj g t)] ++ cells), (SPlain g t None :: ds).
      rewrite app_assoc. split; [|split; [reflexivity|split]].
      * rewrite bind_assoc. erewrite bind_done by reflexivity. rewrite bind_ret. erewrite bind_done by exact Em. reflexivity.
      * constructor; [|exact Hh]. unfold hands. cbn [fst snd lv aref]. exists g, t. split; [|reflexivity].
        apply holds_app. apply holds_new.
      * constructor; auto. apply sfits_plain; [lia|exact S1].
    + destruct (IH (mkSt (store st ++ [(true, data v)]) (mworld st) (trace st))) as (xs & cells & ds & Em & Ed & Hh & Hfs); auto.
      { eapply env_state_app; [exact He|lia]. }
      cbn [store mworld trace] in *. rewrite Ed.
      exists ((COther, lv (length (store st), [])) :: xs), ([(true, data v)] ++ cells), (SValue v false :: ds).
      rewrite app_assoc. split; [|split; [reflexivity|split]].
      * rewrite bind_assoc. erewrite bind_done by reflexivity. rewrite bind_ret. erewrite bind_done by exact Em. reflexivity.
      * constructor; [|exact Hh]. unfold hands. cbn [fst snd lv aref]. exists v. split; [|reflexivity].
        apply holds_app. apply holds_new.
      * constructor; auto. constructor. lia.
Qed.

Lemma new_state_obj base n st rs vs f s deps :
  env_state base (store st) n rs vs -> Forall (source_ok (length vs)) deps -> Forall (fun d => match d with SrcFun g _ => plain_defined U g | _ => True end) deps ->
  7 <= n -> wrapped_defined U f ->
  exists r cells ds,
    sdeps_of vs (map (@kept_source A F S) deps) = Some ds /\
    new_lazy ve C U rs f s deps st = (Done r, mkSt (store st ++ cells) (mworld st) (trace st)) /\
    holds (store st ++ cells) r (kept (SUser f s None ds)) /\ length (store st) <= fst r /\
    sfits (10 + n) (SUser f s None ds).
Proof.
  intros He Hd Hs Hn Hf. unfold new_lazy. erewrite bind_done by reflexivity.
  set (st1 := mkSt (store st ++ [(true, fun_obj f s)]) (mworld st) (trace st)).
  destruct (sources_hand base n rs vs deps st1) as (xs & c1 & ds & Em & Ed & Hh & Hfs); auto.
  { cbn [st1 store]. eapply env_state_app; [exact He|lia]. }
  erewrite bind_done by exact Em.
  set (st2 := mkSt (store st1 ++ c1) (mworld st1) (trace st1)) in *.
  assert (Hfn : holds (store st2) (aref (lv (length (store st), []))) (fun_obj f s)).
  { cbn [st2 st1 store lv aref]. apply holds_app. apply holds_new. }
  destruct (pigro_lazy_hands ve C U st2 _ f s xs _ Hfn Hh) as (c2 & Ep).
  erewrite bind_done by exact Ep. unfold alloc. cbn [st2 st1 store mworld trace].
  set (o := wrap_obj _).
  exists (length ((((store st ++ [(true, fun_obj f s)]) ++ c1) ++ c2)), []),
    ([(true, fun_obj f s)] ++ c1 ++ c2 ++ [(true, o)]), ds.
  split; [exact Ed|]. split; [rewrite <- !app_assoc; reflexivity|]. split; [|split].
  - rewrite !app_assoc. apply holds_new.
  - cbn [fst]. rewrite !app_length. lia.
  - eapply sfits_user with (k := n); auto; lia.
Qed.

Lemma state_run m : forall p base n rs vs st,
  env_state base (store st) n rs vs -> 7 <= n -> 1 + n + 10 * length p <= m ->
  prog_ok (length vs) p -> Forall (op_defined U) p ->
  (exists c, store st = base ++ c) ->
  exists vs' w' outs cells,
    srun SU (map (@kept_op A W F S) p) vs (mworld st) = Some (vs', w', outs) /\
    run_prog ve C U m rs p st =
      (map (@state_shows A F S) outs, mkSt (base ++ cells) w' (trace st ++ state_actions outs)).
Proof.
  induction p as [|op p IH]; intros base n rs vs st He Hn Hm Hp Hst (c0 & Hc0).
  - exists vs, (mworld st), [], c0. split; [reflexivity|].
    cbn. now rewrite app_nil_r, <- Hc0, st_eta.
  - inversion Hst as [|? ? S1 S2]; subst. cbn [length] in Hm.
    destruct op as [f s deps|x|x|h]; cbn [map kept_op srun sexec run_prog prog_ok fst snd] in *.
    + destruct Hp as [Hd Hp]. destruct S1 as [Sf Sd].
      destruct (new_state_obj base n st rs vs f s deps He Hd Sd Hn Sf) as (r & c1 & ds & Ed & En & Hr & Hge & Hfit).
      rewrite Ed, En. set (l := SUser f s None ds) in *.
      destruct (IH base (10 + n) (rs ++ [r]) (vs ++ [l]) (mkSt (store st ++ c1) (mworld st) (trace st)))
        as (vs' & w'' & outs & cells & E1 & E2); cbn [store mworld trace]; try lia; auto.
      { apply env_state_new; auto.
        - eapply env_state_app; [exact He|lia].
        - eapply fresh_ref; [apply He|exact Hge].
        - rewrite Hc0, app_length in Hge. lia.
        - exact I. }
      { rewrite app_length, Nat.add_1_r. exact Hp. }
      { exists (c0 ++ c1). now rewrite Hc0, app_assoc. }
      cbn [mworld trace] in E1, E2. rewrite E1, E2. exists vs', w'', ((None, []) :: outs), cells. split; reflexivity.
    + destruct Hp as [Hx Hp].
      destruct (env_state_nth _ _ _ _ _ x He Hx) as (l & El & Hl & Hu & Hf & Hge). rewrite El.
      rewrite (by_value_ok ve C st (lv (nth x rs (0, []))) _ Hl).
      destruct (IH base n (rs ++ @cons ref (length (store st), []) nil) (vs ++ [l])
                  (mkSt (store st ++ [(true, kept l)]) (mworld st) (trace st)))
        as (vs' & w'' & outs & cells & E1 & E2); cbn [store mworld trace]; try lia; auto.
      { apply env_state_new; auto.
        - eapply env_state_app; [exact He|lia].
        - apply holds_new.
        - eapply fresh_ref; [apply He|cbn; lia].
        - cbn. rewrite Hc0, app_length. lia. }
      { rewrite app_length, Nat.add_1_r. exact Hp. }
      { exists (c0 ++ [(true, kept l)]). now rewrite Hc0, app_assoc. }
      cbn [mworld trace] in E1, E2. rewrite E1, E2. exists vs', w'', ((None, []) :: outs), cells. split; reflexivity.
    + destruct Hp as [Hx Hp].
      destruct (env_state_nth _ _ _ _ _ x He Hx) as (l & El & Hl & Hu & Hf & Hge). rewrite El.
      destruct l as [v ch|f0 t0 c ds|f0 t0 c]; try contradiction.
      pose proof (var_state f0 t0 c ds n Hf m st (nth x rs (0, [])) ltac:(lia) Hl) as HC.
      pose proof (sstep_fits _ n (mworld st) Hf) as Hf'.
      pose proof (sstep_not_ub (SUser f0 t0 c ds) (mworld st)) as Hub.
      destruct (user_stays f0 t0 c ds (mworld st)) as (t' & c' & Ek).
      unfold sstate in HC.
      destruct (sstep SU (SUser f0 t0 c ds) (mworld st)) as [[[r l'] w'] lg].
      cbn [fst snd] in *. destruct HC as (c1 & HC).
      set (rx := nth x rs (0, [])) in *.
      assert (Hu' : is_user l') by (rewrite Ek; exact I).
      assert (E : call_lazy ve C U m rx st =
                  (kept_result (LazyModel.api_result r),
                   mkSt (mset (store st) rx (kept l') ++ map dead c1) w' (trace st ++ map state_event lg))).
      { unfold call_lazy. destruct r as [[v b]| |].
        - erewrite bind_done by exact HC. rewrite RewiredThms.observe_api. cbn [LazyModel.api_result].
          destruct v; reflexivity.
        - erewrite bind_err by exact HC. reflexivity.
        - congruence. }
      rewrite E.
      destruct (IH base n rs (LazyModel.update x l' vs)
                  (mkSt (mset (store st) rx (kept l') ++ map dead c1) w' (trace st ++ map state_event lg)))
        as (vs' & w'' & outs & cells & E1 & E2); cbn [store mworld trace]; try lia; auto.
      { eapply env_state_app with (n := n); [|lia].
        eapply env_state_set; [exact He|exact El|exact Hu'|exact Hf']. }
      { replace (length (LazyModel.update x l' vs)) with (length vs); [exact Hp|].
        symmetry. apply MachineLib.update_length. }
      { rewrite Hc0. destruct (RewiredThms.mset_base base c0 rx (kept l') Hge) as (c2 & ->).
        exists (c2 ++ map dead c1). now rewrite app_assoc. }
      cbn [mworld trace] in E1, E2. rewrite E1, E2.
      exists vs', w'', ((Some (LazyModel.api_result r), lg) :: outs), cells. split; [reflexivity|].
      cbn [map state_shows fst option_map state_actions flat_map snd]. now rewrite app_assoc.
    + destruct (IH base n rs vs (mkSt (store st) (h (mworld st)) (trace st)))
        as (vs' & w'' & outs & cells & E1 & E2); cbn [store mworld trace]; try lia; auto.
      { exists c0. exact Hc0. }
      cbn [mworld trace store] in E1, E2. rewrite E1, E2. exists vs', w'', ((None, []) :: outs), cells. split; reflexivity.
Qed.

End RewiredState.

(** C74 *)
Theorem rewired_state_run {A W F S} (ve : val A -> bool) (b : bool) (U : muser A W F S) (p : list (mop A W F S)) :
  prog_ok 0 p -> Forall (op_defined U) p ->
  exists n, forall m st, n <= m -> exists vs w' outs cells,
    srun (state_user U) (map (@kept_op A W F S) p) [] (mworld st) = Some (vs, w', outs) /\
    run_prog ve (mkCfg b true) U m [] p st =
      (map (@state_shows A F S) outs, mkSt (store st ++ cells) w' (trace st ++ state_actions outs)).
Proof.
  intros Hp Hs. exists (1 + 7 + 10 * length p). intros m st Hm.
  apply (state_run ve (mkCfg b true) U eq_refl m p (store st) 7 [] []); auto.
  - repeat split; constructor.
  - exists []. now rewrite app_nil_r.
Qed.
