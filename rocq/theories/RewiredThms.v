(** Lazy functions and whole programs over them with [byref] (C54): the machine runs
    exactly as [LazyModel]. *)
From Coq Require Import List Bool Arith Lia.
From Verif Require Import Value Machine MachineSpec MachineLib Composed MachineThms BindSpec Programs
  RewiredSpec Rewired.
From Verif Require LazyModel LazyGeneral.
Import ListNotations.

Section Rewired.
Context {A W F S : Type}.
Notation value := (val A).
Notation obj := (obj A F S).
Notation mstate := (mstate A W F S).
Notation mevent := (mevent A F).
Notation cell := (bool * obj)%type.
Notation fn := (F * option S)%type.
Notation lz := (LazyModel.lz A fn fn).
Notation data := (@Machine.data A F S).
Notation dead := (@MachineLib.dead A F S).
Notation mop := (mop A W F S).
Notation source := (source A F S).
Variable ve : value -> bool.
Variable C : config.
Variable U : muser A W F S.
Implicit Type st : mstate.
Implicit Type sto : list cell.
Hypothesis rewired : byref C = true.

Notation invoke := (invoke ve C U).
Notation KU := (kept_user U).
Notation kept := (@kept_obj A F S).

(** ** One lazy function *)

(** Lazy functions over functions that calls do not change; calls need at most fuel [n]. *)
Inductive fits : nat -> lz -> Prop :=
| fits_value n v ch : 3 <= n -> fits n (LazyModel.LValue v ch)
| fits_user n k p c ds :
    4 <= k -> 10 + k <= n -> wrapped_ok U (fst p) (snd p) -> Forall (fits k) ds ->
    fits n (LazyModel.LCore (LazyModel.FnUser p) c ds)
| fits_sample n p c :
    7 <= n -> plain_ok U (fst p) (snd p) ->
    fits n (LazyModel.LCore (LazyModel.FnSample p) c [LazyModel.LValue (VAtom (uint0 U)) true]).

Lemma fits_more n n' l : fits n l -> n <= n' -> fits n' l.
Proof. intros H. inversion H; subst; intros Hn; [constructor|econstructor|constructor]; eauto; lia. Qed.

Lemma core_kind (g : LazyModel.fnobj fn fn) c ds w :
  exists c', snd (fst (fst (LazyModel.step KU (LazyModel.LCore g c ds) w))) =
             LazyModel.LCore g c' (snd (fst (fst (LazyModel.steps KU ds w)))).
Proof.
  rewrite LazyGeneral.step_core. destruct (LazyModel.steps KU ds w) as [[[[rs| |] ds'] w1] l1]; cbn [fst snd]; eauto.
  destruct (LazyModel.core KU g c rs w1) as [[[r c'] w2] l2]. cbn. eauto.
Qed.

Lemma step_fits l : forall n w, fits n l -> fits n (snd (fst (fst (LazyModel.step KU l w)))).
Proof.
  induction l as [v ch|g c ds IH] using LazyModel.lz_ind'; intros n w H; [exact H|].
  destruct (core_kind g c ds w) as (c' & ->).
  inversion H as [|? k p ? ? Hk Hn Hp Hds|? p ? Hn Hp]; subst.
  - econstructor; eauto. clear - IH Hds. revert w.
    induction Hds as [|d ds Hd Hds IHds]; intros w; inversion IH as [|? ? Id Ids]; subst; [constructor|].
    rewrite LazyGeneral.steps_cons. specialize (Id k w Hd).
    destruct (LazyModel.step KU d w) as [[[[x| |] d'] w1] l1]; cbn [fst snd] in *; try (now constructor).
    specialize (IHds Ids w1). destruct (LazyModel.steps KU ds w1) as [[[rs ds''] w2] l2]. now constructor.
  - now constructor.
Qed.

Lemma kdep_more n n' o D : kdep ve C U n o D -> n <= n' -> kdep ve C U n' o D.
Proof. intros H Hn m st r a Hm. apply H. lia. Qed.

Lemma kdep_ext n o D D' : kdep ve C U n o D -> (forall w, D w = D' w) -> kdep ve C U n o D'.
Proof. intros H E m st r a Hm Hr Ha. rewrite <- E. now apply H. Qed.

Lemma kcall_ext R n o D D' : kcall ve C U R n o D -> (forall w, D w = D' w) -> kcall ve C U R n o D'.
Proof. intros H E m st r Hm Hr. rewrite <- E. now apply H. Qed.

Lemma same_user p vs : wrapped_ok U (fst p) (snd p) ->
  same_fn U (LazyModel.FnUser p) (fcall U (fst p) (snd p)) vs.
Proof.
  intros [_ Ht] w. specialize (Ht vs w). unfold fcall. cbn [LazyModel.call_fn LazyModel.sem kept_user].
  destruct (ucall U (fst p) (snd p) vs w) as [[r w'] l] eqn:E. cbn [fst] in Ht.
  assert (El : l = [MCall (fst p) vs]).
  { unfold ucall in E. destruct (usem U (fst p) (snd p) vs w) as [[[s' vs'] u] w'']. now injection E. }
  split.
  - intros e He. destruct r as [[v|]|e0]; try discriminate. injection He as ->. now apply Ht.
  - exists [LazyModel.EvCall p vs]. split; [now rewrite El|]. destruct r as [[v|]|e]; reflexivity.
Qed.

Lemma same_sample p v : plain_ok U (fst p) (snd p) ->
  same_fn U (LazyModel.FnSample p) (sampling U (fst p) (snd p)) [v].
Proof.
  intros [_ Ht] w. specialize (Ht w). cbn [LazyModel.call_fn LazyModel.dsem kept_user sampling].
  destruct (dcall U (fst p) (snd p) w) as [[r w'] l] eqn:E. cbn [fst] in Ht.
  assert (El : l = [MCall (fst p) []]).
  { unfold dcall, ucall in E. destruct (usem U (fst p) (snd p) [] w) as [[[s' vs'] u] w'']. now injection E. }
  split.
  - intros e ->. now apply Ht.
  - exists [LazyModel.EvSample p]. split; [now rewrite El|]. reflexivity.
Qed.

Lemma node_empty c g (os : list obj) : obj_empty ve (node_obj c g os) = false.
Proof. reflexivity. Qed.

Lemma knode_user p c ds w :
  within (fun u => right_obj (Node KUnreg []) [u])
    (within (@unwrap_obj A F S) (knode U (reg_obj (fun_obj (fst p) (snd p))) (LazyModel.FnUser p) c ds)) w =
  kstep U (LazyModel.LCore (LazyModel.FnUser p) c ds) w.
Proof.
  unfold within, knode, kstep. destruct (core_kind (LazyModel.FnUser p) c ds w) as (c' & E).
  destruct (LazyModel.step KU (LazyModel.LCore (LazyModel.FnUser p) c ds) w) as [[[r l'] w'] lg].
  cbn [fst snd] in E. subst l'. reflexivity.
Qed.

Lemma knode_sample p c ds w :
  knode U (sample_fn (fun_obj (fst p) (snd p))) (LazyModel.FnSample p) c ds w =
  kstep U (LazyModel.LCore (LazyModel.FnSample p) c ds) w.
Proof.
  unfold knode, kstep. destruct (core_kind (LazyModel.FnSample p) c ds w) as (c' & E).
  destruct (LazyModel.step KU (LazyModel.LCore (LazyModel.FnSample p) c ds) w) as [[[r l'] w'] lg].
  cbn [fst snd] in E. subst l'. reflexivity.
Qed.

Lemma fn_more n n' g G : fn_ok ve C U n g G -> n <= n' -> fn_ok ve C U n' g G.
Proof. intros H Hn m st r args vs Hm. apply H. lia. Qed.

Lemma user_node p c ds k :
  4 <= k -> wrapped_ok U (fst p) (snd p) ->
  Forall (fun l => kdep ve C U k (kept l) (kstep U l)) ds ->
  kdep ve C U (3 + k) (node_obj c (reg_obj (fun_obj (fst p) (snd p))) (map kept ds))
    (knode U (reg_obj (fun_obj (fst p) (snd p))) (LazyModel.FnUser p) c ds).
Proof.
  intros Hk Hp Hds. eapply node_kept; [exact rewired| | |exact Hds].
  - eapply fn_more; [apply reg_kept; [exact rewired|apply Hp]|exact Hk].
  - intros. now apply same_user.
Qed.

Lemma lazy_kept l : forall n, fits n l -> kdep ve C U n (kept l) (kstep U l).
Proof.
  induction l as [v ch|g c ds IH] using LazyModel.lz_ind'; intros n H.
  - inversion H; subst. eapply kdep_more; [|eassumption].
    eapply kdep_ext; [apply value_kept; exact rewired|]. reflexivity.
  - inversion H as [|? k p ? ? Hk Hn Hp Hds|? p ? Hn Hp]; subst.
    + eapply kdep_more; [|exact Hn]. change (10 + k) with (3 + (4 + (3 + k))).
      eapply kdep_ext; [|apply knode_user]. cbn [kept_obj]. unfold wrap_obj.
      apply unreg_null_kept; [exact rewired|reflexivity|].
      apply unwrap_null_kept; [exact rewired|apply node_empty|].
      apply user_node; [exact Hk|exact Hp|].
      rewrite Forall_forall in *. intros d Hd. apply (IH d Hd). now apply Hds.
    + eapply kdep_more; [|exact Hn]. eapply kdep_ext; [|apply knode_sample]. cbn [kept_obj].
      change 7 with (3 + 4). eapply node_kept; [exact rewired| | |].
      * apply sample_kept; [exact rewired|apply Hp].
      * intros w rs ds' w1 l1 E. injection E as <- _ _ _. cbn [map fst ctad_tuple as_tuple].
        now apply same_sample.
      * constructor; [|constructor]. eapply kdep_more; [|apply Nat.le_succ_diag_r].
        eapply kdep_ext; [apply value_kept; exact rewired|]. reflexivity.
Qed.

(** A call of a variable. *)
Lemma var_kept p c ds n :
  fits n (LazyModel.LCore (LazyModel.FnUser p) c ds) ->
  kcall ve C U (@api_value A F S) (1 + n) (kept (LazyModel.LCore (LazyModel.FnUser p) c ds))
    (kstep U (LazyModel.LCore (LazyModel.FnUser p) c ds)).
Proof.
  intros H. inversion H as [|? k p' ? ? Hk Hn Hp Hds|]; subst.
  eapply kcall_ext; [|apply knode_user]. cbn [kept_obj]. unfold wrap_obj.
  intros m st r Hm. revert m st r Hm.
  assert (HK : kcall ve C U (@api_value A F S) (3 + (5 + (3 + k)))
    (right_obj (Node KUnreg []) [unwrap_obj (node_obj c (reg_obj (fun_obj (fst p) (snd p))) (map kept ds))])
    (within (fun u => right_obj (Node KUnreg []) [u])
      (within (@unwrap_obj A F S) (knode U (reg_obj (fun_obj (fst p) (snd p))) (LazyModel.FnUser p) c ds)))).
  { apply unreg_kept; [exact rewired|reflexivity|].
    apply unwrap_kept; [exact rewired|apply node_empty|].
    apply user_node; [exact Hk|exact Hp|].
    rewrite Forall_forall in *. intros d Hd. apply lazy_kept. now apply Hds. }
  intros m st r Hm. apply HK. lia.
Qed.

(** ** Programs *)
Definition is_user (l : lz) : Prop := match l with LazyModel.LCore (LazyModel.FnUser _) _ _ => True | _ => False end.

Definition env_kept (base : list cell) sto (n : nat) (rs : list ref) (vs : list lz) : Prop :=
  Forall2 (fun r l => holds sto r (kept l)) rs vs /\ NoDup (map fst rs) /\
  Forall (fun r => length base <= fst r) rs /\ Forall (fun l => is_user l /\ fits n l) vs.

Lemma env_kept_app base sto l n n' rs vs : env_kept base sto n rs vs -> n <= n' -> env_kept base (sto ++ l) n' rs vs.
Proof.
  intros (H1 & H2 & H3 & H4) Hn. split; [|split; [|split]]; auto.
  - eapply Forall2_impl; [|exact H1]. intros. now apply holds_app.
  - eapply Forall_impl; [|exact H4]. intros x [Hu Hf]. split; [exact Hu|]. eapply fits_more; eassumption.
Qed.

Lemma NoDup_snoc {X} (x : X) xs : NoDup xs -> ~ In x xs -> NoDup (xs ++ [x]).
Proof.
  induction 1 as [|y xs Hy _ IH]; intros Hn; cbn in *; [repeat constructor; auto|].
  constructor; [|apply IH; auto].
  intros H. apply in_app_or in H. destruct H as [H|[H|[]]]; auto.
Qed.

Lemma env_kept_new base sto n rs vs r l :
  env_kept base sto n rs vs -> holds sto r (kept l) -> ~ In (fst r) (map fst rs) -> length base <= fst r ->
  is_user l -> fits n l -> env_kept base sto n (rs ++ [r]) (vs ++ [l]).
Proof.
  intros (H1 & H2 & H3 & H4) Hr Hn Hb Hu Hf. split; [|split; [|split]].
  - apply Forall2_app; auto.
  - rewrite map_app. now apply NoDup_snoc.
  - apply Forall_app. auto.
  - apply Forall_app. auto.
Qed.

Lemma fresh_ref sto rs (vs : list lz) (r : ref) : Forall2 (fun r l => holds sto r (kept l)) rs vs ->
  length sto <= fst r -> ~ In (fst r) (map fst rs).
Proof.
  intros H Hl Hi. apply in_map_iff in Hi. destruct Hi as (r' & E & Hr').
  revert r' E Hr'. induction H as [|r0 l rs vs H _ IH]; intros r' E Hr'; [destruct Hr'|].
  destruct Hr' as [->|Hr']; [|now apply (IH r')]. pose proof (holds_lt _ _ _ H). lia.
Qed.

Lemma env_kept_nth base sto n rs vs x : env_kept base sto n rs vs -> x < length vs ->
  exists l, nth_error vs x = Some l /\ holds sto (nth x rs (0, [])) (kept l) /\ is_user l /\ fits n l /\
            length base <= fst (nth x rs (0, [])).
Proof.
  intros (H1 & _ & H3 & H4). revert x H3 H4. induction H1 as [|r l rs vs H H1 IH]; intros [|x] H3 H4 Hx; cbn in *; try lia;
    inversion H3 as [|? ? A1 A2]; inversion H4 as [|? ? [B1 B1'] B2]; subst.
  - exists l. auto.
  - apply IH; auto. lia.
Qed.

Lemma env_kept_set base sto n rs vs x l' l : env_kept base sto n rs vs -> nth_error vs x = Some l ->
  is_user l' -> fits n l' ->
  env_kept base (mset sto (nth x rs (0, [])) (kept l')) n rs (LazyModel.update x l' vs).
Proof.
  intros (H1 & H2 & H3 & H4) Hx Hu Hf. split; [|split; [|split]]; auto.
  - clear H3 H4. revert x Hx H2. induction H1 as [|r l0 rs vs H H1 IH]; intros [|x] Hx H2; cbn in *; try discriminate;
      inversion H2 as [|? ? Hni Hnd]; subst.
    + constructor; [eapply holds_mset; exact H|].
      clear - H1 Hni. induction H1 as [|r1 l1 rs vs H H1 IH]; constructor.
      * apply holds_mset_other; [|exact H]. cbn in Hni. intuition.
      * apply IH. cbn in Hni. intuition.
    + constructor; [|now apply IH].
      apply holds_mset_other; [|exact H]. intros E. apply Hni. rewrite E.
      assert (Hin : In (nth x rs (0, [])) rs).
      { apply nth_In. clear - H1 Hx. apply F2_length in H1. rewrite H1. apply nth_error_Some. now rewrite Hx. }
      now apply in_map.
  - clear - H4 Hu Hf. revert x. induction H4 as [|y ys H Hys IH]; intros [|i]; cbn; constructor; auto.
Qed.

Lemma mset_base (base c : list cell) r o : length base <= fst r -> exists c', mset (base ++ c) r o = base ++ c'.
Proof.
  intros H. unfold mset. destruct (nth_error (base ++ c) (fst r)) as [[b root]|]; [|eauto].
  rewrite update_app_ge by exact H. eauto.
Qed.

(** Construction. *)
Lemma sources_hand base n rs vs : forall deps st,
  env_kept base (store st) n rs vs -> Forall (source_ok (length vs)) deps -> Forall (source_steady U) deps -> 7 <= n ->
  exists xs cells ds,
    mapM (source_arg rs) deps st = (Done xs, mkSt (store st ++ cells) (mworld st) (trace st)) /\
    LazyModel.deps_of vs (map (@kept_source A F S) deps) = Some ds /\
    Forall2 (hands U (store st ++ cells)) xs (map kept (map (LazyModel.ensure_lazy KU) ds)) /\
    Forall (fits n) (map (LazyModel.ensure_lazy KU) ds).
Proof.
  induction deps as [|d deps IH]; intros st He Hd Hs Hn.
  - exists [], [], []. rewrite app_nil_r, st_eta. repeat split; constructor.
  - inversion Hd as [|? ? H1 H2]; subst. inversion Hs as [|? ? S1 S2]; subst.
    destruct d as [x|g t|v]; cbn [mapM source_arg map kept_source LazyModel.deps_of LazyModel.dep_of].
    + destruct (env_kept_nth _ _ _ _ _ x He H1) as (l & El & Hl & _ & Hf & _).
      destruct (IH st He H2 S2 Hn) as (xs & cells & ds & Em & Ed & Hh & Hfs).
      rewrite El, Ed. cbn [option_map]. exists ((CLazy, lv (nth x rs (0, []))) :: xs), cells, (LazyModel.ObjLazy l :: ds).
      split; [|split; [reflexivity|split]].
      * rewrite bind_ret. erewrite bind_done by exact Em. reflexivity.
      * constructor; [|exact Hh]. unfold hands. cbn [fst snd lv aref LazyModel.ensure_lazy]. now apply holds_app.
      * constructor; auto.
    + destruct (IH (mkSt (store st ++ [(true, fun_obj g t)]) (mworld st) (trace st))) as (xs & cells & ds & Em & Ed & Hh & Hfs); auto.
      { eapply env_kept_app; [exact He|lia]. }
      cbn [store mworld trace] in *. rewrite Ed.
      exists ((CInvocable, lv (length (store st), [])) :: xs), ([(true, fun_obj g t)] ++ cells), (LazyModel.ObjPlain (g, t) :: ds).
      rewrite app_assoc. split; [|split; [reflexivity|split]].
      * rewrite bind_assoc. erewrite bind_done by reflexivity. rewrite bind_ret. erewrite bind_done by exact Em. reflexivity.
      * constructor; [|exact Hh]. unfold hands. cbn [fst snd lv aref]. exists g, t. split; [|reflexivity].
        apply holds_app. apply holds_new.
      * constructor; auto. cbn [LazyModel.ensure_lazy LazyModel.sample_node]. apply fits_sample; [lia|exact S1].
    + destruct (IH (mkSt (store st ++ [(true, data v)]) (mworld st) (trace st))) as (xs & cells & ds & Em & Ed & Hh & Hfs); auto.
      { eapply env_kept_app; [exact He|lia]. }
      cbn [store mworld trace] in *. rewrite Ed.
      exists ((COther, lv (length (store st), [])) :: xs), ([(true, data v)] ++ cells), (LazyModel.ObjValue v :: ds).
      rewrite app_assoc. split; [|split; [reflexivity|split]].
      * rewrite bind_assoc. erewrite bind_done by reflexivity. rewrite bind_ret. erewrite bind_done by exact Em. reflexivity.
      * constructor; [|exact Hh]. unfold hands. cbn [fst snd lv aref]. exists v. split; [|reflexivity].
        apply holds_app. apply holds_new.
      * constructor; auto. cbn [LazyModel.ensure_lazy]. constructor. lia.
Qed.

Lemma new_kept base n st rs vs f s deps :
  env_kept base (store st) n rs vs -> Forall (source_ok (length vs)) deps -> Forall (source_steady U) deps ->
  7 <= n -> wrapped_ok U f s ->
  exists r cells ds,
    LazyModel.deps_of vs (map (@kept_source A F S) deps) = Some ds /\
    new_lazy ve C U rs f s deps st = (Done r, mkSt (store st ++ cells) (mworld st) (trace st)) /\
    holds (store st ++ cells) r (kept (LazyModel.mk_lazy KU (f, s) ds)) /\ length (store st) <= fst r /\
    fits (10 + n) (LazyModel.mk_lazy KU (f, s) ds).
Proof.
  intros He Hd Hs Hn Hf. unfold new_lazy. erewrite bind_done by reflexivity.
  set (st1 := mkSt (store st ++ [(true, fun_obj f s)]) (mworld st) (trace st)).
  destruct (sources_hand base n rs vs deps st1) as (xs & c1 & ds & Em & Ed & Hh & Hfs); auto.
  { cbn [st1 store]. eapply env_kept_app; [exact He|lia]. }
  erewrite bind_done by exact Em.
  set (st2 := mkSt (store st1 ++ c1) (mworld st1) (trace st1)) in *.
  assert (Hfn : holds (store st2) (aref (lv (length (store st), []))) (fun_obj f s)).
  { cbn [st2 st1 store lv aref]. apply holds_app. apply holds_new. }
  destruct (pigro_lazy_hands ve C U st2 _ f s xs _ Hfn Hh) as (c2 & Ep).
  erewrite bind_done by exact Ep. unfold alloc. cbn [st2 st1 store mworld trace].
  set (o := wrap_obj _).
  exists (length ((((store st ++ [(true, fun_obj f s)]) ++ c1) ++ c2)), []),
    ([(true, fun_obj f s)] ++ c1 ++ c2 ++ [(true, o)]), ds.
  split; [exact Ed|]. split; [rewrite <- !app_assoc; reflexivity|]. split; [|split].
  - rewrite !app_assoc. apply holds_new.
  - cbn [fst]. rewrite !app_length. lia.
  - unfold LazyModel.mk_lazy. eapply fits_user with (k := n); auto; lia.
Qed.

Lemma observe_api st v :
  observe ve C (@api_value A F S v) st = (Done (match v with VVoid => None | _ => Some v end), st).
Proof. destruct v; reflexivity. Qed.

Lemma kept_run m : forall p base n rs vs st,
  env_kept base (store st) n rs vs -> 7 <= n -> 1 + n + 10 * length p <= m ->
  prog_ok (length vs) p -> Forall (op_steady U) p ->
  (exists c, store st = base ++ c) ->
  exists s' outs cells,
    LazyModel.run KU (map (@kept_op A W F S) p) (LazyModel.mkState vs (mworld st)) = Some (s', outs) /\
    run_prog ve C U m rs p st =
      (map (@kept_shows A F S) outs, mkSt (base ++ cells) (LazyModel.world s') (trace st ++ kept_actions outs)).
Proof.
  induction p as [|op p IH]; intros base n rs vs st He Hn Hm Hp Hst (c0 & Hc0).
  - exists (LazyModel.mkState vs (mworld st)), [], c0. split; [reflexivity|].
    cbn. now rewrite app_nil_r, <- Hc0, st_eta.
  - inversion Hst as [|? ? S1 S2]; subst. cbn [length] in Hm.
    destruct op as [f s deps|x|x|h]; cbn [map kept_op LazyModel.run LazyModel.exec run_prog prog_ok LazyModel.vars LazyModel.world] in *.
    + destruct Hp as [Hd Hp]. destruct S1 as [Sf Sd].
      destruct (new_kept base n st rs vs f s deps He Hd Sd Hn Sf) as (r & c1 & ds & Ed & En & Hr & Hge & Hfit).
      rewrite Ed, En. set (l := LazyModel.mk_lazy KU (f, s) ds) in *.
      destruct (IH base (10 + n) (rs ++ [r]) (vs ++ [l]) (mkSt (store st ++ c1) (mworld st) (trace st)))
        as (s' & outs & cells & E1 & E2); cbn [store mworld trace]; try lia; auto.
      { apply env_kept_new; auto.
        - eapply env_kept_app; [exact He|lia].
        - eapply fresh_ref; [apply He|exact Hge].
        - rewrite Hc0, app_length in Hge. lia.
        - exact I. }
      { rewrite app_length, Nat.add_1_r. exact Hp. }
      { exists (c0 ++ c1). now rewrite Hc0, app_assoc. }
      cbn [mworld trace] in E1, E2. rewrite E1, E2. exists s', ((None, []) :: outs), cells. split; reflexivity.
    + destruct Hp as [Hx Hp].
      destruct (env_kept_nth _ _ _ _ _ x He Hx) as (l & El & Hl & Hu & Hf & Hge). rewrite El.
      rewrite (by_value_ok ve C st (lv (nth x rs (0, []))) _ Hl).
      destruct (IH base n (rs ++ @cons ref (length (store st), []) nil) (vs ++ [l])
                  (mkSt (store st ++ [(true, kept l)]) (mworld st) (trace st)))
        as (s' & outs & cells & E1 & E2); cbn [store mworld trace]; try lia; auto.
      { apply env_kept_new; auto.
        - eapply env_kept_app; [exact He|lia].
        - apply holds_new.
        - eapply fresh_ref; [apply He|cbn; lia].
        - cbn. rewrite Hc0, app_length. lia. }
      { rewrite app_length, Nat.add_1_r. exact Hp. }
      { exists (c0 ++ [(true, kept l)]). now rewrite Hc0, app_assoc. }
      cbn [mworld trace] in E1, E2. rewrite E1, E2. exists s', ((None, []) :: outs), cells. split; reflexivity.
    + destruct Hp as [Hx Hp].
      destruct (env_kept_nth _ _ _ _ _ x He Hx) as (l & El & Hl & Hu & Hf & Hge). rewrite El.
      destruct l as [v ch|[q|q] c ds]; try contradiction.
      pose proof (var_kept q c ds n Hf m st (nth x rs (0, [])) ltac:(lia) Hl) as HC.
      pose proof (step_fits _ n (mworld st) Hf) as Hf'.
      pose proof (LazyGeneral.step_not_ub KU (LazyModel.LCore (LazyModel.FnUser q) c ds) (mworld st)) as Hub.
      destruct (core_kind (LazyModel.FnUser q) c ds (mworld st)) as (c' & Ek).
      unfold kstep in HC.
      destruct (LazyModel.step KU (LazyModel.LCore (LazyModel.FnUser q) c ds) (mworld st)) as [[[r l'] w'] lg].
      cbn [fst snd] in *. destruct HC as (c1 & HC).
      set (rx := nth x rs (0, [])) in *.
      assert (Hu' : is_user l') by (rewrite Ek; exact I).
      assert (E : call_lazy ve C U m rx st =
                  (kept_result (LazyModel.api_result r),
                   mkSt (mset (store st) rx (kept l') ++ map dead c1) w' (trace st ++ map kept_event lg))).
      { unfold call_lazy. destruct r as [[v b]| |].
        - erewrite bind_done by exact HC. rewrite observe_api. cbn [LazyModel.api_result].
          destruct v; reflexivity.
        - erewrite bind_err by exact HC. reflexivity.
        - congruence. }
      rewrite E.
      destruct (IH base n rs (LazyModel.update x l' vs)
                  (mkSt (mset (store st) rx (kept l') ++ map dead c1) w' (trace st ++ map kept_event lg)))
        as (s' & outs & cells & E1 & E2); cbn [store mworld trace]; try lia; auto.
      { eapply env_kept_app with (n := n); [|lia].
        eapply env_kept_set; [exact He|exact El|exact Hu'|exact Hf']. }
      { replace (length (LazyModel.update x l' vs)) with (length vs); [exact Hp|].
        symmetry. apply update_length. }
      { rewrite Hc0. destruct (mset_base base c0 rx (kept l') Hge) as (c2 & ->).
        exists (c2 ++ map dead c1). now rewrite app_assoc. }
      cbn [mworld trace] in E1, E2. rewrite E1, E2.
      exists s', ((Some (LazyModel.api_result r), lg) :: outs), cells. split; [reflexivity|].
      cbn [map kept_shows fst option_map kept_actions flat_map snd]. now rewrite app_assoc.
    + destruct (IH base n rs vs (mkSt (store st) (h (mworld st)) (trace st)))
        as (s' & outs & cells & E1 & E2); cbn [store mworld trace]; try lia; auto.
      { exists c0. exact Hc0. }
      cbn [mworld trace store] in E1, E2. rewrite E1, E2. exists s', ((None, []) :: outs), cells. split; reflexivity.
Qed.

End Rewired.

(** C54 *)
Theorem rewired_run {A W F S} (ve : val A -> bool) (b : bool) (U : muser A W F S) (p : list (mop A W F S)) :
  prog_ok 0 p -> Forall (op_steady U) p ->
  exists n, forall m st, n <= m -> exists s' outs cells,
    LazyModel.run (kept_user U) (map (@kept_op A W F S) p) (LazyModel.mkState [] (mworld st)) = Some (s', outs) /\
    run_prog ve (mkCfg b true) U m [] p st =
      (map (@kept_shows A F S) outs,
       mkSt (store st ++ cells) (LazyModel.world s') (trace st ++ kept_actions outs)).
Proof.
  intros Hp Hs. exists (1 + 7 + 10 * length p). intros m st Hm.
  apply (kept_run ve (mkCfg b true) U eq_refl m p (store st) 7 [] []); auto.
  - repeat split; constructor.
  - exists []. now rewrite app_nil_r.
Qed.

(** Nothing undefined, nothing ill-formed. *)
Lemma run_defined {A W fid did} (U : LazyModel.user A W fid did) : forall p s s' outs,
  LazyModel.run U p s = Some (s', outs) ->
  Forall (fun o => match fst o with Some r => r <> LazyModel.UB | None => True end) outs.
Proof.
  induction p as [|o p IH]; intros s s' outs E; cbn [LazyModel.run] in E.
  - injection E as _ <-. constructor.
  - destruct (LazyModel.exec U o s) as [[s1 out]|] eqn:E1; [|discriminate].
    destruct (LazyModel.run U p s1) as [[s2 outs']|] eqn:E2; [|discriminate].
    injection E as _ <-. constructor; [|eapply IH; exact E2].
    destruct o as [f ds|x|x|h]; cbn [LazyModel.exec] in E1.
    + destruct (LazyModel.deps_of (LazyModel.vars s) ds); [|discriminate]. injection E1 as _ <-. exact I.
    + destruct (nth_error (LazyModel.vars s) x); [|discriminate]. injection E1 as _ <-. exact I.
    + destruct (nth_error (LazyModel.vars s) x) as [l|]; [|discriminate].
      pose proof (LazyGeneral.step_not_ub U l (LazyModel.world s)) as Hub.
      destruct (LazyModel.step U l (LazyModel.world s)) as [[[r l'] w'] lg]. cbn [fst snd] in *.
      injection E1 as _ <-. cbn [fst]. destruct r as [[[]]| |]; cbn; congruence.
    + injection E1 as _ <-. exact I.
Qed.

Theorem rewired_defined {A W F S} (ve : val A -> bool) (U : muser A W F S) (p : list (mop A W F S)) :
  prog_ok 0 p -> Forall (op_steady U) p ->
  exists n, forall m st e, n <= m ->
    In (Some (Err e)) (fst (run_prog ve (mkCfg true true) U m [] p st)) -> e = Throw.
Proof.
  intros Hp Hs. destruct (rewired_run ve true U p Hp Hs) as (n & H). exists n. intros m st e Hm Hin.
  destruct (H m st Hm) as (s' & outs & cells & E1 & E2). rewrite E2 in Hin. cbn [fst] in Hin.
  apply in_map_iff in Hin. destruct Hin as (o & Eo & Ho).
  pose proof (run_defined _ _ _ _ _ E1) as Hd. rewrite Forall_forall in Hd. specialize (Hd o Ho).
  unfold kept_shows in Eo. destruct (fst o) as [[x| |]|]; cbn in Eo; congruence.
Qed.
