(** Whole programs over lazy functions as composed (C46, C47). *)
From Coq Require Import List Bool Arith Lia.
From Verif Require Import Value Machine MachineSpec MachineSpec2 MachineLib Composed Strictness MachineThms BindSpec Programs.
Import ListNotations.

Section Programs.
Context {A W F S : Type}.
Notation value := (val A).
Notation obj := (obj A F S).
Notation cell := (bool * obj)%type.
Notation mstate := (mstate A W F S).
Notation mevent := (mevent A F).
Notation M := (M A W F S).
Notation lexp := (lexp A F S).
Notation data := (@Machine.data A F S).
Notation source := (source A F S).
Notation mop := (mop A W F S).
Variable ve : value -> bool.
Variable U : muser A W F S.
Implicit Type st : mstate.
Implicit Type sto : list cell.

Definition env_holds sto (rs : list ref) (env : list lexp) : Prop :=
  Forall2 (fun r e => holds sto r (lazy_obj U e)) rs env.

Lemma env_app sto l rs env : env_holds sto rs env -> env_holds (sto ++ l) rs env.
Proof. intros H. eapply Forall2_impl; [|exact H]. intros. now apply holds_app. Qed.

Lemma env_nth sto rs env x : env_holds sto rs env -> x < length env ->
  exists e, nth_error env x = Some e /\ holds sto (nth x rs (0, [])) (lazy_obj U e).
Proof.
  intros H. revert x. induction H as [|r e rs env H _ IH]; intros [|x] Hx; cbn in *; try lia.
  - eauto.
  - apply IH. lia.
Qed.

Lemma sources_given rs env : forall deps st,
  env_holds (store st) rs env -> Forall (source_ok (length env)) deps ->
  exists xs cells,
    mapM (source_arg rs) deps st = (Done xs, mkSt (store st ++ cells) (mworld st) (trace st)) /\
    Forall2 (given U (store st ++ cells)) xs (sources env deps).
Proof.
  induction deps as [|d deps IH]; intros st He Hd.
  - exists [], []. rewrite app_nil_r, st_eta. split; [reflexivity|constructor].
  - inversion Hd as [|? ? H1 H2]; subst. destruct d as [x|g t|v]; cbn [mapM source_arg sources].
    + destruct (env_nth _ _ _ x He H1) as (e & Ee & Hx). destruct (IH st He H2) as (xs & cells & Em & Hg).
      rewrite Ee. eexists _, cells. split.
      * rewrite bind_ret. erewrite bind_done by exact Em. reflexivity.
      * constructor; [|exact Hg]. split; [reflexivity|]. cbn [snd lv aref]. now apply holds_app.
    + destruct (IH (mkSt (store st ++ [(true, fun_obj g t)]) (mworld st) (trace st))) as (xs & cells & Em & Hg); auto.
      { now apply env_app. }
      cbn [store mworld trace] in *. eexists _, ([(true, fun_obj g t)] ++ cells). rewrite app_assoc. split.
      * rewrite bind_assoc. erewrite bind_done by reflexivity. rewrite bind_ret. erewrite bind_done by exact Em. reflexivity.
      * constructor; [|exact Hg]. split; [reflexivity|]. cbn [snd lv aref]. apply holds_app. apply holds_new.
    + destruct (IH (mkSt (store st ++ [(true, data v)]) (mworld st) (trace st))) as (xs & cells & Em & Hg); auto.
      { now apply env_app. }
      cbn [store mworld trace] in *. eexists _, ([(true, data v)] ++ cells). rewrite app_assoc. split.
      * rewrite bind_assoc. erewrite bind_done by reflexivity. rewrite bind_ret. erewrite bind_done by exact Em. reflexivity.
      * constructor; [|exact Hg]. split; [reflexivity|]. cbn [snd lv aref]. apply holds_app. apply holds_new.
Qed.

Lemma new_ok C st rs env f s deps :
  env_holds (store st) rs env -> Forall (source_ok (length env)) deps ->
  exists r cells,
    new_lazy ve C U rs f s deps st = (Done r, mkSt (store st ++ cells) (mworld st) (trace st)) /\
    holds (store st ++ cells) r (lazy_obj U (LExp f s (sources env deps))).
Proof.
  intros He Hd. unfold new_lazy. erewrite bind_done by reflexivity.
  set (st1 := mkSt (store st ++ [(true, fun_obj f s)]) (mworld st) (trace st)).
  destruct (sources_given rs env deps st1) as (xs & c1 & Em & Hg); auto.
  { cbn [st1 store]. now apply env_app. }
  erewrite bind_done by exact Em.
  set (st2 := mkSt (store st1 ++ c1) (mworld st1) (trace st1)) in *.
  assert (Hf : holds (store st2) (aref (lv (length (store st), []))) (fun_obj f s)).
  { cbn [st2 st1 store lv aref]. apply holds_app. apply holds_new. }
  destruct (pigro_lazy_makes ve C U st2 _ f s xs _ Hf Hg) as (c2 & Ep).
  erewrite bind_done by exact Ep. unfold alloc. cbn [st2 st1 store mworld trace].
  eexists _, ([(true, fun_obj f s)] ++ c1 ++ c2 ++ [(true, lazy_obj U (LExp f s (sources env deps)))]).
  split; [rewrite <- !app_assoc; reflexivity|].
  rewrite !app_assoc. apply holds_new.
Qed.

Lemma observe_returned C st (o : outcome value) :
  match returned (F := F) (S := S) o with
  | Done x => observe ve C x st
  | Err e => (Err e, st)
  end = (plain o, st).
Proof. destruct o as [[a| |l|x y|x]|e]; reflexivity. Qed.

Lemma observe_returned' C (m : M (result A F S)) st st' o :
  m st = (returned o, st') -> bind m (fun x => observe ve C x) st = (plain o, st').
Proof. intros E. unfold bind. rewrite E. apply observe_returned. Qed.

(** Enough fuel for the calls of a program. *)
Fixpoint fuel_of (env : list lexp) (p : list mop) : nat :=
  match p with
  | [] => 0
  | MNew f s deps :: p' => fuel_of (env ++ [LExp f s (sources env deps)]) p'
  | MCopy x :: p' => match nth_error env x with Some e => fuel_of (env ++ [e]) p' | None => 0 end
  | MCallVar x :: p' =>
      max (match nth_error env x with Some e => 8 + fuel_for e | None => 0 end) (fuel_of env p')
  | MEnv _ :: p' => fuel_of env p'
  end.

(** What can be read from a dead object. *)
Notation ok b := (fun v => negb b || data_empty ve v).

Lemma exact_call b e m st r :
  8 + fuel_for e <= m -> holds (store st) r (lazy_obj U e) ->
  let '(o, w', l) := tcall U (ok b) e (mworld st) in
  exists cells, invoke ve (mkCfg b false) U m r [] st =
    (returned o, mkSt (store st ++ map (@dead A F S) cells) w' (trace st ++ l)).
Proof.
  intros Hm Hr. pose proof (lazy_call_exact ve (mkCfg b false) U eq_refl (fun _ => True) (fun _ _ H => H) e m st r Hm Hr Logic.I) as H.
  unfold tcall. rewrite (scall_ok_ext U (ok b) (readableb (F := F) (S := S) ve (mkCfg b false))).
  2: { intros v. unfold readableb. cbn [strict]. destruct v as [y| |y|y z|y]; cbn; rewrite ?andb_true_r; reflexivity. }
  destruct (scall U (readableb (F := F) (S := S) ve (mkCfg b false)) e (mworld st)) as [[o w'] l]. destruct H as (cells & H).
  exists cells. rewrite H. f_equal. destruct o as [v|x]; [|reflexivity].
  unfold shown, seen. cbn [strict].
  destruct v as [y| |y|y z|y]; cbn; rewrite ?andb_true_r, ?orb_true_r; destruct b; cbn; try reflexivity;
    match goal with |- context [ve ?x] => destruct (ve x) end; reflexivity.
Qed.

Lemma exact_run b m : forall p env rs st,
  fuel_of env p <= m -> prog_ok (length env) p -> env_holds (store st) rs env ->
  let '(os, w', l) := eval_with (tcall U (ok b)) env p (mworld st) in
  exists cells,
    run_prog ve (mkCfg b false) U m rs p st = (os, mkSt (store st ++ cells) w' (trace st ++ l)).
Proof.
  induction p as [|op p IH]; intros env rs st Hm Hp He; cbn [eval_with run_prog fuel_of prog_ok] in *.
  - exists []. now rewrite !app_nil_r, st_eta.
  - destruct op as [f s deps|x|x|h].
    + destruct Hp as [Hd Hp].
      destruct (new_ok (mkCfg b false) st rs env f s deps He Hd) as (r & c1 & En & Hr). rewrite En.
      set (st1 := mkSt (store st ++ c1) (mworld st) (trace st)).
      specialize (IH (env ++ [LExp f s (sources env deps)]) (rs ++ [r]) st1 Hm).
      rewrite app_length, Nat.add_1_r in IH. specialize (IH Hp).
      assert (He' : env_holds (store st1) (rs ++ [r]) (env ++ [LExp f s (sources env deps)])).
      { apply Forall2_app; [now apply env_app|]. now repeat constructor. }
      specialize (IH He'). change (mworld st1) with (mworld st) in IH. change (trace st1) with (trace st) in IH.
      destruct (eval_with (tcall U (ok b)) (env ++ [LExp f s (sources env deps)]) p (mworld st)) as [[os w'] l].
      destruct IH as (c2 & ->). exists (c1 ++ c2). cbn [st1 store]. now rewrite <- app_assoc.
    + destruct Hp as [Hx Hp]. destruct (env_nth _ _ _ x He Hx) as (e & Ee & Hr). rewrite Ee in *.
      rewrite (by_value_ok ve (mkCfg b false) st (lv (nth x rs (0, []))) _ Hr).
      set (st1 := mkSt (store st ++ [(true, lazy_obj U e)]) (mworld st) (trace st)).
      specialize (IH (env ++ [e]) (rs ++ [(length (store st), [])]) st1 Hm).
      rewrite app_length, Nat.add_1_r in IH. specialize (IH Hp).
      assert (He' : env_holds (store st1) (rs ++ [(length (store st), [])]) (env ++ [e])).
      { apply Forall2_app; [now apply env_app|]. constructor; [apply holds_new|constructor]. }
      specialize (IH He'). change (mworld st1) with (mworld st) in IH. change (trace st1) with (trace st) in IH.
      destruct (eval_with (tcall U (ok b)) (env ++ [e]) p (mworld st)) as [[os w'] l].
      destruct IH as (c2 & IH). unfold ref in *. rewrite IH. exists ([(true, lazy_obj U e)] ++ c2). cbn [st1 store]. now rewrite <- app_assoc.
    + destruct Hp as [Hx Hp]. destruct (env_nth _ _ _ x He Hx) as (e & Ee & Hr). rewrite Ee in *.
      assert (Hm1 : 8 + fuel_for e <= m) by lia. assert (Hm2 : fuel_of env p <= m) by lia.
      pose proof (exact_call b e m st _ Hm1 Hr) as Hc.
      destruct (tcall U (ok b) e (mworld st)) as [[o w1] l1]. destruct Hc as (c1 & Hc).
      unfold call_lazy. rewrite (observe_returned' _ _ _ _ _ Hc).
      set (st1 := mkSt (store st ++ map (@dead A F S) c1) w1 (trace st ++ l1)).
      specialize (IH env rs st1 Hm2 Hp (env_app _ _ _ _ He)).
      change (mworld st1) with w1 in IH. change (trace st1) with (trace st ++ l1) in IH.
      destruct (eval_with (tcall U (ok b)) env p w1) as [[os w'] l].
      destruct IH as (c2 & ->). exists (map (@dead A F S) c1 ++ c2). cbn [st1 store]. now rewrite <- !app_assoc.
    + specialize (IH env rs (mkSt (store st) (h (mworld st)) (trace st)) Hm Hp He). cbn [store mworld trace] in IH.
      destruct (eval_with (tcall U (ok b)) env p (h (mworld st))) as [[os w'] l].
      destruct IH as (c2 & ->). now exists c2.
Qed.

Theorem programs_exact b p : prog_ok 0 p ->
  exists m0, forall m st, m0 <= m ->
  let '(os, w', l) := std_prog U (fun v => negb b || data_empty ve v) [] p (mworld st) in
  exists cells,
    run_prog ve (mkCfg b false) U m [] p st = (os, mkSt (store st ++ cells) w' (trace st ++ l)).
Proof.
  intros Hp. exists (fuel_of [] p). intros m st Hm. apply exact_run; auto. constructor.
Qed.

Lemma tcall_ecall e w : tcall U (fun _ => true) e w = ecall U e w.
Proof.
  unfold tcall. assert (E : scall U (fun _ => true) e w = ecall U e w); [|rewrite E; now destruct (ecall U e w) as [[[v|x] w'] l]].
  revert w. induction e as [f s deps IH] using lexp_ind'. intros w. rewrite scall_eq, ecall_eq. unfold apply_read, apply_all.
  rewrite (seqs_same _ (dep_call U)).
  2: { rewrite Forall_forall in *. intros d Hd w'. specialize (IH d Hd). destruct d; cbn; auto. }
  destruct (seqs (dep_call U) deps w) as [[[vs|x] w1] l1]; [|reflexivity].
  now replace (forallb (fun _ => true) vs) with true by (clear; induction vs; auto).
Qed.

Lemma eval_with_ext c c' : (forall e w, c e w = c' e w) -> forall (p : list mop) (env : list lexp) (w : W),
  eval_with c env p w = eval_with c' env p w.
Proof.
  intros H. induction p as [|[f s deps|x|x|h] p IH]; intros env w; cbn [eval_with]; auto.
  - now rewrite IH.
  - destruct (nth_error env x); [now rewrite IH|reflexivity].
  - destruct (nth_error env x); [|reflexivity]. rewrite H. destruct (c' l w) as [[o w1] l1]. now rewrite IH.
  - now rewrite IH.
Qed.

Theorem programs_from_scratch p : prog_ok 0 p ->
  exists m0, forall m st, m0 <= m ->
  let '(os, w', l) := eval_prog U [] p (mworld st) in
  exists cells,
    run_prog ve (mkCfg false false) U m [] p st = (os, mkSt (store st ++ cells) w' (trace st ++ l)).
Proof.
  intros Hp. destruct (programs_exact false p Hp) as (m0 & H). exists m0. intros m st Hm. specialize (H m st Hm).
  unfold eval_prog, std_prog in *. rewrite (eval_with_ext _ (ecall U)) in H; [exact H|].
  intros e w. apply tcall_ecall.
Qed.

Lemma strict_run m : forall p env rs st,
  fuel_of env p <= m -> prog_ok (length env) p -> env_holds (store st) rs env ->
  agree_until_undefined ve (fst (fst (eval_prog U env p (mworld st))))
    (fst (run_prog ve (mkCfg true false) U m rs p st)).
Proof.
  induction p as [|op p IH]; intros env rs st Hm Hp He; unfold eval_prog in *; cbn [eval_with run_prog fuel_of prog_ok] in *.
  - constructor.
  - destruct op as [f s deps|x|x|h].
    + destruct Hp as [Hd Hp].
      destruct (new_ok (mkCfg true false) st rs env f s deps He Hd) as (r & c1 & En & Hr). rewrite En.
      set (st1 := mkSt (store st ++ c1) (mworld st) (trace st)).
      specialize (IH (env ++ [LExp f s (sources env deps)]) (rs ++ [r]) st1 Hm).
      rewrite app_length, Nat.add_1_r in IH. specialize (IH Hp).
      assert (He' : env_holds (store st1) (rs ++ [r]) (env ++ [LExp f s (sources env deps)])).
      { apply Forall2_app; [now apply env_app|]. now repeat constructor. }
      specialize (IH He'). change (mworld st1) with (mworld st) in IH.
      destruct (eval_with (ecall U) (env ++ [LExp f s (sources env deps)]) p (mworld st)) as [[os w'] l].
      destruct (run_prog ve (mkCfg true false) U m (rs ++ [r]) p st1). constructor; [discriminate|exact IH].
    + destruct Hp as [Hx Hp]. destruct (env_nth _ _ _ x He Hx) as (e & Ee & Hr). rewrite Ee in *.
      rewrite (by_value_ok ve (mkCfg true false) st (lv (nth x rs (0, []))) _ Hr).
      set (st1 := mkSt (store st ++ [(true, lazy_obj U e)]) (mworld st) (trace st)).
      specialize (IH (env ++ [e]) (rs ++ [(length (store st), [])]) st1 Hm).
      rewrite app_length, Nat.add_1_r in IH. specialize (IH Hp).
      assert (He' : env_holds (store st1) (rs ++ [(length (store st), [])]) (env ++ [e])).
      { apply Forall2_app; [now apply env_app|]. constructor; [apply holds_new|constructor]. }
      specialize (IH He'). change (mworld st1) with (mworld st) in IH.
      destruct (eval_with (ecall U) (env ++ [e]) p (mworld st)) as [[os w'] l].
      destruct (run_prog ve (mkCfg true false) U m _ p st1). constructor; [discriminate|exact IH].
    + destruct Hp as [Hx Hp]. destruct (env_nth _ _ _ x He Hx) as (e & Ee & Hr). rewrite Ee in *.
      assert (Hm1 : 8 + fuel_for e <= m) by lia. assert (Hm2 : fuel_of env p <= m) by lia.
      destruct (invoke ve (mkCfg true false) U m (nth x rs (0, [])) [] st) as [o st'] eqn:Ei.
      assert (Hcase : o = Err Undefined \/ o <> Err Undefined).
      { destruct o as [?|[| | |]]; auto; right; discriminate. }
      unfold call_lazy. destruct Hcase as [-> | Ho].
      * erewrite bind_err by exact Ei.
        destruct (ecall U e (mworld st)) as [[v w1] l1].
        destruct (eval_with (ecall U) env p w1) as [[os w'] l]. destruct (run_prog ve (mkCfg true false) U m rs p st').
        apply agree_undefined.
      * destruct (defined_call ve U true e m st _ _ _ Hm1 Hr Ei Ho) as (c1 & v & w1 & l1 & Ec & -> & ->).
        rewrite Ec. rewrite (observe_returned' _ _ _ _ _ Ei).
        set (st1 := mkSt (store st ++ map (@dead A F S) c1) w1 (trace st ++ l1)) in *.
        specialize (IH env rs st1 Hm2 Hp (env_app _ _ _ _ He)). change (mworld st1) with w1 in IH.
        destruct (eval_with (ecall U) env p w1) as [[os w'] l]. destruct (run_prog ve (mkCfg true false) U m rs p st1).
        constructor; [|exact IH]. intros u Eu. injection Eu as Eu.
        destruct (data_empty ve u) eqn:Ed; [reflexivity|]. exfalso. apply Ho.
        assert (Ev : v = Done u).
        { destruct v as [[a| |ll|y z|y]|x']; cbn in Eu; congruence. }
        subst v. pose proof (strict_call_undefined ve U e m st _ u w1 l1 Hm1 Hr Ec Ed) as Hs.
        rewrite Ei in Hs. exact Hs.
    + specialize (IH env rs (mkSt (store st) (h (mworld st)) (trace st)) Hm Hp He). cbn [store mworld trace] in IH.
      destruct (eval_with (ecall U) env p (h (mworld st))) as [[os w'] l].
      destruct (run_prog ve (mkCfg true false) U m rs p _). constructor; [discriminate|exact IH].
Qed.

Theorem programs_undefined p : prog_ok 0 p ->
  exists m0, forall m st, m0 <= m ->
  agree_until_undefined ve (fst (fst (eval_prog U [] p (mworld st))))
    (fst (run_prog ve (mkCfg true false) U m [] p st)).
Proof.
  intros Hp. exists (fuel_of [] p). intros m st Hm. apply strict_run; auto. constructor.
Qed.

End Programs.
