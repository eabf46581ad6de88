(** Passing lazy functions by [std::ref], as composed: it shows nothing that passing
    them by value does not show (C66). *)
From Coq Require Import List Bool Arith Lia.
From Verif Require Import Value Machine MachineSpec MachineSpec2 MachineLib Composed MachineThms BindSpec Programs ProgramThms RefPrograms.
Import ListNotations.

Section Refs.
Context {A W F S : Type}.
Notation value := (val A).
Notation obj := (obj A F S).
Notation cell := (bool * obj)%type.
Notation mstate := (mstate A W F S).
Notation mevent := (mevent A F).
Notation M := (M A W F S).
Notation lexp := (lexp A F S).
Notation ldep := (ldep A F S).
Notation data := (@Machine.data A F S).
Notation eff X := (outcome X * W * list mevent)%type.
Notation rsource := (rsource A F S).
Notation rop := (rop A W F S).
Variable ve : value -> bool.
Variable b : bool.
Variable U : muser A W F S.
Implicit Type st : mstate.
Implicit Type sto : list cell.
Implicit Type I : list cell -> Prop.

Notation C := (mkCfg b false).
Notation readb := (readableb (F := F) (S := S) ve C).
Notation dep_ok := (dep_ok (F := F) (S := S) ve C U).
Notation nullary_ok := (nullary_ok (F := F) (S := S) ve C U).
Notation shown := (shown (F := F) (S := S) ve C).

Lemma dep_ok_stronger I I' n d D : (forall sto, I' sto -> I sto) -> dep_ok I n d D -> dep_ok I' n d D.
Proof. intros H HD m st r a Hm Hr Ha HI. apply HD; auto. Qed.

Lemma nullary_ok_stronger I I' n d R D :
  (forall sto, I' sto -> I sto) -> nullary_ok I n d R D -> nullary_ok I' n d R D.
Proof. intros H HD m st r Hm Hr HI. apply HD; auto. Qed.

(** A call through the reference is a call of the variable. *)
Lemma ref_ok I n o r D :
  (forall sto, I sto -> holds sto r o) -> dep_ok I n o D -> dep_ok I (1 + n) (std_ref r) D.
Proof.
  intros HI HD m st q a Hm Hq Ha H. destruct m as [|m]; [lia|].
  assert (E : invoke ve C U (Datatypes.S m) q [a] st = invoke ve C U m r [a] st).
  { rewrite (invoke_S _ _ _ _ _ _ _ _ Hq). cbn [kind_of std_ref]. unfold call_ref_wrap, access.
    rewrite bind_assoc. erewrite bind_done by (eapply peek_ok; exact Hq). cbn [members std_ref nth_error].
    now rewrite bind_ret. }
  rewrite E. apply HD; auto. lia.
Qed.

(** ** Variables: the objects they hold behave like their expressions. *)
Definition level (e : lexp) : nat := 11 * height e.

Definition var_ok I (o : obj) (e : lexp) : Prop :=
  dep_ok I (7 + level e) o (scall U readb e) /\
  nullary_ok I (8 + level e) o shown (scall U readb e).

Definition vars (rs : list ref) (objs : list obj) : list cell -> Prop := fun sto => Forall2 (holds sto) rs objs.

Lemma vars_app rs objs sto l : vars rs objs sto -> vars rs objs (sto ++ l).
Proof. intros H. eapply Forall2_impl; [|exact H]. intros. now apply holds_app. Qed.

Definition dep_height (d : ldep) : nat := match d with DepLazy e => height e | _ => 0 end.

Lemma new_var_ok I f s objs deps :
  (forall sto l, I sto -> I (sto ++ l)) ->
  Forall2 (fun o d => dep_ok I (8 + 11 * list_max (map dep_height deps)) o (sdep_call U readb d)) objs deps ->
  var_ok I (wrap_obj (node_obj None (reg_obj (fun_obj f s)) objs)) (LExp f s deps).
Proof.
  intros Happ H.
  assert (Hn : dep_ok I (level (LExp f s deps)) (node_obj None (reg_obj (fun_obj f s)) objs) (scall U readb (LExp f s deps))).
  { replace (level (LExp f s deps)) with (3 + (8 + 11 * list_max (map dep_height deps)))
      by (unfold level; cbn [height]; fold dep_height; lia).
    eapply dep_ok_ext.
    2: { apply (node_ok ve C U eq_refl I Happ _ (reg_obj (fun_obj f s)) (fcall U f s) objs (map (sdep_call U readb) deps)).
         - eapply fn_ok_mono; [|apply reg_ok; reflexivity]. lia.
         - apply Forall2_map_r. exact H. }
    intros w. rewrite scall_eq. unfold apply_read.
    now rewrite (seqs_ext (sdep_call U readb) (fun (D : W -> eff value) w => D w) (sdep_call U readb)). }
  split; unfold wrap_obj.
  - change (7 + ?n) with (3 + (4 + n)). apply unreg_null_ok; auto. apply unwrap_null_ok; auto.
  - change (8 + ?n) with (3 + (5 + n)). apply unreg_ok; auto. apply unwrap_ok; auto.
Qed.

Definition env_ok sto (rs : list ref) (objs : list obj) (env : list lexp) : Prop :=
  vars rs objs sto /\ Forall2 (var_ok (vars rs objs)) objs env.

Lemma vars_nth rs objs sto x o : vars rs objs sto -> nth_error objs x = Some o -> holds sto (nth x rs (0, [])) o.
Proof.
  intros H. revert x. induction H as [|r o' rs' objs' H _ IH]; intros [|x] E; cbn in *; try discriminate.
  - now injection E as <-.
  - now apply IH.
Qed.

Lemma Forall2_len {X Y} (R : X -> Y -> Prop) xs ys : Forall2 R xs ys -> length xs = length ys.
Proof. induction 1; cbn; congruence. Qed.

Lemma Forall2_nth {X Y} (R : X -> Y -> Prop) xs ys i : Forall2 R xs ys -> i < length ys ->
  exists x y, nth_error xs i = Some x /\ nth_error ys i = Some y /\ R x y.
Proof.
  intros H. revert i. induction H as [|x y xs ys H _ IH]; intros [|i] Hi; cbn in *; try lia; eauto.
  apply IH. lia.
Qed.

Lemma env_nth sto rs objs env x : env_ok sto rs objs env -> x < length env ->
  exists o e, nth_error objs x = Some o /\ nth_error env x = Some e /\
    holds sto (nth x rs (0, [])) o /\ var_ok (vars rs objs) o e.
Proof.
  intros [H1 H2] Hx. destruct (Forall2_nth _ _ _ x H2 Hx) as (o & e & Eo & Ee & Hv).
  exists o, e. repeat split; auto; try apply Hv. eapply vars_nth; eassumption.
Qed.

Lemma env_app sto l rs objs env : env_ok sto rs objs env -> env_ok (sto ++ l) rs objs env.
Proof. intros [H1 H2]. split; [now apply vars_app|exact H2]. Qed.

(** A new variable. *)
Lemma vars_snoc rs objs r o sto : vars (rs ++ [r]) (objs ++ [o]) sto -> length rs = length objs -> vars rs objs sto.
Proof.
  unfold vars. intros H E. apply Forall2_app_inv_l in H. destruct H as (o1 & o2 & H1 & H2 & E2).
  assert (El : length o1 = length objs) by (rewrite <- E; symmetry; exact (Forall2_len _ _ _ H1)).
  assert (objs = o1); [|congruence].
  rewrite <- (firstn_app_l objs [o]), E2, <- El. now apply firstn_app_l.
Qed.

Lemma env_snoc sto rs objs env r o e :
  env_ok sto rs objs env -> holds sto r o -> var_ok (vars rs objs) o e ->
  env_ok sto (rs ++ [r]) (objs ++ [o]) (env ++ [e]).
Proof.
  intros [H1 H2] Hr Hv.
  assert (Hlen : length rs = length objs) by (exact (Forall2_len _ _ _ H1)).
  assert (Hs : forall o' e', var_ok (vars rs objs) o' e' -> var_ok (vars (rs ++ [r]) (objs ++ [o])) o' e').
  { intros o' e' [Ha Hb]. split.
    - eapply dep_ok_stronger; [|exact Ha]. intros s Hi. eapply vars_snoc; eassumption.
    - eapply nullary_ok_stronger; [|exact Hb]. intros s Hi. eapply vars_snoc; eassumption. }
  split.
  - apply Forall2_app; [exact H1|]. now repeat constructor.
  - apply Forall2_app; [|constructor; [now apply Hs|constructor]].
    eapply Forall2_impl; [|exact H2]. intros. now apply Hs.
Qed.
(** ** What is handed to [pigro::lazy] *)
Lemma rsources_ok rs objs env N : forall deps st,
  env_ok (store st) rs objs env -> Forall (source_ok (length env)) (map unref deps) ->
  Forall (fun d => dep_height d <= N) (sources env (map unref deps)) ->
  exists xs os cells,
    mapM (rsource_arg rs) deps st = (Done xs, mkSt (store st ++ cells) (mworld st) (trace st)) /\
    Forall2 (hands U (store st ++ cells)) xs os /\
    Forall2 (fun o d => dep_ok (vars rs objs) (8 + 11 * N) o (sdep_call U readb d)) os (sources env (map unref deps)).
Proof.
  induction deps as [|d deps IH]; intros st He Hd HN.
  - exists [], [], []. rewrite app_nil_r, st_eta. repeat split; constructor.
  - cbn [map] in Hd, HN. inversion Hd as [|? ? H1 H2]; subst.
    destruct d as [x|[x|g t|v]]; cbn [mapM rsource_arg source_arg unref map sources source_ok] in *.
    + destruct (env_nth _ _ _ _ x He H1) as (o & e & Eo & Ee & Hx & Hv). rewrite Ee in *.
      inversion HN as [|? ? Hh HN']; subst. cbn [dep_height] in Hh.
      set (st1 := mkSt (store st ++ [(true, std_ref (nth x rs (0, [])))]) (mworld st) (trace st)).
      destruct (IH st1 (env_app _ _ _ _ _ He) H2 HN') as (xs & os & cells & Em & Hg & Ho).
      eexists _, (std_ref (nth x rs (0, [])) :: os), ([(true, std_ref (nth x rs (0, [])))] ++ cells).
      rewrite app_assoc. split; [|split].
      * rewrite bind_assoc. erewrite bind_done by reflexivity. rewrite bind_ret. erewrite bind_done by exact Em. reflexivity.
      * constructor; [|exact Hg]. unfold hands. cbn [fst snd lv aref]. apply holds_app. apply holds_new.
      * constructor; [|exact Ho]. cbn [sdep_call].
        apply (dep_ok_mono _ _ _ _ (1 + (7 + level e))); [unfold level; lia|].
        apply ref_ok with o; [|apply Hv]. intros s Hs. eapply vars_nth; eassumption.
    + destruct (env_nth _ _ _ _ x He H1) as (o & e & Eo & Ee & Hx & Hv). rewrite Ee in *.
      inversion HN as [|? ? Hh HN']; subst. cbn [dep_height] in Hh.
      destruct (IH st He H2 HN') as (xs & os & cells & Em & Hg & Ho).
      eexists _, (o :: os), cells. split; [|split].
      * rewrite bind_ret. erewrite bind_done by exact Em. reflexivity.
      * constructor; [|exact Hg]. unfold hands. cbn [fst snd lv aref]. now apply holds_app.
      * constructor; [|exact Ho]. cbn [sdep_call].
        apply (dep_ok_mono _ _ _ _ (7 + level e)); [unfold level; lia|]. apply Hv.
    + inversion HN as [|? ? Hh HN']; subst.
      set (st1 := mkSt (store st ++ [(true, fun_obj g t)]) (mworld st) (trace st)).
      destruct (IH st1 (env_app _ _ _ _ _ He) H2 HN') as (xs & os & cells & Em & Hg & Ho).
      eexists _, (sample_obj U None (fun_obj g t) :: os), ([(true, fun_obj g t)] ++ cells).
      rewrite app_assoc. split; [|split].
      * rewrite bind_assoc. erewrite bind_done by reflexivity. rewrite bind_ret. erewrite bind_done by exact Em. reflexivity.
      * constructor; [|exact Hg]. unfold hands. cbn [fst snd lv aref]. exists g, t. split; [|reflexivity].
        apply holds_app. apply holds_new.
      * constructor; [|exact Ho]. apply (dep_ok_mono _ _ _ _ 7); [lia|].
        apply sample_dep_ok; [reflexivity|]. intros. now apply vars_app.
    + inversion HN as [|? ? Hh HN']; subst.
      set (st1 := mkSt (store st ++ [(true, data v)]) (mworld st) (trace st)).
      destruct (IH st1 (env_app _ _ _ _ _ He) H2 HN') as (xs & os & cells & Em & Hg & Ho).
      eexists _, (lazy_value_obj v false :: os), ([(true, data v)] ++ cells).
      rewrite app_assoc. split; [|split].
      * rewrite bind_assoc. erewrite bind_done by reflexivity. rewrite bind_ret. erewrite bind_done by exact Em. reflexivity.
      * constructor; [|exact Hg]. unfold hands. cbn [fst snd lv aref]. exists v. split; [|reflexivity].
        apply holds_app. apply holds_new.
      * constructor; [|exact Ho]. apply (dep_ok_mono _ _ _ _ 3); [lia|]. now apply lazy_value_ok.
Qed.

Lemma rnew_ok st rs objs env f s deps :
  env_ok (store st) rs objs env -> Forall (source_ok (length env)) (map unref deps) ->
  exists r o cells,
    rnew_lazy ve C U rs f s deps st = (Done r, mkSt (store st ++ cells) (mworld st) (trace st)) /\
    env_ok (store st ++ cells) (rs ++ [r]) (objs ++ [o]) (env ++ [LExp f s (sources env (map unref deps))]).
Proof.
  intros He Hd. unfold rnew_lazy. erewrite bind_done by reflexivity.
  set (st1 := mkSt (store st ++ [(true, fun_obj f s)]) (mworld st) (trace st)).
  set (N := list_max (map dep_height (sources env (map unref deps)))).
  destruct (rsources_ok rs objs env N deps st1 (env_app _ _ _ _ _ He) Hd) as (xs & os & c1 & Em & Hg & Ho).
  { apply (proj1 (Forall_map dep_height (fun k => k <= N) _)). now apply list_max_le. }
  erewrite bind_done by exact Em.
  set (st2 := mkSt (store st1 ++ c1) (mworld st1) (trace st1)) in *.
  assert (Hf : holds (store st2) (aref (lv (length (store st), []))) (fun_obj f s)).
  { cbn [st2 st1 store lv aref]. apply holds_app. apply holds_new. }
  destruct (pigro_lazy_hands ve C U st2 _ f s xs os Hf Hg) as (c2 & Ep).
  erewrite bind_done by exact Ep. unfold alloc. cbn [st2 st1 store mworld trace].
  eexists _, (wrap_obj (node_obj None (reg_obj (fun_obj f s)) os)),
    ([(true, fun_obj f s)] ++ c1 ++ c2 ++ [(true, wrap_obj (node_obj None (reg_obj (fun_obj f s)) os))]).
  split; [rewrite <- !app_assoc; reflexivity|].
  apply env_snoc.
  - now apply env_app.
  - rewrite !app_assoc. apply holds_new.
  - apply new_var_ok; [intros; now apply vars_app|exact Ho].
Qed.

(** ** Programs *)
Notation okv := (fun v => negb b || data_empty ve v).

Lemma var_call I o e m st r :
  var_ok I o e -> 8 + level e <= m -> holds (store st) r o -> I (store st) ->
  let '(q, w', l) := tcall U okv e (mworld st) in
  exists cells, invoke ve C U m r [] st =
    (returned q, mkSt (store st ++ map (@dead A F S) cells) w' (trace st ++ l)).
Proof.
  intros [_ Hv] Hm Hr HI. pose proof (Hv m st r Hm Hr HI) as H.
  unfold tcall. rewrite (scall_ok_ext U okv readb).
  2: { intros v. unfold readableb. cbn [strict]. destruct v as [y| |y|y z|y]; cbn; rewrite ?andb_true_r; reflexivity. }
  destruct (scall U readb e (mworld st)) as [[q w'] l]. destruct H as (cells & H).
  exists cells. rewrite H. f_equal. destruct q as [v|x]; [|reflexivity].
  unfold Composed.shown, seen. cbn [strict].
  destruct v as [y| |y|y z|y]; cbn; rewrite ?andb_true_r, ?orb_true_r; destruct b; cbn; try reflexivity;
    match goal with |- context [ve ?x] => destruct (ve x) end; reflexivity.
Qed.

Fixpoint rfuel (env : list lexp) (p : list rop) : nat :=
  match p with
  | [] => 0
  | RNew f s deps :: p' => rfuel (env ++ [LExp f s (sources env (map unref deps))]) p'
  | RCopy x :: p' => match nth_error env x with Some e => rfuel (env ++ [e]) p' | None => 0 end
  | RCallVar x :: p' =>
      max (match nth_error env x with Some e => 8 + level e | None => 0 end) (rfuel env p')
  | REnv _ :: p' => rfuel env p'
  end.

Lemma refs_run m : forall p env rs objs st,
  rfuel env p <= m -> prog_ok (length env) (by_values p) -> env_ok (store st) rs objs env ->
  let '(os, w', l) := eval_with (tcall U okv) env (by_values p) (mworld st) in
  exists cells, run_refs ve C U m rs p st = (os, mkSt (store st ++ cells) w' (trace st ++ l)).
Proof.
  induction p as [|op p IH]; intros env rs objs st Hm Hp He;
    cbn [by_values map unref_op eval_with run_refs rfuel prog_ok] in *.
  - exists []. now rewrite !app_nil_r, st_eta.
  - destruct op as [f s deps|x|x|h]; cbn [unref_op] in *.
    + destruct Hp as [Hd Hp].
      destruct (rnew_ok st rs objs env f s deps He Hd) as (r & o & c1 & En & He'). rewrite En.
      set (st1 := mkSt (store st ++ c1) (mworld st) (trace st)).
      specialize (IH (env ++ [LExp f s (sources env (map unref deps))]) (rs ++ [r]) (objs ++ [o]) st1 Hm).
      rewrite app_length, Nat.add_1_r in IH. specialize (IH Hp He').
      change (mworld st1) with (mworld st) in IH. change (trace st1) with (trace st) in IH. unfold by_values in IH.
      destruct (eval_with (tcall U okv) (env ++ [LExp f s (sources env (map unref deps))]) (map unref_op p) (mworld st)) as [[os w'] l].
      destruct IH as (c2 & IH). unfold ref in *. rewrite IH. exists (c1 ++ c2). cbn [st1 store]. now rewrite <- app_assoc.
    + destruct Hp as [Hx Hp]. destruct (env_nth _ _ _ _ x He Hx) as (o & e & Eo & Ee & Hr & Hv). rewrite Ee in *.
      rewrite (by_value_ok ve C st (lv (nth x rs (0, []))) _ Hr).
      set (st1 := mkSt (store st ++ [(true, o)]) (mworld st) (trace st)).
      specialize (IH (env ++ [e]) (rs ++ [(length (store st), [])]) (objs ++ [o]) st1 Hm).
      rewrite app_length, Nat.add_1_r in IH. specialize (IH Hp).
      assert (He' : env_ok (store st1) (rs ++ [(length (store st), [])]) (objs ++ [o]) (env ++ [e])).
      { apply env_snoc; [now apply env_app|apply holds_new|exact Hv]. }
      specialize (IH He'). change (mworld st1) with (mworld st) in IH. change (trace st1) with (trace st) in IH. unfold by_values in IH.
      destruct (eval_with (tcall U okv) (env ++ [e]) (map unref_op p) (mworld st)) as [[os w'] l].
      destruct IH as (c2 & IH). unfold ref in *. rewrite IH. exists ([(true, o)] ++ c2). cbn [st1 store]. now rewrite <- app_assoc.
    + destruct Hp as [Hx Hp]. destruct (env_nth _ _ _ _ x He Hx) as (o & e & Eo & Ee & Hr & Hv). rewrite Ee in *.
      assert (Hm1 : 8 + level e <= m) by lia. assert (Hm2 : rfuel env p <= m) by lia.
      pose proof (var_call _ o e m st _ Hv Hm1 Hr (proj1 He)) as Hc.
      destruct (tcall U okv e (mworld st)) as [[q w1] l1]. destruct Hc as (c1 & Hc).
      unfold call_lazy. rewrite (observe_returned' ve C _ _ _ _ Hc).
      set (st1 := mkSt (store st ++ map (@dead A F S) c1) w1 (trace st ++ l1)).
      specialize (IH env rs objs st1 Hm2 Hp (env_app _ _ _ _ _ He)).
      change (mworld st1) with w1 in IH. change (trace st1) with (trace st ++ l1) in IH. unfold by_values in IH.
      destruct (eval_with (tcall U okv) env (map unref_op p) w1) as [[os w'] l].
      destruct IH as (c2 & ->). exists (map (@dead A F S) c1 ++ c2). cbn [st1 store]. now rewrite <- !app_assoc.
    + specialize (IH env rs objs (mkSt (store st) (h (mworld st)) (trace st)) Hm Hp He). cbn [store mworld trace] in IH. unfold by_values in IH.
      destruct (eval_with (tcall U okv) env (map unref_op p) (h (mworld st))) as [[os w'] l].
      destruct IH as (c2 & ->). now exists c2.
Qed.

Theorem refs_exact p : prog_ok 0 (by_values p) ->
  exists m0, forall m st, m0 <= m ->
  let '(os, w', l) := std_prog U okv [] (by_values p) (mworld st) in
  exists cells, run_refs ve C U m [] p st = (os, mkSt (store st ++ cells) w' (trace st ++ l)).
Proof.
  intros Hp. exists (rfuel [] p). intros m st Hm. apply (refs_run m p [] [] [] st); auto.
  split; constructor.
Qed.

Theorem refs_are_values p : prog_ok 0 (by_values p) ->
  exists m0, forall m st, m0 <= m ->
  let '(os, st1) := run_refs ve C U m [] p st in
  let '(os', st2) := run_prog ve C U m [] (by_values p) st in
  os = os' /\ mworld st1 = mworld st2 /\ trace st1 = trace st2.
Proof.
  intros Hp. destruct (refs_exact p Hp) as (m1 & H1). destruct (programs_exact ve U b (by_values p) Hp) as (m2 & H2).
  exists (max m1 m2). intros m st Hm. specialize (H1 m st ltac:(lia)). specialize (H2 m st ltac:(lia)).
  destruct (std_prog U okv [] (by_values p) (mworld st)) as [[os w'] l].
  destruct H1 as (c1 & ->). destruct H2 as (c2 & ->). cbn. auto.
Qed.
End Refs.
