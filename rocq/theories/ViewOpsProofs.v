(** Histories with views of compressed tuples (C57). *)
From Coq Require Import List Bool Arith Lia.
From Verif Require Import Value Machine MachineLib MachineThms Composed TupleOps TupleOpsProofs ViewOps.
Import ListNotations.

Section Proofs.
Context {A W F S : Type}.
Notation value := (val A).
Notation obj := (obj A F S).
Notation slot := (slot A F S).
Notation cell := (bool * obj)%type.
Notation mstate := (mstate A W F S).
Notation M := (M A W F S).
Notation data := (@Machine.data A F S).
Notation tenv := (tenv A).
Notation telem := (telem A).
Notation tview := (tview A).
Notation venv := (venv A).
Variable ve : value -> bool.
Variable C : config.
Implicit Type st : mstate.
Implicit Type sto : list cell.
Notation refs l := (map (fun k => (k, [] : list nat)) l).
Local Open Scope machine_scope.

Definition vslot sto (vs ts : list nat) (e : tenv) (c : tview) (s : slot) : Prop :=
  match c with
  | ElemOf t i => s = SRef (nth t ts 0, [i]) /\ exists u, elem_of e t i = Some (Own u) /\ data_empty ve u = false
  | VarOf x => s = SRef (nth x vs 0, []) /\ x < length (vars e)
  | Gone v => exists l p root, s = SRef (l, p) /\ nth_error sto l = Some (false, root) /\ sub root p = Some (data v)
  end.

Record vsim sto (vs ts ws : list nat) (e : venv) : Prop := {
  vsim_env : sim sto vs ts (env e);
  vsim_views : Forall2 (fun l cs => ~ In l (vs ++ ts) /\
    exists ss, at_loc sto l (Node KTuple ss) /\ Forall2 (vslot sto vs ts (env e)) cs ss) ws (views e) }.

(** The store grows by other objects. *)
Lemma sim_app sto vs ts e cells : sim sto vs ts e -> sim (sto ++ cells) vs ts e.
Proof.
  intros [Hv Ht Hs Hn]. constructor; auto.
  - eapply F2_imp_in; [exact Hv|]. intros; now apply at_loc_app.
  - eapply F2_imp_in; [exact Ht|]. intros; now apply at_loc_app.
Qed.

Lemma sim_alive sto vs ts e l : sim sto vs ts e -> In l (vs ++ ts) -> exists o, nth_error sto l = Some (true, o).
Proof.
  intros [Hv Ht _ _] Hin. apply in_app_or in Hin. destruct Hin as [Hin|Hin].
  - clear - Hv Hin. induction Hv as [|x v vs vl H _ IH]; [easy|]. destruct Hin as [->|Hin]; [|auto]. eexists; exact H.
  - clear - Ht Hin. induction Ht as [|x v ts tl H _ IH]; [easy|]. destruct Hin as [->|Hin]; [|auto]. eexists; exact H.
Qed.

Lemma elem_of_lt (e : tenv) t i c : elem_of e t i = Some c -> t < length (tuples e).
Proof.
  unfold elem_of. destruct (nth_error (tuples e) t) eqn:E; [|discriminate]. intros _. apply nth_error_Some. congruence.
Qed.

(** Own elements stay own elements, of the same class. *)
Lemma env_step_elem (e : tenv) op t i u :
  op_ok ve e op -> elem_of e t i = Some (Own u) -> data_empty ve u = false ->
  exists u', elem_of (fst (env_step e op)) t i = Some (Own u') /\ data_empty ve u' = false.
Proof.
  intros Hok E Hu. pose proof (elem_of_lt _ _ _ _ E) as Ht.
  assert (Happ : forall x, elem_of (mkEnv (vars e) (tuples e ++ x)) t i = elem_of e t i).
  { intros x. unfold elem_of. cbn [tuples]. now rewrite nth_error_app1. }
  destruct op as [v|xs|t'|t' j|t' j v|x|x v]; cbn [env_step fst op_ok] in *; try (exists u; auto; fail).
  - exists u. split; [|exact Hu]. rewrite <- E. apply Happ.
  - exists u. split; [|exact Hu]. rewrite <- E. apply Happ.
  - destruct (elem_of e t' j) as [[w|x]|] eqn:E'; [| |easy].
    + unfold elem_of in *. cbn [tuples].
      destruct (nth_error (tuples e) t') as [cs'|] eqn:Et'; [|discriminate].
      rewrite (nth_error_nth _ _ _ Et').
      destruct (Nat.eq_dec t' t) as [->|Hn].
      * rewrite nth_update_eq by exact Ht. rewrite Et' in E.
        destruct (Nat.eq_dec j i) as [->|Hj].
        -- rewrite nth_update_eq by (apply nth_error_Some; congruence). exists v. split; [reflexivity|].
           assert (w = u) by congruence. subst. destruct Hok as [Ha _]. congruence.
        -- rewrite nth_update_neq by exact Hj. exists u. auto.
      * rewrite nth_update_neq by exact Hn. exists u. auto.
    + exists u. auto.
Qed.

Lemma env_step_vars (e : tenv) op : length (vars e) <= length (vars (fst (env_step e op))).
Proof.
  assert (G : forall x v, length (update x v (vars e)) = length (vars e)).
  { clear. intros x v. revert x. induction (vars e) as [|y l IH]; intros [|x]; cbn; auto. }
  destruct op as [v|xs|t'|t' j|t' j v|x|x v]; cbn [env_step fst]; cbn [vars]; try lia.
  - rewrite app_length. lia.
  - destruct (elem_of e t' j) as [[w|x]|]; cbn [vars]; rewrite ?G; lia.
  - rewrite G. lia.
Qed.

(** Views survive what happens to variables and tuples. *)
Lemma vslot_grown sto vs ts e sto' vs' ts' e' c s :
  sim sto vs ts e -> grown sto vs ts sto' vs' ts' ->
  (forall t i u, elem_of e t i = Some (Own u) -> data_empty ve u = false ->
     exists u', elem_of e' t i = Some (Own u') /\ data_empty ve u' = false) ->
  length (vars e) <= length (vars e') ->
  vslot sto vs ts e c s -> vslot sto' vs' ts' e' c s.
Proof.
  intros Hsim ((dv & dt & -> & -> & Hnew) & Hlen & Hfr) He Hv H.
  pose proof (vars_length _ _ _ _ Hsim) as Hvl. pose proof (tuples_length _ _ _ _ Hsim) as Htl.
  destruct c as [t i|x|v]; cbn [vslot] in *.
  - destruct H as (-> & u & Eu & Hu). split; [|now apply (He t i u)].
    pose proof (elem_of_lt _ _ _ _ Eu). now rewrite app_nth1 by lia.
  - destruct H as (-> & Hx). split; [|lia]. now rewrite app_nth1 by lia.
  - destruct H as (l & p & root & -> & El & Ep). exists l, p, root. split; [reflexivity|]. split; [|exact Ep].
    rewrite Hfr; [exact El|apply nth_error_Some; congruence|].
    intros Hin. destruct (sim_alive _ _ _ _ _ Hsim Hin) as (o & Eo). congruence.
Qed.

Lemma views_grown sto vs ts e sto' vs' ts' e' ws cvs :
  sim sto vs ts e -> grown sto vs ts sto' vs' ts' ->
  (forall t i u, elem_of e t i = Some (Own u) -> data_empty ve u = false ->
     exists u', elem_of e' t i = Some (Own u') /\ data_empty ve u' = false) ->
  length (vars e) <= length (vars e') ->
  Forall2 (fun l cs => ~ In l (vs ++ ts) /\
    exists ss, at_loc sto l (Node KTuple ss) /\ Forall2 (vslot sto vs ts e) cs ss) ws cvs ->
  Forall2 (fun l cs => ~ In l (vs' ++ ts') /\
    exists ss, at_loc sto' l (Node KTuple ss) /\ Forall2 (vslot sto' vs' ts' e') cs ss) ws cvs.
Proof.
  intros Hsim Hg He Hv H. eapply F2_imp_in; [exact H|]. intros l cs _ (Hn & ss & Hat & Hss). split.
  - pose proof (at_loc_lt _ _ _ Hat) as Hl.
    destruct Hg as ((dv & dt & -> & -> & Hnew) & _). intros Hin.
    assert (G : In l (vs ++ ts) \/ In l (dv ++ dt)) by (rewrite !in_app_iff in *; tauto).
    destruct G as [G|G]; [easy|]. rewrite Forall_forall in Hnew. specialize (Hnew l G). lia.
  - exists ss. split.
    + pose proof (at_loc_lt _ _ _ Hat) as Hl. destruct Hg as (_ & _ & Hfr). unfold at_loc. now rewrite Hfr.
    + clear Hat. induction Hss; constructor; auto. eapply vslot_grown; eassumption.
Qed.

Lemma grown_app sto vs ts cells : grown sto vs ts (sto ++ cells) vs ts.
Proof. pose proof (grown_new sto vs ts [] [] cells) as H. rewrite (app_nil_r vs), (app_nil_r ts) in H. apply H. constructor. Qed.

(** ** [to_tuple] *)
Definition passes_as sto (n0 : nat) (vs ts : list nat) (c : tview) (a : arg) : Prop :=
  match c with
  | ElemOf t i => aref a = (nth t ts 0, [i])
  | VarOf x => aref a = (nth x vs 0, [])
  | Gone v => exists l, aref a = (l, []) /\ n0 <= l /\ nth_error sto l = Some (true, data v)
  end.

Lemma elements_views vs ts e t all : forall cs k st,
  sim (store st) vs ts e -> nth_error (tuples e) t = Some all ->
  (forall i, nth_error all (k + i) = nth_error cs i) ->
  exists es cells,
    mapM (fun i => e <- get ve C (nth t (refs ts) (0, [])) i ;; as_arg e) (seq k (length cs)) st =
      (Done es, mkSt (store st ++ cells) (mworld st) (trace st)) /\
    Forall2 (passes_as (store st ++ cells) (length (store st)) vs ts) (view_elems ve t k cs) es.
Proof.
  induction cs as [|c cs IH]; intros k st H Et Hn.
  - exists [], []. rewrite app_nil_r, st_eta. split; [reflexivity|constructor].
  - cbn [length seq mapM view_elems].
    assert (E : elem_of e t k = Some c).
    { unfold elem_of. rewrite Et. specialize (Hn 0). rewrite Nat.add_0_r in Hn. exact Hn. }
    assert (Hn' : forall i, nth_error all (Datatypes.S k + i) = nth_error cs i).
    { intros i. specialize (Hn (Datatypes.S i)). cbn [nth_error] in Hn. rewrite <- Hn. f_equal. lia. }
    assert (G : forall a, (forall l, match view_elem ve t k c with Gone _ => False | _ => True end ->
                passes_as l (length (store st)) vs ts (view_elem ve t k c) a) ->
              bind (get ve C (nth t (refs ts) (0, [])) k) (fun e => as_arg e) st = (Done a, st) ->
              match view_elem ve t k c with Gone _ => False | _ => True end ->
              exists es cells,
                (bind (bind (get ve C (nth t (refs ts) (0, [])) k) (fun e => as_arg e)) (fun y =>
                   ys <- mapM (fun i => e <- get ve C (nth t (refs ts) (0, [])) i ;; as_arg e) (seq (Datatypes.S k) (length cs)) ;;
                   ret (y :: ys))) st = (Done es, mkSt (store st ++ cells) (mworld st) (trace st)) /\
                Forall2 (passes_as (store st ++ cells) (length (store st)) vs ts)
                  (view_elem ve t k c :: view_elems ve t (Datatypes.S k) cs) es).
    { intros a Ha Ea Hg. destruct (IH (Datatypes.S k) st H Et Hn') as (es & cells & Es & Hes).
      exists (a :: es), cells. split; [|constructor; auto].
      erewrite bind_done by exact Ea. erewrite bind_done by exact Es. reflexivity. }
    destruct c as [v|x]; cbn [view_elem] in *.
    + destruct (data_empty ve v) eqn:Ev.
      * set (st1 := mkSt (store st ++ [(true, data v)]) (mworld st) (trace st)).
        destruct (IH (Datatypes.S k) st1) as (es & cells & Es & Hes); [cbn [st1 store]; now apply sim_app|exact Et|exact Hn'|].
        exists (mkArg (length (store st), []) RV :: es), ([(true, data v)] ++ cells).
        cbn [st1 store mworld trace] in *. rewrite <- app_assoc in *. split.
        -- erewrite bind_done with (x := mkArg (length (store st), []) RV) (st' := st1).
           2:{ erewrite bind_done by (eapply get_elem; eassumption). cbv beta iota. rewrite Ev. reflexivity. }
           erewrite bind_done by exact Es. reflexivity.
        -- constructor.
           ++ cbn [passes_as aref]. exists (length (store st)). repeat split; auto.
              rewrite nth_error_app2, Nat.sub_diag by lia. reflexivity.
           ++ eapply F2_imp_in; [exact Hes|]. intros [t' i'|x'|v'] a _ Hp; cbn [passes_as] in *; auto.
              destruct Hp as (l & E1 & E2 & E3). exists l. repeat split; auto.
              rewrite app_length in E2. cbn in E2. lia.
      * apply (G (mkArg (nth t ts 0, [k]) LV)); [|now (erewrite bind_done by (eapply get_elem; eassumption); cbv beta iota; rewrite Ev)|easy].
        now intros.
    + apply (G (mkArg (nth x vs 0, []) LV)); [|now (erewrite bind_done by (eapply get_elem; eassumption))|easy].
      now intros.
Qed.

Lemma view_elems_own (e : tenv) t : forall cs k,
  (forall i, elem_of e t (k + i) = nth_error cs i) ->
  Forall (fun c => match c with Shared x => x < length (vars e) | Own _ => True end) cs ->
  Forall (fun c => match c with
                   | ElemOf t' i => exists u, elem_of e t' i = Some (Own u) /\ data_empty ve u = false
                   | VarOf x => x < length (vars e)
                   | Gone v => data_empty ve v = true
                   end) (view_elems ve t k cs).
Proof.
  induction cs as [|c cs IH]; intros k Hn Hs; inversion Hs as [|? ? H1 H2]; subst; constructor.
  - pose proof (Hn 0) as E. rewrite Nat.add_0_r in E. cbn in E. destruct c as [v|x]; cbn [view_elem].
    + destruct (data_empty ve v) eqn:Ev; [exact Ev|]. exists v. auto.
    + exact H1.
  - apply IH; [|exact H2]. intros i. specialize (Hn (Datatypes.S i)). cbn [nth_error] in Hn. rewrite <- Hn.
    f_equal. lia.
Qed.

Lemma to_tuple_ok st vs ts e t all :
  sim (store st) vs ts e -> nth_error (tuples e) t = Some all ->
  exists ss cells,
    to_tuple ve C (nth t (refs ts) (0, [])) st =
      (Done (Node KTuple ss), mkSt (store st ++ cells) (mworld st) (trace st)) /\
    Forall2 (vslot (store st ++ cells) vs ts e) (view_elems ve t 0 all) ss.
Proof.
  intros H Et. unfold to_tuple. rewrite scoped_eq.
  destruct (F2_nth _ _ _ (sim_tuples _ _ _ _ H) t 0 all Et) as (H1 & H2 & H3).
  pose proof (at_loc_holds _ _ _ H1) as Hh.
  destruct (elements_views vs ts e t all all 0 st H Et (fun i => eq_refl)) as (es & cells & Es & Hes).
  assert (El : elements ve C (nth t (refs ts) (0, [])) st = (Done es, mkSt (store st ++ cells) (mworld st) (trace st))).
  { unfold elements. erewrite bind_done by (rewrite nth_refs by exact H2; eapply peek_ok; exact Hh).
    cbn [members]. rewrite map_length. exact Es. }
  erewrite bind_done by exact El. unfold ret, closing. cbn [fst snd store mworld trace].
  rewrite kill_app. eexists _, (map dead cells). split; [reflexivity|].
  assert (Hok : Forall (fun c => match c with
                   | ElemOf t' i => exists u, elem_of e t' i = Some (Own u) /\ data_empty ve u = false
                   | VarOf x => x < length (vars e)
                   | Gone v => data_empty ve v = true
                   end) (view_elems ve t 0 all)).
  { apply view_elems_own.
    - intros i. unfold elem_of. now rewrite Et.
    - pose proof (sim_shared _ _ _ _ H) as Hs. rewrite Forall_forall in Hs.
      rewrite <- (vars_length _ _ _ _ H). apply Hs. eapply nth_error_In; exact Et. }
  clear - Hes Hok. induction Hes as [|c a cs es Hc _ IH]; cbn [map]; [constructor|].
  inversion Hok as [|? ? Ho1 Ho2]; subst. constructor; [|now apply IH].
  destruct c as [t' i|x|v]; cbn [vslot passes_as] in *.
  - rewrite Hc. auto.
  - rewrite Hc. auto.
  - destruct Hc as (l & El & Hl & Hnl). exists l, [], (data v). rewrite El. split; [reflexivity|]. split; [|reflexivity].
    rewrite nth_error_app2 in * by exact Hl. rewrite nth_error_map, Hnl. reflexivity.
Qed.

(** ... of a temporary *)
Lemma sim_copy sto vs ts e cs t : sim sto vs ts e -> nth_error (tuples e) t = Some cs ->
  sim (sto ++ [(true, Node KCT (map (slot_of vs) cs))]) vs (ts ++ [length sto])
    (mkEnv (vars e) (tuples e ++ [cs])).
Proof.
  intros H Et. pose proof H as [Hv Ht Hs Hn]. constructor; cbn [vars tuples].
  - eapply F2_imp_in; [exact Hv|]. intros; now apply at_loc_app.
  - apply Forall2_app; [eapply F2_imp_in; [exact Ht|]; intros; now apply at_loc_app|].
    constructor; [|constructor]. apply at_loc_new.
  - apply Forall_app. split; [exact Hs|]. constructor; [|constructor].
    rewrite Forall_forall in Hs. apply Hs. eapply nth_error_In; exact Et.
  - apply NoDup_snoc; [exact Hn|]. exact (sim_fresh _ _ _ _ H).
Qed.

Lemma temp_views sto vs ts e all cells : sim sto vs ts e ->
  forall cs k ss, (forall i, nth_error all (k + i) = nth_error cs i) ->
  Forall2 (vslot ((sto ++ [(true, Node KCT (map (slot_of vs) all))]) ++ cells) vs (ts ++ [length sto])
             (mkEnv (vars e) (tuples e ++ [all])))
    (view_elems ve (length (tuples e)) k cs) ss ->
  Forall2 (vslot (sto ++ map dead ([(true, Node KCT (map (slot_of vs) all))] ++ cells)) vs ts e)
    (map view_temp cs) ss.
Proof.
  intros H. pose proof (tuples_length _ _ _ _ H) as Htl.
  induction cs as [|c cs IH]; intros k ss Hn Hss; cbn [view_elems map] in *; inversion Hss as [|? s ? ss' Hc Hcs]; subst; [constructor|].
  constructor.
  2:{ apply (IH (Datatypes.S k)); [|exact Hcs]. intros i. specialize (Hn (Datatypes.S i)). cbn [nth_error] in Hn. rewrite <- Hn. f_equal. lia. }
  pose proof (Hn 0) as E0. rewrite Nat.add_0_r in E0. cbn [nth_error] in E0.
  destruct c as [v|x]; cbn [view_elem view_temp] in *.
  - destruct (data_empty ve v); cbn [vslot] in *.
    + destruct Hc as (l & p & root & -> & El & Ep). exists l, p, root. split; [reflexivity|]. split; [|exact Ep].
      rewrite <- app_assoc in El. destruct (Nat.lt_ge_cases l (length sto)) as [Hl|Hl].
      * now rewrite nth_error_app1 in * by exact Hl.
      * rewrite nth_error_app2 in * by exact Hl. rewrite nth_error_map, El. reflexivity.
    + destruct Hc as (-> & _). rewrite app_nth2, <- Htl, Nat.sub_diag by lia. cbn [nth].
      exists (length sto), [k], (Node KCT (map (slot_of vs) all)). split; [reflexivity|]. split.
      * rewrite nth_error_app2, Nat.sub_diag by lia. reflexivity.
      * cbn [sub members]. rewrite nth_error_map, E0. reflexivity.
  - exact Hc.
Qed.

Lemma to_tuple_temp_ok st vs ts e t all :
  sim (store st) vs ts e -> nth_error (tuples e) t = Some all ->
  exists ss cells,
    to_tuple_temp ve C (nth t (refs ts) (0, [])) st =
      (Done (Node KTuple ss), mkSt (store st ++ cells) (mworld st) (trace st)) /\
    Forall2 (vslot (store st ++ cells) vs ts e) (map view_temp all) ss.
Proof.
  intros H Et. unfold to_tuple_temp. rewrite scoped_eq. pose proof (tuples_length _ _ _ _ H) as Htl.
  destruct (F2_nth _ _ _ (sim_tuples _ _ _ _ H) t 0 all Et) as (H1 & H2 & _).
  pose proof (at_loc_holds _ _ _ H1) as Hh. rewrite nth_refs by exact H2. unfold by_value, lv. cbn [aref].
  rewrite bind_assoc. erewrite bind_done by (eapply read_ok; exact Hh).
  erewrite bind_done by reflexivity.
  set (st1 := mkSt (store st ++ [(true, Node KCT (map (slot_of vs) all))]) (mworld st) (trace st)).
  destruct (to_tuple_ok st1 vs (ts ++ [length (store st)]) (mkEnv (vars e) (tuples e ++ [all])) (length (tuples e)) all)
    as (ss & cells & Em & Hss).
  - cbn [st1 store]. eapply sim_copy; eassumption.
  - cbn [tuples]. now rewrite nth_error_app2, Nat.sub_diag by lia.
  - rewrite nth_refs in Em by (rewrite app_length; cbn; lia).
    rewrite app_nth2, <- Htl, Nat.sub_diag in Em by lia. cbn [nth] in Em.
    cbn [st1 store mworld trace] in *. rewrite Em. unfold closing. cbn [fst snd store mworld trace].
    rewrite <- app_assoc, kill_app. eexists _, _. split; [reflexivity|].
    eapply temp_views with (k := 0); [exact H|reflexivity|exact Hss].
Qed.

(** ** Default construction *)
Lemma mapM_alloc : forall os st,
  exists rs, mapM (@alloc A W F S) os st =
    (Done rs, mkSt (store st ++ map (fun o => (true, o)) os) (mworld st) (trace st)) /\
    Forall2 (fun r o => holds (store st ++ map (fun o => (true, o)) os) r o) rs os.
Proof.
  induction os as [|o os IH]; intros st; cbn [mapM map].
  - exists []. rewrite app_nil_r. split; [now rewrite <- (st_eta st) at 1|constructor].
  - set (st1 := mkSt (store st ++ [(true, o)]) (mworld st) (trace st)).
    destruct (IH st1) as (rs & Er & Hr). cbn [st1 store mworld trace] in *. rewrite <- app_assoc in *.
    exists ((length (store st), []) :: rs). split.
    + erewrite bind_done by reflexivity. fold st1. erewrite bind_done by exact Er. reflexivity.
    + constructor; [apply holds_new|exact Hr].
Qed.

Lemma make_default_ok us st : exists cells,
  make_ct_default ve C us st =
    (Done (Node KCT (map SVal (map data us))), mkSt (store st ++ cells) (mworld st) (trace st)).
Proof.
  unfold make_ct_default. rewrite scoped_eq. destruct (mapM_alloc (map data us) st) as (rs & Er & Hr).
  erewrite bind_done by exact Er.
  rewrite (make_ct_ok ve C (mkSt (store st ++ map (fun o => (true, o)) (map data us)) (mworld st) (trace st))
             (map (fun r => mkArg r RV) rs) (map data us)).
  2:{ cbn [store]. clear Er. revert Hr. generalize (store st ++ map (fun o => (true, o)) (map data us)). intros sto Hr.
      induction Hr; cbn [map]; constructor; assumption. }
  unfold closing. cbn [fst snd store mworld trace]. rewrite kill_app. eexists. reflexivity.
Qed.

(** ** Reading and writing through views *)
Lemma view_slot st vs ts ws e w i c :
  vsim (store st) vs ts ws e -> view_of e w i = Some c ->
  exists q, vslot (store st) vs ts (env e) c (SRef q) /\
    get ve C (nth w (refs ws) (0, [])) i st = (Done (RRef q), st).
Proof.
  intros [H Hw] E. unfold view_of in E. destruct (nth_error (views e) w) as [cs|] eqn:Ew; [|discriminate].
  destruct (F2_nth _ _ _ Hw w 0 cs Ew) as ((_ & ss & Hat & Hss) & Hlt & _).
  assert (G : exists s, nth_error ss i = Some s /\ vslot (store st) vs ts (env e) c s).
  { clear - Hss E. revert i E. induction Hss as [|c' s cs ss Hc _ IH]; intros [|i] E; try discriminate; cbn in *.
    - injection E as ->. exists s. auto.
    - now apply IH. }
  destruct G as (s & Es & Hs).
  assert (Hq : exists q, s = SRef q).
  { destruct c as [t j|x|v]; cbn [vslot] in Hs.
    - destruct Hs as [-> _]. eauto.
    - destruct Hs as [-> _]. eauto.
    - destruct Hs as (l & p & root & -> & _). eauto. }
  destruct Hq as (q & ->). exists q. split; [exact Hs|].
  rewrite nth_refs by exact Hlt. pose proof (at_loc_holds _ _ _ Hat) as Hh. unfold get.
  erewrite bind_done by (eapply peek_ok; exact Hh). cbn [kind_of].
  erewrite bind_done by (eapply alive_ok; exact Hh). unfold access. rewrite bind_assoc.
  erewrite bind_done by (eapply peek_ok; exact Hh). cbn [members]. rewrite Es. reflexivity.
Qed.

Lemma own_at st vs ts e t i u :
  sim (store st) vs ts e -> elem_of e t i = Some (Own u) -> holds (store st) (nth t ts 0, [i]) (data u).
Proof.
  intros H E. destruct (elem_slot _ _ _ _ _ _ _ H E) as (cs & Et & Ei & Hlt & Ent & Hat & Hi & Hx).
  exists (Node KCT (map (slot_of vs) cs)). split; [exact Hat|]. cbn [snd sub members]. now rewrite Hi.
Qed.

Theorem vstep_ok st vs ts ws e op :
  vsim (store st) vs ts ws e -> vop_ok ve e op ->
  exists vs' ts' ws' sto',
    vmach_step ve C (refs vs) (refs ts) (refs ws) op st =
      (Done (refs vs', refs ts', refs ws', snd (venv_step ve e op)), mkSt sto' (mworld st) (trace st)) /\
    vsim sto' vs' ts' ws' (fst (venv_step ve e op)).
Proof.
  intros H Hok. pose proof H as [He Hw]. destruct op as [op|us|t|t|w i|w i v]; cbn [vmach_step venv_step vop_ok fst snd] in *.
  - destruct (step_ok ve C st vs ts (env e) op He Hok) as (vs' & ts' & sto' & Em & Hs & Hg).
    pose proof (env_step_elem (env e) op) as Hel. pose proof (env_step_vars (env e) op) as Hvl.
    destruct (env_step (env e) op) as [e1 o]. cbn [fst snd] in *. exists vs', ts', ws, sto'. split.
    + erewrite bind_done by exact Em. reflexivity.
    + constructor; cbn [env views]; [exact Hs|]. eapply views_grown; [exact He|exact Hg|intros t' i' u'; now apply Hel|exact Hvl|exact Hw].
  - destruct (make_default_ok us st) as (cells & Em).
    exists vs, (ts ++ [length (store st ++ cells)]), ws. eexists. split.
    + erewrite bind_done by exact Em. erewrite bind_done by reflexivity. rewrite map_app. reflexivity.
    + cbn [store]. pose proof (sim_app _ _ _ _ cells He) as Hea. pose proof Hea as [Hv Ht Hs Hn]. constructor; cbn [env views].
      * constructor; cbn [vars tuples].
        -- eapply F2_imp_in; [exact Hv|]. intros; now apply at_loc_app.
        -- apply Forall2_app; [eapply F2_imp_in; [exact Ht|]; intros; now apply at_loc_app|].
           constructor; [|constructor]. rewrite (map_map Own (slot_of vs)). cbn [slot_of].
           replace (map (fun x => SVal (data x)) us) with (map SVal (map data us)) by (now rewrite map_map).
           apply at_loc_new.
        -- apply Forall_app. split; [exact Hs|]. constructor; [|constructor]. clear. induction us; constructor; auto.
        -- apply NoDup_snoc; [exact Hn|]. exact (sim_fresh _ _ _ _ Hea).
      * eapply views_grown; [exact He| | | |exact Hw].
        -- rewrite <- app_assoc.
           pose proof (grown_new (store st) vs ts [] [length (store st ++ cells)] (cells ++ [(true, Node KCT (map SVal (map data us)))])) as G.
           rewrite (app_nil_r vs) in G. apply G. constructor; [|constructor]. rewrite app_length. lia.
        -- intros t i u E Hu. exists u. split; [|exact Hu]. rewrite <- E. unfold elem_of. cbn [tuples].
           rewrite nth_error_app1; [reflexivity|]. exact (elem_of_lt _ _ _ _ E).
        -- cbn [vars]. lia.
  - destruct (nth_error (tuples (env e)) t) as [all|] eqn:Et; [|apply nth_error_None in Et; lia].
    destruct (to_tuple_ok st vs ts (env e) t all He Et) as (ss & cells & Em & Hss).
    exists vs, ts, (ws ++ [length (store st ++ cells)]). eexists. split.
    + erewrite bind_done by exact Em. erewrite bind_done by reflexivity. rewrite map_app. reflexivity.
    + cbn [store]. rewrite (nth_error_nth _ _ _ Et). constructor; cbn [env views].
      * now apply sim_app, sim_app.
      * apply Forall2_app.
        -- rewrite <- app_assoc. eapply views_grown; [exact He|apply grown_app| | |exact Hw]; [eauto|lia].
        -- constructor; [|constructor]. split.
           ++ intros Hin. pose proof (sim_locs _ _ _ _ _ He Hin) as Hl. rewrite app_length in Hl. lia.
           ++ exists ss. split; [apply at_loc_new|].
              eapply F2_imp_in; [exact Hss|]. intros c s _ Hc.
              eapply vslot_grown; [apply (sim_app _ _ _ _ cells He)|apply grown_app| | |exact Hc]; [eauto|lia].
  - destruct (nth_error (tuples (env e)) t) as [all|] eqn:Et; [|apply nth_error_None in Et; lia].
    destruct (to_tuple_temp_ok st vs ts (env e) t all He Et) as (ss & cells & Em & Hss).
    exists vs, ts, (ws ++ [length (store st ++ cells)]). eexists. split.
    + erewrite bind_done by exact Em. erewrite bind_done by reflexivity. rewrite map_app. reflexivity.
    + cbn [store]. rewrite (nth_error_nth _ _ _ Et). constructor; cbn [env views].
      * now apply sim_app, sim_app.
      * apply Forall2_app.
        -- rewrite <- app_assoc. eapply views_grown; [exact He|apply grown_app| | |exact Hw]; [eauto|lia].
        -- constructor; [|constructor]. split.
           ++ intros Hin. pose proof (sim_locs _ _ _ _ _ He Hin) as Hl. rewrite app_length in Hl. lia.
           ++ exists ss. split; [apply at_loc_new|].
              eapply F2_imp_in; [exact Hss|]. intros c s _ Hc.
              eapply vslot_grown; [apply (sim_app _ _ _ _ cells He)|apply grown_app| | |exact Hc]; [eauto|lia].
  - destruct (view_of e w i) as [c|] eqn:E; [|easy].
    destruct (view_slot st vs ts ws e w i c H E) as (q & Hq & Eg).
    exists vs, ts, ws, (store st). rewrite st_eta. split; [|exact H].
    unfold tuple_get. rewrite bind_assoc. erewrite bind_done by exact Eg. rewrite bind_assoc. cbn [to_obj].
    destruct c as [t j|x|v]; [| |easy]; cbn [vslot] in Hq.
    + destruct Hq as (Eq & u & Eu & _). injection Eq as ->. cbn [env_step snd]. rewrite Eu. cbn [telem_value].
      erewrite bind_done by (eapply read_ok, own_at; eassumption). reflexivity.
    + destruct Hq as (Eq & Hx). injection Eq as ->. cbn [env_step snd].
      destruct (var_at _ _ _ _ x He Hx) as (v & Ev & Hav).
      erewrite bind_done by (eapply read_loc; exact Hav). rewrite Ev. reflexivity.
  - destruct (view_of e w i) as [c|] eqn:E; [|easy].
    destruct (view_slot st vs ts ws e w i c H E) as (q & Hq & Eg).
    destruct c as [t j|x|u]; [| |easy]; cbn [vslot] in Hq.
    + destruct Hq as (Eq & u & Eu & Hu). injection Eq as ->.
      destruct (step_ok ve C st vs ts (env e) (SetElem t j v) He Hok) as (vs' & ts' & sto' & Em & Hs & Hg).
      pose proof (env_step_elem (env e) (SetElem t j v)) as Hel. pose proof (env_step_vars (env e) (SetElem t j v)) as Hvl.
      exists vs', ts', ws, sto'. split.
      * cbn [mach_step] in Em. unfold tuple_set in *. rewrite bind_assoc.
        unfold bind in Em. pose proof (get_elem ve C _ _ _ _ _ _ _ He Eu) as Ege.
        cbv beta iota in Ege, Em. unfold ref in Em. rewrite Ege, Hu in Em.
        erewrite bind_done by exact Eg. cbv beta iota in *.
        unfold bind. destruct (write C (nth t ts 0, [j]) (data v) st) as [[[]|]] eqn:Ew; [|discriminate].
        unfold ret in *. cbn [snd env_step] in Em. injection Em as E1 E2 E3. rewrite E1, E2, E3. reflexivity.
      * constructor; cbn [env views]; [exact Hs|]. eapply views_grown; [exact He|exact Hg|intros t' i' u'; now apply Hel|exact Hvl|exact Hw].
    + destruct Hq as (Eq & Hx). injection Eq as ->.
      destruct (step_ok ve C st vs ts (env e) (SetVar x v) He Hx) as (vs' & ts' & sto' & Em & Hs & Hg).
      pose proof (env_step_elem (env e) (SetVar x v)) as Hel. pose proof (env_step_vars (env e) (SetVar x v)) as Hvl.
      exists vs', ts', ws, sto'. split.
      * cbn [mach_step] in Em. unfold tuple_set. rewrite bind_assoc. erewrite bind_done by exact Eg.
        rewrite nth_refs in Em by (rewrite (vars_length _ _ _ _ He); exact Hx).
        unfold bind in Em |- *. destruct (write C (nth x vs 0, []) (data v) st) as [[[]|]] eqn:Ew; [|discriminate].
        unfold ret in *. cbn [snd env_step] in Em. injection Em as E1 E2 E3. rewrite E1, E2, E3. reflexivity.
      * constructor; cbn [env views]; [exact Hs|]. eapply views_grown; [exact He|exact Hg|intros t' i' u'; now apply Hel|exact Hvl|exact Hw].
Qed.

Theorem vrun_ok : forall ops st vs ts ws e,
  vsim (store st) vs ts ws e -> vops_ok ve e ops ->
  exists vs' ts' ws' sto',
    (forall ops', vmach_run ve C (refs vs) (refs ts) (refs ws) (ops ++ ops') st =
       (os <- vmach_run ve C (refs vs') (refs ts') (refs ws') ops' ;;
        ret (snd (venv_run ve e ops) ++ os)) (mkSt sto' (mworld st) (trace st))) /\
    vsim sto' vs' ts' ws' (fst (venv_run ve e ops)).
Proof.
  induction ops as [|op ops IH]; intros st vs ts ws e H Hok; cbn [vmach_run venv_run vops_ok] in *.
  - exists vs, ts, ws, (store st). rewrite st_eta. split; [|exact H]. intros ops'. cbn [app snd].
    unfold bind, ret. now destruct (vmach_run ve C (refs vs) (refs ts) (refs ws) ops' st) as [[|]].
  - destruct Hok as [H1 H2]. destruct (vstep_ok st vs ts ws e op H H1) as (vs' & ts' & ws' & sto' & Em & Hs).
    destruct (venv_step ve e op) as [e1 o]. cbn [fst snd] in *.
    destruct (IH (mkSt sto' (mworld st) (trace st)) vs' ts' ws' e1 Hs H2) as (vs2 & ts2 & ws2 & sto2 & Er & Hs2).
    destruct (venv_run ve e1 ops) as [e2 os]. cbn [fst snd mworld trace] in *. exists vs2, ts2, ws2, sto2. split; [|exact Hs2].
    intros ops'. cbn [app vmach_run]. erewrite bind_done by exact Em. cbv beta iota.
    unfold bind at 1. rewrite Er. unfold bind, ret.
    now destruct (vmach_run ve C (refs vs2) (refs ts2) (refs ws2) ops' (mkSt sto2 (mworld st) (trace st))) as [[|]].
Qed.

Lemma vsim_none (sto : list cell) : vsim sto [] [] [] no_vars.
Proof. repeat constructor. Qed.

Theorem view_histories : forall ops (st : mstate),
  vops_ok ve no_vars ops ->
  exists sto', vmach_run ve C [] [] [] ops st =
    (Done (snd (venv_run ve no_vars ops)), mkSt sto' (mworld st) (trace st)).
Proof.
  intros ops st H. destruct (vrun_ok ops st [] [] [] no_vars (vsim_none _) H) as (vs & ts & ws & sto' & Er & _).
  exists sto'. specialize (Er []). rewrite !app_nil_r in Er. cbn [map] in Er.
  refine (eq_trans Er _). cbn [vmach_run].
  rewrite bind_ret, app_nil_r. reflexivity.
Qed.

Lemma alive_gone st l p root : strict C = true -> nth_error (store st) l = Some (false, root) ->
  alive C (l, p) st = (Err Undefined, st).
Proof. intros Hs El. unfold alive. cbn [fst]. now rewrite El, Hs. Qed.

Theorem view_gone : forall ops (st : mstate) w i u v,
  strict C = true -> vops_ok ve no_vars ops ->
  view_of (fst (venv_run ve no_vars ops)) w i = Some (Gone u) ->
  fst (vmach_run ve C [] [] [] (ops ++ [SetView w i v]) st) = Err Undefined /\
  (data_empty ve u = false -> fst (vmach_run ve C [] [] [] (ops ++ [GetView w i]) st) = Err Undefined).
Proof.
  intros ops st w i u v Hst H E.
  destruct (vrun_ok ops st [] [] [] no_vars (vsim_none _) H) as (vs & ts & ws & sto' & Er & Hs).
  destruct (view_slot (mkSt sto' (mworld st) (trace st)) vs ts ws _ w i _ Hs E) as (q & Hq & Eg).
  destruct Hq as (l & p & root & Eq & El & Ep). injection Eq as ->. split.
  - specialize (Er [SetView w i v]). cbn [map] in Er.
    refine (eq_trans (f_equal fst Er) _). clear Er. cbn [vmach_run vmach_step].
    unfold tuple_set. erewrite bind_err; [reflexivity|]. erewrite bind_err; [reflexivity|].
    rewrite bind_assoc. erewrite bind_done by exact Eg. erewrite bind_err; [reflexivity|].
    unfold write. erewrite bind_err; [reflexivity|]. eapply alive_gone; [exact Hst|exact El].
  - intros Hu. specialize (Er [GetView w i]). cbn [map] in Er.
    refine (eq_trans (f_equal fst Er) _). clear Er. cbn [vmach_run vmach_step].
    unfold tuple_get. erewrite bind_err; [reflexivity|]. erewrite bind_err; [reflexivity|].
    rewrite bind_assoc. erewrite bind_done by exact Eg. rewrite bind_assoc. cbn [to_obj].
    erewrite bind_err; [reflexivity|]. unfold read.
    assert (Epk : forall (w0 : W) t0, peek (l, p) (mkSt sto' w0 t0) = (Done (data u), mkSt sto' w0 t0)).
    { intros. unfold peek. cbn [store fst snd] in *. rewrite El, Ep. reflexivity. }
    erewrite bind_done by apply Epk.
    assert (Ee : obj_empty ve (data u) = false) by (cbn; now rewrite andb_true_r). rewrite Ee.
    erewrite bind_err; [reflexivity|]. eapply alive_gone; [exact Hst|exact El].
Qed.

End Proofs.
