(** Proofs for C62. *)
From Coq Require Import List Bool Arith Lia.
From Verif Require Import Value TupleAlg TupleAlgProofs LazyModel LazySpec LazySpec2 LazyProofs LazyGeneral
  LazyThms StreamSpec.
Import ListNotations.

Section Ind.
Context {A fid did : Type}.
Variable P : expr A fid did -> Prop.
Hypothesis Hconst : forall v, P (EConst v).
Hypothesis Hfun : forall d, P (EFun d).
Hypothesis Happ : forall f es, Forall P es -> P (EApp f es).
Fixpoint expr_ind_deps (e : expr A fid did) : P e :=
  match e with
  | EConst v => Hconst v
  | EFun d => Hfun d
  | EApp f es =>
      Happ f es ((fix go (es : list (expr A fid did)) : Forall P es :=
                    match es with
                    | [] => Forall_nil P
                    | e :: es' => Forall_cons e (expr_ind_deps e) (go es')
                    end) es)
  end.
End Ind.

Section Stream.
Context {A W fid did : Type}.
Notation value := (val A).
Notation lz := (lz A fid did).
Notation event := (event A fid did).
Variable U : user A W fid did.
Hypothesis Hro : readonly_user U.

Lemma sem_world f args w : sem U f args w = (fst (sem U f args w), w).
Proof. rewrite <- (proj1 Hro f args w) at 3. now destruct (sem U f args w). Qed.
Lemma dsem_world d w : dsem U d w = (fst (dsem U d w), w).
Proof. rewrite <- (proj2 Hro d w) at 3. now destruct (dsem U d w). Qed.

Lemma spread_ctad (vs : list value) : ctad_tuple as_tuple vs = spread vs.
Proof. destruct vs as [|v [|v2 vs]]; try reflexivity; now destruct v. Qed.

(** The dependencies, called one after the other at each moment. *)
Fixpoint steps_seq (ds : list lz) (ws : list W) : list (res (list (value * bool)) * list event) :=
  match ws with
  | [] => []
  | w :: ws' => let '(r, ds', _, lg) := steps U ds w in (r, lg) :: steps_seq ds' ws'
  end.

Lemma steps_world xs : forall w, snd (fst (steps U xs w)) = w.
Proof.
  assert (H : forall l w, snd (fst (step U l w)) = w); [|].
  { induction l as [v ch|g c deps IH] using lz_ind'; intros w; auto.
    assert (Hs : forall w, snd (fst (steps U deps w)) = w).
    { induction IH as [|d ds Hd _ IHs]; intros w0; auto. rewrite steps_cons.
      specialize (Hd w0). destruct (step U d w0) as [[[[x| |] d'] w1] l1]; cbn in *; auto; subst.
      specialize (IHs w0). destruct (steps U ds w0) as [[[rs ds''] w2] l2]; cbn in *; auto. }
    rewrite step_core. specialize (Hs w).
    destruct (steps U deps w) as [[[[rs| |] ds] w1] l1]; cbn in *; auto; subst w1.
    rewrite core_eq. destruct (_ || _).
    - destruct g as [f|d]; cbn [call_fn].
      + rewrite sem_world. destruct (regularized _); auto.
      + rewrite dsem_world. destruct (fst (dsem U d w)); auto.
    - destruct c; auto. }
  induction xs as [|d ds IH]; intros w; auto. rewrite steps_cons. specialize (H d w).
  destruct (step U d w) as [[[[x| |] d'] w1] l1]; cbn in *; auto; subst.
  specialize (IH w). destruct (steps U ds w) as [[[rs ds''] w2] l2]; cbn in *; auto.
Qed.

Lemma step_world (l : lz) w : snd (fst (step U l w)) = w.
Proof.
  pose proof (steps_world [l] w) as H. rewrite steps_cons in H.
  destruct (step U l w) as [[[[x| |] d'] w1] l1]; exact H.
Qed.

Lemma call_seq_length ws : forall l, length (call_seq U l ws) = length ws.
Proof.
  induction ws as [|w ws IH]; intros l; cbn [call_seq]; auto.
  destruct (step U l w) as [[[r l'] w'] lg]. cbn. now rewrite IH.
Qed.

Lemma steps_seq_nil ws : steps_seq [] ws = map (fun _ => (Ok [], [])) ws.
Proof. induction ws as [|w ws IH]; cbn; auto. now rewrite IH. Qed.

Lemma steps_seq_cons ws : forall d ds,
  steps_seq (d :: ds) ws
  = followed_by (call_seq U d ws) (steps_seq ds (returned_at ws (call_seq U d ws))).
Proof.
  induction ws as [|w ws IH]; intros d ds; [reflexivity|].
  cbn [steps_seq call_seq]. rewrite steps_cons.
  pose proof (step_world d w) as Hw. pose proof (step_not_ub U d w) as Hu.
  destruct (step U d w) as [[[[x| |] d'] w1] l1]; cbn [fst snd] in *; subst; [| |congruence].
  - cbn [returned_at steps_seq followed_by].
    pose proof (steps_not_ub U ds) as Hs.
    assert (Hall : Forall (fun l : lz => forall w, fst (fst (fst (step U l w))) <> UB) ds)
      by (apply Forall_forall; intros; apply step_not_ub).
    specialize (Hs Hall w).
    destruct (steps U ds w) as [[[[xs| |] ds''] w2] l2]; cbn [fst] in Hs; [| |congruence];
      cbn [followed_by]; f_equal; apply IH.
  - cbn [returned_at followed_by]. f_equal. apply IH.
Qed.

(** A node over its dependencies. *)
Definition fn_call (g : fnobj fid did) (args : list value) (w : W) : option value :=
  match fst (fst (call_fn U g args w)) with VRet v => Some v | VThrow => None end.
Definition fn_event (g : fnobj fid did) (args : list value) : event :=
  match g with FnUser f => EvCall f args | FnSample d => EvSample d end.

Lemma call_fn_eq g args w :
  call_fn U g args w = (fst (fst (call_fn U g args w)), w, [fn_event g args]).
Proof.
  destruct g as [f|d]; cbn [call_fn].
  - now rewrite sem_world.
  - now rewrite dsem_world.
Qed.

Lemma node_seq g ws : forall past c ds,
  latest past = c ->
  call_seq U (LCore g c ds) ws = responses U (fn_call g) (fn_event g) past ws (steps_seq ds ws).
Proof.
  induction ws as [|w ws IH]; intros past c ds Hl; [reflexivity|].
  cbn [call_seq steps_seq]. rewrite step_core.
  pose proof (steps_world ds w) as Hw.
  assert (Hall : Forall (fun l : lz => forall w, fst (fst (fst (step U l w))) <> UB) ds)
    by (apply Forall_forall; intros; apply step_not_ub).
  pose proof (steps_not_ub U ds Hall w) as Hs.
  destruct (steps U ds w) as [[[[rs| |] ds'] w1] l1]; cbn [fst snd] in *; subst w1; [| |congruence].
  - cbn [responses respond]. rewrite core_eq, Hl.
    destruct c as [u|]; cbn [is_some negb orb].
    + destruct (existsb snd rs).
      * rewrite spread_ctad, call_fn_eq. unfold fn_call.
        destruct (fst (fst (call_fn U g (spread (map fst rs)) w))) as [v|].
        -- f_equal. apply IH. reflexivity.
        -- f_equal. apply IH. exact Hl.
      * rewrite app_nil_r. f_equal. apply IH. reflexivity.
    + rewrite spread_ctad, call_fn_eq. unfold fn_call.
      destruct (fst (fst (call_fn U g (spread (map fst rs)) w))) as [v|].
      * f_equal. apply IH. reflexivity.
      * f_equal. apply IH. exact Hl.
  - cbn [responses respond]. f_equal. apply IH. exact Hl.
Qed.

Lemma responses_ext call1 call2 act1 act2 :
  (forall args w, call1 args w = call2 args w) -> (forall args, act1 args = act2 args) ->
  forall ws past deps,
  responses U call1 act1 past ws deps = responses U call2 act2 past ws deps.
Proof.
  intros Hc Ha. induction ws as [|w ws IH]; intros past deps; cbn; auto.
  destruct deps as [|d deps]; auto.
  assert (E : respond U call1 act1 past w d = respond U call2 act2 past w d).
  { unfold respond. destruct d as [[rs| |] lg]; auto. now rewrite Hc, Ha. }
  rewrite E. f_equal. apply IH.
Qed.

Lemma call_seq_value v ws : call_seq U (LValue v false) ws = map (fun _ => (Ok (v, false), [])) ws.
Proof. induction ws as [|w ws IH]; cbn [call_seq map]; auto. rewrite step_value. now rewrite IH. Qed.

(** The argument of a sampled function does not matter. *)
Lemma sample_seq d ws : forall past,
  responses U (fn_call (FnSample d)) (fn_event (FnSample d)) past ws
    (steps_seq [LValue (VAtom (int0 U)) true] ws)
  = responses U (fun _ w => match fst (dsem U d w) with VRet v => Some v | VThrow => None end)
      (fun _ => EvSample d) past ws (map (fun _ => (Ok [(VVoid, true)], [])) ws).
Proof.
  induction ws as [|w ws IH]; intros past; auto.
  cbn [steps_seq map]. rewrite steps_cons, step_value, steps_nil. cbn [responses app].
  assert (E : forall v, respond U (fn_call (FnSample d)) (fn_event (FnSample d)) past w (Ok [(v, true)], [])
              = respond U (fun _ w => match fst (dsem U d w) with VRet v => Some v | VThrow => None end)
                  (fun _ => EvSample d) past w (Ok [(VVoid, true)], [])).
  { intros v. unfold respond. destruct (latest past); cbn [existsb snd orb];
      unfold fn_call; cbn [call_fn]; rewrite dsem_world; reflexivity. }
  rewrite E. f_equal. apply IH.
Qed.

Lemma stream_behaviour e : forall l ws,
  has_shape U e l -> fresh l -> call_seq U l ws = behaviour U e ws.
Proof.
  induction e as [v|d|f es IH] using expr_ind_deps; intros l ws Hs Hf; inversion Hs; subst.
  - apply call_seq_value.
  - destruct (proj1 (fresh_core _ _ _) Hf) as [-> _].
    rewrite (node_seq _ ws []) by reflexivity. apply sample_seq.
  - destruct (proj1 (fresh_core _ _ _) Hf) as [-> Hfs].
    rewrite (node_seq _ ws []) by reflexivity. cbn [behaviour].
    assert (E : steps_seq ls ws = in_turn (behaviour U) es ws).
    { revert ls ws H2 Hfs Hs Hf. induction IH as [|e es He _ IHs]; intros ls ws H2 Hfs Hs Hf; inversion H2; subst.
      - apply steps_seq_nil.
      - inversion Hfs; subst. rewrite steps_seq_cons. cbn [in_turn].
        rewrite (He y ws) by auto. f_equal. apply IHs; auto.
        + now constructor.
        + apply fresh_core. auto. }
    rewrite E. apply responses_ext; auto. intros args w. unfold fn_call. cbn [call_fn].
    rewrite sem_world. cbn [fst]. destruct (fst (sem U f args w)) as [[v|]|]; reflexivity.
Qed.

Lemma created_behaviour p w s outs es x e l ws :
  no_call p -> run U p (mkState [] w) = Some (s, outs) -> shapes p [] = Some es ->
  nth_error es x = Some e -> nth_error (vars s) x = Some l ->
  call_seq U l ws = behaviour U e ws.
Proof.
  intros Hn Hr Hsh He Hl. apply stream_behaviour.
  - destruct (program_var U p w s outs es x e Hr Hsh He) as (l0 & Hl0 & H). congruence.
  - eapply fresh_nth; [|exact Hl]. eapply run_fresh; [exact Hn| |exact Hr]. constructor.
Qed.
End Stream.
