(** Proofs about the types of bound functions. *)
From Coq Require Import List Bool Arith.
From Verif Require Import CppTypes CppTypesProofs BindTypes BindTypesSpec.
Import ListNotations.

Section P.
Context {B : Type} (beq : forall x y : B, {x = y} + {x <> y}).
Implicit Types (e f t F T : expr B).

Lemma FWD_spec e : proper e -> FWD beq e = Some (fwd e).
Proof.
  destruct e as [[b c v r] k]. unfold proper; cbn. intros ->.
  unfold FWD, std_forward, binds, fwd_param, name_expr, fwd; cbn.
  destruct k; cbn; rewrite beq_refl; destruct c, v; reflexivity.
Qed.

Lemma proper_fwd e : proper e -> proper (fwd e).
Proof. auto. Qed.

Lemma fwd_fwd e : fwd (fwd e) = fwd e.
Proof. destruct e as [? []]; reflexivity. Qed.

Lemma map_fwd_fwd es : map fwd (map (@fwd B) es) = map fwd es.
Proof. rewrite map_map. apply map_ext. intros; apply fwd_fwd. Qed.

Lemma all_some_map {X Y} (g : X -> option Y) (h : X -> Y) (P : X -> Prop) xs :
  (forall x, P x -> g x = Some (h x)) -> Forall P xs -> all_some (map g xs) = Some (map h xs).
Proof.
  intros H. induction 1 as [|x xs Hx _ IH]; [reflexivity|]. cbn. now rewrite (H _ Hx), IH.
Qed.

Lemma FWDs_spec es : Forall (@proper B) es -> FWDs beq es = Some (map fwd es).
Proof. apply all_some_map. exact FWD_spec. Qed.

Lemma Forall_fwd es : Forall (@proper B) es -> Forall (@proper B) (map fwd es).
Proof. induction 1; constructor; auto. Qed.

Lemma stored_spec V e : proper e -> stored_arg beq V e = Some (lval e).
Proof.
  intros H. unfold stored_arg, captured. rewrite FWD_spec by exact H. cbn [option_map].
  destruct e as [[b c v r] k]. unfold proper in H; cbn in H; subst r.
  unfold accessed, std_forward, binds, fwd_param, name_expr, fwd_capture, fwd; cbn.
  rewrite beq_refl. destruct k; reflexivity.
Qed.

Lemma proper_call (t : ty B) : proper (call_expr t).
Proof. reflexivity. Qed.

Lemma name_fwd e : proper e -> name_expr (fwd_param e) = lval e.
Proof. destruct e as [[b c v r] k]. unfold proper; cbn. intros ->. destruct k; reflexivity. Qed.

Variable invoke : expr B -> list (expr B) -> verdict B.
Variable converts : ty B -> ty B -> bool.
Hypothesis converts_refl : forall t : ty B, converts t t = true.
Variable gets : expr B -> option (list (ty B)).
Variables (V : B) (is_empty : B -> bool) (CT : B) (idx_t : nat -> B).

Lemma bind_back_decl_spec f back front :
  proper f -> Forall (@proper B) back -> Forall (@proper B) front ->
  bind_back_decl beq invoke f back front = invoke (fwd f) (map fwd front ++ map fwd back).
Proof.
  intros Hf Hb Hr. unfold bind_back_decl.
  now rewrite FWD_spec, !FWDs_spec by assumption.
Qed.

Lemma bind_back_spec f back front :
  proper f -> Forall (@proper B) back -> Forall (@proper B) front ->
  bind_back_call beq invoke converts V f back front = spec_bind_back invoke converts f back front.
Proof.
  intros Hf Hb Hr. unfold bind_back_call, spec_bind_back, asks.
  rewrite bind_back_decl_spec by assumption.
  rewrite stored_spec, FWDs_spec by assumption.
  rewrite (all_some_map (stored_arg beq V) lval (@proper B)) by (auto using stored_spec).
  now destruct (invoke _ _).
Qed.

Lemma applied_spec callee t :
  proper t -> ecat t = LV ->
  applied beq gets callee t = option_map (fun gs => callee (map (@call_expr B) gs)) (gets t).
Proof.
  intros Ht Hl. unfold applied. rewrite FWD_spec by exact Ht. rewrite FWD_spec by exact Ht.
  rewrite fwd_fwd. destruct t as [tt k]; cbn in Hl; subst k. reflexivity.
Qed.

Lemma Forall_call (gs : list (ty B)) : Forall (@proper B) (map (@call_expr B) gs).
Proof. induction gs; constructor; auto using proper_call. Qed.

Lemma decayed_spec f : decayed f = copied f.
Proof. reflexivity. Qed.

Lemma inner_decl_spec s f t args :
  proper f -> proper t -> ecat f = LV -> ecat t = LV -> Forall (@proper B) args ->
  inner_decl beq invoke gets s f t args = asked invoke gets s f t args.
Proof.
  intros Hf Ht Hlf Hlt Ha. unfold inner_decl, asked, elements.
  rewrite FWDs_spec by assumption.
  assert (fwd f = f) as Ef by (destruct f as [? k]; cbn in Hlf; now subst k).
  destruct s; unfold apply_decl; rewrite applied_spec by assumption;
    destruct (gets t) as [gs|]; cbn [option_map]; try reflexivity.
  - rewrite bind_back_decl_spec by (auto using Forall_fwd, Forall_call).
    now rewrite Ef, map_fwd_fwd, map_map.
  - unfold std_bind_front. rewrite FWDs_spec by apply Forall_call.
    rewrite decayed_spec, !map_map by assumption. reflexivity.
Qed.

Lemma inner_call_spec s f t args :
  proper f -> proper t -> ecat f = LV -> ecat t = LV -> Forall (@proper B) args ->
  inner_call beq invoke converts gets V s f t args
  = asks converts (asked invoke gets s f t args)
      (made invoke converts gets s f t args).
Proof.
  intros Hf Ht Hlf Hlt Ha.
  pose proof (inner_decl_spec s f t args Hf Ht Hlf Hlt Ha) as Hd.
  unfold inner_call, inner_decl in *. rewrite FWDs_spec in * by assumption.
  assert (fwd f = f) as Ef by (destruct f as [? k]; cbn in Hlf; now subst k).
  assert (lval f = f) as El by (destruct f as [? k]; cbn in Hlf; now subst k).
  destruct s; unfold apply_call; rewrite Hd; unfold asks at 1;
    destruct (asked invoke gets _ f t args) as [| |R] eqn:E; try reflexivity;
    rewrite applied_spec by assumption; unfold made;
    unfold asked, elements in *; destruct (gets t) as [gs|]; try discriminate; cbn [option_map].
  - rewrite bind_back_spec by (auto using Forall_fwd, Forall_call).
    unfold spec_bind_back. rewrite Ef, El, map_fwd_fwd, !map_map, E.
    unfold returns, asks. cbn [fwd lval etype ecat].
    reflexivity.
  - unfold std_bind_front. rewrite FWDs_spec by apply Forall_call.
    rewrite decayed_spec, !map_map by assumption.
    unfold returns. now rewrite <- E.
Qed.

Lemma member_spec is_cst e :
  proper e -> member beq V is_empty CT is_cst e = held is_empty is_cst e.
Proof.
  intros H. unfold member. rewrite FWD_spec by exact H.
  destruct (is_empty (base (etype e))) eqn:Eb.
  { unfold compressed_tuple_element, held. cbn [fwd etype]. rewrite Eb. now destruct is_cst. }
  assert (compressed_tuple_element beq is_empty (fwd e) = Some (ElValue (deduce_fwd e))) as ->.
  { unfold compressed_tuple_element. cbn [fwd etype]. rewrite Eb.
    unfold proper in H. destruct e as [[b c v r] k]. cbn in H; subst r.
    unfold std_forward, binds; destruct k; cbn; rewrite beq_refl; destruct c, v; reflexivity. }
  assert (get_call beq 2 V CT (ElValue (deduce_fwd e)) is_cst LV = get_result (deduce_fwd e) is_cst LV) as ->.
  { rewrite <- (get_nonempty beq is_empty V CT) by (destruct e as [? []]; exact Eb).
    unfold get. rewrite make_element_spec.
    replace (is_empty (base (deduce_fwd e))) with false by (destruct e as [? []]; now rewrite <- Eb).
    unfold proper in H. destruct e as [[b c v r] k]. cbn in H; subst r. destruct k; reflexivity. }
  unfold get_result, held. rewrite Eb.
  unfold proper in H. destruct e as [[b c v r] k]. cbn in H; subst r.
  destruct k, is_cst, v; reflexivity.
Qed.

Lemma held_lval is_cst e f : held is_empty is_cst e = Some f -> proper f /\ ecat f = LV.
Proof.
  unfold held. destruct (is_empty _); [intros [= <-]; now split|].
  destruct (_ && _); [discriminate|]. intros [= <-]; now split.
Qed.

Lemma binder_spec s F T is_cst c args :
  proper F -> proper T -> Forall (@proper B) args ->
  binder_call beq invoke converts gets V is_empty CT idx_t s F T is_cst c args
  = spec_binder invoke converts gets is_empty idx_t s F T is_cst args.
Proof.
  intros HF HT Ha. unfold binder_call, spec_binder, probe, binder_decl.
  rewrite !(name_fwd F), !(name_fwd T) by assumption.
  rewrite !inner_decl_spec by (auto; repeat constructor).
  unfold asks at 1. destruct (asked _ _ _ _ _ args) as [| |R]; try reflexivity.
  assert (exists q, recursive_call (fun _ => true) is_cst c = Some q /\
            cst (etype (name_expr (fwd_param (self_expr CT q)))) = is_cst) as (q & -> & Hq)
    by (destruct is_cst, c; eexists; split; reflexivity).
  rewrite Hq, !member_spec by assumption. unfold returns. change (@idx B) with (@tag B).
  destruct (asked _ _ _ _ _ [tag idx_t 0]) as [| |R0]; try reflexivity;
  destruct (asked _ _ _ _ _ [tag idx_t 1]) as [| |R1]; try reflexivity; cbn [andb];
  destruct (held is_empty is_cst F) as [f|] eqn:Ef; try reflexivity;
  destruct (held is_empty is_cst T) as [t|] eqn:Et; try reflexivity;
  destruct (held_lval _ _ _ Ef), (held_lval _ _ _ Et);
  rewrite inner_call_spec by assumption;
  (destruct s; unfold made; unfold asks at 1; destruct (asked _ _ _ f t args); try reflexivity;
    [unfold asks; destruct (elements gets t _); try reflexivity; destruct (converts _ t0) eqn:E; try reflexivity;
     now rewrite converts_refl
    |now rewrite converts_refl]).
Qed.

(** ** Consequences *)

(** Lvalues: what is asked is what is made. *)
Lemma lval_lvalue e : ecat e = LV -> lval e = fwd e.
Proof. destruct e as [? k]; cbn. now intros ->. Qed.

Lemma bind_back_lvalues f back front :
  proper f -> Forall (@proper B) back -> Forall (@proper B) front ->
  ecat f = LV -> Forall (fun e => ecat e = LV) back ->
  bind_back_call beq invoke converts V f back front
  = match invoke f (map fwd front ++ back) with Accepted R => Accepted R | v => v end.
Proof.
  intros Hf Hb Hr Hlf Hlb. rewrite bind_back_spec by assumption.
  unfold spec_bind_back, asks.
  assert (map fwd back = back) as E1.
  { clear -Hlb. induction Hlb as [|e es He _ IH]; [reflexivity|]. cbn. rewrite IH. f_equal.
    destruct e as [? k]; cbn in He; now subst k. }
  assert (map lval back = back) as E2.
  { clear -Hlb. induction Hlb as [|e es He _ IH]; [reflexivity|]. cbn. rewrite IH. f_equal.
    destruct e as [? k]; cbn in He; now subst k. }
  rewrite lval_lvalue, E1, E2 by assumption.
  assert (fwd f = f) as -> by (destruct f as [? k]; cbn in Hlf; now subst k).
  destruct (invoke f _); try reflexivity. now rewrite converts_refl.
Qed.

(** An accepted call was viable, and has the type of the invocation that was asked
    for. *)
Lemma accepted_type s F T is_cst c args R :
  proper F -> proper T -> Forall (@proper B) args ->
  binder_call beq invoke converts gets V is_empty CT idx_t s F T is_cst c args = Accepted R ->
  asked invoke gets s (lval F) (lval T) args = Accepted R.
Proof.
  intros HF HT Ha. rewrite binder_spec by assumption. unfold spec_binder, asks at 1.
  destruct (asked _ _ _ _ _ args) as [| |R']; try discriminate.
  destruct (match asked _ _ _ _ _ [tag idx_t 0] with HardError => _ | _ => _ end); try discriminate.
  destruct (converts t R'); [|discriminate]. now intros [= ->].
Qed.

(** A binder that is not const, with a function and a tuple that are not const if their
    classes are empty: [<<] makes the call that it asks for, and so does [>>] when its
    arguments are lvalues. *)
Lemma binder_lvalues s F T c args :
  proper F -> proper T -> Forall (@proper B) args ->
  (forall e, e = F \/ e = T -> is_empty (base (etype e)) = true -> cst (etype e) = false /\ vol (etype e) = false) ->
  (s = Front -> Forall (fun e => ecat e = LV) args) ->
  (forall i, i < 2 -> asked invoke gets s (lval F) (lval T) [tag idx_t i] <> HardError) ->
  binder_call beq invoke converts gets V is_empty CT idx_t s F T false c args
  = asked invoke gets s (lval F) (lval T) args.
Proof.
  intros HF HT Ha He Hs Hp. rewrite binder_spec by assumption. unfold spec_binder, asks at 1.
  assert (forall e, e = F \/ e = T -> held is_empty false e = Some (lval e)) as Hh.
  { intros e Hin. assert (proper e) as Hpe by (destruct Hin; now subst).
    specialize (He e Hin). unfold held, lval.
    destruct e as [[b k v r] kk]; unfold proper in Hpe; cbn in *; subst r.
    destruct (is_empty b); [|reflexivity]. destruct He as [-> ->]; reflexivity. }
  rewrite (Hh F), (Hh T) by auto.
  pose proof (Hp 0 ltac:(auto)) as H0. pose proof (Hp 1 ltac:(auto)) as H1.
  destruct (asked _ _ _ _ _ args) as [| |R] eqn:E; try reflexivity.
  assert (made invoke converts gets s (lval F) (lval T) args = Accepted R) as ->.
  { unfold made. destruct s; [|exact E]. rewrite E. unfold asks.
    assert (map lval args = map fwd args) as Em.
    { specialize (Hs eq_refl). clear -Hs.
      induction Hs as [|e es He _ IH]; [reflexivity|]. cbn [map]. now rewrite IH, lval_lvalue. }
    rewrite Em. unfold asked in E. rewrite E. now rewrite converts_refl. }
  destruct (asked _ _ _ _ _ [tag idx_t 0]); try congruence;
    destruct (asked _ _ _ _ _ [tag idx_t 1]); try congruence; now rewrite converts_refl.
Qed.

End P.

(** ** Function objects *)
Section F.
Context {B : Type} (beq : forall x y : B, {x = y} + {x <> y}) (copyable : B -> bool).
Implicit Types (p : ty B) (e f t F T : expr B) (o : fobj B).

Lemma takes_lval p e :
  takes beq copyable p (fwd e) = true ->
  takes beq copyable p (lval e) = negb (rvalue e && wants_rvalue copyable p).
Proof.
  destruct e as [[b c v r] k], p as [b' c' v' r']. unfold takes, wants_rvalue, rvalue, binds; cbn.
  destruct r', k; cbn; try destruct (beq b b'); try destruct (copyable b'); destruct c, v, c', v';
    cbn; try discriminate; try reflexivity.
Qed.

Lemma takes_all_app ps es1 es2 :
  takes_all beq copyable ps (es1 ++ es2)
  = takes_all beq copyable (firstn (length es1) ps) es1
    && takes_all beq copyable (skipn (length es1) ps) es2.
Proof.
  revert ps. induction es1 as [|e es1 IH]; intros [|p ps]; cbn; try reflexivity.
  now rewrite IH, andb_assoc.
Qed.

Lemma takes_all_lval ps es :
  takes_all beq copyable ps (map fwd es) = true ->
  takes_all beq copyable ps (map lval es) = negb (lost copyable ps es).
Proof.
  revert es. induction ps as [|p ps IH]; intros [|e es]; cbn; try reflexivity; try discriminate.
  intros H. apply andb_prop in H as [H1 H2]. rewrite takes_lval, IH by assumption.
  now rewrite negb_orb.
Qed.

Lemma callee_lval o f :
  callee_ok beq o (fwd f) = true ->
  callee_ok beq o (lval f) = negb (rvalue f && is_rref (mkTy (fclass o) false false (fref o))).
Proof.
  destruct f as [[b c v r] k], o as [cl ps rt fc fr]. unfold callee_ok, rvalue, is_rref; cbn.
  destruct (beq b cl), k, fr, c, v, fc; cbn; try discriminate; reflexivity.
Qed.

Lemma bind_back_function converts V o f back front :
  (forall t : ty B, converts t t = true) ->
  proper f -> Forall (@proper B) back -> Forall (@proper B) front ->
  bind_back_call beq (fobj_invoke beq copyable o) converts V f back front
  = if callee_ok beq o (fwd f) && takes_all beq copyable (fparams o) (map fwd front ++ map fwd back)
    then if (rvalue f && match fref o with RRef => true | _ => false end)
            || lost copyable (skipn (length front) (fparams o)) back
         then HardError else Accepted (fret o)
    else NotViable.
Proof.
  intros Hrefl Hf Hb Hr. rewrite (bind_back_spec beq) by assumption.
  unfold spec_bind_back, asks, fobj_invoke.
  destruct (callee_ok beq o (fwd f) && _) eqn:E; [|reflexivity].
  apply andb_prop in E as [E1 E2]. rewrite takes_all_app in E2 |- *.
  apply andb_prop in E2 as [E2 E3].
  rewrite map_length in *. rewrite callee_lval, E2, takes_all_lval by assumption. cbn [andb].
  unfold is_rref; cbn [ref].
  destruct (rvalue f && match fref o with RRef => true | _ => false end); [reflexivity|].
  destruct (lost _ _ _); [reflexivity|]. cbn. now rewrite Hrefl.
Qed.

Lemma takes_reads p e :
  vol p = false -> match ref p with NoRef => copyable (base p) = true | LRef => cst p = true | RRef => False end ->
  vol (etype e) = false ->
  takes beq copyable p e = if beq (base (etype e)) (base p) then true else false.
Proof.
  destruct e as [[b c v r] k], p as [b' c' v' r']. unfold takes, binds; cbn. intros -> Hp ->.
  destruct r'; [rewrite Hp|subst c'|easy]; destruct (beq b b'), c, k; reflexivity.
Qed.

Lemma takes_all_reads ps es :
  Forall (fun p => vol p = false /\
            match ref p with NoRef => copyable (base p) = true | LRef => cst p = true | RRef => False end) ps ->
  Forall (fun e => vol (etype e) = false) es ->
  takes_all beq copyable ps es
  = if list_eq_dec beq (map (fun e => base (etype e)) es) (map base ps) then true else false.
Proof.
  intros Hp. revert es. induction Hp as [|p ps [Hv Hp] _ IH]; intros es He.
  - destruct es as [|e es]; reflexivity.
  - destruct He as [|e es He Hes]; [reflexivity|]. cbn [takes_all map].
    rewrite takes_reads, IH by assumption.
    destruct (beq (base (etype e)) (base p)) as [E|E];
      destruct (list_eq_dec beq (map _ es) (map base ps)) as [E'|E'];
      destruct (list_eq_dec beq (_ :: _) (_ :: _)) as [E''|E'']; cbn; congruence.
Qed.

Lemma callee_reads o f :
  fconst o = true -> fref o <> RRef -> vol (etype f) = false ->
  callee_ok beq o f = if beq (base (etype f)) (fclass o) then true else false.
Proof.
  destruct f as [[b c v r] k], o as [cl ps rt fc fr]. unfold callee_ok; cbn. intros -> Hr ->.
  destruct (beq b cl), c, fr, k; try reflexivity; congruence.
Qed.

Definition is_fine e : Prop := proper e /\ vol (etype e) = false.

Lemma reads_invoke o f es :
  reads_only copyable o -> vol (etype f) = false -> Forall (fun e => vol (etype e) = false) es ->
  fobj_invoke beq copyable o f es
  = if beq (base (etype f)) (fclass o) then
      if list_eq_dec beq (map (fun e => base (etype e)) es) (map base (fparams o))
      then Accepted (fret o) else NotViable
    else NotViable.
Proof.
  intros (Hc & Hr & Hp) Hf He. unfold fobj_invoke.
  rewrite callee_reads, takes_all_reads by assumption.
  destruct (beq _ _); [|reflexivity]. cbn. now destruct (list_eq_dec _ _ _).
Qed.

(** The classes of the arguments of [f], in order. *)
Definition classes (s : side) (args : list (expr B)) (bs : list B) : list B :=
  match s with
  | Front => bs ++ map (fun e => base (etype e)) args
  | Back => map (fun e => base (etype e)) args ++ bs
  end.

Lemma asked_reads o gets s f t args bs :
  reads_only copyable o -> vol (etype f) = false ->
  Forall (fun e => vol (etype e) = false) args ->
  holds gets (base (etype t)) bs -> vol (etype t) = false -> proper t -> ecat t = LV ->
  forall v,
  v = (if beq (base (etype f)) (fclass o) then
      if list_eq_dec beq (classes s args bs) (map base (fparams o)) then Accepted (fret o) else NotViable
    else NotViable) ->
  asked (fobj_invoke beq copyable o) gets s f t args = v /\
  elements gets t (fun gs => fobj_invoke beq copyable o f (gs ++ map lval args))
  = match s with Front => v | Back => elements gets t (fun gs => fobj_invoke beq copyable o f (gs ++ map lval args)) end.
Proof.
  intros Ho Hf Ha Ht Hvt Hpt Hlt v ->. unfold asked, elements.
  destruct t as [[tb tc tv tr] tk]; cbn in *; subst.
  unfold proper in Hpt; cbn in Hpt; subst.
  destruct (Ht tc) as (gs & -> & Hg & Hv).
  assert (map (fun e => base (etype e)) (map (fun g => fwd (call_expr g)) gs) = bs) as Hb
    by (rewrite map_map; exact Hg).
  assert (Forall (fun e => vol (etype e) = false) (map (fun g => fwd (call_expr g)) gs)) as Hvg.
  { clear -Hv. induction Hv; constructor; auto. }
  assert (Forall (fun e => vol (etype e) = false) (map fwd args)) as Hva.
  { clear -Ha. induction Ha; constructor; auto. }
  assert (Forall (fun e => vol (etype e) = false) (map lval args)) as Hvl.
  { clear -Ha. induction Ha; constructor; auto. }
  assert (Forall (fun e => vol (etype e) = false) (map copied args)) as Hvc.
  { clear -Ha. induction Ha; constructor; auto. }
  destruct s; (split; [|try reflexivity]);
    rewrite reads_invoke by (auto; apply Forall_app; split; assumption);
    rewrite map_app, Hb, map_map; reflexivity.
Qed.

Lemma asked_fobj_no_error o gets s f t args :
  asked (fobj_invoke beq copyable o) gets s f t args <> HardError.
Proof.
  unfold asked, elements, fobj_invoke. destruct (gets t); [|discriminate].
  destruct s; destruct (_ && _); discriminate.
Qed.

(** Functions that only read their arguments can be bound and called in every way. *)
Lemma binder_reads converts gets V is_empty CT idx_t s o F T is_cst c args bs :
  (forall t : ty B, converts t t = true) ->
  reads_only copyable o -> holds gets (base (etype T)) bs ->
  is_fine F -> is_fine T -> Forall is_fine args ->
  binder_call beq (fobj_invoke beq copyable o) converts gets V is_empty CT idx_t s F T is_cst c args
  = if beq (base (etype F)) (fclass o) then
      if list_eq_dec beq (classes s args bs) (map base (fparams o)) then Accepted (fret o) else NotViable
    else NotViable.
Proof.
  intros Hrefl Ho Hh (HF & HFv) (HT & HTv) Ha.
  assert (Forall (@proper B) args) as Hap by (eapply Forall_impl; [|exact Ha]; intros ? []; auto).
  assert (Forall (fun e => vol (etype e) = false) args) as Hav
    by (eapply Forall_impl; [|exact Ha]; intros ? []; auto).
  rewrite (binder_spec beq) by assumption. unfold spec_binder.
  assert (asked (fobj_invoke beq copyable o) gets s (lval F) (lval T) args
          = if beq (base (etype F)) (fclass o) then
              if list_eq_dec beq (classes s args bs) (map base (fparams o)) then Accepted (fret o) else NotViable
            else NotViable) as E.
  { apply (asked_reads o gets s (lval F) (lval T) args bs); auto. }
  rewrite E. unfold asks at 1.
  destruct (beq (base (etype F)) (fclass o)) as [Ec|]; [|reflexivity].
  destruct (list_eq_dec _ _ _) as [El|]; [|reflexivity].
  pose proof (asked_fobj_no_error o gets s (lval F) (lval T) [tag idx_t 0]) as N0.
  pose proof (asked_fobj_no_error o gets s (lval F) (lval T) [tag idx_t 1]) as N1.
  assert (exists f, held is_empty is_cst F = Some f /\ base (etype f) = base (etype F) /\
            vol (etype f) = false) as (f & Hf & Bf & Vf).
  { unfold held. destruct (is_empty _); [eexists; split; [reflexivity|]; now split|].
    rewrite HFv, andb_false_r. eexists; split; [reflexivity|]; now split. }
  assert (exists t, held is_empty is_cst T = Some t /\ base (etype t) = base (etype T) /\
            vol (etype t) = false) as (t & Ht & Bt & Vt).
  { unfold held. destruct (is_empty _); [eexists; split; [reflexivity|]; now split|].
    rewrite HTv, andb_false_r. eexists; split; [reflexivity|]; now split. }
  destruct (held_lval _ _ _ _ Ht) as [Pt Lt].
  rewrite Hf, Ht.
  assert (made (fobj_invoke beq copyable o) converts gets s f t args = Accepted (fret o)) as M.
  { rewrite <- Bt in Hh.
    destruct (asked_reads o gets s f t args bs Ho Vf Hav Hh Vt Pt Lt (Accepted (fret o))) as [A1 A2].
    { rewrite Bf. destruct (beq _ _); [|congruence]. destruct (list_eq_dec _ _ _); congruence. }
    unfold made. destruct s; [|exact A1]. rewrite A1, A2. unfold asks. now rewrite Hrefl. }
  rewrite M.
  destruct (asked _ _ _ _ _ [tag idx_t 0]); try congruence;
    destruct (asked _ _ _ _ _ [tag idx_t 1]); try congruence; now rewrite Hrefl.
Qed.

(** ** Tuples *)
Lemma std_gets_elements (Ts : list (ty B)) (t : expr B) :
  std_gets Ts t = Some (map (element_type (cst (etype t)) (ecat t)) Ts).
Proof.
  unfold std_gets. f_equal. apply map_ext. intros [b k v []]; destruct (cst (etype t)), (ecat t), k; reflexivity.
Qed.

Lemma std_holds tuple (Ts : list (ty B)) :
  Forall (fun T : ty B => vol T = false) Ts -> holds (std_gets Ts) tuple (map base Ts).
Proof.
  intros H c. eexists. split; [reflexivity|]. cbn. split.
  - rewrite map_map. apply map_ext. intros [b k v []]; destruct c; reflexivity.
  - induction H as [|[b k v r] Ts Hv _ IH]; constructor; auto; destruct c, r; exact Hv.
Qed.

Lemma compressed_holds is_empty V CT tuple (Ts : list (ty B)) :
  Forall (fun T : ty B => vol T = false) Ts ->
  holds (compressed_gets beq is_empty V CT Ts) tuple (map base Ts).
Proof.
  intros H c. unfold compressed_gets; cbn [etype ecat cst].
  induction H as [|T Ts Hv _ IH]; [now exists []|].
  destruct IH as (gs & E & Eb & Ev). cbn [map all_some].
  destruct (is_empty (base T)) eqn:Ee.
  - rewrite get_empty by exact Ee. rewrite E. eexists; split; [reflexivity|].
    split; [cbn; now rewrite Eb|]. now constructor.
  - rewrite get_nonempty by exact Ee. unfold get_result. rewrite Hv, andb_false_r, E.
    eexists; split; [reflexivity|]. split; [cbn; now rewrite Eb|]. now constructor.
Qed.

End F.

(** ** Concrete cases

    Classes: 0 is empty, 1 is [int], 2 a [std::unique_ptr], which cannot be copied, 3 a
    function object, 4 a tuple. *)
Definition bt_empty (b : nat) : bool := b =? 0.
Definition bt_copyable (b : nat) : bool := negb (b =? 2).
Definition bt_conv (from to : ty nat) : bool :=
  (base from =? base to).
Definition bt_ty (b : nat) : ty nat := mkTy b false false NoRef.
Definition bt_lv (b : nat) : expr nat := mkExpr (bt_ty b) LV.
Definition bt_rv (b : nat) : expr nat := mkExpr (bt_ty b) PRV.
Definition bt_fun (ps : list (ty nat)) : fobj nat := mkF 3 ps (bt_ty 1) true NoRef.
Definition bt_mutable (ps : list (ty nat)) : fobj nat := mkF 3 ps (bt_ty 1) false NoRef.
Definition bt_invoke (o : fobj nat) := fobj_invoke Nat.eq_dec bt_copyable o.
Definition bt_bind_back (o : fobj nat) := bind_back_call Nat.eq_dec (bt_invoke o) bt_conv 100.
Definition bt_idx (i : nat) : nat := 10 + i.
Definition bt_gets : expr nat -> option (list (ty nat)) :=
  compressed_gets Nat.eq_dec bt_empty 100 101 [bt_ty 1].
Definition bt_binder (o : fobj nat) :=
  binder_call Nat.eq_dec (bt_invoke o) bt_conv bt_gets 100 bt_empty 101 bt_idx.

Lemma bt_conv_refl t : bt_conv t t = true.
Proof. apply Nat.eqb_refl. Qed.

(** [f(int, const int &)] *)
Definition bt_reads : fobj nat := bt_fun [bt_ty 1; mkTy 1 true false LRef].

Lemma ex_bt_reads : reads_only bt_copyable bt_reads /\ holds bt_gets 4 [1].
Proof.
  split.
  - split; [reflexivity|]. split; [discriminate|]. repeat constructor.
  - apply (compressed_holds Nat.eq_dec bt_empty 100 101 4 [bt_ty 1]). now constructor.
Qed.

(** A function template whose body does not compile for an [idx<i>]. *)
Definition bt_template (_ : expr nat) (args : list (expr nat)) : verdict nat :=
  if existsb (fun e => 10 <=? base (etype e)) args then HardError else Accepted (bt_ty 1).
