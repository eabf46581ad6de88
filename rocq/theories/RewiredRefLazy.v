(** Proofs for [RewiredRefSpec.v], third part: nodes, wrappers and [std::ref]. *)
From Coq Require Import List Bool Arith Lia.
From Verif Require Import RewiredThms TupleAlgProofs.
From Verif Require Import Value Machine MachineSpec MachineLib Composed MachineThms BindSpec Programs
  RewiredSpec Rewired RefPrograms RewiredRefSpec RewiredRefs RewiredRefCalls.
From Verif Require LazyModel LazyGeneral LazyProofs SharedModel SharedProofs HistoryThms ShareThms.
Import ListNotations.

Section Refs.
Context {A W F S : Type}.
Notation value := (val A).
Notation obj := (obj A F S).
Notation mstate := (mstate A W F S).
Notation mevent := (mevent A F).
Notation cell := (bool * obj)%type.
Notation fn := (F * option S)%type.
Notation slz := (SharedModel.slz A fn fn).
Notation data := (@Machine.data A F S).
Notation dead := (@MachineLib.dead A F S).
Variable ve : value -> bool.
Variable C : config.
Variable U : muser A W F S.
Implicit Type st : mstate.
Implicit Type sto : list cell.
Implicit Type vs : list slz.
Hypothesis rewired : byref C = true.
Variable rs : list ref.
Hypothesis distinct : NoDup (map fst rs).

Notation invoke := (invoke ve C U).
Notation KU := (kept_user U).
Notation sk := (@skept A F S rs).
Notation set_vars := (set_vars rs).
Notation stored := (stored rs).
Notation outside := (outside rs).
Notation at_var := (at_var rs).
Notation vars_fit := (vars_fit U).
Notation fits := (fits U).


Notation eff := (LazyModel.res (value * bool) * obj * list slz * W * list mevent)%type.
Notation whose := (list cell -> nat -> ref -> obj -> list slz -> ref -> value -> Prop).
Notation gdep := (@gdep A W F S ve C U rs).
Notation inside := (@inside A F S).
Notation gone := (@gone A F S).
Notation whose_of := (@whose_of A F S ve rs).
Notation skstep := (@skstep A W F S U rs).
Notation sdep := (@sdep A W F S ve C U rs).
Notation place := (@place A F S).

Lemma give_cache_at base r x0 v g os (cells rest : list cell) b w t vs :
  holds base r x0 ->
  let sto := mset base r (node_obj (Some v) g os) in
  exists rr cells',
    closing (length base) (closing (length (base ++ cells))
      (give_cache ve C (at_ r 0) b (mkSt (sto ++ cells ++ rest) w t))) =
    (Done (@RVal A F S (result_obj rr b)), mkSt (sto ++ map dead cells') w t : mstate) /\
    inside [0; 0; 0] (sto ++ map dead cells') (length base) r (node_obj (Some v) g os) vs rr v.
Proof.
  intros Hb sto.
  assert (Hn : holds sto r (node_obj (Some v) g os)) by (eapply holds_mset; exact Hb).
  assert (Hc : holds (sto ++ cells ++ rest) (at_ (at_ r 0) 0) (cache_obj (Some v))).
  { apply holds_app. rewrite !at_ext, ext_ext. eapply holds_sub; [exact Hn|reflexivity]. }
  assert (El : length sto = length base) by apply mset_length.
  assert (El2 : length (base ++ cells) = length (sto ++ cells)) by (rewrite !app_length; lia).
  unfold give_cache.
  assert (Hnv : forall rest', closing (length base) (closing (length (base ++ cells))
      (Done (@RVal A F S (result_obj (at_ (at_ (at_ r 0) 0) 0) b)), mkSt (sto ++ cells ++ rest') w t)) =
      (Done (@RVal A F S (result_obj (at_ (at_ (at_ r 0) 0) 0) b)), mkSt (sto ++ map dead (cells ++ map dead rest')) w t)).
  { intros rest'. rewrite app_assoc, (closing_at _ _ _ _ _ _ El2), <- app_assoc, (closing_at _ _ _ _ _ _ (eq_sym El)).
    reflexivity. }
  erewrite bind_done by (apply read_ok; exact Hc). cbn [cache_obj].
  destruct v as [y| |y|y z|y]; cbn [Machine.data].
  1, 3, 4, 5: rewrite bind_ret; unfold ret; exists (at_ (at_ (at_ r 0) 0) 0), (cells ++ map dead rest);
    (split; [apply Hnv|]); left; (split; [discriminate|]); (split; [|reflexivity]);
    now rewrite !at_ext, !ext_ext.
  erewrite bind_done by reflexivity. unfold ret. cbn [store mworld trace].
  exists (length (sto ++ cells ++ rest), []), (cells ++ map dead (rest ++ [(true, data VVoid)])). split.
  - replace ((sto ++ cells ++ rest) ++ [(true, data VVoid)]) with ((sto ++ cells) ++ rest ++ [(true, data VVoid)])
      by (now rewrite <- !app_assoc).
    rewrite (closing_at _ _ _ _ _ _ El2), <- app_assoc, (closing_at _ _ _ _ _ _ (eq_sym El)). reflexivity.
  - right. split; [reflexivity|]. split; [cbn [fst]; rewrite !app_length; lia|].
    rewrite map_app, map_dead_dead, map_app, app_assoc, app_assoc.
    exists (data VVoid). cbn [fst snd sub map dead]. split; [|reflexivity].
    rewrite nth_error_app2 by (rewrite !app_length, !map_length; lia).
    match goal with |- nth_error _ ?k = _ => replace k with 0 by (rewrite !app_length, !map_length; lia) end.
    reflexivity.
Qed.

Definition snode (q : nat) (gobj : obj) (g : LazyModel.fnobj fn fn) (c : option value) (ds : list slz)
    vs (w : W) : option eff :=
  match SharedModel.sstep KU q (SharedModel.SCore g c ds) vs w with
  | Some (r, SharedModel.SCore _ c' ds', vs', w', lg) =>
      Some (r, node_obj c' gobj (map sk ds'), vs', w', map kept_event lg)
  | _ => None
  end.

Lemma node_shared q k n gobj g G c ds :
  fn_ok ve C U n gobj G ->
  (forall vs w xs ds' vs1 w1 l1, SharedModel.ssteps_with (SharedModel.sstep KU q) ds vs w =
       Some (LazyModel.Ok xs, ds', vs1, w1, l1) ->
     same_fn U g G (ctad_tuple as_tuple (map fst (SharedModel.read_refs vs1 ds' xs)))) ->
  Forall (sdep q k n) ds -> Forall (fits k n) ds ->
  gdep (inside [0; 0; 0]) k (3 + n) (node_obj c gobj (map sk ds)) (snode q gobj g c ds).
Proof.
  intros HG Hsame HD HF m st r a vs res o' vs' w' l Hm Hr Ha Hout Hst Hv Hs.
  destruct m as [|[|[|m]]]; try lia.
  destruct (back_tuple_byref ve C U rewired (1 + m) r [a] st (core_obj c) (gobj :: map sk ds) [null] Hr)
    as (cells & x & es & bs & Hi & Hx & He & Hb & Hxe & Hel).
  { repeat constructor. exact Ha. }
  cbv zeta in *. rewrite (Hxe eq_refl) in *. clear Hxe x.
  set (st' := mkSt (store st ++ cells) (mworld st) (trace st)) in *.
  inversion He as [|ga ? das ? Hga He']; subst.
  inversion Hb as [|b ? bs' ? Hb1 Hb']; subst. inversion Hb'; subst.
  change (Datatypes.S (Datatypes.S (Datatypes.S m))) with (2 + (1 + m)).
  rewrite Hi. clear Hi. change (1 + m) with (Datatypes.S m).
  rewrite (invoke_S _ _ _ _ _ _ _ _ Hx). cbn [kind_of core_obj RVs map app call_core].
  rewrite scoped_eq. erewrite bind_done by (apply param_byref; exact rewired).
  erewrite bind_done by (apply params_byref; exact rewired).
  set (N := node_obj c gobj (map sk ds)) in *.
  assert (Hlen : length (map aref das) = length ds).
  { rewrite map_length. apply F2_length in He'. now rewrite map_length in He'. }
  pose proof (shared_steps ve C U rs distinct q k n m (store st) vs r N c gobj ltac:(lia) Hr Hst Hout
                ds [] (map aref das) st' cells vs HD HF Hv) as HS.
  cbn [app] in HS. fold N in HS. rewrite (set_vars_same rs k vs _ Hst), (mset_same _ _ _ Hr) in HS.
  specialize (HS eq_refl Hlen).
  assert (Hloc : forall i l r', nth_error ds i = Some l -> nth_error (map aref das) i = Some r' ->
     holds (store st') r' (sk l) /\ place (store st) r (Datatypes.S (length (@nil slz) + i)) r' /\
     (obj_empty ve (sk l) = false -> r' = ext r [1; Datatypes.S (length (@nil slz) + i)])).
  { intros i l0 r' Hl Hr'. cbn [length plus].
    rewrite nth_error_map in Hr'. destruct (nth_error das i) as [da|] eqn:Eda; [|discriminate].
    injection Hr' as <-.
    assert (Hk : nth_error (map sk ds) i = Some (sk l0)) by (now rewrite nth_error_map, Hl).
    split; [|].
    - destruct (F2_nth _ _ _ He' i da Eda) as (o & Ho & Hh). rewrite Hk in Ho. injection Ho as <-. exact Hh.
    - destruct (Hel (Datatypes.S i) (sk l0) Hk) as [H1 H2]. cbn [nth_error] in H1, H2. split.
      + destruct (obj_empty ve (sk l0)) eqn:Ee.
        * right. destruct (H2 eq_refl) as (a' & Ea & Hge). rewrite Eda in Ea. injection Ea as <-. exact Hge.
        * left. specialize (H1 eq_refl). rewrite Eda in H1. injection H1 as ->. cbn [aref].
          now rewrite !at_ext, ext_ext.
      + intros Ee. specialize (H1 Ee). rewrite Eda in H1. injection H1 as ->. cbn [aref].
        now rewrite !at_ext, ext_ext. }
  specialize (HS Hloc). clear Hloc.
  unfold snode in Hs. rewrite SharedProofs.sstep_eq in Hs. cbn [st' mworld trace] in HS |- *.
  destruct (SharedModel.ssteps_with (SharedModel.sstep KU q) ds vs (mworld st))
    as [[[[[rs1 ds'] vs1] w1] l1]|] eqn:Esteps; [|discriminate].
  specialize (HS _ _ _ _ _ eq_refl).
  destruct HS as (more & HS). cbv zeta in HS.
  set (N1 := node_obj c gobj (map sk ds')) in *.
  set (sv := set_vars k vs1 (store st)) in *.
  assert (Hr1 : holds sv r N) by (now apply holds_set_vars).
  assert (Esv : length sv = length (store st)) by apply set_vars_length.
  assert (El : forall o', length (mset sv r o') = length (store st)) by (intros; now rewrite mset_length).
  assert (El2 : forall o', length (store st ++ cells) = length (mset sv r o' ++ cells))
    by (intros; now rewrite !app_length, El).
  assert (Hfin : forall X (o : outcome X) o' rest (w : W) (t : list mevent),
    closing (length (store st)) (closing (length (store st ++ cells)) (o, mkSt (mset sv r o' ++ cells ++ rest) w t)) =
    (o, mkSt (mset sv r o' ++ map dead (cells ++ map dead rest)) w t)).
  { intros X o o'' rest w t. rewrite app_assoc, (closing_at _ _ _ _ _ _ (El2 o'')), <- app_assoc.
    rewrite (closing_at _ _ _ _ _ _ (eq_sym (El o''))). reflexivity. }
  change (length (store st')) with (length (store st ++ cells)).
  destruct rs1 as [xs| |]; [| |contradiction].
  2: { injection Hs as <- <- <- <- <-. erewrite bind_err by exact HS. eexists. apply Hfin. }
  cbv zeta in Hs. rewrite ctad_none in Hs.
  specialize (Hsame _ _ _ _ _ _ _ Esteps).
  set (xs' := SharedModel.read_refs vs1 ds' xs) in *.
  destruct HS as (os & HS & Hos). erewrite bind_done by exact HS. clear HS.
  set (sto2 := mset sv r N1 ++ cells ++ more) in *.
  assert (HN1 : holds sto2 r N1) by (apply holds_app; eapply holds_mset; exact Hr1).
  assert (Hc : holds sto2 (at_ (at_ r 0) 0) (cache_obj c)).
  { rewrite !at_ext, ext_ext. eapply holds_sub; [exact HN1|reflexivity]. }
  erewrite bind_done by (apply read_ok; exact Hc).
  erewrite bind_done by (eapply flags_kept; exact Hos).
  rewrite existsb_snd. rewrite LazyGeneral.core_eq in Hs.
  assert (Ee : engaged (@cache_obj A F S c) = LazyModel.is_some c) by (now destruct c).
  rewrite Ee.
  destruct (negb (LazyModel.is_some c) || existsb snd xs') eqn:Ech.
  2: { (* the kept result *)
       destruct c as [v|]; [|discriminate]. injection Hs as <- <- <- <- <-. rewrite bind_ret.
       destruct (give_cache_at sv r N v gobj (map sk ds') cells more false w1
                   (trace st ++ map kept_event l1) vs1 Hr1) as (rr & cells' & Hg & Hrf).
       cbv zeta in Hg, Hrf. rewrite app_length, Esv, <- app_length in Hg. rewrite Esv in Hrf.
       exists cells', rr. rewrite app_nil_r. split; [exact Hg|exact Hrf]. }
  set (vals := ctad_tuple as_tuple (map fst xs')) in *.
  set (tup := Node KTuple (map SVal (map data vals))).
  set (st3 := mkSt (sto2 ++ [(true, tup)]) w1 (trace st ++ map kept_event l1)).
  assert (Hg3 : holds (store st3) (aref ga) gobj).
  { cbn [st3 store]. apply holds_app.
    destruct (Hel 0 gobj eq_refl) as [H1 H2]. cbn [nth_error] in H1, H2.
    destruct (obj_empty ve gobj) eqn:Eg.
    - destruct (H2 eq_refl) as (a' & Ea & Hge). injection Ea as <-.
      eapply holds_tail; [exact Hga|exact Hge|apply El].
    - specialize (H1 eq_refl). injection H1 as ->. cbn [aref].
      rewrite !at_ext, ext_ext. eapply holds_sub; [exact HN1|reflexivity]. }
  assert (Htup : holds (store st3) (length sto2, []) tup) by apply holds_new.
  destruct (access_all st3 (length sto2, []) tup (map SVal (map data vals)) [] (map data vals) Htup eq_refl)
    as (ys & Hys & Hysf & _).
  { generalize (map data vals). intros l0. clear. induction l0; constructor; auto. reflexivity. }
  cbn [length] in Hys. rewrite map_length in Hys.
  pose proof (HG m st3 (aref ga) (map (fun e => mkArg e CLV) ys) vals ltac:(lia) Hg3) as HG3.
  specialize (HG3 ltac:(apply Forall2_map_l; exact (proj1 (Forall2_map_r (holds (store st3)) data ys _) Hysf))).
  specialize (Hsame w1).
  cbn [st3 mworld trace] in HG3.
  destruct (G vals w1) as [[o4 w4] l4] eqn:EG.
  destruct Hsame as (Hthrow & lg & Elg & Ecall). rewrite Ecall in Hs. clear Ecall.
  destruct HG3 as (c4 & HG3).
  assert (Hpre : forall K : list obj -> Machine.M A W F S bool,
    bind (mapM (result_value ve C) os) K (mkSt sto2 w1 (trace st ++ map kept_event l1)) =
    K (map data (map fst xs')) (mkSt sto2 w1 (trace st ++ map kept_event l1))).
  { intros K. apply bind_done. apply values_kept. exact Hos. }
  assert (El3 : forall o', length sto2 = length (mset sv r o' ++ cells ++ more)).
  { intros o''. unfold sto2. now rewrite !app_length, !El. }
  destruct o4 as [v|e].
  - (* returned *)
    injection Hs as <- <- <- <- <-.
    set (N2 := node_obj (Some v) gobj (map sk ds')).
    assert (Hset : forall l, mset (sto2 ++ l) (at_ (at_ r 0) 0) (Node KOpt [SVal (data v)]) =
                   (mset sv r N2 ++ cells ++ more) ++ l).
    { intros l0. rewrite !at_ext, ext_ext. unfold sto2.
      rewrite <- app_assoc, mset_app by (cbn [ext fst]; rewrite El; eapply holds_lt; exact Hr).
      rewrite (mset_mset _ _ _ _ _ _ Hr1). cbn [app]. unfold N1. rewrite put_cache. now rewrite <- !app_assoc. }
    set (fl := opt_ne (ueq U) c v).
    set (lc := match c with None => [] | Some c0 => [@LazyModel.EvCmp A fn fn c0 v] end).
    assert (Ein : forall K : bool -> Machine.M A W F S (result A F S),
      bind (scoped (bind (mapM (result_value ve C) os) (fun os0 =>
               bind (alloc (Node KTuple (map SVal (ctad_tuple (@look A F S) os0)))) (fun t =>
               bind (mapM (access t) (seq 0 (length (ctad_tuple (@look A F S) os0)))) (fun es0 =>
               bind (invoke m (aref ga) (map (fun e => mkArg e CLV) es0)) (fun r0 =>
               bind (to_obj ve C r0) (fun result =>
               bind (cache_neq U (cache_obj c) result) (fun ch =>
               bind (write C (at_ (at_ r 0) 0) (Node KOpt [SVal result])) (fun _ => ret ch)))))))))
        K (mkSt sto2 w1 (trace st ++ map kept_event l1)) =
      K fl (mkSt (mset sv r N2 ++ cells ++ more ++ map dead ((true, tup) :: c4)) w4
                 (trace st ++ map kept_event (l1 ++ lg ++ lc)))).
    { intros K. apply bind_done. rewrite scoped_eq, Hpre. erewrite bind_done by reflexivity.
      rewrite ctad_data, map_length. rewrite map_length in Hys.
      erewrite bind_done by exact Hys. erewrite bind_done by exact HG3.
      cbn [to_obj]. rewrite bind_ret.
      assert (Ecn : cache_neq U (cache_obj c) (data v) (mkSt (store st3 ++ c4) w4 ((trace st ++ map kept_event l1) ++ l4)) =
                    (Done fl, mkSt (store st3 ++ c4) w4 (trace st ++ map kept_event (l1 ++ lg ++ lc)))).
      { rewrite !map_app, Elg, !app_assoc. unfold fl, lc. destruct c as [c0|].
        - reflexivity.
        - cbn. now rewrite app_nil_r. }
      cbn [st3 store] in Ecn |- *. erewrite bind_done by exact Ecn.
      erewrite bind_done by (eapply write_eq; cbn [store]; do 2 apply holds_app; exact Hc).
      cbn [store mworld trace]. unfold ret.
      rewrite <- (app_assoc sto2), Hset. cbn [app].
      rewrite (closing_at _ _ _ _ _ _ (El3 N2)). now rewrite <- !app_assoc. }
    rewrite Ein.
    destruct (give_cache_at sv r N v gobj (map sk ds') cells
                (more ++ map dead ((true, tup) :: c4)) fl w4
                (trace st ++ map kept_event (l1 ++ lg ++ lc)) vs1 Hr1) as (rr & cells' & Hg & Hrf).
    cbv zeta in Hg, Hrf. rewrite app_length, Esv, <- app_length in Hg. rewrite Esv in Hrf.
    exists cells', rr. split; [exact Hg|exact Hrf].
  - (* thrown *)
    injection Hs as <- <- <- <- <-.
    rewrite (Hthrow e eq_refl) in *.
    erewrite bind_err.
    2: { rewrite scoped_eq, Hpre. erewrite bind_done by reflexivity.
         rewrite ctad_data, map_length. rewrite map_length in Hys.
         erewrite bind_done by exact Hys. erewrite bind_err by exact HG3.
         cbn [st3 store]. rewrite <- app_assoc. unfold sto2 at 2.
         rewrite (closing_at _ _ _ _ _ _ (El3 N1)). rewrite <- !app_assoc. reflexivity. }
    eexists. rewrite Hfin. rewrite (map_app kept_event), Elg, (app_assoc (trace st)). reflexivity.
Qed.

(** ** [unwrap_value] and [unregularized_void] *)

Definition within_vars (f : obj -> obj) (D : list slz -> W -> option eff) vs (w : W) : option eff :=
  match D vs w with Some (r, o', vs', w', l) => Some (r, f o', vs', w', l) | None => None end.

Lemma inside_within sto sto' n n' r p q o' O' vs rr v :
  inside q sto n (ext r p) o' vs rr v -> n' <= n ->
  (forall q, sub O' (p ++ q) = sub o' q) ->
  (dangles sto rr (data v) -> dangles sto' rr (data v)) ->
  inside (p ++ q) sto' n' r O' vs rr v.
Proof.
  intros [(Hv & -> & Hq)|(Hv & Hge & Hd)] Hn Hs Hdd.
  - left. split; [exact Hv|]. split; [apply ext_ext|]. now rewrite Hs.
  - right. split; [exact Hv|]. split; [lia|auto].
Qed.

Lemma unwrap_null_shared q k n d D : obj_empty ve d = false ->
  gdep (inside q) k n d D ->
  gdep (inside ([0; 1; 0] ++ q)) k (4 + n) (unwrap_obj d) (within_vars (@unwrap_obj A F S) D).
Proof.
  intros Hne HD m st r a vs res o' vs' w' l Hm Hr Ha Hout Hst Hv Hs.
  unfold within_vars in Hs. destruct (D vs (mworld st)) as [[[[[o d'] vs1] w1] l1]|] eqn:ED; [|discriminate].
  injection Hs as -> <- -> -> ->.
  destruct m as [|[|[|[|m]]]]; try lia.
  rewrite (invoke_S _ _ _ _ _ _ _ _ Hr). cbn [kind_of unwrap_obj call_unwrap].
  assert (Hl : holds (store st) (at_ r 0) (left_obj (Node KUnwrapCall []) [d])).
  { eapply holds_member; [exact Hr|reflexivity]. }
  destruct (back_tuple_byref ve C U rewired (1 + m) (at_ r 0) [mkArg r LV; a] st (Node KUnwrapCall []) [d]
              [unwrap_obj d; null] Hl) as (cells & x & es & bs & Hi & Hx & He & Hb & _ & Hel).
  { repeat constructor; assumption. }
  cbv zeta in *.
  set (st' := mkSt (store st ++ cells) (mworld st) (trace st)) in *.
  inversion He as [|da ? es' ? Hda He']; subst. inversion He'; subst.
  inversion Hb as [|b1 ? bs' ? Hb1 Hb']; subst. inversion Hb' as [|b2 ? bs'' ? Hb2 Hb'']; subst.
  inversion Hb''; subst.
  change (Datatypes.S (Datatypes.S (Datatypes.S m))) with (2 + (1 + m)).
  rewrite Hi. clear Hi. change (1 + m) with (Datatypes.S m).
  rewrite (invoke_S _ _ _ _ _ _ _ _ Hx). cbn [kind_of RVs map app call_unwrap_call].
  rewrite scoped_eq. erewrite bind_done by (apply param_byref; exact rewired).
  unfold call_null. rewrite bind_assoc. erewrite bind_done by reflexivity.
  cbn [st' store mworld trace].
  assert (Eda : aref da = ext r [0; 1; 0]).
  { destruct (Hel 0 d eq_refl) as [H1 _]. specialize (H1 Hne). cbn in H1. injection H1 as ->. cbn [aref].
    now rewrite !at_ext, !ext_ext. }
  rewrite Eda in *.
  pose proof (HD m (mkSt ((store st ++ cells) ++ [(true, null)]) (mworld st) (trace st))
                (ext r [0; 1; 0]) (mkArg (length (store st ++ cells), []) RV) vs res d' vs' w' l ltac:(lia)) as H1.
  cbn [store mworld trace aref] in H1.
  specialize (H1 ltac:(apply holds_app; exact Hda) ltac:(apply holds_new) Hout
                ltac:(do 2 apply stored_app; exact Hst) Hv ED).
  destruct H1 as (c1 & H1). cbv zeta in H1.
  assert (Es : mset (set_vars k vs' ((store st ++ cells) ++ [(true, null)])) (ext r [0; 1; 0]) d' ++ map dead c1 =
               (mset (set_vars k vs' (store st)) r (unwrap_obj d') ++ cells) ++ [(true, null)] ++ map dead c1).
  { rewrite <- (app_assoc (store st)), (set_vars_app rs k vs) by exact Hst.
    assert (Hr1 : holds (set_vars k vs' (store st)) r (unwrap_obj d)) by (now apply holds_set_vars).
    rewrite mset_app by (exact (holds_lt _ _ _ Hr1)).
    rewrite (mset_ext _ _ _ _ _ Hr1). cbn [put unwrap_obj]. rewrite <- !app_assoc. reflexivity. }
  rewrite Es in H1.
  set (sto := mset (set_vars k vs' (store st)) r (unwrap_obj d')) in *.
  assert (El : length sto = length (store st)) by (unfold sto; now rewrite mset_length, set_vars_length).
  assert (El2 : length (store st ++ cells) = length (sto ++ cells)) by (rewrite !app_length; lia).
  assert (Hfin : forall X (y : outcome X),
    closing (length (store st)) (closing (length (store st ++ cells))
      (y, mkSt ((sto ++ cells) ++ [(true, null)] ++ map dead c1) w' (trace st ++ l))) =
    (y, mkSt (sto ++ map dead (cells ++ map dead ([(true, null)] ++ map dead c1))) w' (trace st ++ l))).
  { intros X y. rewrite (closing_at _ _ _ _ _ _ El2), <- app_assoc, (closing_at _ _ _ _ _ _ (eq_sym El)).
    reflexivity. }
  exists (cells ++ map dead ([(true, null)] ++ map dead c1)). cbv zeta. fold sto.
  destruct res as [[v b]| |]; [| |exact H1].
  - destruct H1 as (rr & H1 & Href). exists rr.
    erewrite bind_done by exact H1. cbn [to_obj]. rewrite bind_ret. unfold ret. split; [apply Hfin|].
    eapply (inside_within _ _ _ _ r [0; 1; 0] q d'); [exact Href|rewrite !app_length; lia|intros q0; reflexivity|].
    intros Hd.
    assert (EK : kill_from (length sto) (kill_from (length (sto ++ cells)) ((sto ++ cells) ++ [(true, null)] ++ map dead c1)) =
                 sto ++ map dead (cells ++ map dead ([(true, null)] ++ map dead c1))).
    { rewrite kill_app, <- app_assoc, kill_app. reflexivity. }
    rewrite <- EK. apply dangles_kill; [rewrite kill_length, !app_length; lia|].
    apply dangles_kill; [rewrite !app_length; lia|exact Hd].
  - erewrite bind_err by exact H1. apply Hfin.
Qed.

Lemma unreg_null_shared q k n u D : obj_empty ve u = false ->
  gdep (inside q) k n u D ->
  gdep (inside ([1; 0] ++ q)) k (3 + n) (right_obj (Node KUnreg []) [u])
    (within_vars (fun u' => right_obj (Node KUnreg []) [u']) D).
Proof.
  intros Hne HD m st r a vs res o' vs' w' l Hm Hr Ha Hout Hst Hv Hs.
  unfold within_vars in Hs. destruct (D vs (mworld st)) as [[[[[o d'] vs1] w1] l1]|] eqn:ED; [|discriminate].
  injection Hs as -> <- -> -> ->.
  destruct m as [|[|[|m]]]; try lia.
  destruct (front_tuple_call ve C U (1 + m) r [a] st (Node KUnreg []) [u] [null] Hr)
    as (cells & x & es & bs & Hi & Hx & He & Hb & _ & _ & Hel & _).
  { repeat constructor. exact Ha. }
  cbv zeta in *.
  set (st' := mkSt (store st ++ cells) (mworld st) (trace st)) in *.
  inversion He as [|ua ? es' ? Hua He']; subst. inversion He'; subst.
  inversion Hb as [|b ? bs' ? Hb1 Hb']; subst. inversion Hb'; subst.
  change (Datatypes.S (Datatypes.S (Datatypes.S m))) with (2 + (1 + m)).
  rewrite Hi. clear Hi. change (1 + m) with (Datatypes.S m).
  rewrite (invoke_S _ _ _ _ _ _ _ _ Hx). cbn [kind_of LVs map app call_unreg].
  rewrite scoped_eq. erewrite bind_done by (apply param_byref; exact rewired).
  erewrite bind_done.
  2: { apply (by_value_all ve C [mkArg b LV] [null]). constructor; [|constructor]. exact Hb1. }
  cbn [st' store mworld trace length locals seq map].
  assert (Eua : aref ua = ext r [1; 0]).
  { destruct (Hel 0 u eq_refl) as [H1 _]. specialize (H1 Hne). cbn in H1. injection H1 as ->. cbn [aref].
    now rewrite !at_ext, !ext_ext. }
  rewrite Eua in *.
  pose proof (HD m (mkSt ((store st ++ cells) ++ [(true, null)]) (mworld st) (trace st))
                (ext r [1; 0]) (mkArg (length (store st ++ cells), []) LV) vs res d' vs' w' l ltac:(lia)) as H1.
  cbn [store mworld trace aref] in H1.
  specialize (H1 ltac:(apply holds_app; exact Hua) ltac:(apply holds_new) Hout
                ltac:(do 2 apply stored_app; exact Hst) Hv ED).
  destruct H1 as (c1 & H1). cbv zeta in H1.
  set (O' := right_obj (Node KUnreg []) [d']) in *.
  assert (Es : mset (set_vars k vs' ((store st ++ cells) ++ [(true, null)])) (ext r [1; 0]) d' ++ map dead c1 =
               (mset (set_vars k vs' (store st)) r O' ++ cells) ++ [(true, null)] ++ map dead c1).
  { rewrite <- (app_assoc (store st)), (set_vars_app rs k vs) by exact Hst.
    assert (Hr1 : holds (set_vars k vs' (store st)) r (right_obj (Node KUnreg []) [u])) by (now apply holds_set_vars).
    rewrite mset_app by (exact (holds_lt _ _ _ Hr1)).
    rewrite (mset_ext _ _ _ _ _ Hr1). cbn [put right_obj]. rewrite <- !app_assoc. reflexivity. }
  rewrite Es in H1.
  set (sto := mset (set_vars k vs' (store st)) r O') in *.
  assert (El : length sto = length (store st)) by (unfold sto; now rewrite mset_length, set_vars_length).
  assert (El2 : length (store st ++ cells) = length (sto ++ cells)) by (rewrite !app_length; lia).
  assert (Hfin : forall X (y : outcome X),
    closing (length (store st)) (closing (length (store st ++ cells))
      (y, mkSt ((sto ++ cells) ++ [(true, null)] ++ map dead c1) w' (trace st ++ l))) =
    (y, mkSt (sto ++ map dead (cells ++ map dead ([(true, null)] ++ map dead c1))) w' (trace st ++ l))).
  { intros X y. rewrite (closing_at _ _ _ _ _ _ El2), <- app_assoc, (closing_at _ _ _ _ _ _ (eq_sym El)).
    reflexivity. }
  exists (cells ++ map dead ([(true, null)] ++ map dead c1)). cbv zeta. fold sto.
  destruct res as [[v b0]| |]; [| |exact H1].
  - destruct H1 as (rr & H1 & Href). exists rr.
    erewrite bind_done by exact H1. cbn [to_obj result_obj]. rewrite bind_ret. unfold ret. split; [apply Hfin|].
    eapply (inside_within _ _ _ _ r [1; 0] q d'); [exact Href|rewrite !app_length; lia|intros q0; reflexivity|].
    intros Hd.
    assert (EK : kill_from (length sto) (kill_from (length (sto ++ cells)) ((sto ++ cells) ++ [(true, null)] ++ map dead c1)) =
                 sto ++ map dead (cells ++ map dead ([(true, null)] ++ map dead c1))).
    { rewrite kill_app, <- app_assoc, kill_app. reflexivity. }
    rewrite <- EK. apply dangles_kill; [rewrite kill_length, !app_length; lia|].
    apply dangles_kill; [rewrite !app_length; lia|exact Hd].
  - erewrite bind_err by exact H1. apply Hfin.
Qed.

(** Calls without arguments. *)
Definition gcall (R : value -> result A F S) (k n : nat) (o : obj) (D : list slz -> W -> option eff) : Prop :=
  forall m st r vs res o' vs' w' l, n <= m -> holds (store st) r o ->
    outside k r -> stored k vs (store st) -> vars_fit vs ->
    D vs (mworld st) = Some (res, o', vs', w', l) ->
    exists cells,
      invoke m r [] st =
      (match res with
       | LazyModel.Ok (v, _) => Done (R v)
       | LazyModel.Exc => Err Throw
       | LazyModel.UB => Err Undefined
       end, mkSt (mset (set_vars k vs' (store st)) r o' ++ map dead cells) w' (trace st ++ l)).

Lemma unwrap_shared q k n d D : obj_empty ve d = false ->
  gdep (inside q) k n d D ->
  gcall (fun v => RVal (data v)) k (5 + n) (unwrap_obj d) (within_vars (@unwrap_obj A F S) D).
Proof.
  intros Hne HD m st r vs res o' vs' w' l Hm Hr Hout Hst Hv Hs. destruct m as [|m]; [lia|].
  rewrite (invoke_S _ _ _ _ _ _ _ _ Hr). cbn [kind_of unwrap_obj call_unwrap].
  rewrite scoped_eq. unfold call_null. rewrite bind_assoc. erewrite bind_done by reflexivity.
  pose proof (unwrap_null_shared q k n d D Hne HD m (mkSt (store st ++ [(true, null)]) (mworld st) (trace st)) r
                (mkArg (length (store st), []) RV) vs res o' vs' w' l ltac:(lia)) as H1.
  cbn [store mworld trace aref] in H1.
  specialize (H1 ltac:(now apply holds_app) ltac:(apply holds_new) Hout ltac:(now apply stored_app) Hv Hs).
  destruct H1 as (c1 & H1). cbv zeta in H1.
  assert (Hr1 : holds (set_vars k vs' (store st)) r (unwrap_obj d)) by (now apply holds_set_vars).
  assert (Es : mset (set_vars k vs' (store st ++ [(true, null)])) r o' ++ map dead c1 =
               mset (set_vars k vs' (store st)) r o' ++ [(true, null)] ++ map dead c1).
  { rewrite (set_vars_app rs k vs) by exact Hst.
    rewrite mset_app by (eapply holds_lt; exact Hr1). now rewrite <- app_assoc. }
  rewrite Es in H1. set (sto := mset (set_vars k vs' (store st)) r o') in *.
  assert (El : length (store st) = length sto) by (symmetry; unfold sto; now rewrite mset_length, set_vars_length).
  exists ([(true, null)] ++ map dead c1).
  destruct res as [[v b]| |]; [| |contradiction].
  - destruct H1 as (rr & H1 & Href).
    erewrite bind_done by exact H1. cbn [to_obj]. rewrite bind_ret. cbn [result_value result_obj].
    erewrite bind_done.
    2: { destruct Href as [(_ & -> & Hq)|(-> & _ & Hd)].
         - apply read_ok. cbn [store]. apply holds_app. eapply holds_sub; [eapply holds_mset; exact Hr1|exact Hq].
         - apply read_dead; [exact Hd|now right]. }
    unfold ret. apply closing_at. exact El.
  - erewrite bind_err by exact H1. apply closing_at. exact El.
Qed.

Lemma unreg_shared k n u D : obj_empty ve u = false ->
  gcall (fun v => RVal (data v)) k n u D ->
  gcall (@api_value A F S) k (3 + n) (right_obj (Node KUnreg []) [u])
    (within_vars (fun u' => right_obj (Node KUnreg []) [u']) D).
Proof.
  intros Hne HD m st r vs res o' vs' w' l Hm Hr Hout Hst Hv Hs.
  unfold within_vars in Hs. destruct (D vs (mworld st)) as [[[[[o d'] vs1] w1] l1]|] eqn:ED; [|discriminate].
  injection Hs as -> <- -> -> ->.
  destruct m as [|[|[|m]]]; try lia.
  destruct (front_tuple_call ve C U (1 + m) r [] st (Node KUnreg []) [u] [] Hr)
    as (cells & x & es & bs & Hi & Hx & He & Hb & _ & _ & Hel & _).
  { constructor. }
  cbv zeta in *.
  set (st' := mkSt (store st ++ cells) (mworld st) (trace st)) in *.
  inversion He as [|ua ? es' ? Hua He']; subst. inversion He'; subst.
  inversion Hb; subst.
  change (Datatypes.S (Datatypes.S (Datatypes.S m))) with (2 + (1 + m)).
  rewrite Hi. clear Hi. change (1 + m) with (Datatypes.S m).
  rewrite (invoke_S _ _ _ _ _ _ _ _ Hx). cbn [kind_of LVs map app call_unreg].
  rewrite scoped_eq. erewrite bind_done by (apply param_byref; exact rewired).
  cbn [mapM]. rewrite bind_ret.
  assert (Eua : aref ua = ext r [1; 0]).
  { destruct (Hel 0 u eq_refl) as [H1 _]. specialize (H1 Hne). cbn in H1. injection H1 as ->. cbn [aref].
    now rewrite !at_ext, !ext_ext. }
  rewrite Eua in *.
  pose proof (HD m st' (ext r [1; 0]) vs res d' vs' w' l ltac:(lia) Hua Hout
                ltac:(apply stored_app; exact Hst) Hv ED) as H1.
  cbn [st' store mworld trace map] in H1 |- *.
  destruct H1 as (c1 & H1).
  set (O' := right_obj (Node KUnreg []) [d']) in *.
  assert (Es : mset (set_vars k vs' (store st ++ cells)) (ext r [1; 0]) d' ++ map dead c1 =
               (mset (set_vars k vs' (store st)) r O' ++ cells) ++ map dead c1).
  { rewrite (set_vars_app rs k vs) by exact Hst.
    assert (Hr1 : holds (set_vars k vs' (store st)) r (right_obj (Node KUnreg []) [u])) by (now apply holds_set_vars).
    rewrite mset_app by (exact (holds_lt _ _ _ Hr1)).
    rewrite (mset_ext _ _ _ _ _ Hr1). cbn [put right_obj]. rewrite <- !app_assoc. reflexivity. }
  rewrite Es in H1.
  set (sto := mset (set_vars k vs' (store st)) r O') in *.
  assert (El : length sto = length (store st)) by (unfold sto; now rewrite mset_length, set_vars_length).
  assert (El2 : length (store st ++ cells) = length (sto ++ cells)) by (rewrite !app_length; lia).
  assert (Hfin : forall X (y : outcome X),
    closing (length (store st)) (closing (length (store st ++ cells))
      (y, mkSt ((sto ++ cells) ++ map dead c1) w' (trace st ++ l))) =
    (y, mkSt (sto ++ map dead (cells ++ map dead (map dead c1))) w' (trace st ++ l))).
  { intros X y. rewrite (closing_at _ _ _ _ _ _ El2), <- app_assoc, (closing_at _ _ _ _ _ _ (eq_sym El)).
    reflexivity. }
  exists (cells ++ map dead (map dead c1)). fold sto. rewrite <- Hfin. do 2 f_equal.
  destruct res as [[v b]| |].
  - erewrite bind_done by exact H1.
    destruct v as [y| |y|y z|y]; cbn [Machine.data to_obj api_value]; rewrite ?bind_ret; reflexivity.
  - erewrite bind_err by exact H1. reflexivity.
  - erewrite bind_err by exact H1. reflexivity.
Qed.

(** ** Lazy functions *)
Lemma gdep_more R k n n' o D : gdep R k n o D -> n <= n' -> gdep R k n' o D.
Proof. intros H Hn m st r a vs res o' vs' w' l Hm. apply H. lia. Qed.

Lemma gdep_ext R k n o D D' : gdep R k n o D -> (forall vs w, D vs w = D' vs w) -> gdep R k n o D'.
Proof.
  intros H E m st r a vs res o' vs' w' l Hm Hr Ha Ho Hst Hv Hs.
  eapply H; try eassumption. now rewrite E.
Qed.

Lemma gcall_ext R k n o D D' : gcall R k n o D -> (forall vs w, D vs w = D' vs w) -> gcall R k n o D'.
Proof.
  intros H E m st r vs res o' vs' w' l Hm Hr Ho Hst Hv Hs.
  eapply H; try eassumption. now rewrite E.
Qed.

Lemma sstep_core q g c ds vs w :
  match SharedModel.sstep KU q (SharedModel.SCore g c ds) vs w with
  | Some (_, l', _, _, _) => exists c' ds', l' = SharedModel.SCore g c' ds'
  | None => True
  end.
Proof.
  rewrite SharedProofs.sstep_eq.
  destruct (SharedModel.ssteps_with (SharedModel.sstep KU q) ds vs w) as [[[[[[xs| |] ds'] vs1] w1] l1]|]; eauto.
  cbv zeta. destruct (LazyModel.core KU g c _ w1) as [[[r c'] w2] l2]. eauto.
Qed.

Lemma snode_user q p c ds vs w :
  within_vars (fun u => right_obj (Node KUnreg []) [u])
    (within_vars (@unwrap_obj A F S) (snode q (reg_obj (fun_obj (fst p) (snd p))) (LazyModel.FnUser p) c ds)) vs w =
  skstep q (SharedModel.SCore (LazyModel.FnUser p) c ds) vs w.
Proof.
  unfold within_vars, snode, RewiredRefCalls.skstep. pose proof (sstep_core q (LazyModel.FnUser p) c ds vs w) as E.
  destruct (SharedModel.sstep KU q (SharedModel.SCore (LazyModel.FnUser p) c ds) vs w) as [[[[[r l'] vs'] w'] lg]|]; [|reflexivity].
  destruct E as (c' & ds' & ->). reflexivity.
Qed.

Lemma snode_sample q p c ds vs w :
  snode q (sample_fn (fun_obj (fst p) (snd p))) (LazyModel.FnSample p) c ds vs w =
  skstep q (SharedModel.SCore (LazyModel.FnSample p) c ds) vs w.
Proof.
  unfold snode, RewiredRefCalls.skstep. pose proof (sstep_core q (LazyModel.FnSample p) c ds vs w) as E.
  destruct (SharedModel.sstep KU q (SharedModel.SCore (LazyModel.FnSample p) c ds) vs w) as [[[[[r l'] vs'] w'] lg]|]; [|reflexivity].
  destruct E as (c' & ds' & ->). reflexivity.
Qed.

Lemma user_node_shared q k n p c ds :
  4 <= n -> wrapped_ok U (fst p) (snd p) -> Forall (sdep q k n) ds -> Forall (fits k n) ds ->
  gdep (inside [0; 0; 0]) k (3 + n) (node_obj c (reg_obj (fun_obj (fst p) (snd p))) (map sk ds))
    (snode q (reg_obj (fun_obj (fst p) (snd p))) (LazyModel.FnUser p) c ds).
Proof.
  intros Hn Hp Hds Hf. eapply node_shared; [| |exact Hds|exact Hf].
  - eapply fn_more; [apply reg_kept; [exact rewired|apply Hp]|exact Hn].
  - intros. now apply same_user.
Qed.

Lemma ref_shared q k x :
  (forall l k' n', fits k' n' l -> sdep q k' n' l) ->
  x < k -> sdep (Datatypes.S q) k (1 + bound x) (SharedModel.SRef x).
Proof.
  intros IH Hx m st r a vs res o' vs' w' l Hm Hr Ha Hout Hst Hv Hs.
  unfold RewiredRefCalls.skstep in Hs. rewrite SharedProofs.sstep_eq in Hs.
  destruct (nth_error vs x) as [l0|] eqn:El; [|discriminate].
  destruct (SharedModel.sstep KU q l0 vs (mworld st)) as [[[[[r1 l1] vs1] w1] lg1]|] eqn:E; [|discriminate].
  injection Hs as <- <- <- <- <-.
  destruct (Hv _ _ El) as [Hu Hfx].
  destruct (sstep_keeps U q l0 _ _ _ _ _ _ _ _ _ Hv Hfx E) as (Hf1 & Hk1 & (Hlen & Hvf1 & Hfr & _) & Hub).
  destruct m as [|m]; [lia|].
  rewrite (invoke_S _ _ _ _ _ _ _ _ Hr). cbn [kind_of skept std_ref]. unfold call_ref_wrap, access.
  rewrite bind_assoc. erewrite bind_done by (eapply peek_ok; exact Hr).
  cbn [members skept std_ref nth_error]. rewrite bind_ret. fold (at_var x).
  assert (Hxr : x < length rs) by (destruct Hst as [Hk _]; unfold ref in *; lia).
  assert (Hh : holds (store st) (at_var x) (sk l0)).
  { destruct Hst as [_ Hst]. specialize (Hst x Hx). now rewrite (nth_of rs vs x _ El) in Hst. }
  destruct (IH l0 x (bound x) Hfx m st (at_var x) a vs r1 (sk l1) vs1 w1 (map kept_event lg1) ltac:(lia)
              Hh Ha (var_outside rs distinct x x (le_n _) Hxr) (stored_less rs _ _ _ _ Hst (Nat.lt_le_incl _ _ Hx)) Hv)
    as (cells & H1).
  { unfold RewiredRefCalls.skstep. now rewrite E. }
  cbv zeta in H1. exists cells. cbv zeta.
  assert (Hxv : x < length vs1) by (rewrite Hlen; apply nth_error_Some; congruence).
  assert (Es : mset (set_vars k (update x l1 vs1) (store st)) r (sk (SharedModel.SRef x)) =
               mset (set_vars x vs1 (store st)) (at_var x) (sk l1)).
  { rewrite mset_same by (now apply holds_set_vars).
    eapply set_vars_level; eauto. }
  match goal with |- context [mset (set_vars k ?v (store st)) r ?o] => change o with (sk (SharedModel.SRef x)) end.
  change LazyModel.update with (@update slz) in *.
  rewrite Es. destruct r1 as [[v b]| |]; [|exact H1|exact H1].
  destruct H1 as (rr & H1 & Href). exists rr. split; [exact H1|].
  destruct l0 as [|[p|p] c0 ds0|]; try contradiction.
  destruct l1 as [|g1 c1 ds1|]; try contradiction. destruct Hk1 as (<- & _ & _).
  destruct Href as [(Hnv & -> & Hq)|Hg]; [left|right; exact Hg].
  split; [exact Hnv|]. split; [reflexivity|]. exists p, ds1.
  rewrite nth_update_eq by exact Hxv.
  destruct c1 as [c1|]; [|discriminate]. cbn in Hq. injection Hq as Hq.
  destruct c1, v; cbn in Hq; congruence.
Qed.

Lemma lazy_shared q : forall l k n, fits k n l -> sdep q k n l.
Proof.
  induction q as [q IHq] using lt_wf_ind. intros l.
  induction l as [v ch|g c ds IH|x] using HistoryThms.slz_ind'; intros k n H.
  - inversion H; subst. eapply gdep_more; [|eassumption]. apply value_shared. exact rewired.
  - inversion H as [|? j p ? ? Hj Hn Hp Hds|? p ? Hn Hp|]; subst.
    + eapply gdep_more; [|exact Hn]. change (10 + j) with (3 + (4 + (3 + j))).
      eapply gdep_ext; [|apply snode_user]. cbn [skept]. unfold wrap_obj.
      change (whose_of (SharedModel.SCore (LazyModel.FnUser p) c ds)) with (inside ([1; 0] ++ [0; 1; 0] ++ [0; 0; 0])).
      apply unreg_null_shared; [reflexivity|].
      apply unwrap_null_shared; [reflexivity|].
      apply user_node_shared; [exact Hj|exact Hp| |exact Hds].
      rewrite Forall_forall in *. intros d Hd. apply (IH d Hd). now apply Hds.
    + eapply gdep_more; [|exact Hn]. eapply gdep_ext; [|apply snode_sample]. cbn [skept].
      change (whose_of (SharedModel.SCore (LazyModel.FnSample p) c [SharedModel.SValue (VAtom (uint0 U)) true]))
        with (inside [0; 0; 0]).
      change 7 with (3 + 4). eapply node_shared.
      * apply sample_kept; [exact rewired|apply Hp].
      * intros vs w xs ds' vs1 w1 l1 E. rewrite SharedProofs.ssteps_cons, SharedProofs.sstep_eq in E.
        cbn in E. injection E as <- <- _ _ _. cbn [SharedModel.read_refs map fst ctad_tuple as_tuple SharedModel.read_ref].
        now apply same_sample.
      * constructor; [|constructor]. eapply gdep_more; [|apply Nat.le_succ_diag_r]. apply value_shared. exact rewired.
      * repeat constructor.
  - inversion H as [| | |? ? Hx Hn]; subst. eapply gdep_more; [|exact Hn].
    destruct q as [|q].
    + intros m st r a vs res o' vs' w' l Hm Hr Ha Ho Hst Hv Hs. unfold RewiredRefCalls.skstep in Hs.
      rewrite SharedProofs.sstep_eq in Hs. discriminate.
    + apply ref_shared; [|exact Hx]. apply IHq. apply Nat.lt_succ_diag_r.
Qed.

(** A call of a variable. *)
Lemma var_shared q k n p c ds :
  fits k n (SharedModel.SCore (LazyModel.FnUser p) c ds) ->
  gcall (@api_value A F S) k (1 + n) (sk (SharedModel.SCore (LazyModel.FnUser p) c ds))
    (skstep q (SharedModel.SCore (LazyModel.FnUser p) c ds)).
Proof.
  intros H. inversion H as [|? j p' ? ? Hj Hn Hp Hds| |]; subst.
  eapply gcall_ext; [|apply snode_user]. cbn [skept]. unfold wrap_obj.
  assert (HK : gcall (@api_value A F S) k (3 + (5 + (3 + j)))
    (right_obj (Node KUnreg []) [unwrap_obj (node_obj c (reg_obj (fun_obj (fst p) (snd p))) (map sk ds))])
    (within_vars (fun u => right_obj (Node KUnreg []) [u])
      (within_vars (@unwrap_obj A F S) (snode q (reg_obj (fun_obj (fst p) (snd p))) (LazyModel.FnUser p) c ds)))).
  { apply unreg_shared; [reflexivity|].
    eapply unwrap_shared; [reflexivity|].
    apply user_node_shared; [exact Hj|exact Hp| |exact Hds].
    rewrite Forall_forall in *. intros d Hd. apply lazy_shared. now apply Hds. }
  intros m st r vs res o' vs' w' l Hm. apply HK. lia.
Qed.

End Refs.
