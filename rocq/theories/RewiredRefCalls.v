(** Proofs for [RewiredRefSpec.v], second part: calls.  As [Rewired.v], but a call may
    also change variables that are referred to. *)
From Coq Require Import List Bool Arith Lia.
From Verif Require Import Value Machine MachineSpec MachineLib Composed MachineThms BindSpec Programs
  RewiredSpec Rewired RefPrograms RewiredRefSpec RewiredRefs.
From Verif Require LazyModel LazyGeneral LazyProofs SharedModel SharedProofs HistoryThms ShareThms.
Import ListNotations.

Section Refs.
Context {A W F S : Type}.
Notation value := (val A).
Notation obj := (obj A F S).
Notation mstate := (mstate A W F S).
Notation mevent := (mevent A F).
Notation cell := (bool * obj)%type.
Notation fn := (F * option S)%type.
Notation slz := (SharedModel.slz A fn fn).
Notation data := (@Machine.data A F S).
Notation dead := (@MachineLib.dead A F S).
Variable ve : value -> bool.
Variable C : config.
Variable U : muser A W F S.
Implicit Type st : mstate.
Implicit Type sto : list cell.
Implicit Type vs : list slz.
Hypothesis rewired : byref C = true.
Variable rs : list ref.
Hypothesis distinct : NoDup (map fst rs).

Notation invoke := (invoke ve C U).
Notation KU := (kept_user U).
Notation sk := (@skept A F S rs).
Notation set_vars := (set_vars rs).
Notation stored := (stored rs).
Notation outside := (outside rs).
Notation at_var := (at_var rs).
Notation vars_fit := (vars_fit U).
Notation fits := (fits U).

(** ** Calls with [nullptr] *)

(** The result, the object and the variables afterwards, the world, the actions. *)
Notation eff := (LazyModel.res (value * bool) * obj * list slz * W * list mevent)%type.
(** Where the value of a [LazyResult] is. *)
Notation whose := (list cell -> nat -> ref -> obj -> list slz -> ref -> value -> Prop).

Definition gdep (R : whose) (k n : nat) (o : obj) (D : list slz -> W -> option eff) : Prop :=
  forall m st r a vs res o' vs' w' l, n <= m ->
    holds (store st) r o -> holds (store st) (aref a) null ->
    outside k r -> stored k vs (store st) -> vars_fit vs ->
    D vs (mworld st) = Some (res, o', vs', w', l) ->
    exists cells,
      let sto' := mset (set_vars k vs' (store st)) r o' ++ map dead cells in
      match res with
      | LazyModel.Ok (v, b) => exists rr,
          invoke m r [a] st = (Done (RVal (result_obj rr b)), mkSt sto' w' (trace st ++ l)) /\
          R sto' (length (store st)) r o' vs' rr v
      | LazyModel.Exc => invoke m r [a] st = (Err Throw, mkSt sto' w' (trace st ++ l))
      | LazyModel.UB => False
      end.

(** In a dead [regular_void]. *)
Definition gone sto (n : nat) (rr : ref) (v : value) : Prop :=
  v = VVoid /\ n <= fst rr /\ dangles sto rr (data v).
(** In the object that was called, at [q]. *)
Definition inside (q : list nat) : whose := fun sto n r o' vs' rr v =>
  (v <> VVoid /\ rr = ext r q /\ sub o' q = Some (data v)) \/ gone sto n rr v.

Definition user_path : list nat := [1; 0; 0; 1; 0; 0; 0; 0].
Definition path_of (g : LazyModel.fnobj fn fn) : list nat :=
  match g with LazyModel.FnUser _ => user_path | LazyModel.FnSample _ => [0; 0; 0] end.

Definition whose_of (l : slz) : whose := fun sto n r o' vs' rr v =>
  match l with
  | SharedModel.SValue _ _ =>
      (exists q, rr = ext r q /\ sub o' q = Some (data v)) \/
      (obj_empty ve (data v) = true /\ n <= fst rr /\ dangles sto rr (data v))
  | SharedModel.SCore g _ _ => inside (path_of g) sto n r o' vs' rr v
  | SharedModel.SRef x =>
      (v <> VVoid /\ rr = ext (at_var x) user_path /\
       exists p ds, nth_error vs' x = Some (SharedModel.SCore (LazyModel.FnUser p) (Some v) ds)) \/
      gone sto n rr v
  end.

Definition skstep (q : nat) (l : slz) vs (w : W) : option eff :=
  match SharedModel.sstep KU q l vs w with
  | Some (r, l', vs', w', lg) => Some (r, sk l', vs', w', map kept_event lg)
  | None => None
  end.
Definition sdep (q k n : nat) (l : slz) : Prop := gdep (whose_of l) k n (sk l) (skstep q l).

(** [lazy_value(v, ch)] *)
Lemma value_shared q k v ch : sdep q k 3 (SharedModel.SValue v ch).
Proof.
  intros m st r a vs res o' vs' w' l Hm Hr Ha Hout Hst Hv Hs.
  unfold skstep in Hs. rewrite SharedProofs.sstep_eq in Hs. injection Hs as <- <- <- <- <-.
  destruct (value_kept ve C U rewired v ch m st r a Hm Hr Ha) as (cells & rr & Hi & Href).
  exists cells. cbn [map]. rewrite (set_vars_same rs k vs _ Hst). exists rr. split; [exact Hi|exact Href].
Qed.

(** ** Nodes *)
Notation result_ok := (@result_ok A F S ve).
Notation place := (@place A F S).

Lemma empty_sdep (l : slz) : obj_empty ve (sk l) = true -> exists v ch, l = SharedModel.SValue v ch.
Proof.
  destruct l as [v ch|[p|p] c ds|x]; intros H; [eauto| | |]; exfalso; cbn in H;
    repeat rewrite ?andb_false_r, ?andb_false_l in H; discriminate.
Qed.

Lemma shared_steps q k n m base v0 rn x0 c g :
  n <= m -> holds base rn x0 -> stored k v0 base -> outside k rn -> forall ds pre rl st cells vs,
  Forall (sdep q k n) ds -> Forall (fits k n) ds -> vars_fit vs ->
  store st = mset (set_vars k vs base) rn (node_obj c g (map sk (pre ++ ds))) ++ cells ->
  length rl = length ds ->
  (forall i l r, nth_error ds i = Some l -> nth_error rl i = Some r ->
     holds (store st) r (sk l) /\ place base rn (Datatypes.S (length pre + i)) r /\
     (obj_empty ve (sk l) = false -> r = ext rn [1; Datatypes.S (length pre + i)])) ->
  forall res ds' vs' w' lg,
  SharedModel.ssteps_with (SharedModel.sstep KU q) ds vs (mworld st) = Some (res, ds', vs', w', lg) ->
  exists more,
    let sto' := mset (set_vars k vs' base) rn (node_obj c g (map sk (pre ++ ds'))) ++ cells ++ more in
    match res with
    | LazyModel.Ok xs => exists os,
        mapM (fun d => scoped (bind (call_null (invoke m) d) (to_obj ve C))) rl st =
          (Done os, mkSt sto' w' (trace st ++ map kept_event lg)) /\
        Forall2 (result_ok sto') os (SharedModel.read_refs vs' ds' xs)
    | LazyModel.Exc =>
        mapM (fun d => scoped (bind (call_null (invoke m) d) (to_obj ve C))) rl st =
          (Err Throw, mkSt sto' w' (trace st ++ map kept_event lg))
    | LazyModel.UB => False
    end.
Proof.
  intros Hm Hbase Hst0 Hout.
  induction ds as [|d ds IH]; intros pre rl st cells vs HD HF Hvf Hst Hlen Hloc res ds' vs' w' lg Hs.
  - destruct rl; [|discriminate]. cbn in Hs. injection Hs as <- <- <- <- <-. exists []. exists [].
    cbn [map app mapM]. rewrite !app_nil_r. rewrite app_nil_r in Hst. rewrite <- Hst. cbn [map]. unfold ret.
    rewrite st_eta. split; [reflexivity|constructor].
  - destruct rl as [|r rl]; [discriminate|]. injection Hlen as Hlen.
    inversion HD as [|? ? HD1 HD2]; subst. inversion HF as [|? ? HF1 HF2]; subst.
    destruct (Hloc 0 d r eq_refl eq_refl) as (Hr & Hpl & Hne). rewrite Nat.add_0_r in Hpl, Hne.
    rewrite SharedProofs.ssteps_cons in Hs. cbn [mapM].
    set (N := node_obj c g (map sk (pre ++ d :: ds))) in *.
    set (st1 := mkSt (store st ++ [(true, null)]) (mworld st) (trace st)).
    assert (Hnull : holds (store st1) (length (store st), []) null) by apply holds_new.
    assert (Hrout : outside k r).
    { destruct Hpl as [-> | Hpl]; [exact Hout|]. eapply outside_new; [exact Hst0|exact Hpl]. }
    assert (Hstored : forall v N', stored k v (mset (set_vars k v base) rn N')).
    { intros v N'. apply stored_mset; [exact Hout|]. eapply stored_set; [exact distinct|exact Hst0]. }
    assert (Hst1 : stored k vs (store st)) by (rewrite Hst; apply stored_app; apply Hstored).
    destruct (SharedModel.sstep KU q d vs (mworld st)) as [[[[[res1 d'] vs1] w1] lg1]|] eqn:E1; [|discriminate].
    pose proof (HD1 m st1 r (mkArg (length (store st), []) RV) vs res1 (sk d') vs1 w1 (map kept_event lg1) Hm
                  (holds_app _ _ _ _ Hr) Hnull Hrout (stored_app rs _ _ _ _ Hst1) Hvf) as H1.
    specialize (H1 ltac:(unfold skstep; cbn [st1 mworld]; rewrite E1; reflexivity)).
    destruct (sstep_keeps U q d k n vs (mworld st) _ _ _ _ _ Hvf HF1 E1) as (Hf1 & Hk1 & Hv1 & Hub1).
    cbv zeta in H1. destruct H1 as (c1 & H1). cbn [st1 store mworld trace] in H1.
    (* the store after the call *)
    assert (Hb1 : forall v, holds (set_vars k v base) rn x0) by (intros v; now apply holds_set_vars).
    assert (Evars : forall v, set_vars k v (store st) = mset (set_vars k v base) rn N ++ cells).
    { intros v. rewrite Hst. rewrite (set_vars_app rs k vs) by apply Hstored.
      rewrite <- set_vars_mset by exact Hout. f_equal. f_equal. eapply set_vars_set; [exact distinct|exact Hst0]. }
    assert (Eset : mset (set_vars k vs1 (store st)) r (sk d') =
                   mset (set_vars k vs1 base) rn (node_obj c g (map sk (pre ++ d' :: ds))) ++ cells).
    { destruct (obj_empty ve (sk d)) eqn:Ee.
      - destruct (empty_sdep d Ee) as (v & ch & ->). destruct d' as [v' ch'| |]; try contradiction.
        destruct Hk1 as [<- <-]. rewrite mset_same by (apply holds_set_vars; assumption). apply Evars.
      - rewrite Evars, (Hne eq_refl).
        rewrite mset_app by (cbn [ext fst]; rewrite mset_length; eapply holds_lt; apply Hb1).
        rewrite (mset_mset _ _ _ _ _ _ (Hb1 vs1)). unfold N. f_equal. f_equal.
        rewrite !map_app. cbn [map]. rewrite <- (map_length sk pre). apply put_dep. }
    assert (Esto : mset (set_vars k vs1 (store st ++ [(true, null)])) r (sk d') =
                   (mset (set_vars k vs1 base) rn (node_obj c g (map sk (pre ++ d' :: ds))) ++ cells) ++ [(true, null)]).
    { rewrite (set_vars_app rs k vs) by exact Hst1.
      rewrite mset_app by (rewrite set_vars_length; eapply holds_lt; exact Hr). now rewrite Eset. }
    rewrite Esto in H1.
    set (N1 := node_obj c g (map sk (pre ++ d' :: ds))) in *.
    set (base1 := set_vars k vs1 base) in *.
    assert (El : length (store st) = length (mset base1 rn N1 ++ cells)).
    { unfold base1. rewrite Hst, !app_length, !mset_length, !set_vars_length. reflexivity. }
    (* the rest of the list sees the new state *)
    set (st2 := mkSt ((mset base1 rn N1 ++ cells) ++ map dead ([(true, null)] ++ map dead c1)) w1
                  (trace st ++ map kept_event lg1)).
    assert (Hcall : forall (o : outcome (result A F S)) (k0 : obj) (E : outcome obj),
      invoke m r [mkArg (length (store st), []) RV] st1 =
        (o, mkSt (((mset base1 rn N1 ++ cells) ++ [(true, null)]) ++ map dead c1) w1 (trace st ++ map kept_event lg1)) ->
      E = (match o with Done (RVal x) => Done x | Done _ => Done k0 | Err e => Err e end) ->
      (forall x, o = Done x -> exists y, x = RVal y) ->
      scoped (bind (call_null (invoke m) r) (to_obj ve C)) st = (E, st2)).
    { intros o k0 E Hinv -> Ho. rewrite scoped_eq. unfold call_null. rewrite bind_assoc.
      erewrite bind_done by reflexivity. fold st1.
      destruct o as [x|e].
      - destruct (Ho x eq_refl) as (y & ->). erewrite bind_done by exact Hinv.
        cbn [to_obj]. unfold ret. rewrite El, <- app_assoc, closing_app. reflexivity.
      - erewrite bind_err by exact Hinv. rewrite El, <- app_assoc, closing_app. reflexivity. }
    assert (Hloc2 : forall i l r', nth_error ds i = Some l -> nth_error rl i = Some r' ->
       holds (store st2) r' (sk l) /\ place base rn (Datatypes.S (length (pre ++ [d']) + i)) r' /\
       (obj_empty ve (sk l) = false -> r' = ext rn [1; Datatypes.S (length (pre ++ [d']) + i)])).
    { intros i l r' Hi Hri. destruct (Hloc (Datatypes.S i) l r' Hi Hri) as (Hh & Hp & Hn').
      assert (Ei : length pre + Datatypes.S i = length (pre ++ [d']) + i) by (rewrite app_length; cbn; lia).
      rewrite Ei in Hp, Hn'. split; [|split; assumption].
      cbn [st2 store]. apply holds_app. destruct Hp as [-> | Hp].
      - apply holds_app. eapply holds_sub; [eapply holds_mset; apply Hb1|].
        rewrite <- (app_nil_r [1; Datatypes.S (length (pre ++ [d']) + i)]).
        unfold N1. erewrite sub_dep; [reflexivity|].
        rewrite nth_error_map. change (pre ++ d' :: ds) with (pre ++ [d'] ++ ds). rewrite app_assoc.
        rewrite nth_error_app2 by lia. replace (length (pre ++ [d']) + i - length (pre ++ [d'])) with i by lia.
        now rewrite Hi.
      - rewrite Hst in Hh. pose proof (holds_tail _ (mset base1 rn N1) cells [] r' _ Hh) as HT.
        rewrite app_nil_r in HT. unfold base1 in *.
        apply HT; rewrite !mset_length, !set_vars_length; [exact Hp|reflexivity]. }
    destruct res1 as [[v b]| |].
    + destruct H1 as (rr & H1 & Href).
      assert (E : scoped (bind (call_null (invoke m) r) (to_obj ve C)) st = (Done (result_obj rr b), st2)).
      { eapply (Hcall _ null); [exact H1|reflexivity|]. intros x Ex. injection Ex as <-. eauto. }
      erewrite bind_done by exact E.
      destruct (SharedModel.ssteps_with (SharedModel.sstep KU q) ds vs1 w1) as [[[[[res2 ds2] vs2] w2] lg2]|] eqn:E2; [|discriminate].
      injection Hs as <- <- <- <- <-.
      assert (Hvf1 : vars_fit vs1) by apply Hv1.
      specialize (IH (pre ++ [d']) rl st2 (cells ++ map dead ([(true, null)] ++ map dead c1)) vs1 HD2 HF2 Hvf1).
      assert (Ep : forall l : list slz, (pre ++ [d']) ++ l = pre ++ d' :: l) by (intros l; now rewrite <- app_assoc).
      rewrite Ep in IH. specialize (IH ltac:(cbn [st2 store]; now rewrite <- app_assoc) Hlen Hloc2 _ _ _ _ _ E2).
      change (mworld st2) with w1 in IH. change (trace st2) with (trace st ++ map kept_event lg1) in IH.
      destruct IH as (more & IH). cbv zeta in IH. rewrite Ep in IH.
      exists (map dead ([(true, null)] ++ map dead c1) ++ more). cbv zeta.
      rewrite (map_app kept_event lg1 lg2), (app_assoc (trace st)). rewrite <- (app_assoc cells) in IH.
      destruct res2 as [xs| |]; [| |contradiction].
      * destruct IH as (os & Em & Hos). exists (result_obj rr b :: os).
        erewrite bind_done by exact Em. split; [reflexivity|]. cbn [SharedModel.read_refs]. constructor; [|exact Hos].
        assert (Hgone : forall v0, length (store st1) <= fst rr -> obj_empty ve (data v0) = true ->
          dangles (((mset base1 rn N1 ++ cells) ++ [(true, null)]) ++ map dead c1) rr (data v0) ->
          result_ok (mset (set_vars k vs2 base) rn (node_obj c g (map sk (pre ++ d' :: ds2))) ++
                     cells ++ map dead ([(true, null)] ++ map dead c1) ++ more) (result_obj rr b) (v0, b)).
        { intros v1 Hge He Hd. exists rr. split; [reflexivity|]. right. split; [exact He|]. cbn [fst].
          cbn [st1 store] in Hge. rewrite app_length in Hge. cbn [length] in Hge.
          assert (Hd2 : dangles (mset base1 rn N1 ++ cells ++ map dead ([(true, null)] ++ map dead c1)) rr (data v1)).
          { assert (EK : kill_from (length (mset base1 rn N1 ++ cells))
                            (((mset base1 rn N1 ++ cells) ++ [(true, null)]) ++ map dead c1) =
                          mset base1 rn N1 ++ cells ++ map dead ([(true, null)] ++ map dead c1)).
            { generalize (mset base1 rn N1), (map dead c1). clear. intros X Y.
              rewrite <- (app_assoc (X ++ cells)), kill_app, <- app_assoc. reflexivity. }
            rewrite <- EK. apply dangles_kill; [|exact Hd].
            clear. rewrite !app_length. lia. }
          rewrite !(app_assoc cells).
          eapply dangles_tail; [exact Hd2| |unfold base1; now rewrite !mset_length, !set_vars_length].
          rewrite mset_length. rewrite El, app_length, mset_length in Hge. lia. }
        destruct d as [v1 ch1|g1 cc ds1|x].
        -- (* a value *)
           destruct d' as [v1' ch1'| |]; try contradiction. destruct Hk1 as [<- <-].
           change (SharedModel.read_ref vs2 (SharedModel.SValue v1 ch1) (v, b)) with (v, b).
           destruct Href as [(q0 & -> & Hq)|(He & Hge & Hd)].
           ++ exists (ext r q0). split; [reflexivity|]. cbn [fst]. left. destruct Hpl as [-> | Hpl].
              ** apply holds_app. rewrite ext_ext. eapply holds_sub; [eapply holds_mset; now apply holds_set_vars; [|exact Hbase]|].
                 replace (length pre) with (length (map sk pre)) by apply map_length.
                 erewrite sub_dep; [exact Hq|]. rewrite map_app, nth_error_app2, Nat.sub_diag by lia. reflexivity.
              ** apply (holds_tail (mset (set_vars k vs base) rn N)).
                 --- rewrite <- Hst. eapply holds_sub; [exact Hr|exact Hq].
                 --- rewrite mset_length, set_vars_length. exact Hpl.
                 --- now rewrite !mset_length, !set_vars_length.
           ++ now apply Hgone.
        -- (* a lazy function of its own *)
           destruct d' as [|g1' cc' ds1'|]; try contradiction.
           change (SharedModel.read_ref vs2 (SharedModel.SCore g1' cc' ds1') (v, b)) with (v, b).
           destruct Href as [(_ & -> & Hq)|(-> & Hge & Hd)].
           ++ exists (ext r (path_of g1)). split; [reflexivity|]. cbn [fst]. left.
              assert (Hr1 : r = ext rn [1; Datatypes.S (length pre)]).
              { apply Hne. destruct (obj_empty ve (sk (SharedModel.SCore g1 cc ds1))) eqn:Ee; [|reflexivity].
                destruct (empty_sdep _ Ee) as (? & ? & ?). discriminate. }
              rewrite Hr1. apply holds_app. rewrite ext_ext. eapply holds_sub; [eapply holds_mset; now apply holds_set_vars; [|exact Hbase]|].
              replace (length pre) with (length (map sk pre)) by apply map_length.
              erewrite sub_dep; [exact Hq|]. rewrite map_app, nth_error_app2, Nat.sub_diag by lia. reflexivity.
           ++ now apply Hgone.
        -- (* a variable *)
           destruct d' as [| |x']; try contradiction. cbn in Hk1. subst x'.
           inversion HF1 as [| | |? ? Hxk _]; subst.
           destruct Href as [(Hnv & -> & p & ds1 & Hx)|(-> & Hge & Hd)].
           ++ destruct (steps_keep U q ds ltac:(apply Forall_forall; intros l _; apply sstep_keeps) k n _ _ _ _ _ _ _ Hvf1 HF2 E2)
                as (_ & _ & (_ & _ & _ & Hk2) & _).
              destruct (Hk2 x _ Hx) as (l2 & Hx2 & Hs2). destruct l2 as [|g2 [c2|] ds3|]; try contradiction.
              2: { destruct Hs2 as (_ & _ & Hs2). destruct Hs2; congruence. }
              destruct Hs2 as (<- & _ & _).
              assert (Erd : SharedModel.read_ref vs2 (SharedModel.SRef x) (v, b) = (c2, b)).
              { unfold SharedModel.read_ref. cbn [fst snd]. rewrite Hx2. destruct v; congruence || reflexivity. }
              rewrite Erd. exists (ext (at_var x) user_path). split; [reflexivity|]. cbn [fst]. left.
              apply holds_app. eapply holds_sub.
              ** destruct (Hstored vs2 (node_obj c g (map sk (pre ++ SharedModel.SRef x :: ds2)))) as [_ Hh].
                 specialize (Hh x Hxk). rewrite (nth_of rs vs2 x _ Hx2) in Hh. exact Hh.
              ** reflexivity.
           ++ assert (Erd : SharedModel.read_ref vs2 (SharedModel.SRef x) (VVoid, b) = (VVoid, b)) by reflexivity.
              rewrite Erd. now apply Hgone.
      * erewrite bind_err by exact IH. reflexivity.
    + injection Hs as <- <- <- <- <-.
      assert (E : scoped (bind (call_null (invoke m) r) (to_obj ve C)) st = (Err Throw, st2)).
      { eapply (Hcall _ null); [exact H1|reflexivity|]. intros x Ex. discriminate. }
      erewrite bind_err by exact E.
      exists (map dead ([(true, null)] ++ map dead c1)). unfold st2. rewrite <- (app_assoc (mset base1 rn N1)). reflexivity.
    + contradiction.
Qed.

End Refs.
