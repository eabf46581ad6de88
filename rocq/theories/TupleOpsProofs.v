(** Histories of compressed tuples (C35). *)
From Coq Require Import List Bool Arith Lia.
From Verif Require Import Value Machine MachineLib Composed TupleOps.
Import ListNotations.

Section Proofs.
Context {A W F S : Type}.
Notation value := (val A).
Notation obj := (obj A F S).
Notation slot := (slot A F S).
Notation cell := (bool * obj)%type.
Notation mstate := (mstate A W F S).
Notation M := (M A W F S).
Notation data := (@Machine.data A F S).
Notation tenv := (tenv A).
Notation telem := (telem A).
Variable ve : value -> bool.
Variable C : config.
Implicit Type st : mstate.
Implicit Type sto : list cell.

Definition slot_of (vs : list nat) (c : telem) : slot :=
  match c with Own v => SVal (data v) | Shared x => SRef (nth x vs 0, []) end.

Definition at_loc sto (l : nat) (o : obj) : Prop := nth_error sto l = Some (true, o).

Record sim sto (vs ts : list nat) (e : tenv) : Prop := {
  sim_vars : Forall2 (fun l v => at_loc sto l (data v)) vs (vars e);
  sim_tuples : Forall2 (fun l cs => at_loc sto l (Node KCT (map (slot_of vs) cs))) ts (tuples e);
  sim_shared : Forall (Forall (fun c => match c with Shared x => x < length vs | Own _ => True end)) (tuples e);
  sim_nodup : NoDup (vs ++ ts) }.

Lemma at_loc_lt sto l o : at_loc sto l o -> l < length sto.
Proof. intros H. apply nth_error_Some. unfold at_loc in H. congruence. Qed.

Lemma at_loc_app sto l o x : at_loc sto l o -> at_loc (sto ++ x) l o.
Proof. intros H. unfold at_loc. rewrite nth_error_app1; [exact H|]. eapply at_loc_lt; exact H. Qed.

Lemma at_loc_new sto o : at_loc (sto ++ [(true, o)]) (length sto) o.
Proof. unfold at_loc. rewrite nth_error_app2, Nat.sub_diag by lia. reflexivity. Qed.

Lemma at_loc_other sto l o k x : at_loc sto l o -> l <> k -> at_loc (update k x sto) l o.
Proof. intros H Hn. unfold at_loc. rewrite nth_update_neq; [exact H|congruence]. Qed.

Lemma at_loc_same sto l o x : at_loc sto l o -> at_loc (update l (true, x) sto) l x.
Proof. intros H. unfold at_loc. apply nth_update_eq. eapply at_loc_lt; exact H. Qed.

Lemma at_loc_holds sto l o : at_loc sto l o -> holds sto (l, []) o.
Proof. intros H. exists o. split; [exact H|reflexivity]. Qed.

Lemma nth_refs (l : list nat) i : i < length l -> nth i (map (fun k => (k, [] : list nat)) l) (0, []) = (nth i l 0, []).
Proof. intros _. exact (map_nth (fun k => (k, [] : list nat)) l 0 i). Qed.

Lemma F2_nth {X Y} (R : X -> Y -> Prop) xs ys : Forall2 R xs ys -> forall i d y,
  nth_error ys i = Some y -> R (nth i xs d) y /\ i < length xs /\ nth_error xs i = Some (nth i xs d).
Proof.
  induction 1 as [|x y xs ys H _ IH]; intros [|i] d z E; try discriminate; cbn in *.
  - injection E as ->. repeat split; auto. lia.
  - destruct (IH i d z E) as (H1 & H2 & H3). repeat split; auto. lia.
Qed.

Lemma F2_update {X Y} (R R' : X -> Y -> Prop) xs ys : Forall2 R xs ys -> forall i d y,
  i < length xs ->
  (forall j x z, nth_error xs j = Some x -> j <> i -> R x z -> R' x z) ->
  R' (nth i xs d) y -> Forall2 R' xs (update i y ys).
Proof.
  induction 1 as [|x z xs ys H HF IH]; intros i d y Hi Ho Hn; [cbn in Hi; lia|].
  destruct i as [|i]; cbn in *.
  - constructor; [exact Hn|]. assert (G : forall j x' z', nth_error xs j = Some x' -> R x' z' -> R' x' z').
    { intros j x' z' E. apply (Ho (Datatypes.S j)); [exact E|discriminate]. }
    clear - HF G. induction HF as [|x z xs ys H _ IH]; constructor.
    + now apply (G 0).
    + apply IH. intros j x' z' E. now apply (G (Datatypes.S j)).
  - constructor.
    + apply (Ho 0); [reflexivity|discriminate|exact H].
    + apply (IH i d); [lia| |exact Hn]. intros j x' z' E Hj. apply (Ho (Datatypes.S j)); [exact E|congruence].
Qed.

Lemma F2_imp_in {X Y} (R R' : X -> Y -> Prop) xs ys : Forall2 R xs ys ->
  (forall x y, In x xs -> R x y -> R' x y) -> Forall2 R' xs ys.
Proof.
  induction 1 as [|x y xs ys H _ IH]; intros G; constructor.
  - apply G; [now left|exact H].
  - apply IH. intros x' y' Hin. apply G. now right.
Qed.

Lemma NoDup_l {X} (a b : list X) : NoDup (a ++ b) -> NoDup a.
Proof.
  induction a as [|x a IH]; cbn; intros H; [constructor|]. inversion H as [|? ? H1 H2]; subst.
  constructor; [|auto]. intros Hin. apply H1. apply in_or_app. now left.
Qed.
Lemma NoDup_r {X} (a b : list X) : NoDup (a ++ b) -> NoDup b.
Proof. induction a as [|x a IH]; cbn; intros H; [exact H|]. inversion H; auto. Qed.
Lemma NoDup_lr {X} (a b : list X) x : NoDup (a ++ b) -> In x a -> In x b -> False.
Proof.
  induction a as [|y a IH]; cbn; intros H H1 H2; [easy|]. inversion H as [|? ? H3 H4]; subst. destruct H1 as [->|H1].
  - apply H3. apply in_or_app. now right.
  - now apply IH.
Qed.
Lemma NoDup_snoc {X} (a b : list X) x : NoDup (a ++ b) -> ~ In x (a ++ b) -> NoDup (a ++ b ++ [x]).
Proof.
  intros H Hn. rewrite app_assoc. induction (a ++ b) as [|y l IH]; cbn; [constructor; [easy|constructor]|].
  inversion H as [|? ? H1 H2]; subst. constructor.
  - rewrite in_app_iff. intros [Hin|[->|[]]]; [easy|]. apply Hn. now left.
  - apply IH; [exact H2|]. intros Hin. apply Hn. now right.
Qed.

Lemma sim_locs sto vs ts e l : sim sto vs ts e -> In l (vs ++ ts) -> l < length sto.
Proof.
  intros [Hv Ht _ _] Hin. apply in_app_or in Hin. destruct Hin as [Hin|Hin].
  - clear - Hv Hin. induction Hv as [|x v vs vl H _ IH]; [easy|]. destruct Hin as [->|Hin]; [|auto]. eapply at_loc_lt; exact H.
  - clear - Ht Hin. induction Ht as [|x v ts tl H _ IH]; [easy|]. destruct Hin as [->|Hin]; [|auto]. eapply at_loc_lt; exact H.
Qed.

Lemma sim_fresh sto vs ts e : sim sto vs ts e -> ~ In (length sto) (vs ++ ts).
Proof. intros H Hin. apply (sim_locs _ _ _ _ _ H) in Hin. lia. Qed.

Lemma slot_of_more vs l cs :
  Forall (fun c => match c with Shared x => x < length vs | Own _ => True end) cs ->
  map (slot_of (vs ++ [l])) cs = map (slot_of vs) cs.
Proof.
  induction 1 as [|c cs Hc _ IH]; [reflexivity|]. cbn [map]. rewrite IH. f_equal.
  destruct c as [v|x]; [reflexivity|]. cbn [slot_of]. now rewrite app_nth1.
Qed.

Lemma elem_slot sto vs ts e t i c :
  sim sto vs ts e -> elem_of e t i = Some c ->
  exists cs, nth_error (tuples e) t = Some cs /\ nth_error cs i = Some c /\
    t < length ts /\ nth_error ts t = Some (nth t ts 0) /\
    at_loc sto (nth t ts 0) (Node KCT (map (slot_of vs) cs)) /\
    nth_error (map (slot_of vs) cs) i = Some (slot_of vs c) /\
    (forall x, c = Shared x -> x < length vs).
Proof.
  intros [Hv Ht Hs Hn] E. unfold elem_of in E. destruct (nth_error (tuples e) t) as [cs|] eqn:Et; [|discriminate].
  exists cs. destruct (F2_nth _ _ _ Ht t 0 cs Et) as (H1 & H2 & H3). repeat split; auto.
  - now rewrite nth_error_map, E.
  - intros x ->. rewrite Forall_forall in Hs. specialize (Hs cs (nth_error_In _ _ Et)).
    rewrite Forall_forall in Hs. exact (Hs (Shared x) (nth_error_In _ _ E)).
Qed.

Notation refs l := (map (fun k => (k, [] : list nat)) l).

Lemma update_map {X Y} (f : X -> Y) i x l : update i (f x) (map f l) = map f (update i x l).
Proof. revert i. induction l as [|y l IH]; intros [|i]; cbn; auto. now rewrite IH. Qed.

Lemma read_loc st l o : at_loc (store st) l o -> read ve C (l, []) st = (Done o, st).
Proof. intros H. apply read_ok. now apply at_loc_holds. Qed.

Lemma write_loc st l o x : at_loc (store st) l o ->
  write C (l, []) x st = (Done tt, mkSt (update l (true, x) (store st)) (mworld st) (trace st)).
Proof. intros H. eapply write_whole. exact H. Qed.

Lemma write_elem st l k ms i o x : at_loc (store st) l (Node k ms) -> nth_error ms i = Some (SVal o) ->
  write C (l, [i]) x st =
  (Done tt, mkSt (update l (true, Node k (update i (SVal x) ms)) (store st)) (mworld st) (trace st)).
Proof.
  intros H Hi. assert (Hh : holds (store st) (l, [i]) o).
  { exists (Node k ms). split; [exact H|]. cbn [sub members snd]. now rewrite Hi. }
  unfold write. erewrite bind_done by (eapply alive_ok; exact Hh). erewrite bind_done by (eapply peek_ok; exact Hh).
  cbn [fst snd]. unfold at_loc in H. rewrite H. cbn [put members kind_of]. now rewrite Hi.
Qed.

(** Changing one variable. *)
Lemma sim_set_var sto vs ts e x v :
  sim sto vs ts e -> x < length (vars e) ->
  sim (update (nth x vs 0) (true, data v) sto) vs ts (mkEnv (update x v (vars e)) (tuples e)).
Proof.
  intros [Hv Ht Hs Hn] Hx.
  assert (Hlen : length vs = length (vars e)) by (clear - Hv; induction Hv; cbn; congruence).
  assert (Hin : In (nth x vs 0) vs) by (apply nth_In; lia).
  constructor; cbn [vars tuples]; auto.
  - destruct (nth_error (vars e) x) as [u|] eqn:Eu; [|apply nth_error_None in Eu; lia].
    destruct (F2_nth _ _ _ Hv x 0 u Eu) as (H1 & H2 & H3).
    eapply F2_update; [exact Hv|exact H2| |].
    + intros j l z Ej Hj Hl. eapply at_loc_other; [exact Hl|]. intros ->. apply Hj.
      eapply NoDup_nth_error; [apply (NoDup_l _ _ Hn)|apply nth_error_Some; congruence|congruence].
    + eapply at_loc_same; exact H1.
  - eapply F2_imp_in; [exact Ht|]. intros l cs Hl Hat. eapply at_loc_other; [exact Hat|].
    intros ->. eapply NoDup_lr; [exact Hn|exact Hin|exact Hl].
Qed.

Lemma Forall_update {X} (P : X -> Prop) x l : P x -> Forall P l -> forall i, Forall P (update i x l).
Proof.
  intros Hx. induction 1 as [|y l Hy Hl IH]; intros i; [destruct i; constructor|].
  destruct i; cbn; constructor; auto.
Qed.

(** Changing an own element. *)
Lemma sim_set_elem sto vs ts e t cs i v u :
  sim sto vs ts e -> nth_error (tuples e) t = Some cs -> nth_error cs i = Some (Own u) ->
  sim (update (nth t ts 0) (true, Node KCT (update i (SVal (data v)) (map (slot_of vs) cs))) sto) vs ts
      (mkEnv (vars e) (update t (update i (Own v) cs) (tuples e))).
Proof.
  intros [Hv Ht Hs Hn] Et Ei. destruct (F2_nth _ _ _ Ht t 0 cs Et) as (H1 & H2 & H3).
  assert (Hin : In (nth t ts 0) ts) by (now apply nth_In).
  constructor; cbn [vars tuples]; auto.
  - eapply F2_imp_in; [exact Hv|]. intros l z Hl Hat. eapply at_loc_other; [exact Hat|].
    intros ->. eapply NoDup_lr; [exact Hn|exact Hl|exact Hin].
  - eapply F2_update; [exact Ht|exact H2| |].
    + intros j l z Ej Hj Hl. eapply at_loc_other; [exact Hl|]. intros ->. apply Hj.
      eapply NoDup_nth_error; [apply (NoDup_r _ _ Hn)|apply nth_error_Some; congruence|congruence].
    + rewrite <- (update_map (slot_of vs) i (Own v) cs : _ = map _ _).
      eapply at_loc_same; exact H1.
  - assert (Hc := Hs). rewrite Forall_forall in Hc. specialize (Hc cs (nth_error_In _ _ Et)).
    assert (G : Forall (fun c => match c with Shared x => x < length vs | Own _ => True end) (update i (Own v) cs)).
    { now apply Forall_update. }
    now apply Forall_update.
Qed.

Lemma update_same {X} (l : list X) i x : nth_error l i = Some x -> update i x l = l.
Proof. revert i. induction l as [|y l IH]; intros [|i] E; try discriminate; cbn in *; [congruence|]. now rewrite IH. Qed.

Lemma vars_length sto vs ts e : sim sto vs ts e -> length vs = length (vars e).
Proof. intros [Hv _ _ _]. clear - Hv. induction Hv; cbn; congruence. Qed.
Lemma tuples_length sto vs ts e : sim sto vs ts e -> length ts = length (tuples e).
Proof. intros [_ Ht _ _]. clear - Ht. induction Ht; cbn; congruence. Qed.

Lemma var_at sto vs ts e x : sim sto vs ts e -> x < length (vars e) ->
  exists v, nth_error (vars e) x = Some v /\ at_loc sto (nth x vs 0) (data v).
Proof.
  intros H Hx. destruct (nth_error (vars e) x) as [v|] eqn:Ev; [|apply nth_error_None in Ev; lia].
  exists v. split; [reflexivity|]. apply (F2_nth _ _ _ (sim_vars _ _ _ _ H) x 0 v Ev).
Qed.

Lemma make_elems vs ts e st : sim (store st) vs ts e ->
  forall xs, Forall (fun x : bool * nat => snd x < length (vars e)) xs ->
  make_ct_as ve C (map (fun x : bool * nat => (fst x, lv (nth (snd x) (refs vs) (0, [])))) xs) st =
  (Done (Node KCT (map (slot_of vs) (map (fun x : bool * nat => if fst x then Shared (snd x) else Own (nth (snd x) (vars e) VVoid)) xs))), st).
Proof.
  intros H xs Hxs. pose proof (vars_length _ _ _ _ H) as Hlen. unfold make_ct_as.
  assert (G : forall (m : M (list slot)) ss, m st = (Done ss, st) ->
            bind m (fun ss => ret (Node KCT ss)) st = (Done (Node KCT ss), st)).
  { intros m ss E. erewrite bind_done by exact E. reflexivity. }
  apply G. clear G. induction Hxs as [|[b x] xs Hx _ IH]; [reflexivity|]. cbn [map mapM fst snd] in *.
  rewrite nth_refs by lia. destruct (var_at _ _ _ _ x H Hx) as (v & Ev & Hat).
  destruct b; cbn [aref lv].
  - erewrite bind_done by reflexivity. erewrite bind_done by exact IH. reflexivity.
  - erewrite bind_done by (erewrite bind_done by (apply read_loc; exact Hat); reflexivity).
    erewrite bind_done by exact IH. cbn [slot_of]. now rewrite (nth_error_nth _ _ _ Ev).
Qed.

Lemma get_elem st vs ts e t i c :
  sim (store st) vs ts e -> elem_of e t i = Some c ->
  get ve C (nth t (refs ts) (0, [])) i st =
  (Done (match c with
         | Own v => if data_empty ve v then RVal (data v) else RRef (nth t ts 0, [i])
         | Shared x => RRef (nth x vs 0, [])
         end), st).
Proof.
  intros H E. destruct (elem_slot _ _ _ _ _ _ _ H E) as (cs & Et & Ei & Hlt & Ent & Hat & Hi & Hx).
  rewrite nth_refs by exact Hlt. unfold get.
  pose proof (at_loc_holds _ _ _ Hat) as Hh.
  erewrite bind_done by (eapply peek_ok; exact Hh). cbn [kind_of]. unfold element.
  erewrite bind_done by (eapply alive_ok; exact Hh). erewrite bind_done by (eapply peek_ok; exact Hh).
  cbn [members]. rewrite Hi. destruct c as [v|x]; cbn [slot_of]; [|reflexivity].
  replace (obj_empty ve (data v)) with (data_empty ve v) by (cbn; now rewrite andb_true_r).
  now destruct (data_empty ve v).
Qed.

(** New variables and tuples are new objects; other objects are left alone. *)
Definition grown sto (vs ts : list nat) sto' (vs' ts' : list nat) : Prop :=
  (exists dv dt, vs' = vs ++ dv /\ ts' = ts ++ dt /\ Forall (fun l => length sto <= l) (dv ++ dt)) /\
  length sto <= length sto' /\
  forall l, l < length sto -> ~ In l (vs ++ ts) -> nth_error sto' l = nth_error sto l.

Lemma grown_refl sto vs ts : grown sto vs ts sto vs ts.
Proof.
  split; [|split; auto]. exists [], []. rewrite !app_nil_r. repeat split. constructor.
Qed.

Lemma grown_new sto vs ts dv dt cells :
  Forall (fun l => length sto <= l) (dv ++ dt) -> grown sto vs ts (sto ++ cells) (vs ++ dv) (ts ++ dt).
Proof.
  intros H. split; [|split].
  - exists dv, dt. auto.
  - rewrite app_length. lia.
  - intros l Hl _. now rewrite nth_error_app1.
Qed.

Lemma grown_newvar sto vs ts c : grown sto vs ts (sto ++ [c]) (vs ++ [length sto]) ts.
Proof. pose proof (grown_new sto vs ts [length sto] [] [c]) as H. rewrite (app_nil_r ts) in H. apply H. repeat constructor. Qed.
Lemma grown_newtuple sto vs ts c : grown sto vs ts (sto ++ [c]) vs (ts ++ [length sto]).
Proof. pose proof (grown_new sto vs ts [] [length sto] [c]) as H. rewrite (app_nil_r vs) in H. apply H. repeat constructor. Qed.

Lemma grown_write sto vs ts l c : In l (vs ++ ts) -> grown sto vs ts (update l c sto) vs ts.
Proof.
  intros H. split; [|split].
  - exists [], []. rewrite !app_nil_r. repeat split. constructor.
  - enough (length (update l c sto) = length sto) by lia. revert l H. clear. intros l _.
    revert l. induction sto as [|x sto IH]; intros [|l]; cbn; auto.
  - intros k Hk Hn. apply nth_update_neq. intros ->. now apply Hn.
Qed.

Theorem step_ok st vs ts e op :
  sim (store st) vs ts e -> op_ok ve e op ->
  exists vs' ts' sto',
    mach_step ve C (refs vs) (refs ts) op st =
      (Done (refs vs', refs ts', snd (env_step e op)), mkSt sto' (mworld st) (trace st)) /\
    sim sto' vs' ts' (fst (env_step e op)) /\
    grown (store st) vs ts sto' vs' ts'.
Proof.
  intros H Hok. pose proof (vars_length _ _ _ _ H) as Hvl. pose proof (tuples_length _ _ _ _ H) as Htl.
  destruct op as [v|xs|t|t i|t i v|x|x v]; cbn [mach_step env_step op_ok fst snd] in *.
  - exists (vs ++ [length (store st)]), ts. eexists. split.
    + erewrite bind_done by reflexivity. rewrite map_app. reflexivity.
    + split; [|apply grown_newvar].
      cbn [store]. pose proof H as [Hv Ht Hs Hn]. constructor; cbn [vars tuples].
      * apply Forall2_app; [|constructor; [apply at_loc_new|constructor]].
        eapply F2_imp_in; [exact Hv|]. intros; now apply at_loc_app.
      * clear - Ht Hs. revert Hs. induction Ht as [|l cs ts tl Hl _ IH]; intros Hs; constructor; inversion Hs; subst.
        -- rewrite slot_of_more by assumption. now apply at_loc_app.
        -- now apply IH.
      * clear - Hs. eapply Forall_impl; [|exact Hs]. intros cs Hc. eapply Forall_impl; [|exact Hc].
        intros [u|x]; [easy|]. rewrite app_length. cbn. lia.
      * rewrite <- app_assoc. cbn [app]. assert (Hf := sim_fresh _ _ _ _ H).
        apply NoDup_Add with (a := length (store st)) (l := vs ++ ts); [apply Add_app|]. split; assumption.
  - exists vs, (ts ++ [length (store st)]). eexists. split.
    + erewrite bind_done by (eapply make_elems; eassumption). erewrite bind_done by reflexivity.
      rewrite map_app. reflexivity.
    + split; [|apply grown_newtuple].
      cbn [store]. pose proof H as [Hv Ht Hs Hn]. constructor; cbn [vars tuples].
      * eapply F2_imp_in; [exact Hv|]. intros; now apply at_loc_app.
      * apply Forall2_app; [|constructor; [apply at_loc_new|constructor]].
        eapply F2_imp_in; [exact Ht|]. intros; now apply at_loc_app.
      * apply Forall_app. split; [exact Hs|]. constructor; [|constructor]. rewrite Hvl. clear - Hok.
        induction Hok as [|[b x] xs Hx _ IH]; constructor; auto. now destruct b.
      * apply NoDup_snoc; [exact Hn|]. exact (sim_fresh _ _ _ _ H).
  - exists vs, (ts ++ [length (store st)]).
    destruct (nth_error (tuples e) t) as [cs|] eqn:Et; [|apply nth_error_None in Et; lia].
    destruct (F2_nth _ _ _ (sim_tuples _ _ _ _ H) t 0 cs Et) as (H1 & H2 & H3).
    rewrite nth_refs by exact H2. rewrite (nth_error_nth _ _ _ Et). eexists. split.
    + unfold by_value. cbn [aref lv]. rewrite bind_assoc. erewrite bind_done by (apply read_loc; exact H1).
      erewrite bind_done by reflexivity. rewrite map_app. reflexivity.
    + split; [|apply grown_newtuple].
      cbn [store]. pose proof H as [Hv Ht Hs Hn]. constructor; cbn [vars tuples].
      * eapply F2_imp_in; [exact Hv|]. intros; now apply at_loc_app.
      * apply Forall2_app; [|constructor; [apply at_loc_new|constructor]].
        eapply F2_imp_in; [exact Ht|]. intros; now apply at_loc_app.
      * apply Forall_app. split; [exact Hs|]. constructor; [|constructor].
        rewrite Forall_forall in Hs. apply (Hs cs). eapply nth_error_In; exact Et.
      * apply NoDup_snoc; [exact Hn|]. exact (sim_fresh _ _ _ _ H).
  - destruct (elem_of e t i) as [c|] eqn:E; [|easy].
    exists vs, ts, (store st). rewrite st_eta. split; [|split; [exact H|apply grown_refl]].
    destruct (elem_slot _ _ _ _ _ _ _ H E) as (cs & Et & Ei & Hlt & Ent & Hat & Hi & Hx).
    unfold tuple_get. rewrite bind_assoc. erewrite bind_done by (eapply get_elem; eassumption). rewrite bind_assoc.
    destruct c as [v|x]; cbn [telem_value].
    + destruct (data_empty ve v) eqn:Ee; cbn [to_obj].
      * reflexivity.
      * assert (Hr : holds (store st) (nth t ts 0, [i]) (data v)).
        { exists (Node KCT (map (slot_of vs) cs)). split; [exact Hat|]. cbn [snd sub members]. now rewrite Hi. }
        erewrite bind_done by (eapply read_ok; exact Hr). reflexivity.
    + destruct (var_at _ _ _ _ x H) as (v & Ev & Hav); [rewrite <- Hvl; now apply Hx|].
      cbn [to_obj]. erewrite bind_done by (apply read_loc; exact Hav). rewrite Ev. reflexivity.
  - destruct (elem_of e t i) as [c|] eqn:E; [|easy]. exists vs, ts.
    destruct (elem_slot _ _ _ _ _ _ _ H E) as (cs & Et & Ei & Hlt & Ent & Hat & Hi & Hx).
    unfold tuple_set. rewrite bind_assoc.
    rewrite (bind_done _ _ _ _ _ (get_elem _ _ _ _ _ _ _ H E)).
    destruct c as [u|x].
    + rewrite (nth_error_nth _ _ _ Et). destruct Hok as [Ecl Esame]. destruct (data_empty ve u) eqn:Ee.
      * exists (store st). rewrite st_eta. split; [reflexivity|]. split; [|apply grown_refl]. rewrite <- (Esame eq_refl).
        rewrite (update_same cs i (Own u) Ei), (update_same (tuples e) t cs Et). destruct e. exact H.
      * eexists. split.
        { erewrite bind_done by (eapply write_elem; [exact Hat|exact Hi]). reflexivity. }
        split; [|apply grown_write, in_or_app; right; eapply nth_error_In; exact Ent].
        cbn [store]. eapply sim_set_elem; eassumption.
    + destruct (var_at _ _ _ _ x H) as (u & Eu & Hau); [rewrite <- Hvl; now apply Hx|].
      eexists. split.
      { erewrite bind_done by (eapply write_loc; exact Hau). reflexivity. }
      split; [|apply grown_write, in_or_app; left; apply nth_In; now apply Hx].
      cbn [store]. apply sim_set_var; [exact H|]. rewrite <- Hvl. now apply Hx.
  - exists vs, ts, (store st). rewrite st_eta. split; [|split; [exact H|apply grown_refl]].
    destruct (var_at _ _ _ _ x H Hok) as (v & Ev & Hat). rewrite nth_refs by lia.
    erewrite bind_done by (apply read_loc; exact Hat). rewrite Ev. reflexivity.
  - exists vs, ts. destruct (var_at _ _ _ _ x H Hok) as (u & Eu & Hau). rewrite nth_refs by lia. eexists. split.
    { erewrite bind_done by (eapply write_loc; exact Hau). reflexivity. }
    split; [|apply grown_write, in_or_app; left; apply nth_In; lia].
    cbn [store]. now apply sim_set_var.
Qed.

Theorem run_ok : forall ops st vs ts e,
  sim (store st) vs ts e -> ops_ok ve e ops ->
  exists sto',
    mach_run ve C (refs vs) (refs ts) ops st = (Done (snd (env_run e ops)), mkSt sto' (mworld st) (trace st)).
Proof.
  induction ops as [|op ops IH]; intros st vs ts e H Hok; cbn [mach_run env_run ops_ok] in *.
  - exists (store st). now rewrite st_eta.
  - destruct Hok as [H1 H2]. destruct (step_ok st vs ts e op H H1) as (vs' & ts' & sto' & Em & Hs & _).
    destruct (env_step e op) as [e1 o]. cbn [fst snd] in *.
    destruct (IH (mkSt sto' (mworld st) (trace st)) vs' ts' e1 Hs H2) as (sto2 & Er).
    destruct (env_run e1 ops) as [e2 os]. cbn [fst snd] in *. exists sto2.
    erewrite bind_done by exact Em. cbv beta iota. erewrite bind_done by exact Er. reflexivity.
Qed.

Theorem tuple_histories : forall ops (st : mstate),
  ops_ok ve (mkEnv [] []) ops ->
  exists sto', mach_run ve C [] [] ops st =
    (Done (snd (env_run (mkEnv [] []) ops)), mkSt sto' (mworld st) (trace st)).
Proof.
  intros ops st H. apply (run_ok ops st [] [] (mkEnv [] [])); [|exact H].
  constructor; cbn; constructor.
Qed.

End Proofs.
