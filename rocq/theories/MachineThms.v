(** Creation, repeated calls and lifetimes of the lazy functions as composed. *)
From Coq Require Import List Bool Arith Lia.
From Verif Require Import Value Machine MachineSpec MachineSpec2 MachineLib Composed Strictness.
Import ListNotations.

Lemma Forall2_impl {X Y} (P Q : X -> Y -> Prop) xs ys :
  (forall x y, P x y -> Q x y) -> Forall2 P xs ys -> Forall2 Q xs ys.
Proof. intros H. induction 1; constructor; auto. Qed.

(** ** Nothing is evaluated by construction *)
Section Grows.
Context {A W F S : Type}.
Notation value := (val A).
Notation obj := (obj A F S).
Notation mstate := (mstate A W F S).
Notation M := (M A W F S).
Notation data := (@Machine.data A F S).
Variable ve : value -> bool.
Variable C : config.
Variable U : muser A W F S.
Implicit Type st : mstate.

Lemma grows_id {X} (m : M X) : (forall st, snd (m st) = st) -> grows m.
Proof. intros H st. exists []. rewrite app_nil_r, H. now destruct st. Qed.

Lemma grows_ret {X} (x : X) : grows (@ret A W F S X x).
Proof. now apply grows_id. Qed.

Lemma grows_fail {X} e : grows (@fail A W F S X e).
Proof. now apply grows_id. Qed.

Lemma grows_bind {X Y} (m : M X) (k : X -> M Y) :
  grows m -> (forall x, grows (k x)) -> grows (bind m k).
Proof.
  intros Hm Hk st. unfold bind. destruct (Hm st) as (c & E).
  destruct (m st) as [[x|e] st1]; cbn [snd] in *.
  - destruct (Hk x st1) as (c2 & E2). exists (c ++ c2). rewrite E2, E. cbn [store mworld trace].
    now rewrite app_assoc.
  - exists c. exact E.
Qed.

Lemma grows_scoped {X} (m : M X) : grows m -> grows (scoped m).
Proof.
  intros H st. destruct (H st) as (c & E). exists (map (@dead A F S) c).
  rewrite scoped_eq. unfold closing. cbn [snd]. rewrite E. cbn [store mworld trace].
  now rewrite kill_app.
Qed.

Lemma grows_mapM {X Y} (f : X -> M Y) l : (forall x, grows (f x)) -> grows (mapM f l).
Proof.
  intros H. induction l as [|x l IH]; cbn [mapM]; [apply grows_ret|].
  apply grows_bind; [apply H|intros y]. apply grows_bind; [exact IH|intros ys]. apply grows_ret.
Qed.

Lemma grows_alloc (o : obj) : grows (@alloc A W F S o).
Proof. intros st. now exists [(true, o)]. Qed.

Lemma grows_alive r : grows (@alive A W F S C r).
Proof.
  apply grows_id. intros st. unfold alive.
  destruct (nth_error (store st) (fst r)) as [[[|] o]|]; try reflexivity. now destruct (strict C).
Qed.

Lemma grows_peek r : grows (@peek A W F S r).
Proof.
  apply grows_id. intros st. unfold peek.
  destruct (nth_error (store st) (fst r)) as [[b o]|]; try reflexivity. now destruct (sub o (snd r)).
Qed.

Ltac grows := repeat match goal with
  | |- grows (ret _) => apply grows_ret
  | |- grows (fail _) => apply grows_fail
  | |- grows (alloc _) => apply grows_alloc
  | |- grows (alive _ _) => apply grows_alive
  | |- grows (peek _) => apply grows_peek
  | |- grows (scoped _) => apply grows_scoped
  | |- grows (bind _ _) => apply grows_bind; [|intros ?]
  | |- grows (mapM _ _) => apply grows_mapM; intros ?
  end.

Lemma grows_read r : grows (read (W := W) (F := F) (S := S) ve C r).
Proof. unfold read. grows. destruct (obj_empty ve x); grows. Qed.

Lemma grows_by_value a : grows (by_value (W := W) (F := F) (S := S) ve C a).
Proof. unfold by_value. grows. apply grows_read. Qed.

Lemma grows_element_capture a : grows (element_capture (W := W) (F := F) (S := S) ve C a).
Proof.
  unfold element_capture. grows. destruct (obj_empty ve x); [grows|].
  unfold capture. destruct (acat a); grows. apply grows_read.
Qed.

Lemma grows_make_ct xs : grows (make_ct (W := W) (F := F) (S := S) ve C xs).
Proof. unfold make_ct. grows. apply grows_read. Qed.

Lemma grows_ct_right xs (o : obj) : grows (ct_right (W := W) ve C xs o).
Proof.
  unfold ct_right, temp, shift_right. grows; try apply grows_make_ct; apply grows_element_capture.
Qed.

Lemma grows_ct_left xs (o : obj) : grows (ct_left (W := W) ve C xs o).
Proof.
  unfold ct_left, temp, shift_left. grows; try apply grows_make_ct; apply grows_element_capture.
Qed.

Lemma grows_reg f : grows (regularized_void (W := W) (F := F) (S := S) ve C f).
Proof. unfold regularized_void. grows; [apply grows_by_value|apply grows_ct_right]. Qed.
Lemma grows_unreg f : grows (unregularized_void (W := W) (F := F) (S := S) ve C f).
Proof. unfold unregularized_void. grows; [apply grows_by_value|apply grows_ct_right]. Qed.
Lemma grows_unwrap f : grows (unwrap_value (W := W) (F := F) (S := S) ve C f).
Proof. unfold unwrap_value. grows; [apply grows_by_value|apply grows_ct_left]. Qed.
Lemma grows_detail_lazy f ds : grows (detail_lazy (W := W) (F := F) (S := S) ve C f ds).
Proof. unfold detail_lazy. grows; [apply grows_by_value|apply grows_by_value|apply grows_ct_left]. Qed.
Lemma grows_lazy_value v ch : grows (lazy_value (W := W) (F := F) (S := S) ve C v ch).
Proof. unfold lazy_value. grows; [apply grows_by_value|apply grows_ct_left]. Qed.

Lemma grows_ensure_lazy c d : grows (ensure_lazy ve C U c d).
Proof.
  unfold ensure_lazy, temp. grows; [apply grows_by_value|]. destruct c; grows;
    try apply grows_read; try apply grows_ct_left; try apply grows_lazy_value; try apply grows_detail_lazy.
Qed.

Theorem grows_pigro_lazy f ds : grows (pigro_lazy ve C U f ds).
Proof.
  unfold pigro_lazy, temp. grows; try apply grows_by_value; try apply grows_reg;
    try apply grows_ensure_lazy; try apply grows_detail_lazy; try apply grows_unwrap; apply grows_unreg.
Qed.

(** ** What construction builds *)

(** [m] makes [o] out of nothing but new objects that are dead afterwards or local. *)
Definition makes (m : M obj) (st : mstate) (o : obj) : Prop :=
  exists cells, m st = (Done o, mkSt (store st ++ cells) (mworld st) (trace st)).

Lemma makes_scoped m st o : makes m st o -> makes (scoped m) st o.
Proof.
  intros (c & E). exists (map (@dead A F S) c). rewrite scoped_eq, E. unfold closing.
  cbn [fst snd store mworld trace]. now rewrite kill_app.
Qed.

Lemma element_capture_temp st l o :
  holds (store st) (l, []) o -> element_capture ve C (mkArg (l, []) RV) st = (Done (SVal o), st).
Proof.
  intros H. unfold element_capture. cbn [aref].
  erewrite bind_done by (apply peek_ok; exact H).
  destruct (obj_empty ve o); [reflexivity|]. unfold capture. cbn [acat aref].
  erewrite bind_done by (apply read_ok; exact H). reflexivity.
Qed.

Lemma make_ct_ok st : forall xs os,
  Forall2 (fun a o => holds (store st) (aref a) o) xs os ->
  make_ct ve C xs st = (Done (ct os), st).
Proof.
  intros xs os H. unfold make_ct.
  assert (E : mapM (fun a => read ve C (aref a)) xs st = (Done os, st)).
  { induction H as [|a o xs os Ha _ IH]; [reflexivity|]. cbn [mapM].
    erewrite bind_done by (apply read_ok; exact Ha).
    erewrite bind_done by exact IH. reflexivity. }
  erewrite bind_done by exact E. reflexivity.
Qed.

Lemma ct_right_ok st xs os x :
  Forall2 (fun a o => holds (store st) (aref a) o) xs os ->
  makes (ct_right ve C xs x) st (right_obj x os).
Proof.
  intros H. unfold makes, ct_right, temp. eexists.
  erewrite bind_done by (apply make_ct_ok; exact H).
  rewrite bind_assoc. erewrite bind_done by reflexivity. rewrite bind_ret.
  rewrite bind_assoc. erewrite bind_done by reflexivity. rewrite bind_ret.
  unfold shift_right.
  erewrite bind_done by (apply element_capture_temp; cbn [store]; apply holds_new).
  erewrite bind_done by (apply element_capture_temp; cbn [store]; apply holds_app; apply holds_new).
  cbn [store mworld trace]. rewrite <- app_assoc. reflexivity.
Qed.

Lemma ct_left_ok st xs os x :
  Forall2 (fun a o => holds (store st) (aref a) o) xs os ->
  makes (ct_left ve C xs x) st (left_obj x os).
Proof.
  intros H. unfold makes, ct_left, temp. eexists.
  erewrite bind_done by (apply make_ct_ok; exact H).
  rewrite bind_assoc. erewrite bind_done by reflexivity. rewrite bind_ret.
  rewrite bind_assoc. erewrite bind_done by reflexivity. rewrite bind_ret.
  unfold shift_left.
  erewrite bind_done by (apply element_capture_temp; cbn [store]; apply holds_new).
  erewrite bind_done by (apply element_capture_temp; cbn [store]; apply holds_app; apply holds_new).
  cbn [store mworld trace]. rewrite <- app_assoc. reflexivity.
Qed.

(** Going on after something that only made new objects. *)
Lemma makes_bind_alloc (m : M ref) (k : ref -> M obj) st r cells o :
  m st = (Done r, mkSt (store st ++ cells) (mworld st) (trace st)) ->
  makes (k r) (mkSt (store st ++ cells) (mworld st) (trace st)) o ->
  makes (bind m k) st o.
Proof.
  intros E (c & E2). exists (cells ++ c). erewrite bind_done by exact E. rewrite E2.
  cbn [store mworld trace]. now rewrite app_assoc.
Qed.

Lemma makes_bind {X} (m : M X) (k : X -> M obj) st x cells o :
  m st = (Done x, mkSt (store st ++ cells) (mworld st) (trace st)) ->
  makes (k x) (mkSt (store st ++ cells) (mworld st) (trace st)) o ->
  makes (bind m k) st o.
Proof.
  intros E (c & E2). exists (cells ++ c). erewrite bind_done by exact E. rewrite E2.
  cbn [store mworld trace]. now rewrite app_assoc.
Qed.

Lemma makes_let (m : M obj) (k : obj -> M obj) st x o :
  makes m st x ->
  (forall st' ext, st' = mkSt (store st ++ ext) (mworld st) (trace st) -> makes (k x) st' o) ->
  makes (bind m k) st o.
Proof. intros (c & E) H. eapply makes_bind; [exact E|]. eapply H. reflexivity. Qed.

(** A temporary. *)
Lemma makes_temp (k : arg -> M obj) st x o :
  (forall st' a ext, st' = mkSt (store st ++ ext) (mworld st) (trace st) ->
     holds (store st') (aref a) x -> makes (k a) st' o) ->
  makes (bind (temp x) k) st o.
Proof.
  intros Hk. unfold temp. eapply makes_bind; [reflexivity|].
  eapply Hk; [reflexivity|]. apply holds_new.
Qed.

Lemma one {X} (P : X -> obj -> Prop) a o : P a o -> Forall2 P [a] [o].
Proof. now repeat constructor. Qed.

Lemma regularized_ok st a o :
  holds (store st) (aref a) o -> makes (regularized_void ve C a) st (reg_obj o).
Proof.
  intros H. apply makes_scoped. eapply makes_bind; [apply by_value_ok; exact H|].
  apply ct_right_ok. apply one. apply holds_new.
Qed.

Lemma unregularized_ok st a o :
  holds (store st) (aref a) o -> makes (unregularized_void ve C a) st (right_obj (Node KUnreg []) [o]).
Proof.
  intros H. apply makes_scoped. eapply makes_bind; [apply by_value_ok; exact H|].
  apply ct_right_ok. apply one. apply holds_new.
Qed.

Lemma unwrap_value_ok st a o :
  holds (store st) (aref a) o -> makes (unwrap_value ve C a) st (unwrap_obj o).
Proof.
  intros H. apply makes_scoped. eapply makes_bind; [apply by_value_ok; exact H|].
  match goal with |- makes (bind (ct_left _ _ ?xs ?x) _) ?s _ =>
    destruct (ct_left_ok s xs [o] x) as (c & E) end.
  - apply one. apply holds_new.
  - eapply makes_bind; [exact E|]. exists []. rewrite app_nil_r. reflexivity.
Qed.

Lemma locals_lv (sto : list (bool * obj)) os k l : k = length sto ->
  Forall2 (fun a o => holds (sto ++ map (fun o => (true, o)) os ++ l) (aref a) o) (map lv (locals k (length os))) os.
Proof. intros H. apply Forall2_map_l. cbn [lv aref]. now apply locals_hold. Qed.

Lemma detail_lazy_ok st a g ds os :
  holds (store st) (aref a) g -> Forall2 (fun a o => holds (store st) (aref a) o) ds os ->
  makes (detail_lazy ve C a ds) st (node_obj None g os).
Proof.
  intros H Hd. apply makes_scoped. eapply makes_bind; [apply by_value_ok; exact H|].
  eapply makes_bind.
  { apply by_value_all. cbn [store]. eapply (Forall2_holds_app aref); exact Hd. }
  apply ct_left_ok. cbn [map]. constructor.
  - cbn [lv aref store]. apply holds_app. apply holds_new.
  - cbn [store]. 
    pose proof (locals_lv (store st ++ [(true, g)]) os _ [] eq_refl) as L.
    now rewrite app_nil_r in L.
Qed.

Lemma lazy_value_makes st a v ch :
  holds (store st) (aref a) (data v) -> makes (lazy_value ve C a ch) st (lazy_value_obj v ch).
Proof.
  intros H. apply makes_scoped. eapply makes_bind; [apply by_value_ok; exact H|].
  eapply makes_bind; [reflexivity|]. apply ct_left_ok. repeat constructor.
  - cbn [lv aref store]. apply holds_app. apply holds_new.
  - cbn [lv aref store]. apply holds_new.
Qed.

(** What [ensure_lazy] makes of an object handed to [pigro::lazy]. *)
Definition hands (sto : list (bool * obj)) (x : dep_class * arg) (o : obj) : Prop :=
  match fst x with
  | CLazy => holds sto (aref (snd x)) o
  | CInvocable => exists g t, holds sto (aref (snd x)) (fun_obj g t) /\ o = sample_obj U None (fun_obj g t)
  | COther => exists v, holds sto (aref (snd x)) (data v) /\ o = lazy_value_obj v false
  end.

Lemma given_hands sto x d : given U sto x d -> hands sto x (dep_obj U d).
Proof.
  unfold hands. destruct d as [e|g t|v]; intros [E H]; rewrite E; cbn [dep_obj]; eauto.
Qed.

Lemma ensure_lazy_ok st x o :
  hands (store st) x o -> makes (ensure_lazy ve C U (fst x) (snd x)) st o.
Proof.
  intros H. unfold ensure_lazy. apply makes_scoped. unfold hands in H.
  destruct (fst x).
  - eapply makes_bind; [apply by_value_ok; exact H|].
    exists []. rewrite app_nil_r. apply read_ok. cbn [store]. apply holds_new.
  - destruct H as (g & t & H & ->). eapply makes_bind; [apply by_value_ok; exact H|].
    eapply makes_let.
    { apply ct_left_ok. apply one. apply holds_new. }
    intros st1 e1 E1. apply makes_temp. intros st2 ga e2 E2 H2.
    apply makes_temp. intros st3 z e3 E3 H3.
    eapply makes_let; [apply lazy_value_makes; exact H3|]. intros st4 e4 E4.
    apply makes_temp. intros st5 la e5 E5 H5.
    apply detail_lazy_ok; [|apply one; exact H5].
    rewrite E5, E4, E3. cbn [store]. now repeat apply holds_app.
  - destruct H as (v & H & ->). eapply makes_bind; [apply by_value_ok; exact H|].
    apply lazy_value_makes. cbn [store lv aref]. apply holds_new.
Qed.

Lemma hands_app sto l x o : hands sto x o -> hands (sto ++ l) x o.
Proof.
  unfold hands. destruct (fst x).
  - apply holds_app.
  - intros (g & t & H & E). exists g, t. split; [now apply holds_app|exact E].
  - intros (v & H & E). exists v. split; [now apply holds_app|exact E].
Qed.

Lemma params_ok : forall xs os st,
  Forall2 (hands (store st)) xs os ->
  exists ps cells,
    mapM (fun x : dep_class * arg => bind (by_value ve C (snd x)) (fun q => ret (fst x, lv q))) xs st =
      (Done ps, mkSt (store st ++ cells) (mworld st) (trace st)) /\
    Forall2 (hands (store st ++ cells)) ps os.
Proof.
  induction xs as [|x xs IH]; intros os st H; inversion H as [|? d ? os' H1 H2]; subst.
  - exists [], []. rewrite app_nil_r, st_eta. split; [reflexivity|constructor].
  - assert (E : exists o, holds (store st) (aref (snd x)) o /\
                  forall sto q, holds sto q o -> hands sto (fst x, lv q) d).
    { unfold hands in *. cbn [fst snd]. destruct (fst x).
      - eexists; split; [exact H1|]. intros sto q Hq. exact Hq.
      - destruct H1 as (g & t & H1 & E1). eexists; split; [exact H1|]. intros sto q Hq. exists g, t. auto.
      - destruct H1 as (v & H1 & E1). eexists; split; [exact H1|]. intros sto q Hq. exists v. auto. }
    destruct E as (o & Ho & Hg).
    set (st1 := mkSt (store st ++ [(true, o)]) (mworld st) (trace st)).
    destruct (IH os' st1) as (ps & cells & Em & Hp).
    { cbn [st1 store]. eapply Forall2_impl; [|exact H2]. intros. now apply hands_app. }
    exists ((fst x, lv (length (store st), [])) :: ps), ((true, o) :: cells). split.
    + cbn [mapM]. rewrite bind_assoc. erewrite bind_done by (apply by_value_ok; exact Ho). rewrite bind_ret.
      fold st1. erewrite bind_done by exact Em. unfold ret. cbn [st1 store mworld trace].
      now rewrite <- app_assoc.
    + cbn [st1 store] in Hp. rewrite <- app_assoc in Hp. constructor; [|exact Hp].
      apply Hg. apply holds_new.
Qed.

Lemma ensured_ok : forall ps os st,
  Forall2 (hands (store st)) ps os ->
  exists xs cells,
    mapM (fun x : dep_class * arg => bind (ensure_lazy ve C U (fst x) (snd x)) (fun o => temp o)) ps st =
      (Done xs, mkSt (store st ++ cells) (mworld st) (trace st)) /\
    Forall2 (fun a o => holds (store st ++ cells) (aref a) o) xs os.
Proof.
  induction ps as [|x ps IH]; intros os st H; inversion H as [|? d ? os' H1 H2]; subst.
  - exists [], []. rewrite app_nil_r, st_eta. split; [reflexivity|constructor].
  - destruct (ensure_lazy_ok st x d H1) as (c1 & E1).
    set (st1 := mkSt ((store st ++ c1) ++ [(true, d)]) (mworld st) (trace st)).
    destruct (IH os' st1) as (xs & cells & Em & Hx).
    { cbn [st1 store]. rewrite <- app_assoc. eapply Forall2_impl; [|exact H2]. intros. now apply hands_app. }
    exists (mkArg (length (store st ++ c1), []) RV :: xs), (c1 ++ (true, d) :: cells). split.
    + cbn [mapM]. rewrite bind_assoc. erewrite bind_done by exact E1. unfold temp at 1.
      rewrite bind_assoc. erewrite bind_done by reflexivity. rewrite bind_ret.
      cbn [store mworld trace]. fold st1. erewrite bind_done by exact Em. unfold ret. cbn [st1 store mworld trace].
      now rewrite <- !app_assoc.
    + cbn [st1 store] in Hx. rewrite <- !app_assoc in Hx. constructor; [|exact Hx].
      cbn [aref]. rewrite app_assoc. apply holds_new.
Qed.

Theorem pigro_lazy_hands st fa f s xs os :
  holds (store st) (aref fa) (fun_obj f s) -> Forall2 (hands (store st)) xs os ->
  makes (pigro_lazy ve C U fa xs) st (wrap_obj (node_obj None (reg_obj (fun_obj f s)) os)).
Proof.
  intros Hf Hx. unfold pigro_lazy. apply makes_scoped.
  eapply makes_bind; [apply by_value_ok; exact Hf|].
  set (st1 := mkSt (store st ++ [(true, fun_obj f s)]) (mworld st) (trace st)).
  destruct (params_ok xs os st1) as (ps & c2 & E2 & H2).
  { cbn [st1 store]. eapply Forall2_impl; [|exact Hx]. intros. now apply hands_app. }
  eapply makes_bind; [exact E2|].
  eapply makes_let.
  { apply regularized_ok. cbn [store lv aref]. apply holds_app. apply holds_new. }
  intros st3 e3 E3. apply makes_temp. intros st4 ra e4 E4 H4.
  destruct (ensured_ok ps os st4) as (ds' & c5 & E5 & H5).
  { rewrite E4, E3. cbn [store]. eapply Forall2_impl; [|exact H2]. intros. do 2 apply hands_app. assumption. }
  eapply makes_bind; [exact E5|].
  eapply makes_let.
  { apply detail_lazy_ok; cbn [store]; [apply holds_app; exact H4|exact H5]. }
  intros st6 e6 E6. apply makes_temp. intros st7 la e7 E7 H7.
  eapply makes_let; [apply unwrap_value_ok; exact H7|].
  intros st8 e8 E8. apply makes_temp. intros st9 ua e9 E9 H9.
  apply unregularized_ok. exact H9.
Qed.

Lemma given_app sto l x d : given U sto x d -> given U (sto ++ l) x d.
Proof. destruct d; intros [E H]; split; try exact E; now apply holds_app. Qed.

Theorem pigro_lazy_makes st fa f s xs ds :
  holds (store st) (aref fa) (fun_obj f s) -> Forall2 (given U (store st)) xs ds ->
  makes (pigro_lazy ve C U fa xs) st (lazy_obj U (LExp f s ds)).
Proof.
  intros Hf Hx. rewrite dep_obj_eq. apply pigro_lazy_hands; [exact Hf|].
  apply Forall2_map_r. eapply Forall2_impl; [|exact Hx]. intros. now apply given_hands.
Qed.

End Grows.

(** ** Calls *)
Section Calls.
Context {A W F S : Type}.
Notation value := (val A).
Notation obj := (obj A F S).
Notation mstate := (mstate A W F S).
Notation data := (@Machine.data A F S).
Variable ve : value -> bool.
Variable U : muser A W F S.
Implicit Type st : mstate.

Lemma lenient_call b e m st r :
  strict b = false -> byref b = false ->
  8 + fuel_for e <= m -> holds (store st) r (lazy_obj U e) ->
  let '(o, w', l) := ecall U e (mworld st) in
  exists cells, invoke ve b U m r [] st
    = (returned o, mkSt (store st ++ map (@dead A F S) cells) w' (trace st ++ l)).
Proof.
  intros Hs Hb Hm Hr.
  assert (Eb : b = mkCfg false false) by (destruct b; cbn in *; congruence). rewrite Eb in *. clear Eb.
  pose proof (lazy_call ve (mkCfg false false) U eq_refl (fun _ => True) (fun _ _ H => H) e (readable_lenient ve U e) m st r Hm Hr Logic.I) as H.
  destruct (ecall U e (mworld st)) as [[o w'] l]. destruct H as (cells & H). exists cells. rewrite H.
  reflexivity.
Qed.

(** Whatever the reading of lifetimes: a call that is defined evaluates everything
    and changes nothing. *)
Theorem defined_call b e m st r o st' :
  8 + fuel_for e <= m -> holds (store st) r (lazy_obj U e) ->
  invoke ve (mkCfg b false) U m r [] st = (o, st') -> o <> Err Undefined ->
  exists cells v w' l,
    ecall U e (mworld st) = (v, w', l) /\ o = returned v /\
    st' = mkSt (store st ++ map (@dead A F S) cells) w' (trace st ++ l).
Proof.
  intros Hm Hr E Ho.
  assert (E' : invoke ve (mkCfg false false) U m r [] st = (o, st')).
  { destruct b; [|exact E]. destruct (below_invoke ve false U m r [] st) as [H|H].
    - unfold undefined in H. rewrite E in H. now elim Ho.
    - now rewrite <- H. }
  pose proof (lenient_call (mkCfg false false) e m st r eq_refl eq_refl Hm Hr) as H.
  destruct (ecall U e (mworld st)) as [[v w'] l]. destruct H as (cells & H).
  rewrite E' in H. injection H as -> ->. now exists cells, v, w', l.
Qed.

Theorem all_calls m : forall es rs st,
  Forall (fun e => 8 + fuel_for e <= m) es ->
  Forall2 (fun r e => holds (store st) r (lazy_obj U e)) rs es ->
  let '(os, w', l) := eval_all U es (mworld st) in
  exists cells, call_all (fun r => invoke ve (mkCfg false false) U m r []) rs st
    = (map returned os, mkSt (store st ++ map (@dead A F S) cells) w' (trace st ++ l)).
Proof.
  induction es as [|e es IH]; intros rs st Hm H; inversion H as [|r ? rs' ? H1 H2]; subst; cbn [eval_all call_all].
  - exists []. cbn [map]. rewrite !app_nil_r. now rewrite st_eta.
  - inversion Hm as [|? ? Hm1 Hm2]; subst.
    pose proof (lenient_call (mkCfg false false) e m st r eq_refl eq_refl Hm1 H1) as Hc.
    destruct (ecall U e (mworld st)) as [[o w1] l1]. destruct Hc as (c1 & Hc). rewrite Hc.
    specialize (IH rs' (mkSt (store st ++ map (@dead A F S) c1) w1 (trace st ++ l1)) Hm2).
    cbn [store mworld trace] in IH.
    specialize (IH ltac:(eapply Forall2_impl; [|exact H2]; intros; cbn; now apply holds_app)).
    destruct (eval_all U es w1) as [[os w2] l2]. destruct IH as (c2 & IH). rewrite IH.
    exists (c1 ++ c2). rewrite map_app, !app_assoc. reflexivity.
Qed.

(** ** void trees: defined, and evaluated anew each time *)
Lemma void_value e : void_tree U e -> forall w o w' l,
  ecall U e w = (o, w', l) -> o = Done VVoid \/ exists x, o = Err x.
Proof.
  destruct e as [f s deps]. intros [Hf _] w o w' l. cbn [ecall]. unfold apply_all.
  match goal with |- context [seqs ?ev deps w] => destruct (seqs ev deps w) as [[[vs|x] w1] l1] end.
  - unfold fcall, ucall. specialize (Hf s (ctad_tuple as_tuple vs) w1).
    destruct (usem U f s (ctad_tuple as_tuple vs) w1) as [[[s' vs'] r] w2]. cbn [fst snd] in Hf.
    destruct Hf as [-> | ->]; intros E; injection E as <- <- <-; eauto.
  - intros E; injection E as <- <- <-; eauto.
Qed.

Lemma void_readable b : forall e, void_tree U e -> readable_deps ve b U e.
Proof.
  induction e as [f s deps IH] using lexp_ind'. intros [_ Hd]. cbn [readable_deps].
  induction IH as [|d deps Hd1 _ IH]; [exact I|]. destruct Hd as [Hd Hds].
  destruct d as [e| |]; try contradiction. split; [|split; [now apply Hd1|now apply IH]].
  intros w v w' l E. cbn [dep_call] in E. destruct (void_value e Hd _ _ _ _ E) as [Hv|[x Hx]]; [|discriminate].
  injection Hv as ->. right. reflexivity.
Qed.

Theorem void_calls b m : forall es rs st,
  Forall (void_tree U) es ->
  Forall (fun e => 8 + fuel_for e <= m) es ->
  Forall2 (fun r e => holds (store st) r (lazy_obj U e)) rs es ->
  let '(os, w', l) := eval_all U es (mworld st) in
  exists cells, call_all (fun r => invoke ve (mkCfg b false) U m r []) rs st
    = (map returned os, mkSt (store st ++ map (@dead A F S) cells) w' (trace st ++ l)).
Proof.
  induction es as [|e es IH]; intros rs st Hv Hm H; inversion H as [|r ? rs' ? H1 H2]; subst; cbn [eval_all call_all].
  - exists []. cbn [map]. rewrite !app_nil_r. now rewrite st_eta.
  - inversion Hm as [|? ? Hm1 Hm2]; subst. inversion Hv as [|? ? Hv1 Hv2]; subst.
    pose proof (lazy_call ve (mkCfg b false) U eq_refl (fun _ => True) (fun _ _ H => H) e (void_readable _ e Hv1) m st r Hm1 H1 Logic.I) as Hc.
    destruct (ecall U e (mworld st)) as [[o w1] l1] eqn:Ee. destruct Hc as (c1 & Hc). rewrite Hc.
    specialize (IH rs' (mkSt (store st ++ map (@dead A F S) c1) w1 (trace st ++ l1)) Hv2 Hm2).
    cbn [store mworld trace] in IH.
    specialize (IH ltac:(eapply Forall2_impl; [|exact H2]; intros; cbn; now apply holds_app)).
    destruct (eval_all U es w1) as [[os w2] l2]. destruct IH as (c2 & IH). rewrite IH.
    exists (c1 ++ c2). rewrite map_app, !app_assoc. cbn [map]. f_equal. f_equal.
    destruct (void_value e Hv1 _ _ _ _ Ee) as [-> | [x ->]]; reflexivity.
Qed.

End Calls.
