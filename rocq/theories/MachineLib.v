(** Lemmas about the machine's store and about the binders. *)
From Coq Require Import List Bool Arith Lia.
From Verif Require Import Value Machine MachineSpec.
Import ListNotations.

Section Lib.
Context {A W F S : Type}.
Notation value := (val A).
Notation obj := (obj A F S).
Notation slot := (slot A F S).
Notation mstate := (mstate A W F S).
Notation M := (M A W F S).
Notation mevent := (mevent A F).
Notation cell := (bool * obj)%type.
Variable ve : value -> bool.
Variable C : config.
Variable U : muser A W F S.
Implicit Type st : mstate.

(** In the store [sto], [r] designates a living object equal to [o]. *)
Definition holds (sto : list cell) (r : ref) (o : obj) : Prop :=
  exists root, nth_error sto (fst r) = Some (true, root) /\ sub root (snd r) = Some o.

(** [r] designates a part of a dead object, whose last contents were [o]. *)
Definition dangles (sto : list cell) (r : ref) (o : obj) : Prop :=
  exists root, nth_error sto (fst r) = Some (false, root) /\ sub root (snd r) = Some o.

Definition slot_holds (sto : list cell) (c : slot) (o : obj) : Prop :=
  match c with SVal x => x = o | SRef r => holds sto r o end.

(** ** The monad *)
Lemma bind_done {X Y} (m : M X) (k : X -> M Y) st x st' :
  m st = (Done x, st') -> bind m k st = k x st'.
Proof. unfold bind. now intros ->. Qed.

Lemma bind_err {X Y} (m : M X) (k : X -> M Y) st e st' :
  m st = (Err e, st') -> bind m k st = (Err e, st').
Proof. unfold bind. now intros ->. Qed.

Lemma bind_ret {X Y} (x : X) (k : X -> M Y) st : bind (ret x) k st = k x st.
Proof. reflexivity. Qed.

Lemma bind_assoc {X Y Z} (m : M X) (k : X -> M Y) (h : Y -> M Z) st :
  bind (bind m k) h st = bind m (fun x => bind (k x) h) st.
Proof. unfold bind. destruct (m st) as [[x|e] st']; reflexivity. Qed.

Definition closing {X} (n : nat) (p : outcome X * mstate) : outcome X * mstate :=
  (fst p, mkSt (kill_from n (store (snd p))) (mworld (snd p)) (trace (snd p))).

Lemma scoped_eq {X} (m : M X) st : scoped m st = closing (length (store st)) (m st).
Proof. unfold scoped, closing. destruct (m st); reflexivity. Qed.

Lemma st_eta (st : mstate) : mkSt (store st) (mworld st) (trace st) = st.
Proof. now destruct st. Qed.

(** ** The store *)
Lemma sub_snoc : forall p (o : obj) i,
  sub o (p ++ [i]) =
  match sub o p with
  | Some x => match nth_error (members x) i with Some (SVal y) => Some y | _ => None end
  | None => None
  end.
Proof.
  induction p as [|j p IH]; intros o i; cbn [app sub].
  - destruct (nth_error (members o) i) as [[y|y]|]; reflexivity.
  - destruct (nth_error (members o) j) as [[y|y]|]; auto.
Qed.

Lemma holds_member sto r o i x :
  holds sto r o -> nth_error (members o) i = Some (SVal x) -> holds sto (at_ r i) x.
Proof.
  intros (root & H1 & H2) Hi. exists root. split; [exact H1|].
  unfold at_; cbn [snd]. rewrite sub_snoc, H2, Hi. reflexivity.
Qed.

Lemma holds_fun sto r o o' : holds sto r o -> holds sto r o' -> o = o'.
Proof.
  intros (root & H1 & H2) (root' & H1' & H2').
  rewrite H1 in H1'. injection H1' as <-. congruence.
Qed.

Lemma holds_lt sto r o : holds sto r o -> fst r < length sto.
Proof. intros (root & H & _). apply nth_error_Some. congruence. Qed.

Lemma holds_app sto l r o : holds sto r o -> holds (sto ++ l) r o.
Proof.
  intros H. pose proof (holds_lt _ _ _ H) as Hl.
  destruct H as (root & H1 & H2). exists root. split; [|exact H2].
  now rewrite nth_error_app1.
Qed.

Lemma dangles_lt sto r o : dangles sto r o -> fst r < length sto.
Proof. intros (root & H & _). apply nth_error_Some. congruence. Qed.

Lemma dangles_app sto l r o : dangles sto r o -> dangles (sto ++ l) r o.
Proof.
  intros H. pose proof (dangles_lt _ _ _ H) as Hl.
  destruct H as (root & H1 & H2). exists root. split; [|exact H2].
  now rewrite nth_error_app1.
Qed.

Lemma holds_new sto o l : holds (sto ++ (true, o) :: l) (length sto, []) o.
Proof.
  exists o. cbn [fst snd sub]. split; [|reflexivity].
  rewrite nth_error_app2, Nat.sub_diag; [reflexivity|lia].
Qed.

Lemma slot_holds_app sto l c o : slot_holds sto c o -> slot_holds (sto ++ l) c o.
Proof. destruct c; cbn; auto. apply holds_app. Qed.

Lemma Forall2_holds_app {X} (f : X -> ref) sto l xs os :
  Forall2 (fun x o => holds sto (f x) o) xs os ->
  Forall2 (fun x o => holds (sto ++ l) (f x) o) xs os.
Proof. induction 1; constructor; auto. now apply holds_app. Qed.

Lemma Forall2_slots_app sto l cs os :
  Forall2 (slot_holds sto) cs os -> Forall2 (slot_holds (sto ++ l)) cs os.
Proof. induction 1; constructor; auto. now apply slot_holds_app. Qed.

Definition dead (c : cell) : cell := (false, snd c).

Lemma kill_app base cells :
  kill_from (length base) (base ++ cells) = base ++ map dead cells.
Proof.
  unfold kill_from, dead. rewrite firstn_app, skipn_app, Nat.sub_diag, firstn_all, skipn_all.
  cbn. now rewrite app_nil_r.
Qed.

Lemma nth_kill n (l : list cell) i : i < n -> nth_error (kill_from n l) i = nth_error l i.
Proof.
  intros H. unfold kill_from.
  destruct (lt_dec i (length l)) as [Hl|Hl].
  - rewrite nth_error_app1 by (rewrite firstn_length; lia).
    rewrite <- (firstn_skipn n l) at 2.
    rewrite nth_error_app1 by (rewrite firstn_length; lia). reflexivity.
  - rewrite (proj2 (nth_error_None l i)) by lia.
    apply nth_error_None.
    rewrite app_length, map_length, firstn_length, skipn_length. lia.
Qed.

Lemma nth_kill_ge n (l : list cell) i :
  n <= i -> n <= length l ->
  nth_error (kill_from n l) i = option_map dead (nth_error l i).
Proof.
  intros H Hl. unfold kill_from.
  rewrite nth_error_app2; rewrite firstn_length, Nat.min_l by lia; [|lia].
  fold dead. rewrite nth_error_map.
  rewrite <- (firstn_skipn n l) at 2.
  rewrite (nth_error_app2 (firstn n l)); rewrite firstn_length, Nat.min_l by lia; [reflexivity|lia].
Qed.

Lemma kill_length n (l : list cell) : length (kill_from n l) = length l.
Proof.
  unfold kill_from.
  rewrite app_length, map_length, firstn_length, skipn_length. lia.
Qed.

Lemma holds_dies n sto r o :
  n <= fst r -> holds sto r o -> dangles (kill_from n sto) r o.
Proof.
  intros Hn H. pose proof (holds_lt _ _ _ H) as Hl. destruct H as (root & H1 & H2).
  exists root. split; [|exact H2]. rewrite nth_kill_ge, H1 by lia. reflexivity.
Qed.

Lemma dangles_kill n sto r o :
  n <= length sto -> dangles sto r o -> dangles (kill_from n sto) r o.
Proof.
  intros Hn (root & H1 & H2). exists root. split; [|exact H2].
  destruct (lt_dec (fst r) n) as [Hl|Hl].
  - now rewrite nth_kill.
  - rewrite nth_kill_ge, H1 by lia. reflexivity.
Qed.

Lemma kill_ge (base c : list cell) n :
  length base <= n -> kill_from n (base ++ c) = base ++ kill_from (n - length base) c.
Proof.
  intros H. unfold kill_from. rewrite firstn_app, skipn_app, firstn_all2, skipn_all2 by lia.
  cbn [app]. now rewrite <- app_assoc.
Qed.

Lemma holds_kill n sto r o : fst r < n -> holds sto r o -> holds (kill_from n sto) r o.
Proof.
  intros Hn (root & H1 & H2). exists root. split; [|exact H2]. now rewrite nth_kill.
Qed.

(** ** Elementary operations *)
Lemma alive_ok st r o : holds (store st) r o -> alive C r st = (Done tt, st).
Proof. intros (root & H & _). unfold alive. now rewrite H. Qed.

Lemma peek_ok st r (o : obj) : holds (store st) r o -> peek r st = (Done o, st).
Proof. intros (root & H1 & H2). unfold peek. now rewrite H1, H2. Qed.

Lemma read_ok st r (o : obj) : holds (store st) r o -> read ve C r st = (Done o, st).
Proof.
  intros H. unfold read. erewrite bind_done by (eapply peek_ok; eassumption).
  destruct (obj_empty ve o); [reflexivity|].
  erewrite bind_done by (eapply alive_ok; eassumption). reflexivity.
Qed.

(** Reading a dead object: defined if dead objects keep their contents, or if there
    is nothing to read. *)
Lemma read_dead st r (o : obj) :
  dangles (store st) r o -> strict C = false \/ obj_empty ve o = true ->
  read ve C r st = (Done o, st).
Proof.
  intros (root & H1 & H2) Hs. unfold read, bind, peek. rewrite H1, H2.
  destruct (obj_empty ve o); [reflexivity|].
  destruct Hs as [Hs|Hs]; [|discriminate].
  unfold alive. now rewrite H1, Hs.
Qed.

Lemma read_dead_strict st r (o : obj) :
  dangles (store st) r o -> strict C = true -> obj_empty ve o = false ->
  read ve C r st = (Err Undefined, st).
Proof.
  intros (root & H1 & H2) Hs He. unfold read, bind, peek. rewrite H1, H2, He.
  unfold alive. now rewrite H1, Hs.
Qed.

Lemma update_length {X} n (x : X) l : length (update n x l) = length l.
Proof. revert n; induction l; intros [|n]; cbn; auto. Qed.

Lemma nth_update_eq {X} n (x : X) l : n < length l -> nth_error (update n x l) n = Some x.
Proof. revert n; induction l; intros [|n]; cbn; intros; try lia; auto. apply IHl. lia. Qed.

Lemma nth_update_neq {X} n m (x : X) l : n <> m -> nth_error (update n x l) m = nth_error l m.
Proof.
  revert n m; induction l; intros [|n] [|m]; cbn; intros; try congruence; auto.
Qed.

Lemma update_app_ge {X} n (x : X) l l' :
  length l <= n -> update n x (l ++ l') = l ++ update (n - length l) x l'.
Proof.
  revert n; induction l; intros n; cbn; intros.
  - now rewrite Nat.sub_0_r.
  - destruct n as [|n]; [lia|]. cbn. f_equal. apply IHl. lia.
Qed.

Lemma update_app_lt {X} n (x : X) l l' :
  n < length l -> update n x (l ++ l') = update n x l ++ l'.
Proof.
  revert n; induction l; intros n; cbn; intros; [lia|].
  destruct n as [|n]; [reflexivity|]. cbn. f_equal. apply IHl. lia.
Qed.

Lemma sub_put : forall p (o x y : obj), sub o p = Some y -> sub (put o p x) p = Some x.
Proof.
  induction p as [|i p IH]; intros o x y H; cbn [put sub] in *; [reflexivity|].
  destruct (nth_error (members o) i) as [[z|z]|] eqn:E; try discriminate.
  cbn [members sub]. rewrite nth_update_eq by (apply nth_error_Some; congruence).
  eapply IH; eassumption.
Qed.

Lemma write_ok st r (o x : obj) :
  holds (store st) r o ->
  exists sto', write C r x st = (Done tt, mkSt sto' (mworld st) (trace st)) /\
    holds sto' r x /\ length sto' = length (store st) /\
    forall i, i <> fst r -> nth_error sto' i = nth_error (store st) i.
Proof.
  intros H. unfold write.
  erewrite bind_done by (eapply alive_ok; eassumption).
  erewrite bind_done by (eapply peek_ok; eassumption).
  pose proof (holds_lt _ _ _ H) as Hl. destruct H as (root & H1 & H2). rewrite H1.
  eexists; split; [reflexivity|]. repeat split.
  - exists (put root (snd r) x). split.
    + now apply nth_update_eq.
    + eapply sub_put; eassumption.
  - apply update_length.
  - intros i Hi. apply nth_update_neq. congruence.
Qed.

(** A whole object. *)
Lemma write_whole st l (o x : obj) :
  nth_error (store st) l = Some (true, o) ->
  write C (l, []) x st =
  (Done tt, mkSt (update l (true, x) (store st)) (mworld st) (trace st)).
Proof.
  intros H. unfold write, bind, alive, peek. cbn [fst snd sub put]. rewrite !H. reflexivity.
Qed.

Lemma access_ok st r (b : obj) i c o :
  holds (store st) r b -> nth_error (members b) i = Some c ->
  slot_holds (store st) c o ->
  exists x, access r i st = (Done x, st) /\ holds (store st) x o /\
            x = match c with SVal _ => at_ r i | SRef r' => r' end.
Proof.
  intros H Hi Hc. unfold access. erewrite bind_done by (eapply peek_ok; eassumption).
  rewrite Hi. destruct c as [y|y]; cbn in Hc.
  - subst y. eexists; repeat split. eapply holds_member; eassumption.
  - eexists; repeat split; assumption.
Qed.

Lemma access_all st r (b : obj) : forall cs pre os,
  holds (store st) r b -> members b = pre ++ cs ->
  Forall2 (slot_holds (store st)) cs os ->
  exists xs, mapM (access r) (seq (length pre) (length cs)) st = (Done xs, st) /\
             Forall2 (holds (store st)) xs os /\
             forall i c, nth_error cs i = Some c ->
               nth_error xs i =
               Some (match c with SVal _ => at_ r (length pre + i) | SRef r' => r' end).
Proof.
  induction cs as [|c cs IH]; intros pre os Hb Hm Hc; inversion Hc; subst.
  - exists []. repeat split; [constructor|]. intros [|i]; discriminate.
  - cbn [length seq mapM].
    destruct (access_ok st r b (length pre) c y Hb) as (x & Hx & Hh & Hxe).
    { rewrite Hm, nth_error_app2, Nat.sub_diag; [reflexivity|lia]. }
    { assumption. }
    erewrite bind_done by exact Hx.
    destruct (IH (pre ++ [c]) l' Hb) as (xs & Hxs & Hf & Hn).
    { rewrite Hm, <- app_assoc. reflexivity. }
    { assumption. }
    rewrite app_length in Hxs; cbn [length] in Hxs. rewrite Nat.add_1_r in Hxs.
    erewrite bind_done by exact Hxs.
    exists (x :: xs). repeat split; [now constructor|].
    intros [|i] c'; cbn [nth_error]; intros E.
    + injection E as <-. rewrite Nat.add_0_r. now rewrite Hxe.
    + rewrite (Hn _ _ E). rewrite app_length. cbn [length].
      now rewrite <- Nat.add_assoc.
Qed.

Lemma capture_ok st a o :
  holds (store st) (aref a) o ->
  exists c, capture ve C a st = (Done c, st) /\ slot_holds (store st) c o /\
            c = match acat a with RV => SVal o | _ => SRef (aref a) end.
Proof.
  intros H. unfold capture. destruct (acat a).
  - eexists; repeat split. exact H.
  - eexists; repeat split. exact H.
  - erewrite bind_done by (eapply read_ok; eassumption). eexists; repeat split.
Qed.

Lemma capture_all st : forall args os,
  Forall2 (fun a o => holds (store st) (aref a) o) args os ->
  exists cs, mapM (capture ve C) args st = (Done cs, st) /\
             Forall2 (slot_holds (store st)) cs os.
Proof.
  induction args as [|a args IH]; intros os H; inversion H; subst.
  - exists []. repeat split. constructor.
  - cbn [mapM]. destruct (capture_ok st a y) as (c & Hc & Hs & _); [assumption|].
    erewrite bind_done by exact Hc.
    destruct (IH l') as (cs & Hcs & Hf); [assumption|].
    erewrite bind_done by exact Hcs. exists (c :: cs). repeat split. now constructor.
Qed.

Lemma read_all st : forall rs os,
  Forall2 (holds (store st)) rs os ->
  mapM (fun r => bind (read ve C r) (fun o => ret (SVal o))) rs st = (Done (map SVal os), st).
Proof.
  induction rs as [|r rs IH]; intros os H; inversion H; subst; [reflexivity|].
  cbn [mapM]. erewrite bind_done.
  2: { erewrite bind_done by (eapply read_ok; eassumption). reflexivity. }
  erewrite bind_done by (eapply IH; eassumption). reflexivity.
Qed.

Lemma element_ok st r (o e : obj) i :
  holds (store st) r o -> nth_error (members o) i = Some (SVal e) ->
  element ve C r i st = (Done (if obj_empty ve e then RVal e else RRef (at_ r i)), st).
Proof.
  intros H Hi. unfold element.
  erewrite bind_done by (eapply alive_ok; eassumption).
  erewrite bind_done by (eapply peek_ok; eassumption).
  rewrite Hi. destruct (obj_empty ve e); reflexivity.
Qed.

Lemma as_arg_elem st r (e : obj) i (o : obj) :
  holds (store st) r o -> nth_error (members o) i = Some (SVal e) ->
  exists a cells,
    as_arg (if obj_empty ve e then RVal e else RRef (at_ r i)) st =
      (Done a, mkSt (store st ++ cells) (mworld st) (trace st)) /\
    holds (store st ++ cells) (aref a) e /\
    (obj_empty ve e = false -> a = mkArg (at_ r i) LV) /\
    (obj_empty ve e = true -> aref a = (length (store st), [])).
Proof.
  intros H Hi. destruct (obj_empty ve e) eqn:E.
  - cbn [as_arg]. erewrite bind_done by reflexivity.
    exists (mkArg (length (store st), []) RV), [(true, e)]. repeat split.
    + apply holds_new.
    + discriminate.
  - exists (mkArg (at_ r i) LV), []. rewrite app_nil_r.
    cbn [as_arg]. rewrite st_eta. repeat split; [|discriminate].
    cbn [aref]. eapply holds_member; eassumption.
Qed.

Lemma bind_elem_ok st r (o e : obj) i :
  holds (store st) r o -> nth_error (members o) i = Some (SVal e) ->
  exists x cells,
    bind_elem ve C r i st = (Done x, mkSt (store st ++ cells) (mworld st) (trace st)) /\
    holds (store st ++ cells) x e /\
    (obj_empty ve e = false -> x = at_ r i) /\
    (obj_empty ve e = true -> x = (length (store st), [])).
Proof.
  intros H Hi. unfold bind_elem.
  erewrite bind_done by (eapply element_ok; eassumption).
  destruct (as_arg_elem st r e i o H Hi) as (a & cells & Ha & Hh & He & He').
  erewrite bind_done by exact Ha. exists (aref a), cells.
  repeat split; auto. intros E. now rewrite (He E).
Qed.

(** The elements of a compressed tuple as arguments: references to the elements,
    temporaries for those of empty class. *)
Lemma elements_from all : forall os k st t,
  holds (store st) t (ct all) ->
  (forall i, nth_error all (k + i) = nth_error os i) ->
  exists args cells,
    mapM (fun i => bind (get ve C t i) (fun e => as_arg e)) (seq k (length os)) st =
      (Done args, mkSt (store st ++ cells) (mworld st) (trace st)) /\
    Forall2 (fun a o => holds (store st ++ cells) (aref a) o) args os /\
    forall i o, nth_error os i = Some o ->
      (obj_empty ve o = false -> nth_error args i = Some (mkArg (at_ t (k + i)) LV)) /\
      (obj_empty ve o = true -> exists a, nth_error args i = Some a /\ length (store st) <= fst (aref a)).
Proof.
  induction os as [|o os IH]; intros k st t Ht Hn.
  - exists [], []. rewrite app_nil_r, st_eta. repeat split; [constructor| |]; destruct i; discriminate.
  - cbn [length seq mapM].
    assert (Hk : nth_error (members (ct all)) k = Some (SVal o)).
    { cbn [ct members]. rewrite nth_error_map.
      specialize (Hn 0). rewrite Nat.add_0_r in Hn. rewrite Hn. reflexivity. }
    destruct (as_arg_elem st t o k (ct all) Ht Hk) as (a & cells & Ha & Hh & He & He').
    erewrite bind_done.
    2: { unfold get. rewrite bind_assoc.
         erewrite bind_done by (eapply peek_ok; eassumption). cbn [ct kind_of].
         erewrite bind_done by (eapply element_ok; eassumption). exact Ha. }
    edestruct (IH (Datatypes.S k) (mkSt (store st ++ cells) (mworld st) (trace st)) t) as (args & cells' & Hm & Hf & Hx).
    { cbn [store]. now apply holds_app. }
    { intros i. specialize (Hn (Datatypes.S i)). cbn [nth_error] in Hn. rewrite <- Hn. f_equal. lia. }
    cbn [store mworld trace] in *.
    erewrite bind_done by exact Hm.
    exists (a :: args), (cells ++ cells'). rewrite app_assoc. repeat split.
    + constructor; [now apply holds_app|assumption].
    + destruct i as [|i]; cbn [nth_error] in *; intros E.
      * injection H as <-. rewrite Nat.add_0_r, (He E). reflexivity.
      * destruct (Hx _ _ H) as [Hx1 _]. rewrite (Hx1 E). do 3 f_equal. lia.
    + destruct i as [|i]; cbn [nth_error] in *; intros E.
      * injection H as <-. exists a. split; [reflexivity|]. rewrite (He' E). cbn. lia.
      * destruct (Hx _ _ H) as [_ Hx2]. destruct (Hx2 E) as (a' & Ha' & Hl).
        exists a'. split; [assumption|]. rewrite app_length in Hl. lia.
Qed.

Lemma elements_ok st t os :
  holds (store st) t (ct os) ->
  exists args cells,
    elements ve C t st = (Done args, mkSt (store st ++ cells) (mworld st) (trace st)) /\
    Forall2 (fun a o => holds (store st ++ cells) (aref a) o) args os /\
    forall i o, nth_error os i = Some o ->
      (obj_empty ve o = false -> nth_error args i = Some (mkArg (at_ t i) LV)) /\
      (obj_empty ve o = true -> exists a, nth_error args i = Some a /\ length (store st) <= fst (aref a)).
Proof.
  intros H. unfold elements. erewrite bind_done by (eapply peek_ok; eassumption).
  cbn [ct members]. rewrite map_length.
  exact (elements_from os os 0 st t H (fun i => eq_refl)).
Qed.

Lemma ct_empty (os : list obj) : obj_empty ve (ct os) = forallb (obj_empty ve) os.
Proof.
  unfold ct. cbn [obj_empty kind_empty andb].
  induction os as [|o os IH]; cbn [map forallb]; [reflexivity|]. now rewrite IH.
Qed.

(** ** Binders *)

Lemma invoke_S n r args st (o : obj) :
  holds (store st) r o ->
  invoke ve C U (Datatypes.S n) r args st =
  (match kind_of o with
   | KFun f s => call_user ve C U r f s args
   | KBindBack => call_bind_back (invoke ve C U n) r (length (members o)) args
   | KBindFront => call_bind_front (invoke ve C U n) r (length (members o)) args
   | KFrontTuple => call_front_tuple ve C (invoke ve C U n) r args
   | KBackTuple => call_back_tuple ve C (invoke ve C U n) r args
   | KReg => call_reg ve C (invoke ve C U n) args
   | KUnreg => call_unreg ve C (invoke ve C U n) args
   | KUnwrapCall => call_unwrap_call ve C (invoke ve C U n) args
   | KUnwrap => call_unwrap ve C (invoke ve C U n) r args
   | KCore => call_core ve C U (invoke ve C U n) r args
   | KLazyVal => call_lazy_val ve C args
   | KSample => call_sample ve C (invoke ve C U n) args
   | KRefWrap => call_ref_wrap (invoke ve C U n) r args
   | _ => fail IllFormed
   end) st.
Proof.
  intros H. cbn [invoke].
  erewrite bind_done by (eapply alive_ok; eassumption).
  erewrite bind_done by (eapply peek_ok; eassumption). reflexivity.
Qed.

Definition LVs (rs : list ref) : list arg := map (fun r => mkArg r LV) rs.
Definition RVs (rs : list ref) : list arg := map (fun r => mkArg r RV) rs.

(** C38: the closure made by [bind_back] forwards to the bound function. *)
Lemma bind_back_call n r args st c cs f os :
  holds (store st) r (Node KBindBack (c :: cs)) ->
  slot_holds (store st) c f -> Forall2 (slot_holds (store st)) cs os ->
  exists x bs,
    invoke ve C U (Datatypes.S n) r args st = invoke ve C U n x (args ++ LVs bs) st /\
    holds (store st) x f /\ Forall2 (holds (store st)) bs os /\
    x = match c with SVal _ => at_ r 0 | SRef r' => r' end /\
    forall i d, nth_error cs i = Some d ->
      nth_error bs i = Some (match d with SVal _ => at_ r (1 + i) | SRef r' => r' end).
Proof.
  intros H Hc Hcs. rewrite (invoke_S _ _ _ _ _ H). cbn [kind_of members length].
  unfold call_bind_back.
  destruct (access_ok st r _ 0 c f H eq_refl Hc) as (x & Hx & Hxh & Hxe).
  erewrite bind_done by exact Hx.
  destruct (access_all st r _ cs [c] os H eq_refl Hcs) as (bs & Hbs & Hf & Hn).
  cbn [length] in Hbs, Hn. cbn [Nat.sub]. rewrite Nat.sub_0_r.
  erewrite bind_done by exact Hbs.
  exists x, bs. repeat split; auto.
Qed.

Lemma bind_front_call n r args st c cs f os :
  holds (store st) r (Node KBindFront (c :: cs)) ->
  slot_holds (store st) c f -> Forall2 (slot_holds (store st)) cs os ->
  exists x bs,
    invoke ve C U (Datatypes.S n) r args st = invoke ve C U n x (RVs bs ++ args) st /\
    holds (store st) x f /\ Forall2 (holds (store st)) bs os /\
    x = match c with SVal _ => at_ r 0 | SRef r' => r' end.
Proof.
  intros H Hc Hcs. rewrite (invoke_S _ _ _ _ _ H). cbn [kind_of members length].
  unfold call_bind_front.
  destruct (access_ok st r _ 0 c f H eq_refl Hc) as (x & Hx & Hxh & Hxe).
  erewrite bind_done by exact Hx.
  destruct (access_all st r _ cs [c] os H eq_refl Hcs) as (bs & Hbs & Hf & Hn).
  cbn [length] in Hbs, Hn. cbn [Nat.sub]. rewrite Nat.sub_0_r.
  erewrite bind_done by exact Hbs.
  exists x, bs. repeat split; auto.
Qed.

Definition elem_args (r : ref) (n0 : nat) (os : list obj) (args : list arg) : Prop :=
  forall i o, nth_error os i = Some o ->
    (obj_empty ve o = false -> nth_error args i = Some (mkArg (at_ (at_ r 1) i) LV)) /\
    (obj_empty ve o = true -> exists a, nth_error args i = Some a /\ n0 <= fst (aref a)).

Lemma elem_refs st r t os args n0 :
  n0 <= length (store st) ->
  (obj_empty ve (ct os) = false -> t = at_ r 1) ->
  (forall i o, nth_error os i = Some o ->
      (obj_empty ve o = false -> nth_error args i = Some (mkArg (at_ t i) LV)) /\
      (obj_empty ve o = true -> exists a, nth_error args i = Some a /\ length (store st) <= fst (aref a))) ->
  elem_args r n0 os args.
Proof.
  intros Hn Ht H i o Ho. destruct (H i o Ho) as [H1 H2]. split; intros E.
  - rewrite <- Ht; [now apply H1|]. rewrite ct_empty.
    destruct (forallb (obj_empty ve) os) eqn:Ea; [|reflexivity].
    rewrite forallb_forall in Ea. rewrite <- E. symmetry. apply Ea.
    eapply nth_error_In; eassumption.
  - destruct (H2 E) as (a & Ha & Hl). exists a. split; [assumption|]. lia.
Qed.

(** C39: the result of [t >> f] calls [f] (in place, unless it is of an empty class)
    with the elements, then the arguments of the call. *)
Lemma front_tuple_call n r args st f os avs :
  holds (store st) r (right_obj f os) ->
  Forall2 (fun a o => holds (store st) (aref a) o) args avs ->
  exists cells x es bs,
    let st' := mkSt (store st ++ cells) (mworld st) (trace st) in
    invoke ve C U (2 + n) r args st =
      closing (length (store st)) (invoke ve C U n x (es ++ LVs bs) st') /\
    holds (store st') x f /\
    Forall2 (fun a o => holds (store st') (aref a) o) es os /\
    Forall2 (holds (store st')) bs avs /\
    (obj_empty ve f = false -> x = at_ r 0) /\
    (obj_empty ve f = true -> length (store st) <= fst x) /\
    elem_args r (length (store st)) os es /\
    (forall i a, nth_error args i = Some a ->
       match acat a with
       | RV => exists b, nth_error bs i = Some b /\ length (store st) <= fst b
       | _ => nth_error bs i = Some (aref a)
       end).
Proof.
  intros H Ha. change (2 + n) with (Datatypes.S (1 + n)).
  rewrite (invoke_S _ _ _ _ _ H). cbn [kind_of right_obj members length].
  unfold call_front_tuple. rewrite scoped_eq.
  destruct (bind_elem_ok st r _ f 0 H eq_refl) as (x & c1 & Hx & Hxh & Hxe & Hxe').
  erewrite bind_done by exact Hx.
  set (st1 := mkSt (store st ++ c1) (mworld st) (trace st)).
  assert (H1 : holds (store st1) r (right_obj f os)) by (now apply holds_app).
  destruct (bind_elem_ok st1 r _ (ct os) 1 H1 eq_refl) as (t & c2 & Ht & Hth & Hte & Hte').
  erewrite bind_done by exact Ht.
  set (st2 := mkSt (store st1 ++ c2) (mworld st1) (trace st1)).
  assert (Ha2 : Forall2 (fun a o => holds (store st2) (aref a) o) args avs).
  { cbn [st2 st1 store]. apply Forall2_holds_app. apply Forall2_holds_app; auto. }
  destruct (capture_all st2 args avs Ha2) as (cs & Hcs & Hcf).
  erewrite bind_done by exact Hcs.
  erewrite bind_done by reflexivity.
  set (st3 := mkSt (store st2 ++ [(true, Node KBindBack (SRef x :: cs))]) (mworld st2) (trace st2)).
  assert (Ht3 : holds (store st3) t (ct os)) by (now apply holds_app).
  destruct (elements_ok st3 t os Ht3) as (es & c4 & Hes & Hef & Hee).
  erewrite bind_done by exact Hes.
  set (st4 := mkSt (store st3 ++ c4) (mworld st3) (trace st3)).
  assert (Hb : holds (store st4) (length (store st2), []) (Node KBindBack (SRef x :: cs))).
  { cbn [st4 store]. apply holds_app. apply holds_new. }
  assert (Hx4 : holds (store st4) x f).
  { cbn [st4 st3 st2 st1 store]. do 3 apply holds_app. exact Hxh. }
  assert (Hcf4 : Forall2 (slot_holds (store st4)) cs avs).
  { cbn [st4 st3 store]. do 2 apply Forall2_slots_app. exact Hcf. }
  destruct (bind_back_call n _ es st4 (SRef x) cs f avs Hb Hx4 Hcf4) as (x' & bs & Hi & Hx'h & Hbf & Hx' & Hbn).
  subst x'.
  exists (c1 ++ c2 ++ [(true, Node KBindBack (SRef x :: cs))] ++ c4), x, es, bs.
  assert (Est : mkSt (store st ++ c1 ++ c2 ++ [(true, Node KBindBack (SRef x :: cs))] ++ c4)
                  (mworld st) (trace st) = st4).
  { unfold st4, st3, st2, st1. cbn [store mworld trace]. f_equal. now rewrite <- !app_assoc. }
  cbv zeta. rewrite Est. split; [|split; [|split; [|split; [|split; [|split; [|split]]]]]].
  - f_equal. exact Hi.
  - exact Hx4.
  - exact Hef.
  - exact Hbf.
  - exact Hxe.
  - intros E. rewrite (Hxe' E). cbn. lia.
  - apply (elem_refs st3 r t).
    + cbn [st3 st2 st1 store]. rewrite !app_length. lia.
    + exact Hte.
    + exact Hee.
  - intros i a Hia.
    assert (Hci : exists c, nth_error cs i = Some c /\
              c = match acat a with RV => c | _ => SRef (aref a) end /\
              (acat a = RV -> exists o, c = SVal o)).
    { clear - Hcs Hia Ha2. revert Hcs Hia Ha2. generalize cs, avs, i.
      induction args as [|a0 args IH]; intros cs0 avs0 i0 Hcs Hia Ha2; [destruct i0; discriminate|].
      inversion Ha2; subst. cbn [mapM] in Hcs.
      destruct (capture_ok st2 a0 y H1) as (c & Hc & _ & Hce).
      erewrite bind_done in Hcs by exact Hc.
      destruct (capture_all st2 args l' H3) as (cs1 & Hcs1 & _).
      erewrite bind_done in Hcs by exact Hcs1. injection Hcs as <-.
      destruct i0 as [|i0]; cbn [nth_error] in *.
      - injection Hia as <-. exists c. split; [reflexivity|].
        rewrite Hce. destruct (acat a0); split; try reflexivity; try discriminate. now exists y.
      - eapply IH; eassumption. }
    destruct Hci as (c & Hc & Hc1 & Hc2). specialize (Hbn _ _ Hc).
    destruct (acat a).
    + rewrite Hbn, Hc1. reflexivity.
    + rewrite Hbn, Hc1. reflexivity.
    + destruct (Hc2 eq_refl) as [o ->]. eexists; split; [exact Hbn|].
      cbn. rewrite !app_length. lia.
Qed.

(** C40: the result of [t << f], as written, calls a copy of [f] with copies of the
    arguments of the call, then the elements. *)
Lemma back_tuple_call n r args st f os avs :
  byref C = false ->
  holds (store st) r (left_obj f os) ->
  Forall2 (fun a o => holds (store st) (aref a) o) args avs ->
  exists cells x es bs,
    let st' := mkSt (store st ++ cells) (mworld st) (trace st) in
    invoke ve C U (2 + n) r args st =
      closing (length (store st)) (invoke ve C U n x (RVs bs ++ es) st') /\
    holds (store st') x f /\
    Forall2 (fun a o => holds (store st') (aref a) o) es os /\
    Forall2 (holds (store st')) bs avs /\
    length (store st) <= fst x /\
    elem_args r (length (store st)) os es.
Proof.
  intros HC H Ha. change (2 + n) with (Datatypes.S (1 + n)).
  rewrite (invoke_S _ _ _ _ _ H). cbn [kind_of left_obj members length].
  unfold call_back_tuple. rewrite scoped_eq.
  destruct (bind_elem_ok st r _ f 0 H eq_refl) as (x & c1 & Hx & Hxh & Hxe & Hxe').
  erewrite bind_done by exact Hx.
  set (st1 := mkSt (store st ++ c1) (mworld st) (trace st)).
  assert (H1 : holds (store st1) r (left_obj f os)) by (now apply holds_app).
  destruct (bind_elem_ok st1 r _ (ct os) 1 H1 eq_refl) as (t & c2 & Ht & Hth & Hte & Hte').
  erewrite bind_done by exact Ht.
  set (st2 := mkSt (store st1 ++ c2) (mworld st1) (trace st1)).
  assert (Ha2 : Forall2 (fun a o => holds (store st2) (aref a) o) args avs).
  { cbn [st2 st1 store]. apply Forall2_holds_app. apply Forall2_holds_app; auto. }
  assert (Hr : Forall2 (holds (store st2)) (x :: map aref args) (f :: avs)).
  { constructor; [now apply holds_app|]. clear - Ha2. induction Ha2; constructor; auto. }
  rewrite HC.
  erewrite bind_done by (apply read_all; exact Hr).
  erewrite bind_done by reflexivity.
  set (B := Node KBindFront (map SVal (f :: avs))).
  set (st3 := mkSt (store st2 ++ [(true, B)]) (mworld st2) (trace st2)).
  assert (Ht3 : holds (store st3) t (ct os)) by (now apply holds_app).
  destruct (elements_ok st3 t os Ht3) as (es & c4 & Hes & Hef & Hee).
  erewrite bind_done by exact Hes.
  set (st4 := mkSt (store st3 ++ c4) (mworld st3) (trace st3)).
  assert (Hb : holds (store st4) (length (store st2), []) B).
  { cbn [st4 store]. apply holds_app. apply holds_new. }
  assert (Hcf4 : Forall2 (slot_holds (store st4)) (map SVal avs) avs).
  { generalize (store st4). clear. intros sto. induction avs; cbn; constructor; auto. reflexivity. }
  destruct (bind_front_call n _ es st4 (SVal f) (map SVal avs) f avs Hb eq_refl Hcf4)
    as (x' & bs & Hi & Hx'h & Hbf & Hx').
  exists (c1 ++ c2 ++ [(true, B)] ++ c4), x', es, bs.
  assert (Est : mkSt (store st ++ c1 ++ c2 ++ [(true, B)] ++ c4)
                  (mworld st) (trace st) = st4).
  { unfold st4, st3, st2, st1. cbn [store mworld trace]. f_equal. now rewrite <- !app_assoc. }
  cbv zeta. rewrite Est. split; [|split; [|split; [|split; [|split]]]].
  - f_equal. exact Hi.
  - exact Hx'h.
  - exact Hef.
  - exact Hbf.
  - subst x'. cbn. rewrite !app_length. lia.
  - apply (elem_refs st3 r t).
    + cbn [st3 st2 st1 store]. rewrite !app_length. lia.
    + exact Hte.
    + exact Hee.
Qed.

(** ** By-value parameters and user functions *)
Lemma by_value_ok st a o :
  holds (store st) (aref a) o ->
  by_value ve C a st =
  (Done (length (store st), []), mkSt (store st ++ [(true, o)]) (mworld st) (trace st)).
Proof. intros H. unfold by_value. erewrite bind_done by (eapply read_ok; eassumption). reflexivity. Qed.

Definition locals (n k : nat) : list ref := map (fun i => (i, [])) (seq n k).

Lemma by_value_all : forall args os st,
  Forall2 (fun a o => holds (store st) (aref a) o) args os ->
  mapM (by_value ve C) args st =
  (Done (locals (length (store st)) (length os)),
   mkSt (store st ++ map (fun o => (true, o)) os) (mworld st) (trace st)).
Proof.
  induction args as [|a args IH]; intros os st H; inversion H; subst.
  - cbn. now rewrite app_nil_r, st_eta.
  - cbn [mapM]. erewrite bind_done by (apply by_value_ok; eassumption).
    erewrite bind_done.
    2: { apply IH. cbn [store]. apply Forall2_holds_app. eassumption. }
    cbn [store mworld trace]. unfold ret, locals.
    rewrite <- app_assoc. cbn [length map app]. rewrite app_length. cbn [length].
    rewrite Nat.add_1_r. reflexivity.
Qed.

Lemma locals_hold sto l os k :
  k = length sto ->
  Forall2 (holds (sto ++ map (fun o => (true, o)) os ++ l)) (locals k (length os)) os.
Proof.
  intros ->. revert sto. induction os as [|o os IH]; intros sto; cbn [length locals seq map app]; constructor.
  - apply holds_new.
  - specialize (IH (sto ++ [(true, o)])).
    rewrite app_length in IH. cbn [length] in IH. rewrite Nat.add_1_r in IH.
    rewrite <- app_assoc in IH. exact IH.
Qed.

Lemma read_values st : forall args vs,
  Forall2 (fun a v => holds (store st) (aref a) (data v)) args vs ->
  mapM (fun a => bind (read ve C (aref a)) value_of) args st = (Done vs, st).
Proof.
  induction args as [|a args IH]; intros vs H; inversion H; subst; [reflexivity|].
  cbn [mapM]. erewrite bind_done.
  2: { erewrite bind_done by (eapply read_ok; eassumption). reflexivity. }
  erewrite bind_done by (eapply IH; eassumption). reflexivity.
Qed.

(** Assigning to consecutive local variables. *)
Lemma write_args_locals : forall vs vs' pre st,
  store st = pre ++ map (fun v => (true, data v)) vs ->
  write_args C (LVs (locals (length pre) (length vs))) vs' st =
  (Done tt, mkSt (pre ++ map (fun v => (true, data v)) (overwrite vs vs')) (mworld st) (trace st)).
Proof.
  induction vs as [|v vs IH]; intros vs' pre st Hs.
  - cbn [length locals seq map LVs write_args overwrite]. change (map (fun v : value => (true, data v)) []) with (@nil cell) in Hs.
    rewrite <- Hs, st_eta. reflexivity.
  - cbn [length locals seq map LVs write_args]. destruct vs' as [|v' vs'].
    + cbn [overwrite]. rewrite <- Hs, st_eta. reflexivity.
    + cbn [acat aref].
      erewrite bind_done.
      2: { eapply write_whole. rewrite Hs, nth_error_app2, Nat.sub_diag; [reflexivity|lia]. }
      specialize (IH vs' (pre ++ [(true, data v')])).
      rewrite app_length in IH. cbn [length] in IH. rewrite Nat.add_1_r in IH.
      erewrite IH.
      * cbn [store mworld trace overwrite map]. rewrite <- app_assoc. reflexivity.
      * cbn [store]. rewrite Hs, update_app_ge, Nat.sub_diag by lia.
        cbn. now rewrite <- app_assoc.
Qed.

Lemma overwrite_length (vs vs' : list value) : length (overwrite vs vs') = length vs.
Proof. revert vs'. induction vs as [|a vs IH]; intros [|b vs']; cbn; auto. Qed.

Lemma local_holds : forall i (vs : list value) v (pre : list cell) k,
  k = length pre -> nth_error vs i = Some v ->
  nth_error (LVs (locals k (length vs))) i = Some (mkArg (k + i, []) LV) /\
  holds (pre ++ map (fun v => (true, data v)) vs) (k + i, []) (data v).
Proof.
  induction i as [|i IH]; intros [|v0 vs] v pre k -> Hv; try discriminate.
  - injection Hv as ->. cbn [length locals seq map LVs nth_error]. rewrite Nat.add_0_r.
    split; [reflexivity|]. apply holds_new.
  - cbn [nth_error] in Hv. cbn [length locals seq map LVs nth_error].
    destruct (IH vs v (pre ++ [(true, data v0)]) (Datatypes.S (length pre))) as [H1 H2].
    { rewrite app_length. cbn. lia. }
    { assumption. }
    rewrite <- app_assoc in H2. rewrite Nat.add_succ_r. split; assumption.
Qed.

Definition ures_result (r : ures A) (args : list arg) : outcome (result A F S) :=
  match r with
  | URet v => Done (RVal (data v))
  | URefArg i => match nth_error args i with Some a => Done (RRef (aref a)) | None => Err IllFormed end
  | UVoid => Done RVoid
  | UThrow => Err Throw
  end.

(** A user function object that is a whole local variable, called with local
    variables. *)
Lemma call_local pre f s vs st args n :
  store st = pre ++ (true, fun_obj f s) :: map (fun v => (true, data v)) vs ->
  args = LVs (locals (Datatypes.S (length pre)) (length vs)) ->
  let '(s', vs', r, w') := usem U f s vs (mworld st) in
  invoke ve C U (Datatypes.S n) (length pre, []) args st =
  (ures_result r args,
   mkSt (pre ++ (true, fun_obj f (new_state s s')) ::
           map (fun v => (true, data v)) (overwrite vs vs')) w' (trace st ++ [MCall f vs])).
Proof.
  intros Hs ->.
  destruct (usem U f s vs (mworld st)) as [[[s' vs'] r] w'] eqn:Hu.
  assert (Hh : holds (store st) (length pre, []) (fun_obj f s)).
  { rewrite Hs. apply holds_new. }
  rewrite (invoke_S _ _ _ _ _ Hh). cbn [kind_of fun_obj]. unfold call_user.
  erewrite bind_done.
  2: { apply (read_values st _ vs).
       assert (G : Forall2 (holds (store st)) (locals (Datatypes.S (length pre)) (length vs)) (map data vs)).
       { rewrite Hs. rewrite <- (map_length (@data A F S) vs).
         change ((true, fun_obj f s) :: map (fun v => (true, data v)) vs)
           with ([(true, fun_obj f s)] ++ map (fun v => (true, data v)) vs).
         rewrite app_assoc.
         replace (map (fun v : value => (true, data v)) vs)
           with (map (fun o : obj => (true, o)) (map data vs) ++ [])
           by (rewrite app_nil_r, map_map; reflexivity).
         apply locals_hold. rewrite app_length. cbn. lia. }
       clear - G. unfold LVs. revert G.
       generalize (locals (Datatypes.S (length pre)) (length vs)) as l. intros l.
       revert vs. induction l as [|x l IH]; intros [|v vs] G; cbn [map] in *; inversion G; subst;
         constructor; auto. }
  erewrite bind_done by reflexivity.
  erewrite bind_done by (cbn [log mworld store trace]; rewrite Hu; reflexivity).
  cbn [store mworld trace].
  erewrite bind_done.
  2: { eapply write_whole. cbn [store]. rewrite Hs, nth_error_app2, Nat.sub_diag; [reflexivity|lia]. }
  cbn [store mworld trace].
  erewrite bind_done.
  2: { replace (Datatypes.S (length pre)) with (length (pre ++ [(true, fun_obj f (new_state s s'))]))
         by (rewrite app_length; cbn; lia).
       apply write_args_locals. cbn [store].
       rewrite Hs, update_app_ge, Nat.sub_diag by lia. cbn. now rewrite <- app_assoc. }
  cbn [store mworld trace]. rewrite <- app_assoc. cbn [app].
  destruct r as [v|i| |]; try reflexivity.
  cbn [ures_result]. destruct (nth_error _ i); reflexivity.
Qed.

End Lib.
