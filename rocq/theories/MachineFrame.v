(** What writing to plain data and calling a user function leave alone. *)
From Coq Require Import List Bool Arith Lia.
From Verif Require Import Value Machine MachineSpec MachineLib.
Import ListNotations.

Section Frame.
Context {A W F S : Type}.
Notation value := (val A).
Notation obj := (obj A F S).
Notation slot := (slot A F S).
Notation cell := (bool * obj)%type.
Notation mstate := (mstate A W F S).
Notation mevent := (mevent A F).
Notation data := (@Machine.data A F S).
Variable ve : value -> bool.
Variable C : config.
Variable U : muser A W F S.
Implicit Type st : mstate.

(** An object without parts, such as plain data or a user's function object. *)
Definition leaf (o : obj) : Prop := members o = [].

Definition slot_like (a b : slot) : Prop :=
  match a, b with
  | SRef r, SRef r' => r = r'
  | SVal _, SVal _ => True
  | _, _ => False
  end.

Lemma slot_like_refl a : slot_like a a.
Proof. now destruct a. Qed.

Lemma slots_like_refl ms : Forall2 slot_like ms ms.
Proof. induction ms; constructor; auto using slot_like_refl. Qed.

Lemma slots_like_update ms i o x :
  nth_error ms i = Some (SVal o) -> Forall2 slot_like ms (update i (SVal x) ms).
Proof.
  revert i. induction ms as [|m ms IH]; intros [|i] H; cbn in *; try discriminate.
  - injection H as ->. constructor; [exact I|apply slots_like_refl].
  - constructor; [apply slot_like_refl|now apply IH].
Qed.

(** [put] of a leaf for a leaf: other leaves stay, and everything keeps its shape. *)
Lemma put_leaf : forall p (root o x : obj) q o',
  sub root p = Some o -> leaf o -> leaf x -> sub root q = Some o' -> leaf o' -> q <> p ->
  sub (put root p x) q = Some o'.
Proof.
  induction p as [|i p IH]; intros root o x q o' Hp Ho Hx Hq Ho' Hne.
  - cbn [sub] in Hp. injection Hp as ->. destruct q as [|j q]; [easy|].
    cbn [sub] in Hq. rewrite Ho in Hq. destruct j; discriminate.
  - cbn [sub] in Hp. destruct (nth_error (members root) i) as [[z|z]|] eqn:Ez; try discriminate.
    cbn [put]. rewrite Ez. destruct q as [|j q].
    + cbn [sub] in Hq. injection Hq as ->. rewrite Ho' in Ez. destruct i; discriminate.
    + cbn [sub members] in *. destruct (Nat.eq_dec i j) as [<-|Hij].
      * rewrite Ez in Hq. rewrite nth_update_eq by (apply nth_error_Some; congruence).
        eapply IH; eauto. congruence.
      * rewrite nth_update_neq by exact Hij. exact Hq.
Qed.

Lemma put_shape : forall p (root o x : obj) q k ms,
  sub root p = Some o -> leaf o -> sub root q = Some (Node k ms) -> ms <> [] ->
  exists ms', sub (put root p x) q = Some (Node k ms') /\ Forall2 slot_like ms ms'.
Proof.
  induction p as [|i p IH]; intros root o x q k ms Hp Ho Hq Hms.
  - cbn [sub] in Hp. injection Hp as ->. destruct q as [|j q].
    + cbn [sub] in Hq. injection Hq as ->. now elim Hms.
    + cbn [sub] in Hq. rewrite Ho in Hq. destruct j; discriminate.
  - cbn [sub] in Hp. destruct (nth_error (members root) i) as [[z|z]|] eqn:Ez; try discriminate.
    cbn [put]. rewrite Ez. destruct q as [|j q].
    + cbn [sub] in Hq. injection Hq as ->. cbn [members kind_of sub] in *.
      eexists; split; [reflexivity|]. eapply slots_like_update; exact Ez.
    + cbn [sub members] in *. destruct (Nat.eq_dec i j) as [<-|Hij].
      * rewrite Ez in Hq. rewrite nth_update_eq by (apply nth_error_Some; congruence).
        eapply IH; eauto.
      * rewrite nth_update_neq by exact Hij. exists ms. split; [exact Hq|apply slots_like_refl].
Qed.

(** Stores with the same objects, of the same shapes. *)
Definition alike (sto sto' : list cell) : Prop :=
  length sto' = length sto /\
  (forall r k ms, ms <> [] -> holds sto r (Node k ms) ->
     exists ms', holds sto' r (Node k ms') /\ Forall2 slot_like ms ms') /\
  (forall i o, nth_error sto i = Some (false, o) -> nth_error sto' i = Some (false, o)).

Lemma slots_like_trans a b c : Forall2 slot_like a b -> Forall2 slot_like b c -> Forall2 slot_like a c.
Proof.
  intros H. revert c. induction H as [|x y a b Hxy _ IH]; intros c Hc; inversion Hc as [|? z ? c' Hyz Hc']; subst; constructor.
  - destruct x, y, z; cbn in *; congruence || contradiction || auto.
  - now apply IH.
Qed.

Lemma alike_refl sto : alike sto sto.
Proof.
  repeat split; auto. intros r k ms _ H. exists ms. split; [exact H|apply slots_like_refl].
Qed.

Lemma alike_trans a b c : alike a b -> alike b c -> alike a c.
Proof.
  intros (L1 & H1 & D1) (L2 & H2 & D2). split; [congruence|split; [|auto]].
  intros r k ms Hms H. destruct (H1 r k ms Hms H) as (ms1 & H1' & E1).
  destruct (H2 r k ms1) as (ms2 & H2' & E2); [|exact H1'|].
  - intros ->. inversion E1; subst. now elim Hms.
  - exists ms2. split; [exact H2'|]. eapply slots_like_trans; eassumption.
Qed.

(** Leaves other than those at [rs] stay. *)
Definition keeps (rs : list ref) (sto sto' : list cell) : Prop :=
  forall r o, leaf o -> holds sto r o -> ~ In r rs -> holds sto' r o.

Lemma write_leaf st r (o x : obj) :
  holds (store st) r o -> leaf o -> leaf x ->
  exists sto', write C r x st = (Done tt, mkSt sto' (mworld st) (trace st)) /\
    holds sto' r x /\ alike (store st) sto' /\ keeps [r] (store st) sto'.
Proof.
  intros H Ho Hx. unfold write.
  erewrite bind_done by (eapply alive_ok; eassumption).
  erewrite bind_done by (eapply peek_ok; eassumption).
  pose proof (holds_lt _ _ _ H) as Hl. destruct H as (root & H1 & H2). rewrite H1.
  eexists; split; [reflexivity|].
  assert (E : nth_error (update (fst r) (true, put root (snd r) x) (store st)) (fst r)
              = Some (true, put root (snd r) x)) by (now apply nth_update_eq).
  split; [|split; [split; [|split]|]].
  - exists (put root (snd r) x). split; [exact E|]. eapply sub_put; eassumption.
  - apply update_length.
  - intros [l q] k ms Hms (root' & Hr1 & Hr2). cbn [fst snd] in *.
    destruct (Nat.eq_dec l (fst r)) as [->|Hne].
    + rewrite H1 in Hr1. injection Hr1 as <-.
      destruct (put_shape _ _ _ x _ _ _ H2 Ho Hr2 Hms) as (ms' & Hs & Hm).
      exists ms'. split; [|exact Hm]. eexists; split; [exact E|exact Hs].
    + exists ms. split; [|apply slots_like_refl]. exists root'. split; [|exact Hr2].
      cbn [fst]. rewrite nth_update_neq; auto.
  - intros i o' Hi. rewrite nth_update_neq; [exact Hi|]. intros E2. rewrite <- E2 in Hi. congruence.
  - intros [l q] o' Ho' (root' & Hr1 & Hr2) Hni. cbn [fst snd] in *.
    destruct (Nat.eq_dec l (fst r)) as [->|Hne].
    + rewrite H1 in Hr1. injection Hr1 as <-. eexists; split; [exact E|]. cbn [snd].
      eapply put_leaf; eauto. intros ->. apply Hni. left. now destruct r.
    + exists root'. split; [|exact Hr2]. cbn [fst]. rewrite nth_update_neq; auto.
Qed.

Lemma keeps_trans rs a b c : keeps rs a b -> keeps rs b c -> keeps rs a c.
Proof. intros H1 H2 r o Ho H Hn. apply H2; auto. Qed.

Lemma keeps_incl rs rs' a b : incl rs rs' -> keeps rs a b -> keeps rs' a b.
Proof. intros Hi H r o Ho Hr Hn. apply H; auto. Qed.

(** Assigning to the arguments, whether or not they overlap. *)
Lemma write_args_ok : forall args vs vs' st,
  Forall2 (fun a v => holds (store st) (aref a) (data v)) args vs ->
  exists sto', write_args C args vs' st = (Done tt, mkSt sto' (mworld st) (trace st)) /\
    alike (store st) sto' /\ keeps (map aref args) (store st) sto' /\
    (NoDup (map aref args) -> Forall (fun a => acat a <> CLV) args ->
     Forall2 (fun a v => holds sto' (aref a) (data v)) args (overwrite vs vs')).
Proof.
  assert (G : forall args vs' st,
    Forall (fun a => exists v, holds (store st) (aref a) (data v)) args ->
    exists sto', write_args C args vs' st = (Done tt, mkSt sto' (mworld st) (trace st)) /\
      alike (store st) sto' /\ keeps (map aref args) (store st) sto' /\
      (forall vs, Forall2 (fun a v => holds (store st) (aref a) (data v)) args vs ->
       NoDup (map aref args) -> Forall (fun a => acat a <> CLV) args ->
       Forall2 (fun a v => holds sto' (aref a) (data v)) args (overwrite vs vs'))).
  { induction args as [|a args IH]; intros vs' st H.
    - exists (store st). cbn [write_args]. rewrite st_eta. split; [reflexivity|].
      split; [apply alike_refl|split; [now intros ? ? ? ? ?|]].
      intros vs Hv. inversion Hv. subst. constructor.
    - destruct vs' as [|v' vs'].
      { exists (store st). cbn [write_args]. rewrite st_eta. split; [reflexivity|].
        split; [apply alike_refl|split; [now intros ? ? ? ? ?|]].
        intros vs Hv _ _. destruct vs; exact Hv. }
      inversion H as [|? ? (v & Hv) Hvs]; subst. cbn [write_args].
      assert (Hw : exists sto1,
        (match acat a with CLV => ret tt | _ => write C (aref a) (data v') end) st
          = (Done tt, mkSt sto1 (mworld st) (trace st)) /\
        (acat a <> CLV -> holds sto1 (aref a) (data v')) /\
        alike (store st) sto1 /\ keeps [aref a] (store st) sto1 /\
        (forall r u, holds (store st) r (data u) -> exists u', holds sto1 r (data u'))).
      { destruct (write_leaf st (aref a) (data v) (data v') Hv eq_refl eq_refl) as (sto1 & E & Hh & Ha & Hk).
        assert (Hd : forall r u, holds (store st) r (data u) -> exists u', holds sto1 r (data u')).
        { intros r u Hu. destruct (list_eq_dec Nat.eq_dec (snd r) (snd (aref a))) as [Es|Es];
            [destruct (Nat.eq_dec (fst r) (fst (aref a))) as [Ef|Ef]|].
          - exists v'. replace r with (aref a) by (destruct r, (aref a); cbn in *; congruence). exact Hh.
          - exists u. apply Hk; [reflexivity|exact Hu|]. intros [<-|[]]. now apply Ef.
          - exists u. apply Hk; [reflexivity|exact Hu|]. intros [<-|[]]. now apply Es. }
        destruct (acat a).
        - exists sto1. auto.
        - exists (store st). rewrite st_eta. split; [reflexivity|]. split; [congruence|].
          split; [apply alike_refl|split; [now intros ? ? ? ? ?|eauto]].
        - exists sto1. auto. }
      destruct Hw as (sto1 & E1 & Hh1 & Ha1 & Hk1 & Hd1).
      erewrite bind_done by exact E1.
      destruct (IH vs' (mkSt sto1 (mworld st) (trace st))) as (sto2 & E2 & Ha2 & Hk2 & Hv2).
      { cbn [store]. eapply Forall_impl; [|exact Hvs]. intros b (u & Hu). eapply Hd1; exact Hu. }
      cbn [store mworld trace] in *.
      exists sto2. split; [exact E2|]. split; [eapply alike_trans; eassumption|]. split.
      + eapply keeps_trans; eapply keeps_incl; try eassumption.
        * intros r [<-|[]]. now left.
        * intros r Hr. now right.
      + intros vs Hf Hn Hc. inversion Hf as [|? v0 ? vs0 Hf1 Hf2]; subst. cbn [overwrite map] in *.
        inversion Hn as [|? ? Hn1 Hn2]; subst. inversion Hc as [|? ? Hc1 Hc2]; subst. constructor.
        * apply Hk2; [reflexivity|now apply Hh1|exact Hn1].
        * apply Hv2; auto. clear - Hf2 Hn1 Hk1.
          induction Hf2 as [|b u args vs0 Hb _ IHf]; constructor.
          -- apply Hk1; [reflexivity|exact Hb|]. intros [E|[]]. apply Hn1. rewrite E. now left.
          -- apply IHf. intros Hin. apply Hn1. now right. }
  intros args vs vs' st H. destruct (G args vs' st) as (sto' & E & Ha & Hk & Hv).
  - clear - H. induction H; constructor; eauto.
  - exists sto'. split; [exact E|]. split; [exact Ha|]. split; [exact Hk|]. intros Hn Hc. now apply Hv.
Qed.

(** A call of a user function with data. *)
Theorem user_call n st x f s args vs :
  holds (store st) x (fun_obj f s) ->
  Forall2 (fun a v => holds (store st) (aref a) (data v)) args vs ->
  let '(s', vs', r, w') := usem U f s vs (mworld st) in
  exists sto',
    invoke ve C U (Datatypes.S n) x args st =
      (ures_result r args, mkSt sto' w' (trace st ++ [MCall f vs])) /\
    alike (store st) sto' /\ keeps (x :: map aref args) (store st) sto' /\
    holds sto' x (fun_obj f (new_state s s')) /\
    (NoDup (map aref args) -> Forall (fun a => acat a <> CLV) args ->
     Forall2 (fun a v => holds sto' (aref a) (data v)) args (overwrite vs vs')).
Proof.
  intros Hx Ha. rewrite (invoke_S _ _ _ _ _ _ _ _ Hx). cbn [kind_of fun_obj]. unfold call_user.
  erewrite bind_done by (apply read_values; exact Ha).
  erewrite bind_done by reflexivity.
  destruct (usem U f s vs (mworld st)) as [[[s' vs'] r] w'] eqn:Eu.
  erewrite bind_done by (cbn [mworld store trace]; rewrite Eu; reflexivity).
  set (st1 := mkSt (store st) w' (trace st ++ [MCall f vs])).
  destruct (write_leaf st1 x (fun_obj f s) (fun_obj f (new_state s s')) Hx eq_refl eq_refl)
    as (sto1 & E1 & H1 & A1 & K1).
  erewrite bind_done by exact E1.
  assert (Hnot : forall a v, holds (store st) (aref a) (data v) -> aref a <> x).
  { intros a v H E. rewrite E in H. pose proof (holds_fun _ _ _ _ Hx H). discriminate. }
  assert (Ha1 : Forall2 (fun a v => holds sto1 (aref a) (data v)) args vs).
  { change (store st1) with (store st) in K1. clear - Ha K1 Hnot. induction Ha as [|a v args vs Hav _ IH]; [constructor|constructor; [|exact IH]].
    apply K1; [reflexivity|exact Hav|]. intros [E|[]]. symmetry in E. revert E. eapply Hnot; exact Hav. }
  destruct (write_args_ok args vs vs' (mkSt sto1 (mworld st1) (trace st1)) Ha1) as (sto2 & E2 & A2 & K2 & V2).
  erewrite bind_done by exact E2. cbn [store mworld trace st1] in *.
  exists sto2. split; [|split; [|split; [|split]]].
  - unfold ures_result, ret, fail. destruct r; try reflexivity. now destruct (nth_error args i).
  - eapply alike_trans; eassumption.
  - eapply keeps_trans; eapply keeps_incl; try eassumption.
    + intros y [<-|[]]. now left.
    + intros y Hy. now right.
  - apply K2; [reflexivity|exact H1|]. intros Hin. apply in_map_iff in Hin. destruct Hin as (a & Ea & Hin).
    clear - Ha Hin Ea Hnot. induction Ha as [|b v args vs Hb _ IH]; [easy|].
    destruct Hin as [->|Hin]; [|now apply IH]. now apply (Hnot _ _ Hb).
  - exact V2.
Qed.

End Frame.
