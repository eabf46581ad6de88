(** Repeated calls of bound functions. *)
From Coq Require Import List Bool Arith Lia FinFun.
From Verif Require Import Value Machine MachineSpec MachineLib MachineFrame Composed BindSpec BindThms.
Import ListNotations.

Section Seq.
Context {A W F S : Type}.
Notation value := (val A).
Notation obj := (obj A F S).
Notation slot := (slot A F S).
Notation cell := (bool * obj)%type.
Notation mstate := (mstate A W F S).
Notation mevent := (mevent A F).
Notation data := (@Machine.data A F S).
Notation step := (step A).
Variable ve : value -> bool.
Variable C : config.
Variable U : muser A W F S.
Implicit Type st : mstate.
Implicit Types (sto : list cell) (c d : slot) (cs ss ms : list slot) (o : obj) (os : list obj).

Lemma place_like r i c c' : slot_like c c' -> place r i c = place r i c'.
Proof. destruct c, c'; cbn; congruence || contradiction. Qed.

Lemma places_like r : forall cs cs' i, Forall2 slot_like cs cs' -> places r i cs = places r i cs'.
Proof.
  intros cs cs' i H. revert i. induction H as [|c c' cs cs' Hc _ IH]; intros i; [reflexivity|].
  cbn [places]. rewrite (place_like r i c c' Hc). now rewrite IH.
Qed.

Lemma slot_of_place sto r k ms i c o :
  holds sto r (Node k ms) -> nth_error ms i = Some c -> holds sto (place r i c) o -> slot_holds sto c o.
Proof.
  intros H Hi Hp. destruct c as [y|y]; cbn in *; [|exact Hp].
  eapply holds_fun; [|exact Hp]. eapply holds_member; [exact H|exact Hi].
Qed.

Lemma slots_of_places sto r k ms : holds sto r (Node k ms) ->
  forall cs pre os, ms = pre ++ cs -> Forall2 (holds sto) (places r (length pre) cs) os ->
  Forall2 (slot_holds sto) cs os.
Proof.
  intros H cs. induction cs as [|c cs IH]; intros pre os E Hp; inversion Hp as [|? o ? os' Hc Hcs]; subst; constructor.
  - eapply slot_of_place; [exact H| |exact Hc]. rewrite nth_error_app2, Nat.sub_diag by lia. reflexivity.
  - apply (IH (pre ++ [c])); [now rewrite <- app_assoc|]. now rewrite app_length, Nat.add_1_r.
Qed.

(** Everything that is not plain data or the called function keeps its place and shape. *)
Definition user_kind (k : kind A F S) : bool := match k with KData _ | KFun _ _ => true | _ => false end.

Lemma node_kept sto sto' rs r k ms :
  alike sto sto' -> keeps rs sto sto' -> user_kind k = false ->
  (forall q, In q rs -> exists o, holds sto q o /\ user_kind (kind_of o) = true) ->
  holds sto r (Node k ms) -> exists ms', holds sto' r (Node k ms') /\ Forall2 slot_like ms ms'.
Proof.
  intros (_ & Ha & _) Hk Hu Hrs H. destruct ms as [|m ms].
  - exists []. split; [|constructor]. apply Hk; [reflexivity|exact H|].
    intros Hin. destruct (Hrs r Hin) as (o & Ho & Hko). pose proof (holds_fun _ _ _ _ H Ho). subst o.
    cbn [kind_of] in Hko. congruence.
  - apply Ha; [discriminate|exact H].
Qed.

(** ** The caller's local variables *)
Lemma alloc_all : forall vs st,
  mapM (@alloc A W F S) (map data vs) st =
  (Done (locals (length (store st)) (length vs)),
   mkSt (store st ++ map (fun v => (true, data v)) vs) (mworld st) (trace st)).
Proof.
  induction vs as [|v vs IH]; intros st; cbn [map mapM].
  - rewrite app_nil_r, st_eta. reflexivity.
  - erewrite bind_done by reflexivity. erewrite bind_done by apply IH. unfold ret. cbn [store mworld trace length].
    unfold locals. cbn [seq map]. rewrite app_length, Nat.add_1_r, <- app_assoc. reflexivity.
Qed.

Lemma locals_LV sto vs :
  Forall2 (fun a o => holds (sto ++ map (fun v => (true, data v)) vs) (aref a) o)
    (LVs (locals (length sto) (length vs))) (map data vs).
Proof.
  unfold LVs. apply Forall2_map_l. cbn [aref].
  pose proof (locals_hold sto [] (map data vs) (length sto) eq_refl) as H.
  rewrite app_nil_r, map_map, map_length in H. exact H.
Qed.

Lemma locals_ge n k : Forall (fun q : ref => n <= fst q < n + k) (locals n k).
Proof.
  apply Forall_forall. intros q Hq. unfold locals in Hq. apply in_map_iff in Hq.
  destruct Hq as (i & <- & Hi). apply in_seq in Hi. cbn. lia.
Qed.

Lemma locals_NoDup n k : NoDup (locals n k).
Proof.
  unfold locals. apply FinFun.Injective_map_NoDup; [|apply seq_NoDup]. intros i j E. congruence.
Qed.

Lemma lv_cats rs : Forall (fun a => acat a <> CLV /\ acat a <> RV) (LVs rs).
Proof. unfold LVs. apply Forall_forall. intros a Ha. apply in_map_iff in Ha. destruct Ha as (q & <- & _). split; discriminate. Qed.

Lemma holds_vals sto args vs :
  Forall2 (fun a o => holds sto (aref a) o) args (map data vs) ->
  Forall2 (fun a v => holds sto (aref a) (data v)) args vs.
Proof. intros H. now apply Forall2_map_r in H. Qed.

(** The observed result. *)
Lemma observe_ures st u all vs2 :
  Forall2 (fun a v => holds (store st) (aref a) (data v) \/
                      (dangles (store st) (aref a) (data v) /\ data_empty ve v = true)) all vs2 ->
  bind (fun s => (ures_result (F := F) (S := S) u all, s)) (observe ve C) st =
  (match u with
   | URet v => Done (Some v)
   | UVoid => Done None
   | UThrow => Err Throw
   | URefArg i => match nth_error vs2 i with Some v => Done (Some v) | None => Err IllFormed end
   end, st).
Proof.
  intros H. destruct u as [v|i| |]; try reflexivity. unfold bind at 1. cbn [ures_result].
  assert (Hi : match nth_error all i, nth_error vs2 i with
               | Some a, Some v => holds (store st) (aref a) (data v) \/
                                   (dangles (store st) (aref a) (data v) /\ data_empty ve v = true)
               | None, None => True
               | _, _ => False
               end).
  { clear - H. revert i. induction H as [|a v all vs2 Hav _ IH]; intros [|i]; cbn; auto. apply IH. }
  destruct (nth_error all i) as [a|], (nth_error vs2 i) as [v|]; try contradiction; [|reflexivity].
  cbn [observe to_obj].
  erewrite bind_done; [|destruct Hi as [Hi|[Hi Ee]]; [apply read_ok; exact Hi|apply read_dead; [exact Hi|right]]].
  - reflexivity.
  - cbn [Machine.data obj_empty kind_empty]. now rewrite Ee.
Qed.

(** ** A general sequence *)
Section General.
Variables (front keep : bool) (f : F) (n : nat) (r : ref) (ps : list ref).
Variable P : list cell -> option S -> list value -> Prop.
(** Which assignments are considered. *)
Variable ok : list value -> nat -> value -> Prop.
Hypothesis call_ok : forall st s bvs avs, P (store st) s bvs ->
  let vs := if front then bvs ++ avs else avs ++ bvs in
  let '(s', vs', _, w') := usem U f s vs (mworld st) in
  let '(o, _, l) := ucall U f s vs (mworld st) in
  exists sto', call_with ve C U n r avs st = (o, mkSt sto' w' (trace st ++ l)) /\
    P sto' (if keep then new_state s s' else s)
      (if front then firstn (length bvs) (overwrite vs vs') else skipn (length avs) (overwrite vs vs')).
Hypothesis assign_ok : forall st s bvs i v, P (store st) s bvs -> ok bvs i v ->
  exists sto', snd (write C (nth i ps (0, [])) (data v) st) = mkSt sto' (mworld st) (trace st) /\
    P sto' s (update i v bvs).

(** Every assignment in [steps] is considered, when its turn comes. *)
Fixpoint allowed (s : option S) (bvs : list value) (steps : list step) (w : W) : Prop :=
  match steps with
  | [] => True
  | Assign i v :: steps' => ok bvs i v /\ allowed s (update i v bvs) steps' w
  | CallWith avs :: steps' =>
      let vs := if front then bvs ++ avs else avs ++ bvs in
      let '(s', vs', _, w') := usem U f s vs w in
      allowed (if keep then new_state s s' else s)
        (if front then firstn (length bvs) (overwrite vs vs') else skipn (length avs) (overwrite vs vs')) steps' w'
  end.

Lemma general : forall steps st s bvs,
  P (store st) s bvs -> allowed s bvs steps (mworld st) ->
  let '(os, s2, bvs2, w2, l2) := direct front keep U f s bvs steps (mworld st) in
  exists sto', run_steps ve C U n r ps steps st = (os, mkSt sto' w2 (trace st ++ l2)) /\ P sto' s2 bvs2.
Proof.
  induction steps as [|[i v|avs] steps IH]; intros st s bvs HP Hal; cbn [direct run_steps allowed] in *.
  - exists (store st). rewrite app_nil_r, st_eta. auto.
  - destruct Hal as [Hok Hal]. destruct (assign_ok st s bvs i v HP Hok) as (sto1 & E1 & P1). rewrite E1.
    specialize (IH (mkSt sto1 (mworld st) (trace st)) s (update i v bvs) P1 Hal). exact IH.
  - set (vs := if front then bvs ++ avs else avs ++ bvs) in *.
    pose proof (call_ok st s bvs avs HP) as Hc. cbv zeta in Hc. fold vs in Hc.
    destruct (usem U f s vs (mworld st)) as [[[s' vs'] u] w'].
    destruct (ucall U f s vs (mworld st)) as [[o w1] l] eqn:Eu.
    destruct Hc as (sto1 & E1 & P1). rewrite E1.
    specialize (IH (mkSt sto1 w' (trace st ++ l)) _ _ P1 Hal). cbn [mworld] in IH.
    match goal with |- context [direct front keep U f ?a ?b steps w'] =>
      destruct (direct front keep U f a b steps w') as [[[[os s2] bvs2] w2] l2] end.
    destruct IH as (sto2 & E2 & P2). rewrite E2. exists sto2. cbn [trace]. rewrite app_assoc. auto.
Qed.
End General.

Lemma firstn_exact {X} (a b : list X) : firstn (length a) (a ++ b) = a.
Proof. rewrite firstn_app, Nat.sub_diag, firstn_all. cbn. apply app_nil_r. Qed.
Lemma skipn_exact {X} (a b : list X) : skipn (length a) (a ++ b) = b.
Proof. rewrite skipn_app, Nat.sub_diag, skipn_all. reflexivity. Qed.

Lemma Forall2_split {X Y} (R : X -> Y -> Prop) xs1 xs2 ys :
  Forall2 R (xs1 ++ xs2) ys ->
  Forall2 R xs1 (firstn (length xs1) ys) /\ Forall2 R xs2 (skipn (length xs1) ys).
Proof.
  revert ys. induction xs1 as [|x xs1 IH]; intros ys H; cbn in *; [auto|].
  inversion H as [|? y ? ys' Hxy H']; subst. cbn. destruct (IH _ H'). auto.
Qed.

Lemma refs_lt sto ps os : Forall2 (holds sto) ps os -> Forall (fun q : ref => fst q < length sto) ps.
Proof. induction 1; constructor; auto. eapply holds_lt; eassumption. Qed.

Lemma kills_holds sto n ps os :
  Forall (fun q : ref => fst q < n) ps -> Forall2 (holds sto) ps os -> Forall2 (holds (kill_from n sto)) ps os.
Proof.
  intros Hl H. induction H as [|p o ps os Hp _ IH]; constructor; inversion Hl; subst; auto using holds_kill.
Qed.

(** ** bind_back *)
Section BindBack.
Variables (f : F) (n : nat) (r : ref) (c0 : slot) (cs0 : list slot).
Let ps := places r 1 cs0.
Hypothesis distinct : NoDup ps.

Definition bound_back sto (s : option S) (bvs : list value) : Prop :=
  (exists ms, holds sto r (Node KBindBack ms) /\ Forall2 slot_like (c0 :: cs0) ms) /\
  holds sto (place r 0 c0) (fun_obj f s) /\
  Forall2 (holds sto) ps (map data bvs).

Lemma bound_back_call : forall st s bvs avs, bound_back (store st) s bvs ->
  let vs := avs ++ bvs in
  let '(s', vs', _, w') := usem U f s vs (mworld st) in
  let '(o, _, l) := ucall U f s vs (mworld st) in
  exists sto', call_with ve C U (2 + n) r avs st = (o, mkSt sto' w' (trace st ++ l)) /\
    bound_back sto' (new_state s s') (skipn (length avs) (overwrite vs vs')).
Proof.
  intros st s bvs avs ((ms & Hr & Hms) & Hf & Hb). cbv zeta.
  unfold call_with. rewrite scoped_eq. erewrite bind_done by apply alloc_all.
  set (L := length (store st)). set (lc := locals L (length avs)).
  set (st1 := mkSt (store st ++ map (fun v => (true, data v)) avs) (mworld st) (trace st)).
  inversion Hms as [|? c ? cs Hc Hcs]; subst.
  assert (Hr1 : holds (store st1) r (Node KBindBack (c :: cs))) by (now apply holds_app).
  pose proof (bind_back_direct ve C U (Datatypes.S n) r (LVs lc) st1 c cs Hr1) as Hd.
  rewrite <- (place_like r 0 c0 c Hc), <- (places_like r cs0 cs 1 Hcs) in Hd. fold ps in Hd.
  assert (Hf1 : holds (store st1) (place r 0 c0) (fun_obj f s)) by (now apply holds_app).
  assert (Hargs : Forall2 (fun a v => holds (store st1) (aref a) (data v)) (LVs lc ++ LVs ps) (avs ++ bvs)).
  { apply holds_vals. rewrite map_app. apply Forall2_app; [apply locals_LV|].
    unfold LVs. apply Forall2_map_l. cbn [aref st1 store]. apply (Forall2_holds_app (fun q => q)). exact Hb. }
  pose proof (user_call ve C U n st1 (place r 0 c0) f s (LVs lc ++ LVs ps) (avs ++ bvs) Hf1 Hargs) as Hu.
  unfold ucall. change (mworld st1) with (mworld st) in Hu. change (trace st1) with (trace st) in Hu.
  destruct (usem U f s (avs ++ bvs) (mworld st)) as [[[s' vs'] u] w'].
  destruct Hu as (sto2 & Ei & Hal & Hke & Hf2 & Hv2).
  assert (Hpl : Forall (fun q : ref => fst q < L) ps) by (eapply refs_lt; exact Hb).
  assert (Hnd : NoDup (map aref (LVs lc ++ LVs ps))).
  { rewrite map_app, !aref_LVs. apply NoDup_app_intro; [apply locals_NoDup|exact distinct|].
    intros q H1 H2. pose proof (locals_ge L (length avs)) as Hg. rewrite Forall_forall in Hg, Hpl.
    specialize (Hg q H1). specialize (Hpl q H2). cbn beta in *. lia. }
  specialize (Hv2 Hnd). 
  assert (Hcat : Forall (fun a => acat a <> CLV) (LVs lc ++ LVs ps)).
  { apply Forall_app; split; (eapply Forall_impl; [|apply lv_cats]); intros a Ha; apply Ha. }
  specialize (Hv2 Hcat).
  set (st2 := mkSt sto2 w' (trace st ++ [MCall f (avs ++ bvs)])) in *.
  assert (Eb : bind (invoke ve C U (2 + n) r (LVs lc)) (fun x => observe ve C x) st1
               = bind (fun s => (ures_result (F := F) (S := S) u (LVs lc ++ LVs ps), s)) (observe ve C) st2).
  { unfold bind. change (2 + n) with (Datatypes.S (Datatypes.S n)). rewrite Hd, Ei. reflexivity. }
  fold st1. rewrite Eb.
  rewrite (observe_ures st2 u (LVs lc ++ LVs ps) (overwrite (avs ++ bvs) vs')).
  2:{ clear - Hv2. cbn [st2 store]. induction Hv2; constructor; auto. }
  unfold closing. cbn [fst snd st2 store mworld trace].
  eexists; split; [reflexivity|].
  assert (Hv3 : Forall2 (holds sto2) ps (map data (skipn (length avs) (overwrite (avs ++ bvs) vs')))).
  { destruct (Forall2_split _ _ _ _ Hv2) as [_ H2].
    unfold LVs in H2 at 2. unfold lc, locals, LVs in H2. rewrite !map_length, seq_length in H2.
    apply Forall2_map_l in H2. apply Forall2_map_r. exact H2. }
  assert (Hrl : fst r < L) by (eapply holds_lt; exact Hr).
  split; [|split].
  - destruct (node_kept _ _ _ r KBindBack (c :: cs) Hal Hke eq_refl) as (ms' & Hm1 & Hm2); [|exact Hr1|].
    + intros q [<-|Hin]; [eexists; split; [exact Hf1|reflexivity]|].
      clear - Hargs Hin. induction Hargs as [|a v args vs Ha _ IH]; [easy|].
      destruct Hin as [<-|Hin]; [eexists; split; [exact Ha|reflexivity]|now apply IH].
    + exists ms'. split; [now apply holds_kill|]. eapply slots_like_trans; eassumption.
  - apply holds_kill; [eapply holds_lt; exact Hf|exact Hf2].
  - now apply kills_holds.
Qed.

Lemma bound_back_assign : forall st s bvs i v, bound_back (store st) s bvs -> i < length bvs ->
  exists sto', snd (write C (nth i ps (0, [])) (data v) st) = mkSt sto' (mworld st) (trace st) /\
    bound_back sto' s (update i v bvs).
Proof.
  intros st s bvs i v ((ms & Hr & Hms) & Hf & Hb) Hi.
  assert (Hlen : length ps = length bvs).
  { apply Forall2_len in Hb. now rewrite map_length in Hb. }
  assert (Hq : exists q u, nth_error ps i = Some q /\ nth_error bvs i = Some u /\ holds (store st) q (data u)).
  { clear - Hb Hi. apply (proj1 (Forall2_map_r _ _ _ _)) in Hb. clearbody ps. revert i Hi. induction Hb as [|q u ps1 bvs1 Hq _ IH]; intros [|i] Hi; cbn in *; try lia.
    - exists q, u. auto.
    - apply IH. lia. }
  destruct Hq as (q & u & Eq & Eu & Hq).
  rewrite (nth_error_nth ps i (0, []) Eq).
  destruct (write_leaf C st q (data u) (data v) Hq eq_refl eq_refl) as (sto' & Ew & Hqv & Hal & Hke).
  rewrite Ew. exists sto'. split; [reflexivity|]. split; [|split].
  - destruct (node_kept _ _ _ r KBindBack ms Hal Hke eq_refl) as (ms' & Hm1 & Hm2); [|exact Hr|].
    + intros q' [<-|[]]. eexists; split; [exact Hq|reflexivity].
    + exists ms'. split; [exact Hm1|]. eapply slots_like_trans; eassumption.
  - apply Hke; [reflexivity|exact Hf|]. intros [E|[]]. rewrite E in Hq. pose proof (holds_fun _ _ _ _ Hq Hf). discriminate.
  - clear - Hb Eq Hqv Hke distinct. apply (proj1 (Forall2_map_r _ _ _ _)) in Hb. apply Forall2_map_r. clearbody ps. revert i Eq.
    induction Hb as [|q0 u0 ps0 bvs Hq0 Hps IH]; intros [|i] Eq; cbn in *; try discriminate.
    + injection Eq as ->. inversion distinct as [|? ? Hn1 Hn2]; subst. constructor; [exact Hqv|].
      clear - Hps Hke Hn1. induction Hps as [|q1 u1 ps0 bvs Hq1 _ IH]; constructor.
      * apply Hke; [reflexivity|exact Hq1|]. intros [->|[]]. apply Hn1. now left.
      * apply IH. intros Hin. apply Hn1. now right.
    + inversion distinct as [|? ? Hn1 Hn2]; subst. constructor; [|now apply IH].
      apply Hke; [reflexivity|exact Hq0|]. intros [->|[]]. apply Hn1. eapply nth_error_In; exact Eq.
Qed.

Theorem back_sequence : forall steps st s bvs,
  bound_back (store st) s bvs ->
  Forall (fun x => match x with Assign i _ => i < length bvs | _ => True end) steps ->
  let '(os, s2, bvs2, w2, l2) := direct false true U f s bvs steps (mworld st) in
  exists sto', run_steps ve C U (2 + n) r ps steps st = (os, mkSt sto' w2 (trace st ++ l2)) /\
    bound_back sto' s2 bvs2.
Proof.
  intros steps st s bvs HB Hs.
  apply (general false true f (2 + n) r ps bound_back (fun bvs i _ => i < length bvs)).
  - apply bound_back_call.
  - apply bound_back_assign.
  - exact HB.
  - clear - Hs. generalize (mworld st) as w. clear st. revert s bvs Hs.
    induction steps as [|[i v|avs] steps IH]; intros s bvs Hs w; cbn [allowed]; [exact I| |].
    + inversion Hs; subst. split; [assumption|]. apply IH. now rewrite update_length.
    + inversion Hs; subst. pose proof (overwrite_length (avs ++ bvs)) as Ho.
      destruct (usem U f s (avs ++ bvs) w) as [[[s' vs'] u] w']. apply IH.
      rewrite skipn_length, Ho, app_length, Nat.add_comm, Nat.add_sub. assumption.
Qed.

End BindBack.

(** ** Tuple elements, some of which are passed as new copies *)

Lemma Forall3_nth {X Y Z} (R : X -> Y -> Z -> Prop) xs ys zs : Forall3 R xs ys zs ->
  forall i y, nth_error ys i = Some y -> exists x z, nth_error xs i = Some x /\ nth_error zs i = Some z /\ R x y z.
Proof.
  induction 1 as [|x y z xs ys zs H _ IH]; intros [|i] y0 E; cbn in *; try discriminate.
  - injection E as <-. eauto.
  - now apply IH.
Qed.

Lemma Forall3_nth1 {X Y Z} (R : X -> Y -> Z -> Prop) xs ys zs : Forall3 R xs ys zs ->
  forall i x, nth_error xs i = Some x -> exists y z, nth_error ys i = Some y /\ nth_error zs i = Some z /\ R x y z.
Proof.
  induction 1 as [|x y z xs ys zs H _ IH]; intros [|i] x0 E; cbn in *; try discriminate.
  - injection E as <-. eauto.
  - now apply IH.
Qed.

Lemma Forall2_nth {X Y} (R : X -> Y -> Prop) xs ys : Forall2 R xs ys ->
  forall i x, nth_error xs i = Some x -> exists y, nth_error ys i = Some y /\ R x y.
Proof.
  induction 1 as [|x y xs ys H _ IH]; intros [|i] x0 E; cbn in *; try discriminate.
  - injection E as <-. eauto.
  - now apply IH.
Qed.

Lemma Forall2_from_nth {X Y} (R : X -> Y -> Prop) : forall xs ys, length xs = length ys ->
  (forall i x y, nth_error xs i = Some x -> nth_error ys i = Some y -> R x y) -> Forall2 R xs ys.
Proof.
  induction xs as [|x xs IH]; intros [|y ys] E H; try discriminate; constructor.
  - apply (H 0); reflexivity.
  - apply IH; [now injection E|]. intros i. apply (H (Datatypes.S i)).
Qed.

Lemma elements_after L0 L L' sto sto2 x es others ps tvs tvs' :
  L0 <= L ->
  Forall3 (passed ve L L') es ps (map data tvs) -> NoDup ps -> Forall (fun q : ref => fst q < L0) ps ->
  (forall a, In a others -> L0 <= fst (aref a)) ->
  (forall p v, In p ps -> holds sto p (data v) -> x <> p) ->
  Forall2 (holds sto) ps (map data tvs) ->
  Forall2 (fun a v => holds sto2 (aref a) (data v)) es tvs' ->
  Forall2 (same_class ve) tvs tvs' ->
  keeps (x :: map aref (es ++ others)) sto sto2 ->
  Forall2 (holds sto2) ps (map data tvs').
Proof.
  intros HL Hp Hnd Hlt Ho Hx Hh He Hc Hk. apply Forall2_map_r.
  apply Forall2_from_nth.
  { apply Forall2_len in Hh. apply Forall2_len in Hc. rewrite map_length in Hh. congruence. }
  intros i p v' Ep Ev'.
  destruct (Forall3_nth _ _ _ _ Hp i p Ep) as (a & o & Ea & Eo & Hpass).
  destruct (Forall2_nth _ _ _ He i a Ea) as (v2 & Ev2 & Ha). rewrite Ev' in Ev2. injection Ev2 as <-.
  destruct Hpass as [->|(Hemp & _ & _ & Hge)]; [exact Ha|].
  destruct (Forall2_nth _ _ _ Hh i p Ep) as (o' & Eo' & Hpo). rewrite Eo in Eo'. injection Eo' as <-.
  rewrite nth_error_map in Eo. destruct (nth_error tvs i) as [v|] eqn:Ev; [|discriminate]. injection Eo as <-.
  destruct (Forall2_nth _ _ _ Hc i v Ev) as (v2 & Ev2 & _ & Hs). rewrite Ev' in Ev2. injection Ev2 as <-.
  rewrite <- Hs.
  2:{ cbn [Machine.data obj_empty kind_empty] in Hemp. now rewrite andb_true_r in Hemp. }
  apply Hk; [reflexivity|exact Hpo|].
  assert (Hpl : fst p < L0).
  { rewrite Forall_forall in Hlt. apply Hlt. eapply nth_error_In; exact Ep. }
  intros [E|Hin].
  - revert E. eapply Hx; [eapply nth_error_In; exact Ep|exact Hpo].
  - rewrite map_app in Hin. apply in_app_or in Hin. destruct Hin as [Hin|Hin].
    + apply in_map_iff in Hin. destruct Hin as (b & Eb & Hin).
      apply In_nth_error in Hin. destruct Hin as (j & Ej).
      destruct (Forall3_nth1 _ _ _ _ Hp j b Ej) as (pj & oj & Epj & _ & [->|(_ & _ & _ & Hj)]).
      * cbn [aref] in Eb. subst pj.
        assert (i = j).
        { eapply NoDup_nth_error; [exact Hnd|apply nth_error_Some; congruence|congruence]. }
        subst j. rewrite Ea in Ej. injection Ej as ->. cbn [aref] in Hge. lia.
      * rewrite Eb in Hj. lia.
    + apply in_map_iff in Hin. destruct Hin as (b & Eb & Hin). specialize (Ho b Hin). rewrite Eb in Ho. lia.
Qed.

(** Assigning to an element. *)
Lemma assign_places st ps bvs i v :
  NoDup ps -> Forall2 (holds (store st)) ps (map data bvs) -> i < length bvs ->
  exists q u sto', nth i ps (0, []) = q /\ nth_error bvs i = Some u /\ holds (store st) q (data u) /\
    snd (write C q (data v) st) = mkSt sto' (mworld st) (trace st) /\
    alike (store st) sto' /\ keeps [q] (store st) sto' /\
    Forall2 (holds sto') ps (map data (update i v bvs)).
Proof.
  intros Hnd Hb Hi.
  assert (Hq : exists q u, nth_error ps i = Some q /\ nth_error bvs i = Some u /\ holds (store st) q (data u)).
  { destruct (nth_error bvs i) as [u|] eqn:Eu; [|apply nth_error_None in Eu; lia].
    assert (Hlen := Forall2_len _ _ _ Hb). rewrite map_length in Hlen.
    destruct (nth_error ps i) as [q|] eqn:Eq; [|apply nth_error_None in Eq; lia].
    destruct (Forall2_nth _ _ _ Hb i q Eq) as (o & Eo & Ho). rewrite nth_error_map, Eu in Eo.
    injection Eo as <-. eauto. }
  destruct Hq as (q & u & Eq & Eu & Hq).
  destruct (write_leaf C st q (data u) (data v) Hq eq_refl eq_refl) as (sto' & Ew & Hqv & Hal & Hke).
  exists q, u, sto'. rewrite (nth_error_nth ps i (0, []) Eq), Ew. repeat (split; auto).
  apply Forall2_map_r. apply Forall2_from_nth.
  { apply Forall2_len in Hb. now rewrite update_length, map_length in *. }
  intros j p v' Ej Ev'. destruct (Nat.eq_dec i j) as [<-|Hij].
  - rewrite nth_update_eq in Ev' by exact Hi. injection Ev' as <-. rewrite Eq in Ej. injection Ej as <-. exact Hqv.
  - rewrite nth_update_neq in Ev' by exact Hij.
    destruct (Forall2_nth _ _ _ Hb j p Ej) as (o & Eo & Ho). rewrite nth_error_map, Ev' in Eo. injection Eo as <-.
    apply Hke; [reflexivity|exact Ho|]. intros [->|[]]. apply Hij.
    eapply NoDup_nth_error; [exact Hnd|apply nth_error_Some; congruence|congruence].
Qed.

Section Tuples.
Variables (f : F) (n : nat) (r : ref) (c0 d0 : slot) (k : kind A F S) (ss0 : list slot).
Let t := place r 1 d0.
Let ps := places t 0 ss0.
Hypothesis tuple_kind : k = KCT \/ k = KTuple.
Hypothesis distinct : NoDup ps.
Hypothesis typed : well_typed ve U f.

Definition bound_tuple (kd : kind A F S) sto (s : option S) (tvs : list value) : Prop :=
  (exists c d, holds sto r (Node kd [c; d]) /\ slot_like c0 c /\ slot_like d0 d) /\
  (exists ss, holds sto t (Node k ss) /\ Forall2 slot_like ss0 ss) /\
  holds sto (place r 0 c0) (fun_obj f s) /\
  Forall2 (holds sto) ps (map data tvs).

Lemma bound_tuple_slots kd sto s tvs c d ss :
  holds sto r (Node kd [c; d]) -> slot_like c0 c -> slot_like d0 d ->
  holds sto t (Node k ss) -> Forall2 slot_like ss0 ss ->
  holds sto (place r 0 c0) (fun_obj f s) -> Forall2 (holds sto) ps (map data tvs) ->
  slot_holds sto c (fun_obj f s) /\ slot_holds sto d (Node k ss) /\ Forall2 (slot_holds sto) ss (map data tvs) /\
  place r 0 c0 = place r 0 c /\ t = place r 1 d /\ ps = places (place r 1 d) 0 ss.
Proof.
  intros Hr Hc Hd Ht Hss Hf Hp.
  assert (Ec : place r 0 c0 = place r 0 c) by (now apply place_like).
  assert (Ed : t = place r 1 d) by (now apply place_like).
  assert (Eps : ps = places (place r 1 d) 0 ss).
  { unfold ps. rewrite Ed. now apply places_like. }
  repeat split; auto.
  - apply (slot_of_place sto r kd [c; d] 0 c _ Hr eq_refl). rewrite <- Ec. exact Hf.
  - apply (slot_of_place sto r kd [c; d] 1 d _ Hr eq_refl). rewrite <- Ed. exact Ht.
  - apply (slots_of_places sto t k ss Ht ss []); [reflexivity|]. cbn [length]. rewrite Ed, <- Eps. exact Hp.
Qed.

Lemma bound_tuple_lt kd sto s tvs : bound_tuple kd sto s tvs ->
  fst r < length sto /\ fst t < length sto /\ fst (place r 0 c0) < length sto /\
  Forall (fun q : ref => fst q < length sto) ps.
Proof.
  intros ((c & d & Hr & _) & (ss & Ht & _) & Hf & Hp).
  repeat split; try (eapply holds_lt; eassumption). eapply refs_lt; exact Hp.
Qed.

Lemma bound_tuple_kill kd sto s tvs m :
  fst r < m -> fst t < m -> fst (place r 0 c0) < m -> Forall (fun q : ref => fst q < m) ps ->
  bound_tuple kd sto s tvs -> bound_tuple kd (kill_from m sto) s tvs.
Proof.
  intros L1 L2 L3 L4 ((c & d & Hr & H1) & (ss & Ht & H2) & Hf & Hp).
  split; [exists c, d; split; [now apply holds_kill|exact H1]|].
  split; [exists ss; split; [now apply holds_kill|exact H2]|].
  split; [now apply holds_kill|]. now apply kills_holds.
Qed.

Lemma bound_tuple_kept kd sto sto2 rs s tvs s' tvs' :
  kd = KFrontTuple \/ kd = KBackTuple ->
  bound_tuple kd sto s tvs -> alike sto sto2 -> keeps rs sto sto2 ->
  (forall q, In q rs -> exists o, holds sto q o /\ user_kind (kind_of o) = true) ->
  holds sto2 (place r 0 c0) (fun_obj f s') -> Forall2 (holds sto2) ps (map data tvs') ->
  bound_tuple kd sto2 s' tvs'.
Proof.
  intros Hkd ((c & d & Hr & Hc & Hd) & (ss & Ht & Hss) & Hf & Hp) Hal Hke Hrs Hf2 Hp2.
  split; [|split; [|split; assumption]].
  - destruct (node_kept _ _ rs r kd [c; d] Hal Hke) as (ms & Hm & Hl); auto.
    { now destruct Hkd as [-> | ->]. }
    inversion Hl as [|? c' ? l1 Hc' Hl1]; subst. inversion Hl1 as [|? d' ? l2 Hd' Hl2]; subst. inversion Hl2; subst.
    exists c', d'. split; [exact Hm|].
    assert (G : forall a b e : slot, slot_like a b -> slot_like b e -> slot_like a e).
    { intros [?|?] [?|?] [?|?]; cbn; congruence || contradiction || auto. }
    split; eapply G; eassumption.
  - destruct (node_kept _ _ rs t k ss Hal Hke) as (ss' & Hm & Hl); auto.
    { now destruct tuple_kind as [-> | ->]. }
    exists ss'. split; [exact Hm|]. eapply slots_like_trans; eassumption.
Qed.

Lemma bound_tuple_grow kd sto l s tvs : bound_tuple kd sto s tvs -> bound_tuple kd (sto ++ l) s tvs.
Proof.
  intros ((c & d & Hr & H1) & (ss & Ht & H2) & Hf & Hp).
  split; [exists c, d; split; [now apply holds_app|exact H1]|].
  split; [exists ss; split; [now apply holds_app|exact H2]|].
  split; [now apply holds_app|]. now apply (Forall2_holds_app (fun q => q)).
Qed.

Lemma args_user_kind sto x g (s : option S) args vs :
  holds sto x (fun_obj g s) -> Forall2 (fun a v => holds sto (aref a) (data v)) args vs ->
  forall q, In q (x :: map aref args) -> exists o, holds sto q o /\ user_kind (kind_of o) = true.
Proof.
  intros Hx Ha q [<-|Hin]; [eexists; split; [exact Hx|reflexivity]|].
  induction Ha as [|a v args vs Hav _ IH]; [easy|].
  destruct Hin as [<-|Hin]; [eexists; split; [exact Hav|reflexivity]|now apply IH].
Qed.

Lemma bound_front_call : forall st s tvs avs, bound_tuple KFrontTuple (store st) s tvs ->
  let vs := tvs ++ avs in
  let '(s', vs', _, w') := usem U f s vs (mworld st) in
  let '(o, _, l) := ucall U f s vs (mworld st) in
  exists sto', call_with ve C U (3 + n) r avs st = (o, mkSt sto' w' (trace st ++ l)) /\
    bound_tuple KFrontTuple sto' (new_state s s') (firstn (length tvs) (overwrite vs vs')).
Proof.
  intros st s tvs avs HB. cbv zeta.
  destruct (bound_tuple_lt _ _ _ _ HB) as (Lr & Lt & Lf & Lp).
  unfold call_with. rewrite scoped_eq. erewrite bind_done by apply alloc_all.
  set (L := length (store st)) in *. set (lc := locals L (length avs)).
  set (st1 := mkSt (store st ++ map (fun v => (true, data v)) avs) (mworld st) (trace st)).
  assert (HB1 : bound_tuple KFrontTuple (store st1) s tvs) by (now apply bound_tuple_grow).
  destruct HB1 as ((c & d & Hr & Hc & Hd) & (ss & Ht & Hss) & Hf & Hp).
  destruct (bound_tuple_slots _ _ _ _ _ _ _ Hr Hc Hd Ht Hss Hf Hp) as (Sc & Sd & Ss & Ec & Ed & Eps).
  destruct (front_call ve C U (Datatypes.S n) r (LVs lc) st1 c d (fun_obj f s) k ss (map data tvs) (map data avs)
              tuple_kind Hr Sc Sd Ss (locals_LV _ _))
    as (cells & x & es & bs & Hi & Hx & He & Hb & Hxp & Hep & Hnd).
  cbv zeta in *. rewrite <- Eps, <- Ec in *.
  destruct Hnd as (Ebs & Hnd).
  { eapply Forall_impl; [|apply lv_cats]. intros a Ha. apply Ha. }
  rewrite aref_LVs in Ebs. rewrite aref_LVs in Hnd. subst bs.
  set (L1 := length (store st1)) in *.
  assert (HL1 : L1 = L + length avs) by (unfold L1; cbn [st1 store]; rewrite app_length, map_length; reflexivity).
  set (st2 := mkSt (store st1 ++ cells) (mworld st1) (trace st1)) in *.
  pose proof (locals_ge L (length avs)) as Hlg. fold lc in Hlg.
  specialize (Hnd ltac:(apply NoDup_app_intro; [exact distinct|apply locals_NoDup|];
    intros q H1 H2; rewrite Forall_forall in Hlg, Lp; specialize (Hlg q H2); specialize (Lp q H1); cbn beta in *; lia)).
  assert (Hargs : Forall2 (fun a v => holds (store st2) (aref a) (data v)) (es ++ LVs lc) (tvs ++ avs)).
  { apply holds_vals. rewrite map_app. apply Forall2_app; [exact He|]. unfold LVs. apply Forall2_map_l. exact Hb. }
  assert (Hcat : Forall (fun a => acat a <> CLV) (es ++ LVs lc)).
  { apply Forall_app; split.
    - clear - Hep. induction Hep as [|a p o es ps' os Ha _ IH]; constructor; auto.
      destruct Ha as [->|(_ & Ha & _)]; [discriminate|]. congruence.
    - eapply Forall_impl; [|apply lv_cats]; intros a Ha; apply Ha. }
  assert (HB2 : bound_tuple KFrontTuple (store st2) s tvs).
  { cbn [st2 store]. apply bound_tuple_grow. apply bound_tuple_grow. exact HB. }
  assert (Ei : invoke ve C U (3 + n) r (LVs lc) st1
               = closing L1 (invoke ve C U (Datatypes.S n) (aref x) (es ++ LVs lc) st2)) by exact Hi.
  clear Hi.
  pose proof (user_call ve C U n st2 (aref x) f s (es ++ LVs lc) (tvs ++ avs) Hx Hargs) as Hu.
  pose proof (typed s (tvs ++ avs) (mworld st)) as Hty.
  unfold ucall. change (mworld st2) with (mworld st) in Hu. change (trace st2) with (trace st) in Hu.
  destruct (usem U f s (tvs ++ avs) (mworld st)) as [[[s' vs'] u] w'].
  destruct Hu as (sto2 & Eu & Hal & Hke & Hf2 & Hv2). specialize (Hv2 Hnd Hcat).
  set (vs2 := overwrite (tvs ++ avs) vs') in *.
  assert (Les : length es = length tvs) by (apply Forall2_len in He; now rewrite map_length in He).
  assert (Hsplit := Forall2_split _ _ _ _ Hv2). destruct Hsplit as [Hv_es Hv_lc]. rewrite Les in Hv_es, Hv_lc.
  assert (Htyt : Forall2 (same_class ve) tvs (firstn (length tvs) vs2)) by apply (Forall2_split _ _ _ _ Hty).
  assert (Hps2 : Forall2 (holds sto2) ps (map data (firstn (length tvs) vs2))).
  { eapply (elements_after L L1 _ (store st2) sto2 (aref x) es (LVs lc) ps tvs); try eassumption.
    - lia.
    - intros a Ha. unfold LVs in Ha. apply in_map_iff in Ha. destruct Ha as (q & <- & Hq).
      rewrite Forall_forall in Hlg. apply Hlg in Hq. cbn [aref]. lia.
    - intros p v _ Hpv E. rewrite <- E in Hpv. pose proof (holds_fun _ _ _ _ Hx Hpv). discriminate.
    - apply HB2. }
  assert (Hfs : holds sto2 (place r 0 c0) (fun_obj f (new_state s s'))).
  { destruct Hxp as [E|(Eemp & _ & _ & Hge)].
    - rewrite E in Hf2. exact Hf2.
    - destruct s as [s0|]; [discriminate|]. cbn [new_state]. destruct HB2 as (_ & _ & HBf & _).
      apply Hke; [reflexivity|exact HBf|]. intros [E|Hin].
      + rewrite E in Hge. lia.
      + apply in_map_iff in Hin. destruct Hin as (a & Ea & Hin). apply In_nth_error in Hin. destruct Hin as (j & Ej).
        destruct (Forall2_nth _ _ _ Hargs j a Ej) as (v & _ & Hav). rewrite Ea in Hav.
        pose proof (holds_fun _ _ _ _ HBf Hav). discriminate. }
  set (st3 := mkSt (kill_from L1 sto2) w' (trace st ++ [MCall f (tvs ++ avs)])).
  assert (Eb : bind (invoke ve C U (3 + n) r (LVs lc)) (fun x => observe ve C x) st1
               = bind (fun s => (ures_result (F := F) (S := S) u (es ++ LVs lc), s)) (observe ve C) st3).
  { unfold bind. rewrite Ei, Eu. reflexivity. }
  fold st1. rewrite Eb. clear Eb.
  rewrite (observe_ures st3 u (es ++ LVs lc) vs2).
  2:{ replace vs2 with (firstn (length tvs) vs2 ++ skipn (length tvs) vs2) by apply firstn_skipn.
      apply Forall2_app.
      - apply Forall2_from_nth; [now apply Forall2_len in Hv_es|]. intros i a v Ea Ev.
        destruct (Forall2_nth _ _ _ Hv_es i a Ea) as (v2 & Ev2 & Hav). rewrite Ev in Ev2. injection Ev2 as <-.
        destruct (Forall3_nth1 _ _ _ _ Hep i a Ea) as (p & o & Epi & Eo & [E|(Eemp & _ & _ & Hge)]).
        + left. apply holds_kill; [|exact Hav]. rewrite E. cbn [aref].
          rewrite Forall_forall in Lp. assert (fst p < L) by (apply Lp; eapply nth_error_In; exact Epi). lia.
        + right. split; [apply holds_dies; [lia|exact Hav]|].
          rewrite nth_error_map in Eo. destruct (nth_error tvs i) as [v0|] eqn:Ev0; [|discriminate]. injection Eo as <-.
          destruct (Forall2_nth _ _ _ Htyt i v0 Ev0) as (v2 & Ev2 & Hcl & _). rewrite Ev in Ev2. injection Ev2 as <-.
          rewrite <- Hcl. cbn [Machine.data obj_empty kind_empty] in Eemp. now rewrite andb_true_r in Eemp.
      - apply Forall2_from_nth; [now apply Forall2_len in Hv_lc|]. intros i a v Ea Ev. left.
        destruct (Forall2_nth _ _ _ Hv_lc i a Ea) as (v2 & Ev2 & Hav). rewrite Ev in Ev2. injection Ev2 as <-.
        apply holds_kill; [|exact Hav]. apply nth_error_In in Ea. unfold LVs in Ea. apply in_map_iff in Ea.
        destruct Ea as (q & <- & Hq). rewrite Forall_forall in Hlg. apply Hlg in Hq. cbn [aref]. lia. }
  unfold closing. cbn [fst snd st3 store mworld trace].
  eexists; split; [reflexivity|].
  assert (Lp1 : Forall (fun q : ref => fst q < L1) ps).
  { eapply Forall_impl; [|exact Lp]. intros q Hq. cbn beta in *. lia. }
  apply bound_tuple_kill; auto; [].
  apply bound_tuple_kill; auto; try lia.
  eapply (bound_tuple_kept KFrontTuple (store st2)); try eassumption; [now left|].
  eapply args_user_kind; eassumption.
Qed.

Lemma bound_tuple_assign kd : kd = KFrontTuple \/ kd = KBackTuple ->
  forall st s tvs i v, bound_tuple kd (store st) s tvs -> i < length tvs ->
  exists sto', snd (write C (nth i ps (0, [])) (data v) st) = mkSt sto' (mworld st) (trace st) /\
    bound_tuple kd sto' s (update i v tvs).
Proof.
  intros Hkd st s tvs i v HB Hi.
  destruct HB as (H1 & H2 & Hf & Hp).
  destruct (assign_places st ps tvs i v distinct Hp Hi) as (q & u & sto' & Eq & Eu & Hq & Ew & Hal & Hke & Hp').
  rewrite Eq, Ew. exists sto'. split; [reflexivity|].
  eapply (bound_tuple_kept kd (store st)); try eassumption.
  - repeat split; eassumption.
  - intros q' [<-|[]]. eexists; split; [exact Hq|reflexivity].
  - apply Hke; [reflexivity|exact Hf|]. intros [E|[]]. rewrite E in Hq.
    pose proof (holds_fun _ _ _ _ Hq Hf). discriminate.
Qed.

Lemma elements_after' L0 L L' sto sto2 x es others tvs tvs' :
  L0 <= L ->
  Forall3 (passed ve L L') es ps (map data tvs) -> Forall (fun q : ref => fst q < L0) ps ->
  (forall a, In a others -> L0 <= fst (aref a)) ->
  (forall p v, In p ps -> holds sto p (data v) -> x <> p) ->
  Forall2 (holds sto) ps (map data tvs) ->
  Forall2 (fun a v => holds sto2 (aref a) (data v)) es tvs' ->
  Forall2 (same_class ve) tvs tvs' ->
  keeps (x :: map aref (others ++ es)) sto sto2 ->
  Forall2 (holds sto2) ps (map data tvs').
Proof.
  intros. eapply (elements_after L0 L L' sto sto2 x es others); try eassumption.
  eapply keeps_incl; [|eassumption]. intros q [->|Hin]; [now left|right].
  rewrite map_app in *. apply in_or_app. apply in_app_or in Hin. tauto.
Qed.

Lemma bound_left_call : byref C = false -> by_value_fun U f ->
  forall st s tvs avs, bound_tuple KBackTuple (store st) s tvs ->
  let vs := avs ++ tvs in
  let '(s', vs', _, w') := usem U f s vs (mworld st) in
  let '(o, _, l) := ucall U f s vs (mworld st) in
  exists sto', call_with ve C U (3 + n) r avs st = (o, mkSt sto' w' (trace st ++ l)) /\
    bound_tuple KBackTuple sto' s (skipn (length avs) (overwrite vs vs')).
Proof.
  intros Cb Hbv st s tvs avs HB. cbv zeta.
  destruct (bound_tuple_lt _ _ _ _ HB) as (Lr & Lt & Lf & Lp).
  unfold call_with. rewrite scoped_eq. erewrite bind_done by apply alloc_all.
  set (L := length (store st)) in *. set (lc := locals L (length avs)).
  set (st1 := mkSt (store st ++ map (fun v => (true, data v)) avs) (mworld st) (trace st)).
  assert (HB1 : bound_tuple KBackTuple (store st1) s tvs) by (now apply bound_tuple_grow).
  destruct HB1 as ((c & d & Hr & Hc & Hd) & (ss & Ht & Hss) & Hf & Hp).
  destruct (bound_tuple_slots _ _ _ _ _ _ _ Hr Hc Hd Ht Hss Hf Hp) as (Sc & Sd & Ss & Ec & Ed & Eps).
  destruct (back_call ve C U (Datatypes.S n) r (LVs lc) st1 c d (fun_obj f s) k ss (map data tvs) (map data avs)
              Cb tuple_kind Hr Sc Sd Ss (locals_LV _ _))
    as (cells & x & es & bs & Hi & Hx & He & Hb & Hxl & Hbl & Hep & Hnd).
  cbv zeta in *. rewrite <- Eps in *. specialize (Hnd distinct).
  set (L1 := length (store st1)) in *.
  assert (HL1 : L1 = L + length avs) by (unfold L1; cbn [st1 store]; rewrite app_length, map_length; reflexivity).
  set (st2 := mkSt (store st1 ++ cells) (mworld st1) (trace st1)) in *.
  assert (Lbs : length bs = length avs) by (apply Forall2_len in Hb; now rewrite map_length in Hb).
  assert (LRbs : length (RVs bs) = length avs) by (unfold RVs; now rewrite map_length).
  assert (Hargs : Forall2 (fun a v => holds (store st2) (aref a) (data v)) (RVs bs ++ es) (avs ++ tvs)).
  { apply holds_vals. rewrite map_app. apply Forall2_app; [|exact He]. unfold RVs. apply Forall2_map_l. exact Hb. }
  assert (Hcat : Forall (fun a => acat a <> CLV) (RVs bs ++ es)).
  { apply Forall_app; split.
    - apply Forall_forall. intros a Ha. unfold RVs in Ha. apply in_map_iff in Ha. destruct Ha as (q & <- & _). discriminate.
    - clear - Hep. induction Hep as [|a p o es ps' os Ha _ IH]; constructor; auto.
      destruct Ha as [->|(_ & Ha & _)]; [discriminate|]. congruence. }
  assert (HB2 : bound_tuple KBackTuple (store st2) s tvs).
  { cbn [st2 store]. apply bound_tuple_grow. apply bound_tuple_grow. exact HB. }
  assert (Ei : invoke ve C U (3 + n) r (LVs lc) st1
               = closing L1 (invoke ve C U (Datatypes.S n) x (RVs bs ++ es) st2)) by exact Hi.
  clear Hi.
  pose proof (user_call ve C U n st2 x f s (RVs bs ++ es) (avs ++ tvs) Hx Hargs) as Hu.
  pose proof (typed s (avs ++ tvs) (mworld st)) as Hty.
  pose proof (Hbv s (avs ++ tvs) (mworld st)) as Hnr.
  unfold ucall. change (mworld st2) with (mworld st) in Hu. change (trace st2) with (trace st) in Hu.
  destruct (usem U f s (avs ++ tvs) (mworld st)) as [[[s' vs'] u] w']. cbn [fst snd] in Hnr.
  destruct Hu as (sto2 & Eu & Hal & Hke & Hf2 & Hv2). specialize (Hv2 Hnd Hcat).
  set (vs2 := overwrite (avs ++ tvs) vs') in *.
  assert (Hsplit := Forall2_split _ _ _ _ Hv2). destruct Hsplit as [_ Hv_es]. rewrite LRbs in Hv_es.
  assert (Htyt : Forall2 (same_class ve) tvs (skipn (length avs) vs2)) by apply (Forall2_split _ _ _ _ Hty).
  assert (Hps2 : Forall2 (holds sto2) ps (map data (skipn (length avs) vs2))).
  { eapply (elements_after' L L1 _ (store st2) sto2 x es (RVs bs) tvs); try eassumption.
    - lia.
    - intros a Ha. unfold RVs in Ha. apply in_map_iff in Ha. destruct Ha as (q & <- & Hq).
      rewrite Forall_forall in Hbl. apply Hbl in Hq. cbn [aref]. lia.
    - intros p v _ Hpv E. rewrite <- E in Hpv. pose proof (holds_fun _ _ _ _ Hx Hpv). discriminate.
    - apply HB2. }
  assert (Hfs : holds sto2 (place r 0 c0) (fun_obj f s)).
  { destruct HB2 as (_ & _ & HBf & _). apply Hke; [reflexivity|exact HBf|]. intros [E|Hin].
    - rewrite E in Hxl. lia.
    - apply in_map_iff in Hin. destruct Hin as (a & Ea & Hin). apply In_nth_error in Hin. destruct Hin as (j & Ej).
      destruct (Forall2_nth _ _ _ Hargs j a Ej) as (v & _ & Hav). rewrite Ea in Hav.
      pose proof (holds_fun _ _ _ _ HBf Hav). discriminate. }
  set (st3 := mkSt (kill_from L1 sto2) w' (trace st ++ [MCall f (avs ++ tvs)])).
  assert (Eb : bind (invoke ve C U (3 + n) r (LVs lc)) (fun x => observe ve C x) st1
               = bind (fun s => (ures_result (F := F) (S := S) u (RVs bs ++ es), s)) (observe ve C) st3).
  { unfold bind. rewrite Ei, Eu. reflexivity. }
  fold st1. rewrite Eb. clear Eb.
  assert (Eo : bind (fun s => (ures_result (F := F) (S := S) u (RVs bs ++ es), s)) (observe ve C) st3
     = (match u with
        | URet v => Done (Some v)
        | UVoid => Done None
        | UThrow => Err Throw
        | URefArg i => match nth_error vs2 i with Some v => Done (Some v) | None => Err IllFormed end
        end, st3)).
  { destruct u; try reflexivity. now elim (Hnr i). }
  rewrite Eo.
  unfold closing. cbn [fst snd st3 store mworld trace].
  eexists; split; [reflexivity|].
  assert (Lp1 : Forall (fun q : ref => fst q < L1) ps).
  { eapply Forall_impl; [|exact Lp]. intros q Hq. cbn beta in *. lia. }
  apply bound_tuple_kill; auto; [].
  apply bound_tuple_kill; auto; try lia.
  eapply (bound_tuple_kept KBackTuple (store st2)); try eassumption; [now right|].
  eapply args_user_kind; eassumption.
Qed.

Theorem front_sequence : forall steps st s tvs,
  bound_tuple KFrontTuple (store st) s tvs ->
  Forall (fun x => match x with Assign i _ => i < length tvs | _ => True end) steps ->
  let '(os, s2, tvs2, w2, l2) := direct true true U f s tvs steps (mworld st) in
  exists sto', run_steps ve C U (3 + n) r ps steps st = (os, mkSt sto' w2 (trace st ++ l2)) /\
    bound_tuple KFrontTuple sto' s2 tvs2.
Proof.
  intros steps st s tvs HB Hs.
  apply (general true true f (3 + n) r ps (bound_tuple KFrontTuple) (fun bvs i _ => i < length bvs)).
  - apply bound_front_call.
  - apply bound_tuple_assign. now left.
  - exact HB.
  - clear - Hs. generalize (mworld st) as w. clear st. revert s tvs Hs.
    induction steps as [|[i v|avs] steps IH]; intros s tvs Hs w; cbn [allowed]; [exact I| |].
    + inversion Hs; subst. split; [assumption|]. apply IH. now rewrite update_length.
    + inversion Hs; subst. pose proof (overwrite_length (tvs ++ avs)) as Ho.
      destruct (usem U f s (tvs ++ avs) w) as [[[s' vs'] u] w']. apply IH.
      rewrite firstn_length, Ho, app_length, Nat.min_l by lia. assumption.
Qed.

Theorem left_sequence : byref C = false -> by_value_fun U f -> forall steps st s tvs,
  bound_tuple KBackTuple (store st) s tvs ->
  Forall (fun x => match x with Assign i _ => i < length tvs | _ => True end) steps ->
  let '(os, s2, tvs2, w2, l2) := direct false false U f s tvs steps (mworld st) in
  exists sto', run_steps ve C U (3 + n) r ps steps st = (os, mkSt sto' w2 (trace st ++ l2)) /\
    bound_tuple KBackTuple sto' s2 tvs2.
Proof.
  intros Cb Hbv steps st s tvs HB Hs.
  apply (general false false f (3 + n) r ps (bound_tuple KBackTuple) (fun bvs i _ => i < length bvs)).
  - apply bound_left_call; assumption.
  - apply bound_tuple_assign. now right.
  - exact HB.
  - clear - Hs. generalize (mworld st) as w. clear st. revert s tvs Hs.
    induction steps as [|[i v|avs] steps IH]; intros s tvs Hs w; cbn [allowed]; [exact I| |].
    + inversion Hs; subst. split; [assumption|]. apply IH. now rewrite update_length.
    + inversion Hs; subst. pose proof (overwrite_length (avs ++ tvs)) as Ho.
      destruct (usem U f s (avs ++ tvs) w) as [[[s' vs'] u] w']. apply IH.
      rewrite skipn_length, Ho, app_length, Nat.add_comm, Nat.add_sub. assumption.
Qed.

End Tuples.

End Seq.
