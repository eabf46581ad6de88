(** Proofs about a lazy function passed twice by [std::ref] (C68). *)
From Coq Require Import List Bool Arith Lia.
From Verif Require Import Value TupleAlg TupleAlgProofs LazyModel LazyProofs LazyGeneral
  SharedModel SharedProofs HistoryThms.
From Verif Require Machine MachineSpec Programs RewiredSpec RefPrograms RewiredRefSpec RewiredRefThms.
Import ListNotations.

Section Twice.
Context {A W fid did : Type}.
Notation value := (val A).
Notation slz := (slz A fid did).
Notation sop := (sop A W fid did).
Notation event := (event A fid did).
Variable U : user A W fid did.
Variables (sel : fid -> Prop) (i j x : nat).

(** Wherever the function is selected, dependencies [i] and [j] are references to [x]. *)
Inductive twice : slz -> Prop :=
| twice_value v ch : twice (SValue v ch)
| twice_core g c ds :
    ((exists f, g = FnUser f /\ sel f) -> nth_error ds i = Some (SRef x) /\ nth_error ds j = Some (SRef x)) ->
    Forall twice ds -> twice (SCore g c ds)
| twice_ref y : twice (SRef y).

Definition pair_ok (args : list value) : Prop :=
  forall a b, nth_error args i = Some a -> nth_error args j = Some b -> a = b \/ a = VVoid \/ b = VVoid.
Definition event_ok (e : event) : Prop :=
  match e with EvCall f args => sel f -> pair_ok args | _ => True end.

Definition is_core (l : slz) : Prop := match l with SCore _ _ _ => True | _ => False end.
Definition vars_ok (vs : list slz) : Prop := Forall (fun l => twice l /\ is_core l) vs.

(** A result that is there stays there. *)
Definition engaged (vs : list slz) (y : nat) : Prop := exists g c ds, nth_error vs y = Some (SCore g (Some c) ds).
Definition keeps (vs vs' : list slz) : Prop :=
  length vs' = length vs /\ forall y, engaged vs y -> engaged vs' y.
Definition stays (l l' : slz) : Prop :=
  match l, l' with
  | SCore g c ds, SCore g' c' ds' => g = g' /\ (c <> None -> c' <> None)
  | SValue _ _, SValue _ _ => True
  | SRef y, SRef y' => y = y'
  | _, _ => False
  end.

Lemma keeps_trans v1 v2 v3 : keeps v1 v2 -> keeps v2 v3 -> keeps v1 v3.
Proof. intros [L1 H1] [L2 H2]. split; [congruence|auto]. Qed.

Lemma core_stays g c xs w r c' w' lg : core U g c xs w = (r, c', w', lg) -> c <> None -> c' <> None.
Proof.
  rewrite core_eq. intros E Hc. destruct (negb (is_some c) || existsb snd xs).
  - destruct (call_fn U g _ w) as [[[v|] w1] l1]; injection E as <- <- <- <-; congruence.
  - destruct c; injection E as <- <- <- <-; congruence.
Qed.

Definition good_step (n : nat) (l : slz) : Prop :=
  forall vs w r l' vs' w' lg, twice l -> vars_ok vs -> sstep U n l vs w = Some (r, l', vs', w', lg) ->
    twice l' /\ stays l l' /\ vars_ok vs' /\ keeps vs vs' /\ Forall event_ok lg /\
    match r, l with Ok _, SRef y => engaged vs' y | _, _ => True end.

Lemma stays_nth l l' y : Forall2 stays l l' -> forall k, nth_error l k = Some (SRef y) -> nth_error l' k = Some (SRef y).
Proof.
  induction 1 as [|a b l l' Hab _ IH]; intros [|k] E; cbn in *; try discriminate; auto.
  injection E as ->. destruct b; try contradiction. now rewrite Hab.
Qed.

Lemma steps_good n ls : Forall (good_step n) ls -> forall vs w r ls' vs' w' lg,
  Forall twice ls -> vars_ok vs -> ssteps_with (sstep U n) ls vs w = Some (r, ls', vs', w', lg) ->
  Forall twice ls' /\ Forall2 stays ls ls' /\ vars_ok vs' /\ keeps vs vs' /\ Forall event_ok lg /\
  match r with
  | Ok xs => length xs = length ls /\ forall y, In (SRef y) ls -> engaged vs' y
  | _ => True
  end.
Proof.
  assert (Hrefl : forall ls, Forall2 stays ls ls).
  { induction ls0 as [|[]]; constructor; auto; cbn; auto. }
  induction 1 as [|l ls Hl Hls IH]; intros vs w r ls' vs' w' lg Ht Hv Hs.
  - cbn in Hs. injection Hs as <- <- <- <- <-. split; [constructor|]. split; [constructor|]. split; [exact Hv|].
    split; [split; auto|]. split; [constructor|]. split; [reflexivity|intros y []].
  - inversion Ht as [|? ? Ht1 Ht2]; subst. rewrite ssteps_cons in Hs.
    destruct (sstep U n l vs w) as [[[[[r1 l1] vs1] w1] lg1]|] eqn:E1; [|discriminate].
    destruct (Hl _ _ _ _ _ _ _ Ht1 Hv E1) as (T1 & S1 & V1 & K1 & L1 & R1).
    destruct r1 as [x1| |].
    + destruct (ssteps_with (sstep U n) ls vs1 w1) as [[[[[r2 ls2] vs2] w2] lg2]|] eqn:E2; [|discriminate].
      destruct (IH _ _ _ _ _ _ _ Ht2 V1 E2) as (T2 & S2 & V2 & K2 & L2 & R2).
      injection Hs as <- <- <- <- <-. split; [now constructor|]. split; [now constructor|]. split; [exact V2|].
      split; [eapply keeps_trans; eassumption|]. split; [apply Forall_app; auto|].
      destruct r2 as [xs| |]; auto. destruct R2 as [R2 R3]. split; [cbn; now rewrite R2|].
      intros y [->|Hy]; [|now apply R3]. apply K2. exact R1.
    + injection Hs as <- <- <- <- <-. split; [now constructor|]. split; [constructor; auto|]. repeat (split; auto).
    + injection Hs as <- <- <- <- <-. split; [now constructor|]. split; [constructor; auto|]. repeat (split; auto).
Qed.

Lemma read_refs_length vs : forall (ds : list slz) xs, length (read_refs vs ds xs) = length xs.
Proof. induction ds as [|d ds IH]; intros [|r xs]; cbn; auto. Qed.

Lemma read_refs_nth vs y : forall (ds : list slz) xs k r, nth_error ds k = Some (SRef y) ->
  nth_error (read_refs vs ds xs) k = Some r -> exists r0, r = read_ref vs (SRef y) r0.
Proof.
  induction ds as [|d ds IH]; intros [|r0 xs] [|k] r E Er; cbn in *; try discriminate; eauto.
  injection E as ->. injection Er as <-. eauto.
Qed.

Lemma read_engaged vs y r0 : engaged vs y ->
  exists c, fst (read_ref vs (SRef y) r0) = c /\ (c = VVoid \/ exists g ds, nth_error vs y = Some (SCore g (Some c) ds)).
Proof.
  intros (g & c & ds & E). unfold read_ref. rewrite E. destruct r0 as [v b].
  destruct v; cbn [fst]; eexists; (split; [reflexivity|]); eauto.
Qed.

Lemma late_pair vs (ds : list slz) xs :
  length xs = length ds -> nth_error ds i = Some (SRef x) -> nth_error ds j = Some (SRef x) -> engaged vs x ->
  pair_ok (ctad_tuple as_tuple (map fst (read_refs vs ds xs))).
Proof.
  intros Hlen Hi Hj He a b Ha Hb.
  destruct (Nat.eq_dec i j) as [->|Hne]; [left; congruence|].
  assert (El : ctad_tuple as_tuple (map fst (read_refs vs ds xs)) = map fst (read_refs vs ds xs)).
  { assert (Hl : i < length ds /\ j < length ds) by (split; apply nth_error_Some; congruence).
    pose proof (read_refs_length vs ds xs) as HL.
    destruct (read_refs vs ds xs) as [|r1 [|r2 rs]]; cbn in *; [reflexivity|lia|reflexivity]. }
  rewrite El in Ha, Hb. rewrite nth_error_map in Ha, Hb.
  destruct (nth_error (read_refs vs ds xs) i) as [ra|] eqn:Ea; [|discriminate].
  destruct (nth_error (read_refs vs ds xs) j) as [rb|] eqn:Eb; [|discriminate].
  injection Ha as <-. injection Hb as <-.
  destruct (read_refs_nth _ _ _ _ _ _ Hi Ea) as (ra0 & ->). destruct (read_refs_nth _ _ _ _ _ _ Hj Eb) as (rb0 & ->).
  destruct (read_engaged vs x ra0 He) as (ca & -> & Hca). destruct (read_engaged vs x rb0 He) as (cb & -> & Hcb).
  destruct Hca as [->|(g1 & d1 & E1)]; [auto|]. destruct Hcb as [->|(g2 & d2 & E2)]; [auto|]. left. congruence.
Qed.

Lemma core_events g c xs w r c' w' lg :
  core U g c xs w = (r, c', w', lg) ->
  ((exists f, g = FnUser f /\ sel f) -> pair_ok (ctad_tuple as_tuple (map fst xs))) -> Forall event_ok lg.
Proof.
  rewrite core_eq. intros E Hp.
  assert (Hc : forall o w1 l1, call_fn U g (ctad_tuple as_tuple (map fst xs)) w = (o, w1, l1) -> Forall event_ok l1).
  { intros o w1 l1. destruct g as [f'|d]; cbn [call_fn].
    - destruct (sem U f' _ w). intros H. injection H as <- <- <-. constructor; [|constructor].
      cbn. intros Hf. apply Hp. eauto.
    - destruct (dsem U d w). intros H. injection H as <- <- <-. repeat constructor. }
  destruct (negb (is_some c) || existsb snd xs).
  - destruct (call_fn U g _ w) as [[[v|] w1] l1] eqn:Ec; injection E as <- <- <- <-.
    + apply Forall_app. split; [eapply Hc; reflexivity|]. destruct c; repeat constructor.
    + eapply Hc; reflexivity.
  - destruct c; injection E as <- <- <- <-; constructor.
Qed.

Lemma sstep_good n : forall l, good_step n l.
Proof.
  induction n as [n IHn] using lt_wf_ind. intros l.
  induction l as [v ch|g cache deps IH|y] using slz_ind'; intros vs w r l' vs' w' lg Ht Hv Hs; rewrite sstep_eq in Hs.
  - injection Hs as <- <- <- <- <-. repeat (split; [first [exact Ht|exact Hv|exact I|split; auto|constructor]|]). exact I.
  - inversion Ht as [|? ? ? Hp Hds|]; subst.
    destruct (ssteps_with (sstep U n) deps vs w) as [[[[[q1 ls1] vs1] w1] lg1]|] eqn:E; [|discriminate].
    destruct (steps_good n deps IH _ _ _ _ _ _ _ Hds Hv E) as (T1 & S1 & V1 & K1 & L1 & R1).
    assert (Hp' : (exists f, g = FnUser f /\ sel f) -> nth_error ls1 i = Some (SRef x) /\ nth_error ls1 j = Some (SRef x)).
    { intros Eg. destruct (Hp Eg). split; eapply stays_nth; eauto. }
    destruct q1 as [xs| |].
    + cbv zeta in Hs. rewrite ctad_none in Hs.
      destruct (core U g cache _ w1) as [[[r2 c'] w2] l2] eqn:Ec.
      injection Hs as <- <- <- <- <-.
      split; [now constructor|]. split; [split; [reflexivity|eapply core_stays; exact Ec]|].
      split; [exact V1|]. split; [exact K1|]. split; [|now destruct r2].
      apply Forall_app. split; [exact L1|]. eapply core_events; [exact Ec|].
      intros Eg. destruct (Hp' Eg) as [Hi Hj]. destruct R1 as [Hlen R1]. apply late_pair; auto.
      * rewrite Hlen. clear - S1. induction S1; cbn; auto.
      * apply R1. eapply nth_error_In. apply (Hp Eg).
    + injection Hs as <- <- <- <- <-. split; [now constructor|]. split; [cbn; auto|]. repeat (split; auto).
    + injection Hs as <- <- <- <- <-. split; [now constructor|]. split; [cbn; auto|]. repeat (split; auto).
  - destruct n as [|n]; [discriminate|]. destruct (nth_error vs y) as [l0|] eqn:El; [|discriminate].
    destruct (sstep U n l0 vs w) as [[[[[r1 l1] vs1] w1] lg1]|] eqn:E; [|discriminate].
    injection Hs as <- <- <- <- <-.
    assert (H0 : twice l0 /\ is_core l0) by (unfold vars_ok in Hv; rewrite Forall_forall in Hv; apply Hv; eapply nth_error_In; exact El).
    destruct H0 as [H0 H0c].
    destruct (IHn n (Nat.lt_succ_diag_r n) l0 _ _ _ _ _ _ _ H0 Hv E) as (T1 & S1 & V1 & [KL K1] & L1 & _).
    destruct l0 as [|g0 c0 ds0|]; try contradiction. destruct l1 as [|g1 c1 ds1|]; try contradiction.
    assert (Hy : y < length vs1) by (rewrite KL; apply nth_error_Some; congruence).
    assert (Hup : forall z, nth_error (update y (SCore g1 c1 ds1) vs1) z =
                            if Nat.eqb y z then Some (SCore g1 c1 ds1) else nth_error vs1 z).
    { intros z. rewrite nth_error_update. destruct (Nat.eqb y z); [|reflexivity]. apply Nat.ltb_lt in Hy. now rewrite Hy. }
    split; [constructor|]. split; [reflexivity|]. split; [|split; [|split]].
    + unfold vars_ok in *. rewrite Forall_forall in *. intros l Hl. apply In_nth_error in Hl. destruct Hl as (z & Hz).
      rewrite Hup in Hz. destruct (Nat.eqb y z).
      * injection Hz as <-. split; [exact T1|exact I].
      * apply V1. eapply nth_error_In; exact Hz.
    + split; [now rewrite update_length|]. intros z Hz. unfold engaged. rewrite Hup.
      destruct (Nat.eqb_spec y z) as [<-|Hne].
      * destruct Hz as (g2 & c2 & ds2 & Ez). rewrite El in Ez. injection Ez as <- -> <-.
        destruct S1 as [_ S1]. destruct c1 as [c1|]; [eauto|]. destruct S1; congruence.
      * now apply K1.
    + exact L1.
    + destruct r1 as [[v ch]| |]; auto. apply sstep_cached in E. unfold engaged. rewrite Hup, Nat.eqb_refl.
      destruct c1 as [c1|]; [eauto|contradiction].
Qed.

(** ** Programs *)
Definition named_elsewhere (p : list sop) : Prop :=
  Forall (fun o => match o with SNew f' _ => ~ sel f' | _ => True end) p.

Lemma deps_twice vs : vars_ok vs -> forall ss ds, sdeps_of U vs ss = Some ds ->
  Forall twice ds /\ forall k, nth_error ss k = Some (SDRef x) -> nth_error ds k = Some (SRef x).
Proof.
  intros Hv. induction ss as [|s ss IH]; intros ds E; cbn [sdeps_of] in E.
  - injection E as <-. split; [constructor|]. intros k Hk. now destruct k.
  - destruct (sdep_of U vs s) as [d|] eqn:Ed; [|discriminate].
    destruct (sdeps_of U vs ss) as [ds'|]; [|discriminate]. injection E as <-.
    destruct (IH _ eq_refl) as [I1 I2]. split.
    + constructor; [|exact I1]. destruct s as [y|[y|d'|v]]; cbn in Ed.
      * destruct (nth_error vs y); [|discriminate]. injection Ed as <-. constructor.
      * unfold vars_ok in Hv. rewrite Forall_forall in Hv. apply Hv. eapply nth_error_In; exact Ed.
      * injection Ed as <-. constructor; [|repeat constructor]. intros (f' & Ef & _). discriminate.
      * injection Ed as <-. constructor.
    + intros [|k] Hk; [|now apply I2]. cbn in Hk. injection Hk as ->. cbn in Ed.
      destruct (nth_error vs x); [|discriminate]. now injection Ed as <-.
Qed.

Definition outs_ok (outs : list (output A fid did)) : Prop := Forall (fun o => Forall event_ok (snd o)) outs.

Lemma exec_twice o s s1 out : vars_ok (svars s) ->
  (match o with SNew f' ss => sel f' -> nth_error ss i = Some (SDRef x) /\ nth_error ss j = Some (SDRef x) | _ => True end) ->
  sexec U o s = Some (s1, out) -> vars_ok (svars s1) /\ Forall event_ok (snd out).
Proof.
  intros Hv Ho E. destruct o as [f' ss|y|y|h]; cbn [sexec] in E.
  - destruct (sdeps_of U (svars s) ss) as [ds|] eqn:Eds; [|discriminate]. injection E as <- <-.
    destruct (deps_twice _ Hv _ _ Eds) as [D1 D2]. split; [|constructor]. cbn [svars]. apply Forall_app. split; [exact Hv|].
    constructor; [|constructor]. split; [|exact I]. constructor; [|exact D1].
    intros (f1 & Ef & Hf). injection Ef as <-. destruct (Ho Hf). auto.
  - destruct (nth_error (svars s) y) as [l|] eqn:El; [|discriminate]. injection E as <- <-. split; [|constructor].
    cbn [svars]. apply Forall_app. split; [exact Hv|]. constructor; [|constructor].
    unfold vars_ok in Hv. rewrite Forall_forall in Hv. apply Hv. eapply nth_error_In; exact El.
  - destruct (nth_error (svars s) y) as [l|] eqn:El; [|discriminate].
    destruct (sstep U (length (svars s)) l (svars s) (sworld s)) as [[[[[r l'] vs'] w'] lg]|] eqn:Es; [|discriminate].
    injection E as <- <-.
    assert (H0 : twice l /\ is_core l) by (unfold vars_ok in Hv; rewrite Forall_forall in Hv; apply Hv; eapply nth_error_In; exact El).
    destruct H0 as [H0 H0c].
    destruct (sstep_good _ l _ _ _ _ _ _ _ H0 Hv Es) as (T1 & S1 & V1 & _ & L1 & _). split; [|exact L1].
    cbn [svars]. destruct l; try contradiction. destruct l'; try contradiction.
    clear - V1 T1. unfold vars_ok in *. revert y. induction V1 as [|a l Ha Hl IH]; intros [|y]; cbn [update]; constructor; auto.
    split; [exact T1|exact I].
  - injection E as <- <-. split; [exact Hv|constructor].
Qed.

Lemma run_twice : forall p s s1 outs, vars_ok (svars s) -> named_elsewhere p ->
  srun U p s = Some (s1, outs) -> vars_ok (svars s1) /\ outs_ok outs.
Proof.
  induction p as [|o p IH]; intros s s1 outs Hv Hp E; cbn [srun] in E.
  - injection E as <- <-. split; [exact Hv|constructor].
  - inversion Hp as [|? ? Ho Hp']; subst.
    destruct (sexec U o s) as [[s2 out]|] eqn:Eo; [|discriminate].
    destruct (srun U p s2) as [[s3 outs']|] eqn:Er; [|discriminate]. injection E as <- <-.
    assert (Ho' : match o with SNew f' ss => sel f' -> nth_error ss i = Some (SDRef x) /\ nth_error ss j = Some (SDRef x) | _ => True end).
    { destruct o; auto. intros Hf. contradiction. }
    destruct (exec_twice o s s2 out Hv Ho' Eo) as [V1 L1].
    destruct (IH _ _ _ V1 Hp' Er) as [V2 L2]. split; [exact V2|]. now constructor.
Qed.

Lemma srun_app p1 : forall p2 s s1 outs, srun U (p1 ++ p2) s = Some (s1, outs) ->
  exists s' o1 o2, srun U p1 s = Some (s', o1) /\ srun U p2 s' = Some (s1, o2) /\ outs = o1 ++ o2.
Proof.
  induction p1 as [|o p1 IH]; intros p2 s s1 outs E; cbn [app srun] in *; [exists s, [], outs; auto|].
  destruct (sexec U o s) as [[s2 out]|]; [|discriminate].
  destruct (srun U (p1 ++ p2) s2) as [[s3 outs']|] eqn:Er; [|discriminate]. injection E as <- <-.
  destruct (IH _ _ _ _ Er) as (s' & o1 & o2 & E1 & E2 & ->). rewrite E1.
  exists s', (out :: o1), o2. auto.
Qed.

Theorem same_argument f p1 p2 ss w s outs :
  sel f -> named_elsewhere p1 -> named_elsewhere p2 ->
  nth_error ss i = Some (SDRef x) -> nth_error ss j = Some (SDRef x) ->
  srun U (p1 ++ SNew f ss :: p2) (mkSState [] w) = Some (s, outs) ->
  forall r lg f' args a b, In (r, lg) outs -> sel f' -> In (EvCall f' args) lg ->
  nth_error args i = Some a -> nth_error args j = Some b -> a = b \/ a = VVoid \/ b = VVoid.
Proof.
  intros Hf H1 H2 Hi Hj E. destruct (srun_app _ _ _ _ _ E) as (s1 & o1 & o2 & E1 & E2 & ->).
  destruct (run_twice p1 (mkSState [] w) _ _ (Forall_nil _) H1 E1) as [V1 L1].
  cbn [srun] in E2. destruct (sexec U (SNew f ss) s1) as [[s2 out]|] eqn:Eo; [|discriminate].
  destruct (srun U p2 s2) as [[s3 outs']|] eqn:Er; [|discriminate]. injection E2 as <- <-.
  destruct (exec_twice (SNew f ss) _ _ _ V1 (fun _ => conj Hi Hj) Eo) as [V2 L2].
  destruct (run_twice p2 _ _ _ V2 H2 Er) as [_ L3].
  intros r lg f' args a b Hin Hf' Hev Ha Hb.
  assert (HO : outs_ok (o1 ++ out :: outs')) by (apply Forall_app; split; [exact L1|constructor; assumption]).
  unfold outs_ok in HO. rewrite Forall_forall in HO. specialize (HO _ Hin). cbn in HO.
  rewrite Forall_forall in HO. exact (HO _ Hev Hf' a b Ha Hb).
Qed.

End Twice.

Theorem same_value {A W fid did} (U : user A W fid did) (f : fid) (i j x : nat) p1 ss p2 w s outs :
  Forall (fun o => match o with SNew f' _ => f' <> f | _ => True end) (p1 ++ p2) ->
  nth_error ss i = Some (SDRef x) -> nth_error ss j = Some (SDRef x) ->
  srun U (p1 ++ SNew f ss :: p2) (mkSState [] w) = Some (s, outs) ->
  forall r lg args a b, In (r, lg) outs -> In (EvCall f args) lg ->
  nth_error args i = Some a -> nth_error args j = Some b -> a = b \/ a = VVoid \/ b = VVoid.
Proof.
  intros Hn Hi Hj E r lg args a b Hin Hev Ha Hb. apply Forall_app in Hn. destruct Hn as [Hn1 Hn2].
  exact (same_argument U (fun f' => f' = f) i j x f p1 p2 ss w s outs eq_refl Hn1 Hn2 Hi Hj E r lg f args a b Hin eq_refl Hev Ha Hb).
Qed.

(** ** On the machine *)
Section Rewired.
Import Machine MachineSpec Programs RewiredSpec RefPrograms RewiredRefSpec RewiredRefThms.
Context {A W F S : Type}.

Theorem same_argument_rewired (ve : val A -> bool) (c : bool) (U : muser A W F S) (f : F) (i j x : nat) p1 s ss p2 :
  prog_ok 0 (by_values (p1 ++ RNew f s ss :: p2)) -> Forall (rop_steady U) (p1 ++ RNew f s ss :: p2) ->
  Forall (fun o => match o with RNew f' _ _ => f' <> f | _ => True end) (p1 ++ p2) ->
  nth_error ss i = Some (RRef x) -> nth_error ss j = Some (RRef x) ->
  exists m0, forall m st, m0 <= m -> exists acts,
    trace (snd (run_refs ve (mkCfg c true) U m [] (p1 ++ RNew f s ss :: p2) st)) = trace st ++ acts /\
    forall args a b, In (MCall f args) acts -> nth_error args i = Some a -> nth_error args j = Some b ->
      a = b \/ a = VVoid \/ b = VVoid.
Proof.
  intros Hp Hs Hn Hi Hj. destruct (rewired_refs_run ve c U _ Hp Hs) as (m0 & H). exists m0. intros m st Hm.
  destruct (H m st Hm) as (s' & outs & cells & E & ->). exists (kept_actions outs). split; [reflexivity|].
  intros args a b Hin Ha Hb. unfold kept_actions in Hin. apply in_flat_map in Hin. destruct Hin as ([r lg] & Ho & Hin).
  apply in_map_iff in Hin. destruct Hin as (e & Ee & Hin). cbn [snd] in Hin.
  rewrite map_app in E. cbn [map kept_rop] in E.
  apply Forall_app in Hn. destruct Hn as [Hn1 Hn2].
  assert (Hm' : forall p : list (rop A W F S), Forall (fun o => match o with RNew f' _ _ => f' <> f | _ => True end) p ->
                named_elsewhere (fun q : F * option S => fst q = f) (map (@kept_rop A W F S) p)).
  { unfold named_elsewhere. induction 1 as [|o p Ho' _ IH]; cbn; constructor; auto. destruct o; cbn; auto. }
  destruct e as [[f' s1] args'|[g t]|]; cbn in Ee; try discriminate.
  - injection Ee as -> ->.
    apply (same_argument (kept_user U) (fun q => fst q = f) i j x (f, s) (map (@kept_rop A W F S) p1)
             (map (@kept_rop A W F S) p2) (map (@kept_rsource A F S) ss) (mworld st) s' outs)
      with (r := r) (lg := lg) (f' := (f, s1)) (args := args); auto.
    + rewrite nth_error_map, Hi. reflexivity.
    + rewrite nth_error_map, Hj. reflexivity.
  - injection Ee as -> <-. now destruct i.
Qed.

End Rewired.
