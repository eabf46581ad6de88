(** Sharing by reference: programs always complete, and what is used exclusively
    stays right. *)
From Coq Require Import List Bool Arith Lia.
From Verif Require Import Value TupleAlg TupleAlgProofs LazyModel LazySpec LazySpec2 LazyProofs LazyGeneral LazyRel
  SharedModel SharedProofs HistorySpec HistoryThms.
Import ListNotations.

Section Proofs.
Context {A W fid did : Type}.
Notation value := (val A).
Notation expr := (expr A fid did).
Notation slz := (slz A fid did).
Notation lz := (lz A fid did).
Notation sop := (sop A W fid did).
Variable U : user A W fid did.

(** The references in a tree. *)
Fixpoint srefs (l : slz) : list nat :=
  match l with
  | SValue _ _ => []
  | SCore _ _ ds => flat_map srefs ds
  | SRef x => [x]
  end.

(** ** Programs complete *)
Definition ordered (vs : list slz) : Prop :=
  forall x l, nth_error vs x = Some l -> forall y, In y (srefs l) -> y < x.

Definition step_done (n : nat) (l : slz) : Prop :=
  forall vs w, ordered vs -> (forall y, In y (srefs l) -> y < n /\ y < length vs) ->
    exists r l' vs' w' lg, sstep U n l vs w = Some (r, l', vs', w', lg) /\
      srefs l' = srefs l /\ ordered vs' /\ length vs' = length vs.

Lemma ordered_update vs x l l' :
  ordered vs -> nth_error vs x = Some l -> srefs l' = srefs l -> ordered (update x l' vs).
Proof.
  intros Ho Hx E y l0 Hy. rewrite nth_error_update in Hy.
  destruct (Nat.eqb_spec x y) as [->|]; [|now apply Ho].
  destruct (y <? length vs); [|discriminate]. injection Hy as <-. rewrite E. now apply Ho.
Qed.

Lemma ssteps_done n ls : Forall (step_done n) ls ->
  forall vs w, ordered vs -> (forall y, In y (flat_map srefs ls) -> y < n /\ y < length vs) ->
    exists r ls' vs' w' lg, ssteps_with (sstep U n) ls vs w = Some (r, ls', vs', w', lg) /\
      flat_map srefs ls' = flat_map srefs ls /\ ordered vs' /\ length vs' = length vs.
Proof.
  induction 1 as [|l ls Hl Hls IH]; intros vs w Ho Hr.
  - cbn. do 5 eexists. split; [reflexivity|]. auto.
  - cbn in Hr. rewrite ssteps_cons.
    destruct (Hl vs w Ho) as (r & l' & vs1 & w1 & lg1 & Es & E1 & Ho1 & Hl1).
    { intros y Hy. apply Hr. apply in_or_app. now left. }
    rewrite Es. destruct r as [x| |].
    + destruct (IH vs1 w1 Ho1) as (r2 & ls' & vs2 & w2 & lg2 & Es2 & E2 & Ho2 & Hl2).
      { intros y Hy. rewrite Hl1. apply Hr. apply in_or_app. now right. }
      rewrite Es2. do 5 eexists. split; [reflexivity|]. cbn. rewrite E1, E2. repeat split; auto. congruence.
    + do 5 eexists. split; [reflexivity|]. cbn. rewrite E1. auto.
    + do 5 eexists. split; [reflexivity|]. cbn. rewrite E1. auto.
Qed.

Lemma sstep_done n : forall l, step_done n l.
Proof.
  induction n as [n IHn] using lt_wf_ind. intros l.
  induction l as [v ch|g cache deps IH|x] using slz_ind'; intros vs w Ho Hr; rewrite sstep_eq.
  - do 5 eexists. split; [reflexivity|]. auto.
  - destruct (ssteps_done n deps IH vs w Ho Hr) as (r & ls' & vs1 & w1 & lg1 & Es & E1 & Ho1 & Hl1).
    rewrite Es. destruct r as [xs| |].
    + cbv zeta. destruct (core U g cache _ w1) as [[[r c'] w2] l2].
      do 5 eexists. split; [reflexivity|]. auto.
    + do 5 eexists. split; [reflexivity|]. auto.
    + do 5 eexists. split; [reflexivity|]. auto.
  - destruct (Hr x (or_introl eq_refl)) as [Hn Hx]. destruct n as [|n]; [lia|].
    destruct (nth_error vs x) as [l0|] eqn:El; [|apply nth_error_None in El; lia].
    destruct (IHn n (Nat.lt_succ_diag_r n) l0 vs w Ho) as (r & l' & vs1 & w1 & lg1 & Es & E1 & Ho1 & Hl1).
    { intros y Hy. pose proof (Ho _ _ El y Hy). lia. }
    rewrite Es. do 5 eexists. split; [reflexivity|]. repeat split.
    + intros y l1 Hy. rewrite nth_error_update in Hy.
      destruct (Nat.eqb_spec x y) as [->|]; [|now apply Ho1].
      destruct (y <? length vs1); [|discriminate]. injection Hy as <-. rewrite E1. now apply Ho.
    + now rewrite update_length.
Qed.

Lemma sdeps_refs vs ss ds : ordered vs -> sdeps_of U vs ss = Some ds ->
  forall y, In y (flat_map srefs ds) -> y < length vs.
Proof.
  intros Ho. revert ds. induction ss as [|s ss IH]; intros ds Hd y Hy; cbn in Hd.
  - injection Hd as <-. destruct Hy.
  - destruct (sdep_of U vs s) as [o|] eqn:Eo; [|discriminate].
    destruct (sdeps_of U vs ss) as [os|]; [|discriminate]. injection Hd as <-.
    cbn in Hy. apply in_app_or in Hy as [Hy|Hy]; [|eauto].
    destruct s as [x|[x|d|v]]; cbn in Eo.
    + destruct (nth_error vs x) eqn:E; [|discriminate]. injection Eo as <-.
      destruct Hy as [<-|[]]. apply nth_error_Some. congruence.
    + pose proof (Ho _ _ Eo y Hy). assert (x < length vs) by (apply nth_error_Some; congruence). lia.
    + injection Eo as <-. destruct Hy.
    + injection Eo as <-. destruct Hy.
Qed.

Lemma ordered_snoc vs l : ordered vs -> (forall y, In y (srefs l) -> y < length vs) -> ordered (vs ++ [l]).
Proof.
  intros Ho Hl x l0 Hx. apply nth_error_snoc_inv in Hx as [[_ Hx]|[-> <-]]; eauto.
Qed.

Lemma sdeps_some (es : list expr) vs ss us :
  length vs = length es -> spec_deps EConst EFun es (map by_value_dep ss) = Some us ->
  exists ds, sdeps_of U vs ss = Some ds.
Proof.
  intros Hlen. revert us. induction ss as [|s ss IH]; intros us Hu; cbn in *; [eauto|].
  assert (Hex : forall x (t : expr), nth_error es x = Some t -> exists l, nth_error vs x = Some l).
  { intros x t Hx. destruct (nth_error vs x) eqn:E; eauto. apply nth_error_None in E.
    rewrite Hlen in E. apply nth_error_None in E. congruence. }
  destruct (spec_deps EConst EFun es (map by_value_dep ss)) as [ts|];
    [|destruct s as [x|[x|d|v]]; cbn in Hu; try destruct (nth_error es x); discriminate].
  destruct (IH _ eq_refl) as [ds ->].
  destruct s as [x|[x|d|v]]; cbn in Hu |- *; eauto;
    destruct (nth_error es x) as [t|] eqn:Et; try discriminate; destruct (Hex _ _ Et) as [l ->]; eauto.
Qed.

Lemma srun_done p : forall (es : list expr) vs w es',
  length vs = length es -> ordered vs -> shapes (map by_value p) es = Some es' ->
  exists s outs, srun U p (mkSState vs w) = Some (s, outs).
Proof.
  induction p as [|o p IH]; intros es vs w es' Hlen Ho Hs.
  - cbn. eauto.
  - assert (Hex : forall x (t : expr), nth_error es x = Some t -> exists l, nth_error vs x = Some l).
    { intros x t Hx. destruct (nth_error vs x) eqn:E; eauto. apply nth_error_None in E.
      rewrite Hlen in E. apply nth_error_None in E. congruence. }
    destruct o as [f ss|x|x|h]; cbn [srun sexec svars sworld map by_value shapes] in *.
    + destruct (spec_deps EConst EFun es (map by_value_dep ss)) as [us|] eqn:Eu; [|discriminate].
      destruct (sdeps_some es vs ss us Hlen Eu) as [ds Eds]. rewrite Eds.
      destruct (IH (es ++ [EApp f us]) (vs ++ [SCore (FnUser f) None ds]) w es') as (s & outs & ->); eauto.
      { rewrite !app_length. cbn. lia. }
      apply ordered_snoc; auto. exact (sdeps_refs vs ss ds Ho Eds).
    + destruct (nth_error es x) as [e|] eqn:Ee; [|discriminate]. destruct (Hex _ _ Ee) as [l El]. rewrite El.
      destruct (IH (es ++ [e]) (vs ++ [l]) w es') as (s & outs & ->); eauto.
      { rewrite !app_length. cbn. lia. }
      apply ordered_snoc; auto. intros y Hy. pose proof (Ho _ _ El y Hy).
      assert (x < length vs) by (apply nth_error_Some; congruence). lia.
    + destruct (nth_error es x) as [e|] eqn:Ee; [|discriminate]. destruct (Hex _ _ Ee) as [l El]. rewrite El.
      assert (Hx : x < length vs) by (apply nth_error_Some; congruence).
      destruct (sstep_done (length vs) l vs w Ho) as (r & l' & vs1 & w1 & lg & -> & E1 & Ho1 & Hl1).
      { intros y Hy. pose proof (Ho _ _ El y Hy). lia. }
      destruct (IH es (update x l' vs1) w1 es') as (s & outs & ->); eauto.
      { now rewrite update_length, Hl1. }
      intros y l1 Hy. rewrite nth_error_update in Hy.
      destruct (Nat.eqb_spec x y) as [->|]; [|now apply Ho1].
      destruct (y <? length vs1); [|discriminate]. injection Hy as <-. rewrite E1. now apply Ho.
    + destruct (IH es vs (h w) es') as (s & outs & ->); eauto.
Qed.

Lemma shared_complete p w (es : list expr) : shapes (map by_value p) [] = Some es ->
  exists s outs, srun U p (mkSState [] w) = Some (s, outs).
Proof. apply (srun_done p [] []); auto. intros x l H. destruct x; discriminate. Qed.

(** ** More fuel changes nothing *)
Lemma ssteps_more n m ls : n <= m ->
  Forall (fun l => forall vs w r, sstep U n l vs w = Some r -> sstep U m l vs w = Some r) ls ->
  forall vs w r, ssteps_with (sstep U n) ls vs w = Some r -> ssteps_with (sstep U m) ls vs w = Some r.
Proof.
  intros Hnm. induction 1 as [|l ls Hl Hls IH]; intros vs w r Hs; [exact Hs|].
  rewrite ssteps_cons in Hs |- *.
  destruct (sstep U n l vs w) as [[[[[x l'] vs1] w1] lg1]|] eqn:E; [|discriminate].
  rewrite (Hl _ _ _ E). destruct x as [x| |]; auto.
  destruct (ssteps_with (sstep U n) ls vs1 w1) as [q|] eqn:E2; [|discriminate].
  now rewrite (IH _ _ _ E2).
Qed.

Lemma sstep_more n : forall m l vs w r, n <= m -> sstep U n l vs w = Some r -> sstep U m l vs w = Some r.
Proof.
  induction n as [n IHn] using lt_wf_ind. intros m l vs w r Hnm. revert vs w r.
  induction l as [v ch|g cache deps IH|x] using slz_ind'; intros vs w r Hs; rewrite sstep_eq in Hs |- *.
  - exact Hs.
  - destruct (ssteps_with (sstep U n) deps vs w) as [q|] eqn:E; [|discriminate].
    now rewrite (ssteps_more n m deps Hnm IH _ _ _ E).
  - destruct n as [|n]; [discriminate|]. destruct m as [|m]; [lia|].
    destruct (nth_error vs x) as [l0|]; [|discriminate].
    destruct (sstep U n l0 vs w) as [q|] eqn:E; [|discriminate].
    now rewrite (IHn n (Nat.lt_succ_diag_r n) m l0 vs w q (le_S_n _ _ Hnm) E).
Qed.

Lemma eager_shapes pf rd p : forall (es : list expr) (w : W) es' vals,
  eager pf rd p es w = Some (es', vals) -> shapes p es = Some es'.
Proof.
  induction p as [|o p IH]; intros es w es' vals H; cbn in *; [now injection H as <- <-|].
  destruct o as [f ss|x|x|h]; eauto.
  - destruct (spec_deps EConst EFun es ss); [eauto|discriminate].
  - destruct (nth_error es x); [eauto|discriminate].
  - destruct (nth_error es x); [|discriminate].
    destruct (eager pf rd p es w) as [[es2 vals2]|] eqn:E; [|discriminate]. injection H as <- <-. eauto.
Qed.

(** ** Exclusive use *)
Section Exclusive.
Variable pf : fid -> list value -> option value.
Variable rd : did -> W -> value.
Hypothesis Hpure : pure_user U pf rd.
Hypothesis Hsound : sound_eq U.
Variable G : nat -> bool.
Variable es0 : list expr.   (* the variables at the end *)
Hypothesis Hreg : Forall (regular pf rd) es0.
Hypothesis Hun : Forall (unnested pf rd) es0.

Lemma good_step e (l : lz) w :
  good U pf eq e l -> regular pf rd e -> unnested pf rd e ->
  exists v ch l' lg, step U l w = (Ok (v, ch), l', w, lg) /\ v = eval pf rd e w /\ good U pf eq e l'.
Proof.
  apply (step_good_pure U pf rd Hpure eq); auto.
  - intros; congruence.
  - intros x y. apply veq_sound. exact Hsound.
  - intros; congruence.
  - intros; congruence.
  - intros f xs ys Hxy. f_equal. induction Hxy; congruence.
Qed.

Record inv (es : list expr) (vs : list slz) (used lent holders : list nat) (rho : nat -> list nat) : Prop := {
  inv_len : length vs = length es;
  inv_es : forall y e, nth_error es y = Some e -> nth_error es0 y = Some e;
  inv_tree : forall y l e, G y = true -> ~ In y used -> nth_error vs y = Some l -> nth_error es y = Some e ->
               exists t, unfolds vs l (rho y) t /\ good U pf eq e t;
  inv_nd : forall y, NoDup (rho y);
  inv_used : forall y x, In x (rho y) -> In x used;
  inv_dis : forall y z x, ~ In y used -> ~ In z used -> In x (rho y) -> In x (rho z) -> y = z;
  inv_hold : forall y, ~ In y used -> ~ In y holders -> rho y = [];
  inv_bound : forall y, length vs <= y -> rho y = [];
  inv_usedG : forall y, In y used -> G y = true;
  inv_out : forall y l, G y = false -> nth_error vs y = Some l -> incl (srefs l) lent;
  inv_sep : forall x, In x lent -> In x used -> False }.

(** The variable [z], unused by [G], and what it uses change. *)
Lemma inv_change es vs used lent holders rho z l0 e vs' l' t' :
  inv es vs used lent holders rho -> ~ In z used -> G z = true ->
  nth_error vs z = Some l0 -> nth_error es z = Some e ->
  unfolds vs' l' (rho z) t' -> good U pf eq e t' -> length vs' = length vs ->
  (forall y, ~ In y (rho z) -> nth_error vs' y = nth_error vs y) ->
  inv es (update z l' vs') used lent holders rho.
Proof.
  intros Hi Hz HG Hl0 He Hu Hg Hlen Hfr.
  assert (Hzr : forall y, ~ In z (rho y)). { intros y Hin. apply Hz. eapply inv_used; eauto. }
  split.
  - rewrite update_length, Hlen. eapply inv_len; eauto.
  - eapply inv_es; eauto.
  - intros y l e1 Gy Hy Hl He1. rewrite nth_error_update in Hl. destruct (Nat.eqb_spec z y) as [->|Hne].
    + destruct (y <? length vs'); [|discriminate]. injection Hl as <-.
      rewrite He in He1. injection He1 as <-. exists t'. split; auto.
      eapply (proj1 (unfolds_frame_mut vs' _)); [exact Hu|].
      intros x Hx. rewrite nth_error_update. destruct (Nat.eqb_spec y x) as [->|]; auto.
      destruct (Hzr x). auto.
    + rewrite Hfr in Hl. 2:{ intros Hin. apply Hy. eapply inv_used; eauto. }
      destruct (inv_tree _ _ _ _ _ _ Hi y l e1 Gy Hy Hl He1) as (t & Ht & Hgt). exists t. split; auto.
      eapply (proj1 (unfolds_frame_mut vs _)); [exact Ht|].
      intros x Hx. rewrite nth_error_update. destruct (Nat.eqb_spec z x) as [->|].
      * destruct (Hzr y). auto.
      * apply Hfr. intros Hin. apply Hne. eapply (inv_dis _ _ _ _ _ _ Hi); eauto.
  - eapply inv_nd; eauto.
  - eapply inv_used; eauto.
  - eapply inv_dis; eauto.
  - eapply inv_hold; eauto.
  - rewrite update_length, Hlen. eapply inv_bound; eauto.
  - eapply inv_usedG; eauto.
  - intros y l Gy Hl. rewrite nth_error_update in Hl. destruct (Nat.eqb_spec z y) as [->|Hne]; [congruence|].
    eapply inv_out; eauto. rewrite <- Hfr; auto. intros Hin.
    assert (G y = true) by (eapply inv_usedG; eauto; eapply inv_used; eauto). congruence.
  - eapply inv_sep; eauto.
Qed.

Lemma inv_change_out es vs used lent holders rho z l' :
  inv es vs used lent holders rho -> G z = false -> incl (srefs l') lent ->
  inv es (update z l' vs) used lent holders rho.
Proof.
  intros Hi HG Hl'.
  assert (Hzr : forall y, ~ In z (rho y)).
  { intros y Hin. assert (G z = true) by (eapply inv_usedG; eauto; eapply inv_used; eauto). congruence. }
  split.
  - rewrite update_length. eapply inv_len; eauto.
  - eapply inv_es; eauto.
  - intros y l e1 Gy Hy Hl He1. rewrite nth_error_update in Hl. destruct (Nat.eqb_spec z y) as [->|Hne]; [congruence|].
    destruct (inv_tree _ _ _ _ _ _ Hi y l e1 Gy Hy Hl He1) as (t & Ht & Hgt). exists t. split; auto.
    eapply (proj1 (unfolds_frame_mut vs _)); [exact Ht|].
    intros x Hx. rewrite nth_error_update. destruct (Nat.eqb_spec z x) as [->|]; auto. destruct (Hzr y). auto.
  - eapply inv_nd; eauto.
  - eapply inv_used; eauto.
  - eapply inv_dis; eauto.
  - eapply inv_hold; eauto.
  - rewrite update_length. eapply inv_bound; eauto.
  - eapply inv_usedG; eauto.
  - intros y l Gy Hl. rewrite nth_error_update in Hl. destruct (Nat.eqb_spec z y) as [->|Hne].
    + destruct (y <? length vs); [|discriminate]. now injection Hl as <-.
    + eapply inv_out; eauto.
  - eapply inv_sep; eauto.
Qed.

(** A call of an unused variable of [G] is right. *)
Lemma exclusive_step es vs used lent holders rho z l e n w r l' vs' w' lg :
  inv es vs used lent holders rho -> ~ In z used -> G z = true ->
  nth_error vs z = Some l -> nth_error es z = Some e ->
  sstep U n l vs w = Some (r, l', vs', w', lg) ->
  (exists ch, r = Ok (eval pf rd e w, ch)) /\ w' = w /\ inv es (update z l' vs') used lent holders rho.
Proof.
  intros Hi Hz HG Hl He Hs.
  destruct (inv_tree _ _ _ _ _ _ Hi z l e HG Hz Hl He) as (t & Ht & Hg).
  assert (Hin : In e es0) by (eapply nth_error_In; eapply inv_es; eauto).
  destruct (good_step e t w Hg) as (v & ch & t' & lg' & Hst & -> & Hg').
  { rewrite Forall_forall in Hreg. auto. }
  { rewrite Forall_forall in Hun. auto. }
  destruct (proj1 (sstep_refines_mut U vs) l (rho z) t Ht vs w (n + length (rho z)))
    as (l2 & vs2 & Hs2 & Hu2 & Hlen2 & Hfr2 & _); auto; [eapply inv_nd; eauto|lia|].
  rewrite (sstep_more n _ l vs w _ (Nat.le_add_r n _) Hs) in Hs2.
  rewrite Hst in Hs2, Hu2. cbn [fst snd] in Hs2, Hu2. injection Hs2 as -> -> -> -> ->.
  split; [eauto|]. split; [reflexivity|]. exact (inv_change _ _ _ _ _ _ z l e vs2 l2 t' Hi Hz HG Hl He Hu2 Hg' Hlen2 Hfr2).
Qed.

Lemma core_world g c xs w r c' w' lg : core U g c xs w = (r, c', w', lg) -> w' = w.
Proof.
  destruct Hpure as [Hs Hd]. rewrite core_eq.
  destruct (negb (is_some c) || existsb snd xs); [|destruct c; intros E; now inversion E].
  destruct (call_fn U g _ w) as [[q w1] l1] eqn:Ec.
  assert (w1 = w).
  { destruct g as [f|d]; cbn in Ec.
    - rewrite Hs in Ec. now inversion Ec.
    - rewrite Hd in Ec. now inversion Ec. }
  subst. destruct q as [v|]; [destruct (opt_neq U c v)|]; intros E; now inversion E.
Qed.

(** The others keep the invariant. *)
Definition keeps (n : nat) (l : slz) : Prop :=
  forall es vs used lent holders rho w r l' vs' w' lg,
    inv es vs used lent holders rho -> incl (srefs l) lent ->
    sstep U n l vs w = Some (r, l', vs', w', lg) ->
    w' = w /\ srefs l' = srefs l /\ inv es vs' used lent holders rho.

Lemma keeps_all n ls : Forall (keeps n) ls ->
  forall es vs used lent holders rho w r ls' vs' w' lg,
    inv es vs used lent holders rho -> incl (flat_map srefs ls) lent ->
    ssteps_with (sstep U n) ls vs w = Some (r, ls', vs', w', lg) ->
    w' = w /\ flat_map srefs ls' = flat_map srefs ls /\ inv es vs' used lent holders rho.
Proof.
  induction 1 as [|l ls Hl Hls IH]; intros es vs used lent holders rho w r ls' vs' w' lg Hi Hin Hs.
  - cbn in Hs. injection Hs as <- <- <- <- <-. auto.
  - rewrite ssteps_cons in Hs. cbn in Hin.
    assert (Hin1 : incl (srefs l) lent) by (intros y Hy; apply Hin; apply in_or_app; auto).
    assert (Hin2 : incl (flat_map srefs ls) lent) by (intros y Hy; apply Hin; apply in_or_app; auto).
    destruct (sstep U n l vs w) as [[[[[x l1] vs1] w1] lg1]|] eqn:E; [|discriminate].
    destruct (Hl _ _ _ _ _ _ _ _ _ _ _ _ Hi Hin1 E) as (-> & E1 & Hi1).
    destruct x as [x| |].
    + destruct (ssteps_with (sstep U n) ls vs1 w) as [[[[[q ls2] vs2] w2] lg2]|] eqn:E2; [|discriminate].
      destruct (IH _ _ _ _ _ _ _ _ _ _ _ _ Hi1 Hin2 E2) as (-> & E3 & Hi2).
      injection Hs as <- <- <- <- <-. cbn. rewrite E1, E3. auto.
    + injection Hs as <- <- <- <- <-. cbn. rewrite E1. auto.
    + injection Hs as <- <- <- <- <-. cbn. rewrite E1. auto.
Qed.

Lemma sstep_keeps n : forall l, keeps n l.
Proof.
  induction n as [n IHn] using lt_wf_ind. intros l.
  induction l as [v ch|g cache deps IH|x] using slz_ind';
    intros es vs used lent holders rho w r l' vs' w' lg Hi Hin Hs; rewrite sstep_eq in Hs.
  - injection Hs as <- <- <- <- <-. auto.
  - destruct (ssteps_with (sstep U n) deps vs w) as [[[[[q ls1] vs1] w1] lg1]|] eqn:E; [|discriminate].
    destruct (keeps_all n deps IH _ _ _ _ _ _ _ _ _ _ _ _ Hi Hin E) as (-> & E1 & Hi1).
    destruct q as [xs| |].
    + cbv zeta in Hs. destruct (core U g cache _ w) as [[[r2 c'] w2] l2] eqn:Ec.
      injection Hs as <- <- <- <- <-. split; [eapply core_world; eauto|auto].
    + injection Hs as <- <- <- <- <-. auto.
    + injection Hs as <- <- <- <- <-. auto.
  - destruct n as [|n]; [discriminate|].
    destruct (nth_error vs x) as [l0|] eqn:El; [|discriminate].
    destruct (sstep U n l0 vs w) as [[[[[q l1] vs1] w1] lg1]|] eqn:E; [|discriminate].
    injection Hs as <- <- <- <- <-.
    assert (Hxl : In x lent) by (apply Hin; now left).
    assert (Hxu : ~ In x used) by (intros Hu; eapply inv_sep; eauto).
    destruct (G x) eqn:HG.
    + destruct (nth_error es x) as [e|] eqn:Ee.
      2:{ apply nth_error_None in Ee. rewrite <- (inv_len _ _ _ _ _ _ Hi) in Ee. apply nth_error_None in Ee. congruence. }
      destruct (exclusive_step _ _ _ _ _ _ x l0 e n w _ _ _ _ _ Hi Hxu HG El Ee E) as (_ & -> & Hi'). auto.
    + destruct (IHn n (Nat.lt_succ_diag_r n) l0 _ _ _ _ _ _ _ _ _ _ _ _ Hi (inv_out _ _ _ _ _ _ Hi x l0 HG El) E)
        as (-> & E1 & Hi1).
      split; [reflexivity|]. split; [reflexivity|]. apply inv_change_out; auto. rewrite E1. exact (inv_out _ _ _ _ _ _ Hi x l0 HG El).
Qed.

(** ** New variables *)
Lemma inv_deps es vs used lent holders rho ss :
  inv es vs used lent holders rho ->
  Forall (fun y => G y = true /\ ~ In y used) (refs ss) ->
  Forall (fun y => G y = true /\ ~ In y used /\ ~ In y holders) (copied ss) ->
  forall us ds, spec_deps EConst EFun es (map by_value_dep ss) = Some us -> sdeps_of U vs ss = Some ds ->
  exists ts, unfolds_all vs ds (flat_map (fun x => x :: rho x) (refs ss)) ts /\ Forall2 (good U pf eq) us ts.
Proof.
  intros Hi. induction ss as [|s ss IH]; intros Hr Hc us ds Hu Hd; cbn in Hu, Hd.
  - injection Hu as <-. injection Hd as <-. exists []. split; constructor.
  - destruct (sdep_of U vs s) as [o|] eqn:Eo; [|discriminate].
    destruct (sdeps_of U vs ss) as [os|]; [|discriminate]. injection Hd as <-.
    destruct (spec_deps EConst EFun es (map by_value_dep ss)) as [us'|];
      [|destruct s as [x|[x|d|v]]; cbn in Hu; try destruct (nth_error es x); discriminate].
    assert (Hpart : Forall (fun y => G y = true /\ ~ In y used) (refs ss) /\
                    Forall (fun y => G y = true /\ ~ In y used /\ ~ In y holders) (copied ss)).
    { destruct s as [x|[x|d|v]]; cbn in *; auto; [inversion Hr|inversion Hc]; auto. }
    destruct Hpart as [Hr' Hc']. destruct (IH Hr' Hc' _ _ eq_refl eq_refl) as (ts & IH1 & IH2).
    destruct s as [x|[x|d|v]]; cbn in Hu, Eo.
    + destruct (nth_error es x) as [t|] eqn:Et; [|discriminate]. injection Hu as <-.
      destruct (nth_error vs x) as [l|] eqn:El; [|discriminate]. injection Eo as <-.
      inversion Hr as [|? ? [HG Hxu] _]; subst.
      destruct (inv_tree _ _ _ _ _ _ Hi x l t HG Hxu El Et) as (tx & Hx1 & Hx2).
      exists (tx :: ts). split; [|now constructor].
      apply (ua_cons vs (SRef x) os (x :: rho x) (flat_map (fun x => x :: rho x) (refs ss))); auto.
      econstructor; eauto.
    + destruct (nth_error es x) as [t|] eqn:Et; [|discriminate]. injection Hu as <-.
      inversion Hc as [|? ? (HG & Hxu & Hxh) _]; subst.
      destruct (inv_tree _ _ _ _ _ _ Hi x o t HG Hxu Eo Et) as (tx & Hx1 & Hx2).
      exists (tx :: ts). split; [|now constructor].
      apply (ua_cons vs o os [] (flat_map (fun x => x :: rho x) (refs ss))); auto.
      now rewrite <- (inv_hold _ _ _ _ _ _ Hi x Hxu Hxh).
    + injection Hu as <-. injection Eo as <-. exists (ensure_lazy U (ObjPlain d) :: ts). split.
      * refine (ua_cons vs _ _ [] (flat_map (fun x => x :: rho x) (refs ss)) _ _ _ _); auto.
        constructor. refine (ua_cons vs _ _ [] [] _ _ _ _); constructor.
      * constructor; auto. constructor.
    + injection Hu as <-. injection Eo as <-. exists (ensure_lazy U (ObjValue v) :: ts). split.
      * refine (ua_cons vs _ _ [] (flat_map (fun x => x :: rho x) (refs ss)) _ _ _ _); auto. constructor.
      * constructor; auto. constructor.
Qed.

Lemma inv_refs_nodup es vs used lent holders rho xs :
  inv es vs used lent holders rho -> NoDup xs -> Forall (fun x => ~ In x used) xs ->
  NoDup (flat_map (fun x => x :: rho x) xs).
Proof.
  intros Hi Hnd. induction Hnd as [|x xs Hx Hnd IH]; intros Hu; cbn; [constructor|].
  inversion Hu as [|? ? Hux Huxs]; subst.
  change (x :: rho x ++ flat_map (fun x => x :: rho x) xs)
    with ((x :: rho x) ++ flat_map (fun x => x :: rho x) xs).
  apply NoDup_app_intro; auto.
  - constructor; [|eapply inv_nd; eauto]. intros Hin. apply Hux. eapply inv_used; eauto.
  - intros y Hy1 Hy2. apply in_flat_map in Hy2 as (z & Hz & Hy2).
    assert (Hzu : ~ In z used) by (rewrite Forall_forall in Huxs; auto).
    destruct Hy1 as [<-|Hy1], Hy2 as [<-|Hy2]; auto.
    + apply Hux. eapply inv_used; eauto.
    + apply Hzu. eapply inv_used; eauto.
    + assert (x = z) by (eapply (inv_dis _ _ _ _ _ _ Hi); eauto). congruence.
Qed.

(** A new variable in [G]. *)
Lemma inv_new es vs used lent holders rho f ss us ds :
  let n := length vs in
  inv es vs used lent holders rho -> G n = true ->
  nth_error es0 n = Some (EApp f us) ->
  NoDup (refs ss) ->
  Forall (fun y => G y = true /\ ~ In y used /\ ~ In y lent) (refs ss) ->
  Forall (fun y => G y = true /\ ~ In y used /\ ~ In y holders) (copied ss) ->
  spec_deps EConst EFun es (map by_value_dep ss) = Some us -> sdeps_of U vs ss = Some ds ->
  inv (es ++ [EApp f us]) (vs ++ [SCore (FnUser f) None ds]) (refs ss ++ used) lent
    (match refs ss with [] => holders | _ => n :: holders end)
    (fun y => if Nat.eqb y n then flat_map (fun x => x :: rho x) (refs ss) else rho y).
Proof.
  intros n Hi HG He0 Hnd Hr Hc Hu Hd.
  assert (HrG : Forall (fun y => G y = true /\ ~ In y used) (refs ss)).
  { eapply Forall_impl; [|exact Hr]. cbn. tauto. }
  assert (Hru : Forall (fun y => ~ In y used) (refs ss)).
  { eapply Forall_impl; [|exact Hr]. cbn. tauto. }
  destruct (inv_deps _ _ _ _ _ _ ss Hi HrG Hc _ _ Hu Hd) as (ts & Ht & Hg).
  set (rn := flat_map (fun x => x :: rho x) (refs ss)) in *.
  assert (Hrho_n : rho n = []) by (apply (inv_bound _ _ _ _ _ _ Hi); unfold n; lia).
  split.
  - rewrite !app_length, (inv_len _ _ _ _ _ _ Hi). reflexivity.
  - intros y e Hy. apply nth_error_snoc_inv in Hy as [[_ Hy]|[-> <-]]; [eapply inv_es; eauto|].
    now rewrite <- (inv_len _ _ _ _ _ _ Hi).
  - intros y l e Gy Hy Hl He.
    apply nth_error_snoc_inv in Hl as [[Hlt Hl]|[-> <-]].
    + apply nth_error_snoc_inv in He as [[_ He]|[Hyn _]].
      2:{ rewrite <- (inv_len _ _ _ _ _ _ Hi) in Hyn. lia. }
      destruct (Nat.eqb_spec y n); [unfold n in *; lia|].
      destruct (inv_tree _ _ _ _ _ _ Hi y l e Gy) as (t & H1 & H2); auto.
      { intros Hin. apply Hy. apply in_or_app. now right. }
      exists t. split; auto. now apply unfolds_app.
    + apply nth_error_snoc_inv in He as [[Hlt He]|[_ <-]].
      { rewrite <- (inv_len _ _ _ _ _ _ Hi) in Hlt. lia. }
      fold n. rewrite Nat.eqb_refl. exists (LCore (FnUser f) None ts). split.
      * constructor. eapply (proj2 (unfolds_frame_mut vs _)); [exact Ht|].
        intros x Hx. apply nth_error_app1. eapply (proj2 (unfolds_bound_mut vs)); eauto.
      * constructor; auto. discriminate.
  - intros y. destruct (Nat.eqb y n); [|eapply inv_nd; eauto].
    eapply inv_refs_nodup; eauto.
  - intros y x. destruct (Nat.eqb y n).
    + intros Hx. apply in_flat_map in Hx as (z & Hz & [<-|Hx]); apply in_or_app; [now left|].
      right. eapply inv_used; eauto.
    + intros Hx. apply in_or_app. right. eapply inv_used; eauto.
  - assert (Hkey : forall z x, ~ In z (refs ss ++ used) -> z <> n -> In x rn -> In x (rho z) -> False).
    { intros z x Hz Hzn Hx Hxz. apply in_flat_map in Hx as (y & Hy & Hx).
      assert (Hyu : ~ In y used) by (rewrite Forall_forall in Hru; auto).
      destruct Hx as [<-|Hx].
      - apply Hyu. eapply inv_used; eauto.
      - assert (y = z).
        { eapply (inv_dis _ _ _ _ _ _ Hi); eauto. intros Hin. apply Hz. apply in_or_app. now right. }
        subst. apply Hz. apply in_or_app. now left. }
    intros y z x Hy Hz. destruct (Nat.eqb_spec y n) as [->|Hyn], (Nat.eqb_spec z n) as [->|Hzn].
    + auto.
    + intros H1 H2. destruct (Hkey z x Hz Hzn H1 H2).
    + intros H1 H2. destruct (Hkey y x Hy Hyn H2 H1).
    + intros H1 H2. eapply (inv_dis _ _ _ _ _ _ Hi); eauto; intros Hin; [apply Hy|apply Hz]; apply in_or_app; now right.
  - intros y Hy Hh. destruct (Nat.eqb_spec y n) as [->|Hyn].
    + unfold rn. destruct (refs ss) as [|r rs]; [reflexivity|]. destruct Hh. now left.
    + apply (inv_hold _ _ _ _ _ _ Hi).
      * intros Hin. apply Hy. apply in_or_app. now right.
      * intros Hin. apply Hh. destruct (refs ss); [auto|now right].
  - intros y Hy. rewrite app_length in Hy. cbn in Hy.
    destruct (Nat.eqb_spec y n); [unfold n in *; lia|].
    apply (inv_bound _ _ _ _ _ _ Hi). lia.
  - intros y Hy. apply in_app_or in Hy as [Hy|Hy]; [|eapply inv_usedG; eauto].
    rewrite Forall_forall in Hr. apply (Hr y Hy).
  - intros y l Gy Hl. apply nth_error_snoc_inv in Hl as [[Hlt Hl]|[-> <-]]; [eapply inv_out; eauto|].
    unfold n in HG. congruence.
  - intros x Hx Hin. apply in_app_or in Hin as [Hin|Hin]; [|eapply inv_sep; eauto].
    rewrite Forall_forall in Hr. destruct (Hr x Hin) as (_ & _ & Hl). auto.
Qed.

(** A new variable outside [G], or a copy of anything. *)
Lemma inv_snoc es vs used lent lent' holders rho l e :
  inv es vs used lent holders rho ->
  nth_error es0 (length vs) = Some e ->
  incl lent lent' -> (forall x, In x lent' -> In x used -> False) ->
  (G (length vs) = true -> exists t, unfolds vs l [] t /\ good U pf eq e t) ->
  (G (length vs) = false -> incl (srefs l) lent') ->
  inv (es ++ [e]) (vs ++ [l]) used lent' holders rho.
Proof.
  intros Hi He0 Hl' Hsep H1 H2. split.
  - rewrite !app_length, (inv_len _ _ _ _ _ _ Hi). reflexivity.
  - intros y e1 Hy. apply nth_error_snoc_inv in Hy as [[_ Hy]|[-> <-]]; [eapply inv_es; eauto|].
    now rewrite <- (inv_len _ _ _ _ _ _ Hi).
  - intros y l1 e1 Gy Hy Hl He.
    apply nth_error_snoc_inv in Hl as [[Hlt Hl]|[-> <-]].
    + apply nth_error_snoc_inv in He as [[_ He]|[Hyn _]].
      2:{ rewrite <- (inv_len _ _ _ _ _ _ Hi) in Hyn. lia. }
      destruct (inv_tree _ _ _ _ _ _ Hi y l1 e1 Gy) as (t & H3 & H4); auto.
      exists t. split; auto. now apply unfolds_app.
    + apply nth_error_snoc_inv in He as [[Hlt He]|[_ <-]].
      { rewrite <- (inv_len _ _ _ _ _ _ Hi) in Hlt. lia. }
      destruct (H1 Gy) as (t & H3 & H4). exists t. split; auto.
      rewrite (inv_bound _ _ _ _ _ _ Hi) by lia. now apply unfolds_app.
  - eapply inv_nd; eauto.
  - eapply inv_used; eauto.
  - eapply inv_dis; eauto.
  - eapply inv_hold; eauto.
  - intros y Hy. rewrite app_length in Hy. apply (inv_bound _ _ _ _ _ _ Hi). cbn in Hy. lia.
  - eapply inv_usedG; eauto.
  - intros y l1 Gy Hl. apply nth_error_snoc_inv in Hl as [[Hlt Hl]|[-> <-]]; [|auto].
    intros x Hx. apply Hl'. eapply (inv_out _ _ _ _ _ _ Hi y l1); eauto.
  - exact Hsep.
Qed.

(** Trees without references. *)
Lemma unfolds_srefs vs :
  (forall l rs t, unfolds vs l rs t -> incl (srefs l) rs) /\
  (forall ls rs ts, unfolds_all vs ls rs ts -> incl (flat_map srefs ls) rs).
Proof.
  apply unfolds_mut; cbn; auto.
  - intros v ch x [].
  - intros x l rs t _ _ _ y [<-|[]]. now left.
  - intros x [].
  - intros d ds rs1 rs2 t ts _ IH1 _ IH2 x Hx. apply in_app_or in Hx as [Hx|Hx]; apply in_or_app; auto.
Qed.

(** What is copied from a variable that is not a holder. *)
Lemma inv_copy es vs used lent holders rho x l e :
  inv es vs used lent holders rho -> ~ In x used -> ~ In x holders ->
  nth_error vs x = Some l -> nth_error es x = Some e ->
  (G x = true -> exists t, unfolds vs l [] t /\ good U pf eq e t) /\ incl (srefs l) lent.
Proof.
  intros Hi Hxu Hxh Hl He. destruct (G x) eqn:HG.
  - destruct (inv_tree _ _ _ _ _ _ Hi x l e HG Hxu Hl He) as (t & H1 & H2).
    rewrite (inv_hold _ _ _ _ _ _ Hi x Hxu Hxh) in H1. split; [eauto|].
    intros y Hy. apply (proj1 (unfolds_srefs vs) _ _ _ H1) in Hy. destruct Hy.
  - split; [discriminate|]. eapply inv_out; eauto.
Qed.

Lemma sdeps_lent es vs used lent holders rho ss ds us :
  inv es vs used lent holders rho ->
  Forall (fun y => ~ In y used /\ ~ In y holders) (copied ss) ->
  spec_deps EConst EFun es (map by_value_dep ss) = Some us ->
  sdeps_of U vs ss = Some ds -> incl (flat_map srefs ds) (refs ss ++ lent).
Proof.
  intros Hi. revert ds us. induction ss as [|s ss IH]; intros ds us Hc Hu Hd; cbn in Hu, Hd.
  - injection Hd as <-. intros x [].
  - destruct (sdep_of U vs s) as [o|] eqn:Eo; [|discriminate].
    destruct (sdeps_of U vs ss) as [os|]; [|discriminate]. injection Hd as <-.
    destruct (spec_deps EConst EFun es (map by_value_dep ss)) as [us'|];
      [|destruct s as [x|[x|d|v]]; cbn in Hu; try destruct (nth_error es x); discriminate].
    destruct s as [x|[x|d|v]]; cbn in Hu, Eo.
    + destruct (nth_error vs x); [|discriminate]. injection Eo as <-.
      cbn. intros y [<-|Hy]; [now left|]. right. eapply IH; eauto.
    + destruct (nth_error es x) as [e|] eqn:Ee; [|discriminate].
      cbn in Hc. inversion Hc as [|? ? [Hxu Hxh] Hc']; subst.
      destruct (inv_copy _ _ _ _ _ _ x o e Hi Hxu Hxh Eo Ee) as [_ Hin].
      cbn. intros y Hy. apply in_app_or in Hy as [Hy|Hy]; [apply in_or_app; right; auto|].
      eapply IH; eauto.
    + injection Eo as <-. cbn. eapply IH; eauto.
    + injection Eo as <-. cbn. eapply IH; eauto.
Qed.

Lemma exclusive_right p : forall es vs used lent holders rho w es' vals s outs,
  inv es vs used lent holders rho ->
  exclusive G p (length vs) used lent holders ->
  eager pf rd (map by_value p) es w = Some (es', vals) ->
  (forall y e, nth_error es' y = Some e -> nth_error es0 y = Some e) ->
  srun U p (mkSState vs w) = Some (s, outs) ->
  forall k x, nth_error (called p) k = Some x -> G x = true ->
  exists v, nth_error vals k = Some v /\ nth_error (results outs) k = Some (Ok v).
Proof.
  induction p as [|o p IH]; intros es vs used lent holders rho w es' vals s outs Hi Hx He Hes Hr k z Hk Gz.
  - destruct k; discriminate.
  - assert (Hpre : forall q es1 w1 e1 es2 vals2, eager pf rd q (es1 ++ [e1]) w1 = Some (es2, vals2) ->
                   nth_error es2 (length es1) = Some e1).
    { intros q es1 w1 e1 es2 vals2 Heq. eapply shapes_nth; [eapply eager_shapes; exact Heq|].
      rewrite nth_error_app2, Nat.sub_diag by lia. reflexivity. }
    destruct o as [f ss|x|x|h]; cbn [map by_value eager exclusive called flat_map app] in *;
      cbn [srun sexec svars sworld] in Hr.
    + destruct (spec_deps EConst EFun es (map by_value_dep ss)) as [us|] eqn:Eu; [|discriminate].
      destruct (sdeps_of U vs ss) as [ds|] eqn:Ed; [|discriminate].
      destruct (srun U p _) as [[s2 outs2]|] eqn:Er; [|discriminate]. injection Hr as <- <-.
      assert (He0 : nth_error es0 (length vs) = Some (EApp f us)).
      { apply Hes. rewrite (inv_len _ _ _ _ _ _ Hi). eapply Hpre; eauto. }
      change (results ((None, []) :: outs2)) with (results outs2).
      destruct (G (length vs)) eqn:HG.
      * destruct Hx as (Hnd & Hrf & Hcp & Hx).
        pose proof (inv_new _ _ _ _ _ _ f ss us ds Hi HG He0 Hnd Hrf Hcp Eu Ed) as Hi'.
        eapply IH; [exact Hi'| |exact He|exact Hes|exact Er|exact Hk|exact Gz].
        rewrite app_length. cbn. rewrite Nat.add_1_r. exact Hx.
      * destruct Hx as (Hrf & Hcp & Hx).
        assert (Hi' : inv (es ++ [EApp f us]) (vs ++ [SCore (FnUser f) None ds]) used (refs ss ++ lent) holders rho).
        { eapply inv_snoc; eauto.
          - intros y Hy. apply in_or_app. now right.
          - intros y Hy Hu. apply in_app_or in Hy as [Hy|Hy]; [|eapply inv_sep; eauto].
            rewrite Forall_forall in Hrf. apply (Hrf y Hy Hu).
          - intros E. congruence.
          - intros _. cbn. eapply sdeps_lent; eauto. }
        eapply IH; [exact Hi'| |exact He|exact Hes|exact Er|exact Hk|exact Gz].
        rewrite app_length. cbn. rewrite Nat.add_1_r. exact Hx.
    + destruct Hx as (Hxu & Hxh & Hxg & Hx).
      destruct (nth_error es x) as [e|] eqn:Ee; [|discriminate].
      destruct (nth_error vs x) as [l|] eqn:El; [|discriminate].
      destruct (srun U p _) as [[s2 outs2]|] eqn:Er; [|discriminate]. injection Hr as <- <-.
      change (results ((None, []) :: outs2)) with (results outs2).
      destruct (inv_copy _ _ _ _ _ _ x l e Hi Hxu Hxh El Ee) as [Hc1 Hc2].
      assert (Hi' : inv (es ++ [e]) (vs ++ [l]) used lent holders rho).
      { eapply inv_snoc; eauto.
        - apply Hes. rewrite (inv_len _ _ _ _ _ _ Hi). eapply Hpre; eauto.
        - apply incl_refl.
        - eapply inv_sep; eauto. }
      eapply IH; [exact Hi'| |exact He|exact Hes|exact Er|exact Hk|exact Gz].
      rewrite app_length. cbn. rewrite Nat.add_1_r. exact Hx.
    + destruct Hx as (Hxu & Hx).
      destruct (nth_error es x) as [e|] eqn:Ee; [|discriminate].
      destruct (eager pf rd (map by_value p) es w) as [[es2 vals2]|] eqn:Eg; [|discriminate].
      injection He as <- <-.
      destruct (nth_error vs x) as [l|] eqn:El; [|discriminate].
      destruct (sstep U (length vs) l vs w) as [[[[[r l'] vs'] w'] lg]|] eqn:Es; [|discriminate].
      destruct (srun U p _) as [[s2 outs2]|] eqn:Er; [|discriminate]. injection Hr as <- <-.
      assert (Hstep : w' = w /\ inv es (update x l' vs') used lent holders rho /\
                      (G x = true -> exists ch, r = Ok (eval pf rd e w, ch))).
      { destruct (G x) eqn:HG.
        - destruct (exclusive_step _ _ _ _ _ _ x l e _ w _ _ _ _ _ Hi Hxu HG El Ee Es) as (H1 & H2 & H3). auto.
        - pose proof (inv_out _ _ _ _ _ _ Hi x l HG El) as Hol.
          destruct (sstep_keeps _ l _ _ _ _ _ _ _ _ _ _ _ _ Hi Hol Es) as (H1 & H2 & H3).
          split; auto. split; [|discriminate]. apply inv_change_out; auto. now rewrite H2. }
      destruct Hstep as (-> & Hi' & Hval).
      assert (Hlen : length (update x l' vs') = length vs).
      { rewrite (inv_len _ _ _ _ _ _ Hi'), (inv_len _ _ _ _ _ _ Hi). reflexivity. }
      change (results ((Some (api_result r), lg) :: outs2)) with (api_result r :: results outs2).
      destruct k as [|k]; cbn [nth_error] in Hk |- *.
      * injection Hk as ->. destruct (Hval Gz) as [ch ->]. eexists. split; [reflexivity|].
        destruct (eval pf rd e w); reflexivity.
      * eapply IH; [exact Hi'| |exact Eg|exact Hes|exact Er|exact Hk|exact Gz].
        now rewrite Hlen.
    + destruct (srun U p _) as [[s2 outs2]|] eqn:Er; [|discriminate]. injection Hr as <- <-.
      change (results ((None, []) :: outs2)) with (results outs2).
      eapply IH; [exact Hi|exact Hx|exact He|exact Hes|exact Er|exact Hk|exact Gz].
Qed.

End Exclusive.

Lemma exclusive_values pf rd : pure_user U pf rd -> sound_eq U ->
  forall G p w es vals,
  exclusive G p 0 [] [] [] ->
  eager pf rd (map by_value p) [] w = Some (es, vals) ->
  Forall (regular pf rd) es -> Forall (unnested pf rd) es ->
  exists s outs, srun U p (mkSState [] w) = Some (s, outs) /\
  forall k x, nth_error (called p) k = Some x -> G x = true ->
  exists v, nth_error vals k = Some v /\ nth_error (results outs) k = Some (Ok v).
Proof.
  intros Hp Hs G p w es vals Hx He Hreg Hun.
  destruct (shared_complete p w es (eager_shapes pf rd _ _ _ _ _ He)) as (s & outs & Hr).
  exists s, outs. split; auto.
  eapply (exclusive_right pf rd Hp Hs G es Hreg Hun p [] [] [] [] [] (fun _ => []) w); eauto.
  split; cbn; auto; try (intros; contradiction).
  - intros [|y] e H; discriminate.
  - intros [|y] l e _ _ H; discriminate.
  - constructor.
  - intros [|y] l _ H; discriminate.
Qed.
End Proofs.
