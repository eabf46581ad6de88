(** Proofs about parts of a program with references. *)
From Coq Require Import List Bool Arith Lia.
From Verif Require Import Value TupleAlg TupleAlgProofs LazyModel LazySpec LazySpec2 LazyProofs
  SharedModel SharedProofs HistorySpec HistoryThms ShareThms LazyExamples LawThms SliceSpec SliceThms GroupSpec.
Import ListNotations.

Section Steps.
Context {A W fid did : Type}.
Notation value := (val A).
Notation slz := (slz A fid did).
Variable U : user A W fid did.

(** ** What a call leaves alone *)
Section Frame.
Variable P : nat -> Prop.
Definition closed (vs : list slz) : Prop :=
  forall x l, P x -> nth_error vs x = Some l -> Forall P (srefs l).

Definition same_refs (vs vs' : list slz) : Prop :=
  length vs' = length vs /\
  forall x l', nth_error vs' x = Some l' -> exists l, nth_error vs x = Some l /\ srefs l' = srefs l.

Lemma same_refs_refl vs : same_refs vs vs.
Proof. split; [reflexivity|]. eauto. Qed.
Lemma same_refs_trans a b c : same_refs a b -> same_refs b c -> same_refs a c.
Proof.
  intros [L1 H1] [L2 H2]. split; [congruence|]. intros x l' Hx. destruct (H2 _ _ Hx) as (l & Hl & E).
  destruct (H1 _ _ Hl) as (l0 & Hl0 & E0). exists l0. split; congruence.
Qed.
Lemma same_refs_closed vs vs' : same_refs vs vs' -> closed vs -> closed vs'.
Proof. intros [_ H] Hc x l' Hx Hl. destruct (H _ _ Hl) as (l & Hl0 & ->). exact (Hc x l Hx Hl0). Qed.

Definition frames (n : nat) (l : slz) : Prop :=
  forall vs w r l' vs' w' lg, closed vs -> Forall P (srefs l) ->
    sstep U n l vs w = Some (r, l', vs', w', lg) ->
    srefs l' = srefs l /\ same_refs vs vs' /\ (forall z, ~ P z -> nth_error vs' z = nth_error vs z).

Lemma frames_all n ls : Forall (frames n) ls ->
  forall vs w r ls' vs' w' lg, closed vs -> Forall P (flat_map srefs ls) ->
    ssteps_with (sstep U n) ls vs w = Some (r, ls', vs', w', lg) ->
    flat_map srefs ls' = flat_map srefs ls /\ same_refs vs vs' /\ (forall z, ~ P z -> nth_error vs' z = nth_error vs z).
Proof.
  induction 1 as [|l ls Hl Hls IH]; intros vs w r ls' vs' w' lg Hc Hp Hs.
  - cbn in Hs. injection Hs as <- <- <- <- <-. auto using same_refs_refl.
  - rewrite ssteps_cons in Hs. cbn in Hp. apply Forall_app in Hp as [Hp1 Hp2].
    destruct (sstep U n l vs w) as [[[[[x l1] vs1] w1] lg1]|] eqn:E; [|discriminate].
    destruct (Hl _ _ _ _ _ _ _ Hc Hp1 E) as (E1 & R1 & F1).
    destruct x as [x| |].
    + destruct (ssteps_with (sstep U n) ls vs1 w1) as [[[[[q ls2] vs2] w2] lg2]|] eqn:E2; [|discriminate].
      destruct (IH _ _ _ _ _ _ _ (same_refs_closed _ _ R1 Hc) Hp2 E2) as (E3 & R2 & F2).
      injection Hs as <- <- <- <- <-. cbn. rewrite E1, E3. repeat split.
      * exact (proj1 (same_refs_trans _ _ _ R1 R2)).
      * exact (proj2 (same_refs_trans _ _ _ R1 R2)).
      * intros z Hz. now rewrite F2, F1.
    + injection Hs as <- <- <- <- <-. cbn. rewrite E1. auto.
    + injection Hs as <- <- <- <- <-. cbn. rewrite E1. auto.
Qed.

Lemma sstep_frame n : forall l, frames n l.
Proof.
  induction n as [n IHn] using lt_wf_ind. intros l.
  induction l as [v ch|g cache deps IH|x] using slz_ind';
    intros vs w r l' vs' w' lg Hc Hp Hs; rewrite sstep_eq in Hs.
  - injection Hs as <- <- <- <- <-. auto using same_refs_refl.
  - destruct (ssteps_with (sstep U n) deps vs w) as [[[[[q ls1] vs1] w1] lg1]|] eqn:E; [|discriminate].
    destruct (frames_all n deps IH _ _ _ _ _ _ _ Hc Hp E) as (E1 & R1 & F1).
    destruct q as [xs| |].
    + cbv zeta in Hs. destruct (core U g cache _ w1) as [[[r2 c'] w2] l2]. injection Hs as <- <- <- <- <-. auto.
    + injection Hs as <- <- <- <- <-. auto.
    + injection Hs as <- <- <- <- <-. auto.
  - destruct n as [|n]; [discriminate|].
    destruct (nth_error vs x) as [l0|] eqn:El; [|discriminate].
    destruct (sstep U n l0 vs w) as [[[[[q l1] vs1] w1] lg1]|] eqn:E; [|discriminate].
    injection Hs as <- <- <- <- <-. inversion Hp as [|? ? Hx _]; subst.
    destruct (IHn n (Nat.lt_succ_diag_r n) l0 _ _ _ _ _ _ _ Hc (Hc x l0 Hx El) E) as (E1 & [L1 R1] & F1).
    split; [reflexivity|]. split; [split|].
    + now rewrite LazyProofs.update_length.
    + intros z l2 Hz. rewrite nth_error_update in Hz. destruct (Nat.eqb_spec x z) as [->|].
      * destruct (z <? length vs1); [|discriminate]. injection Hz as <-. eauto.
      * now apply R1.
    + intros z Hz. rewrite nth_error_update. destruct (Nat.eqb_spec x z) as [->|]; [contradiction|]. now apply F1.
Qed.
End Frame.

Lemma sstep_refs n l vs w r l' vs' w' lg : sstep U n l vs w = Some (r, l', vs', w', lg) ->
  srefs l' = srefs l /\ same_refs vs vs'.
Proof.
  intros E. destruct (sstep_frame (fun _ => True) n l vs w r l' vs' w' lg) as (H1 & H2 & _); auto.
  - intros x l0 _ _. apply Forall_forall. auto.
  - apply Forall_forall. auto.
Qed.

(** ** The same call with other names *)
Section Rename.
Variable nm : nat -> nat -> Prop.
Hypothesis nm_fun : forall x y y', nm x y -> nm x y' -> y = y'.
Hypothesis nm_inj : forall x x' y, nm x y -> nm x' y -> x = x'.

Inductive sren : slz -> slz -> Prop :=
| sren_value v ch : sren (SValue v ch) (SValue v ch)
| sren_core g c ds ds' : Forall2 sren ds ds' -> sren (SCore g c ds) (SCore g c ds')
| sren_ref x y : nm x y -> sren (SRef x) (SRef y).

Definition srel (vs1 vs2 : list slz) : Prop :=
  forall x y, nm x y -> exists l1 l2, nth_error vs1 x = Some l1 /\ nth_error vs2 y = Some l2 /\ sren l1 l2.

Lemma srel_update vs1 vs2 x y l1 l2 : srel vs1 vs2 -> nm x y -> sren l1 l2 -> srel (update x l1 vs1) (update y l2 vs2).
Proof.
  intros H Hxy Hl x' y' Hn. destruct (H x' y' Hn) as (k1 & k2 & H1 & H2 & Hk).
  destruct (Nat.eq_dec x x') as [<-|Hne].
  - rewrite <- (nm_fun _ _ _ Hxy Hn) in *. exists l1, l2.
    split; [now apply SliceThms.update_same with k1|]. split; [now apply SliceThms.update_same with k2|exact Hl].
  - assert (y <> y') by (intros <-; exact (Hne (nm_inj _ _ _ Hxy Hn))).
    exists k1, k2. now rewrite !SliceThms.update_other by auto.
Qed.

Lemma read_ref_sren vs1 vs2 d1 d2 r : srel vs1 vs2 -> sren d1 d2 -> read_ref vs1 d1 r = read_ref vs2 d2 r.
Proof.
  intros H [v ch|g c ds ds' Hd|x y Hn]; try reflexivity. destruct (H x y Hn) as (k1 & k2 & H1 & H2 & Hk).
  unfold read_ref. rewrite H1, H2. now destruct Hk as [| |]; destruct (fst r).
Qed.
Lemma read_refs_sren vs1 vs2 ds1 ds2 : srel vs1 vs2 -> Forall2 sren ds1 ds2 -> forall rs,
  read_refs vs1 ds1 rs = read_refs vs2 ds2 rs.
Proof.
  intros H. induction 1 as [|d1 d2 ds1 ds2 Hd Hds IH]; intros [|r rs]; try reflexivity. cbn [read_refs].
  now rewrite (read_ref_sren _ _ _ _ _ H Hd), IH.
Qed.

Definition renames (n : nat) (l1 : slz) : Prop :=
  forall l2 vs1 vs2 w r l1' vs1' w' lg, sren l1 l2 -> srel vs1 vs2 ->
    sstep U n l1 vs1 w = Some (r, l1', vs1', w', lg) ->
    exists l2' vs2', sstep U n l2 vs2 w = Some (r, l2', vs2', w', lg) /\ sren l1' l2' /\ srel vs1' vs2'.

Lemma renames_all n ls : Forall (renames n) ls ->
  forall ls2 vs1 vs2 w r ls1' vs1' w' lg, Forall2 sren ls ls2 -> srel vs1 vs2 ->
    ssteps_with (sstep U n) ls vs1 w = Some (r, ls1', vs1', w', lg) ->
    exists ls2' vs2', ssteps_with (sstep U n) ls2 vs2 w = Some (r, ls2', vs2', w', lg) /\
      Forall2 sren ls1' ls2' /\ srel vs1' vs2'.
Proof.
  induction 1 as [|l ls Hl Hls IH]; intros ls2 vs1 vs2 w r ls1' vs1' w' lg H2 Hv Hs.
  - inversion H2; subst. cbn in *. injection Hs as <- <- <- <- <-. eauto.
  - inversion H2 as [|? l2 ? ls2' Hd Hds]; subst. rewrite ssteps_cons in Hs |- *.
    destruct (sstep U n l vs1 w) as [[[[[x l1] vs1a] w1] lg1]|] eqn:E; [|discriminate].
    destruct (Hl _ _ _ _ _ _ _ _ _ Hd Hv E) as (l2a & vs2a & -> & Hd' & Hv').
    destruct x as [x| |].
    + destruct (ssteps_with (sstep U n) ls vs1a w1) as [[[[[q ls3] vs3] w2] lg2]|] eqn:E2; [|discriminate].
      destruct (IH _ _ _ _ _ _ _ _ _ Hds Hv' E2) as (ls4 & vs4 & -> & Hd2 & Hv2).
      injection Hs as <- <- <- <- <-. eauto 10.
    + injection Hs as <- <- <- <- <-. eauto 10.
    + injection Hs as <- <- <- <- <-. eauto 10.
Qed.

Lemma sstep_rename n : forall l, renames n l.
Proof.
  induction n as [n IHn] using lt_wf_ind. intros l.
  induction l as [v ch|g cache deps IH|x] using slz_ind';
    intros l2 vs1 vs2 w r l1' vs1' w' lg Hl Hv Hs; rewrite sstep_eq in Hs.
  - inversion Hl; subst. rewrite sstep_eq. injection Hs as <- <- <- <- <-. eauto.
  - inversion Hl as [|? ? ? ds' Hds|]; subst. rewrite sstep_eq.
    destruct (ssteps_with (sstep U n) deps vs1 w) as [[[[[q ls1] vs1a] w1] lg1]|] eqn:E; [|discriminate].
    destruct (renames_all n deps IH _ _ _ _ _ _ _ _ _ Hds Hv E) as (ls2 & vs2a & -> & Hds' & Hv').
    destruct q as [xs| |].
    + cbv zeta in Hs |- *. rewrite <- (read_refs_sren _ _ _ _ Hv' Hds').
      destruct (core U g cache _ w1) as [[[r2 c'] w2] lg2]. injection Hs as <- <- <- <- <-.
      do 2 eexists. split; [reflexivity|]. split; [now constructor|exact Hv'].
    + injection Hs as <- <- <- <- <-. do 2 eexists. split; [reflexivity|]. split; [now constructor|exact Hv'].
    + injection Hs as <- <- <- <- <-. do 2 eexists. split; [reflexivity|]. split; [now constructor|exact Hv'].
  - inversion Hl as [| |? y Hn]; subst. rewrite sstep_eq. destruct n as [|n]; [discriminate|].
    destruct (Hv x y Hn) as (k1 & k2 & H1 & H2 & Hk). rewrite H1 in Hs. rewrite H2.
    destruct (sstep U n k1 vs1 w) as [[[[[q l1] vs1a] w1] lg1]|] eqn:E; [|discriminate].
    destruct (IHn n (Nat.lt_succ_diag_r n) k1 _ _ _ _ _ _ _ _ _ Hk Hv E) as (l2a & vs2a & -> & Hk' & Hv').
    injection Hs as <- <- <- <- <-. do 2 eexists. split; [reflexivity|]. split; [now constructor|].
    now apply srel_update.
Qed.
End Rename.

(** ** Functions that do not modify the outside world *)
Section Readonly.
Hypothesis Hro : readonly_user U.
Definition quiet (n : nat) (l : slz) : Prop :=
  forall vs w r l' vs' w' lg, sstep U n l vs w = Some (r, l', vs', w', lg) -> w' = w.
Lemma quiet_all n ls : Forall (quiet n) ls -> forall vs w r ls' vs' w' lg,
  ssteps_with (sstep U n) ls vs w = Some (r, ls', vs', w', lg) -> w' = w.
Proof.
  induction 1 as [|l ls Hl Hls IH]; intros vs w r ls' vs' w' lg Hs.
  - cbn in Hs. now injection Hs as <- <- <- <- <-.
  - rewrite ssteps_cons in Hs.
    destruct (sstep U n l vs w) as [[[[[x l1] vs1] w1] lg1]|] eqn:E; [|discriminate].
    apply Hl in E. subst w1. destruct x as [x| |].
    + destruct (ssteps_with (sstep U n) ls vs1 w) as [[[[[q ls2] vs2] w2] lg2]|] eqn:E2; [|discriminate].
      apply IH in E2. now injection Hs as <- <- <- <- <-.
    + now injection Hs as <- <- <- <- <-.
    + now injection Hs as <- <- <- <- <-.
Qed.
Lemma sstep_quiet n : forall l, quiet n l.
Proof.
  induction n as [n IHn] using lt_wf_ind. intros l.
  induction l as [v ch|g cache deps IH|x] using slz_ind'; intros vs w r l' vs' w' lg Hs; rewrite sstep_eq in Hs.
  - now injection Hs as <- <- <- <- <-.
  - destruct (ssteps_with (sstep U n) deps vs w) as [[[[[q ls1] vs1] w1] lg1]|] eqn:E; [|discriminate].
    apply (quiet_all n deps IH) in E. subst w1. destruct q as [xs| |].
    + cbv zeta in Hs. pose proof (readonly_core U Hro g cache (read_refs vs1 ls1 (ctad_tuple (fun _ => None) xs)) w) as H.
      destruct (core U g cache _ w) as [[[r2 c'] w2] l2]. cbn in H. now injection Hs as <- <- <- <- <-.
    + now injection Hs as <- <- <- <- <-.
    + now injection Hs as <- <- <- <- <-.
  - destruct n as [|n]; [discriminate|]. destruct (nth_error vs x) as [l0|]; [|discriminate].
    destruct (sstep U n l0 vs w) as [[[[[q l1] vs1] w1] lg1]|] eqn:E; [|discriminate].
    apply (IHn n (Nat.lt_succ_diag_r n)) in E. now injection Hs as <- <- <- <- <-.
Qed.
End Readonly.
End Steps.

Section Programs.
Context {A W fid did : Type}.
Notation slz := (slz A fid did).
Notation sop := (sop A W fid did).
Variable U : user A W fid did.

Definition mwf (m : marks) (n : nat) : Prop :=
  (forall x y, named m x y -> y < n) /\ (forall x x' y, named m x y -> named m x' y -> x = x').

Lemma mark_snoc (m : marks) a x b : nth_error (m ++ [a]) x = Some b -> nth_error m x = Some b \/ x = length m /\ a = b.
Proof.
  destruct (lt_dec x (length m)) as [H|H].
  - rewrite nth_error_app1 by exact H. auto.
  - rewrite nth_error_app2 by lia. destruct (x - length m) as [|[|k]] eqn:E; cbn; try discriminate.
    intros E'. injection E' as ->. right. split; [lia|reflexivity].
Qed.
Lemma named_snoc m a x y : named (m ++ [a]) x y -> named m x y \/ x = length m /\ fst a = Some y.
Proof.
  intros [b H]. apply mark_snoc in H as [H|[-> ->]]; [left; now exists b|right; auto].
Qed.
Lemma outside_snoc m a x : outside (m ++ [a]) x -> outside m x \/ x = length m /\ fst a = None.
Proof.
  intros [b H]. apply mark_snoc in H as [H|[-> ->]]; [left; now exists b|right; auto].
Qed.
Lemma contained_snoc m a x : contained (m ++ [a]) x = true -> contained m x = true \/ x = length m /\ snd a = true.
Proof.
  unfold contained. destruct (nth_error (m ++ [a]) x) as [[o b]|] eqn:E; [|discriminate]. intros ->.
  apply mark_snoc in E as [E|[-> ->]]; [left; now rewrite E|right; auto].
Qed.
Lemma named_more m a x y : named m x y -> named (m ++ [a]) x y.
Proof. intros [b H]. exists b. rewrite nth_error_app1; [exact H|]. apply nth_error_Some. congruence. Qed.
Lemma outside_more m a x : outside m x -> outside (m ++ [a]) x.
Proof. intros [b H]. exists b. rewrite nth_error_app1; [exact H|]. apply nth_error_Some. congruence. Qed.
Lemma named_fun m x y y' : named m x y -> named m x y' -> y = y'.
Proof. intros [b H] [b' H']. congruence. Qed.

Lemma mwf_keep m n b : mwf m n -> mwf (m ++ [(Some n, b)]) (S n).
Proof.
  intros [H1 H2]. split.
  - intros x y H. apply named_snoc in H as [H|[_ E]]; [apply H1 in H; lia|injection E as <-; lia].
  - intros x x' y H H'. apply named_snoc in H as [H|[-> E]]; apply named_snoc in H' as [H'|[-> E']].
    + exact (H2 _ _ _ H H').
    + injection E' as <-. apply H1 in H. lia.
    + injection E as <-. apply H1 in H'. lia.
    + reflexivity.
Qed.
Lemma mwf_skip m n b : mwf m n -> mwf (m ++ [(None, b)]) n.
Proof.
  intros [H1 H2]. split.
  - intros x y H. apply named_snoc in H as [H|[_ E]]; [now apply H1 in H|discriminate].
  - intros x x' y H H'. apply named_snoc in H as [H|[_ E]]; [|discriminate].
    apply named_snoc in H' as [H'|[_ E]]; [|discriminate]. exact (H2 _ _ _ H H').
Qed.

Variable calls : Prop.
Hypothesis Hcalls : calls -> readonly_user U.

Record ginv (m : marks) (n : nat) (vs1 vs2 : list slz) : Prop := {
  g_wf : mwf m n;
  g_n : n = length vs2;
  g_len : length m = length vs1;
  g_rel : srel (named m) vs1 vs2;
  g_out : calls -> forall x l, outside m x -> nth_error vs1 x = Some l -> Forall (outside m) (srefs l);
  g_con : forall x l, contained m x = true -> nth_error vs1 x = Some l -> srefs l = [];
  g_ord1 : ordered vs1;
  g_ord2 : ordered vs2 }.

Lemma sren_mono (nm nm' : nat -> nat -> Prop) (H : forall x y, nm x y -> nm' x y) :
  forall l1 l2 : slz, sren nm l1 l2 -> sren nm' l1 l2.
Proof.
  induction l1 as [v ch|g c ds IH|x] using slz_ind'; intros l2 Hl; inversion Hl as [|? ? ? ds' Hds|? y Hn]; subst;
    constructor; auto.
  clear Hl. induction Hds as [|d d' ds ds' Hd Hds IHs]; constructor; inversion IH; subst; auto.
Qed.

(** New variables *)
Lemma ginv_keep m n vs1 vs2 b l1 l2 : ginv m n vs1 vs2 -> sren (named m) l1 l2 -> (b = true -> srefs l1 = []) ->
  (forall y, In y (srefs l1) -> y < length vs1) -> (forall y, In y (srefs l2) -> y < length vs2) ->
  ginv (m ++ [(Some n, b)]) (S n) (vs1 ++ [l1]) (vs2 ++ [l2]).
Proof.
  intros [Hwf Hn HL Hr Ho Hc O1 O2] Hl Hb B1 B2. split.
  - now apply mwf_keep.
  - rewrite app_length. cbn. lia.
  - rewrite !app_length. cbn. lia.
  - intros x y Hx. apply named_snoc in Hx as [Hx|[-> E]].
    + destruct (Hr x y Hx) as (k1 & k2 & H1 & H2 & Hk). exists k1, k2. split; [now apply nth_snoc|]. split; [now apply nth_snoc|].
      now apply sren_mono with (2:=Hk), named_more.
    + injection E as <-. exists l1, l2. rewrite HL, Hn. split; [apply nth_end|]. split; [apply nth_end|].
      rewrite <- Hn. apply sren_mono with (2:=Hl). intros ? ?. apply named_more.
  - intros Hk x l Hx Hxl. apply outside_snoc in Hx as [Hx|[_ E]]; [|discriminate].
    assert (x < length vs1). { rewrite <- HL. destruct Hx as [? Hx]. apply nth_error_Some. congruence. }
    rewrite nth_error_app1 in Hxl by assumption. eapply Forall_impl; [|exact (Ho Hk x l Hx Hxl)]. intros ?. apply outside_more.
  - intros x l Hx Hxl. apply contained_snoc in Hx as [Hx|[-> E]].
    + assert (x < length vs1).
      { rewrite <- HL. unfold contained in Hx. destruct (nth_error m x) eqn:E; [|discriminate]. apply nth_error_Some. congruence. }
      rewrite nth_error_app1 in Hxl by assumption. eauto.
    + rewrite HL, nth_end in Hxl. injection Hxl as <-. auto.
  - now apply ordered_snoc.
  - now apply ordered_snoc.
Qed.

Lemma ginv_skip m n vs1 vs2 b l1 : ginv m n vs1 vs2 -> (calls -> Forall (outside m) (srefs l1)) -> (b = true -> srefs l1 = []) ->
  (forall y, In y (srefs l1) -> y < length vs1) ->
  ginv (m ++ [(None, b)]) n (vs1 ++ [l1]) vs2.
Proof.
  intros [Hwf Hn HL Hr Ho Hc O1 O2] Hl Hb B1. split; auto.
  - now apply mwf_skip.
  - rewrite !app_length. cbn. lia.
  - intros x y Hx. apply named_snoc in Hx as [Hx|[_ E]]; [|discriminate].
    destruct (Hr x y Hx) as (k1 & k2 & H1 & H2 & Hk). exists k1, k2. split; [now apply nth_snoc|]. split; [exact H2|].
    now apply sren_mono with (2:=Hk), named_more.
  - intros Hk x l Hx Hxl. apply outside_snoc in Hx as [Hx|[-> E]].
    + assert (x < length vs1). { rewrite <- HL. destruct Hx as [? Hx]. apply nth_error_Some. congruence. }
      rewrite nth_error_app1 in Hxl by assumption. eapply Forall_impl; [|exact (Ho Hk x l Hx Hxl)]. intros ?. apply outside_more.
    + rewrite HL, nth_end in Hxl. injection Hxl as <-. eapply Forall_impl; [|exact (Hl Hk)]. intros ?. apply outside_more.
  - intros x l Hx Hxl. apply contained_snoc in Hx as [Hx|[-> E]].
    + assert (x < length vs1).
      { rewrite <- HL. unfold contained in Hx. destruct (nth_error m x) eqn:E; [|discriminate]. apply nth_error_Some. congruence. }
      rewrite nth_error_app1 in Hxl by assumption. eauto.
    + rewrite HL, nth_end in Hxl. injection Hxl as <-. auto.
  - now apply ordered_snoc.
Qed.

Lemma deps_sren m n vs1 vs2 ss ss' : ginv m n vs1 vs2 -> Forall2 (srenamed m) ss ss' -> forall ds,
  sdeps_of U vs1 ss = Some ds -> exists ds', sdeps_of U vs2 ss' = Some ds' /\ Forall2 (sren (named m)) ds ds'.
Proof.
  intros Hi Hs. induction Hs as [|s s' ss ss' Hs Hss IH]; intros ds Hd; cbn [sdeps_of] in Hd |- *.
  - injection Hd as <-. eauto.
  - destruct (sdep_of U vs1 s) as [o|] eqn:Eo; [|discriminate]. destruct (sdeps_of U vs1 ss) as [os|]; [|discriminate].
    injection Hd as <-. destruct (IH _ eq_refl) as (ds' & -> & Hds).
    assert (H : exists o', sdep_of U vs2 s' = Some o' /\ sren (named m) o o').
    { destruct Hs as [x y Hx|x y Hx|d|v]; cbn in Eo |- *.
      - destruct (g_rel _ _ _ _ Hi x y Hx) as (k1 & k2 & H1 & H2 & Hk). rewrite H1 in Eo. injection Eo as <-. rewrite H2.
        eexists. split; [reflexivity|]. now constructor.
      - destruct (g_rel _ _ _ _ Hi x y Hx) as (k1 & k2 & H1 & H2 & Hk). rewrite H1 in Eo. injection Eo as <-. eauto.
      - injection Eo as <-. eexists. split; [reflexivity|]. repeat constructor.
      - injection Eo as <-. eexists. split; [reflexivity|]. constructor. }
    destruct H as (o' & -> & Ho). eauto.
Qed.

Lemma deps_contained m n vs1 vs2 ss : ginv m n vs1 vs2 -> forall ds, sdeps_of U vs1 ss = Some ds ->
  forallb (contained_dep m) ss = true -> flat_map srefs ds = [].
Proof.
  intros Hi. induction ss as [|s ss IH]; intros ds Hd Hc; cbn [sdeps_of] in Hd.
  - injection Hd as <-. reflexivity.
  - destruct (sdep_of U vs1 s) as [o|] eqn:Eo; [|discriminate]. destruct (sdeps_of U vs1 ss) as [os|]; [|discriminate].
    injection Hd as <-. cbn in Hc. apply andb_true_iff in Hc as [Hs Hc]. cbn. rewrite (IH _ eq_refl Hc), app_nil_r.
    destruct s as [x|[x|d|v]]; cbn in Eo, Hs; try discriminate; try (injection Eo as <-; reflexivity).
    exact (g_con _ _ _ _ Hi x o Hs Eo).
Qed.

Lemma deps_apart m n vs1 vs2 ss : ginv m n vs1 vs2 -> calls -> forall ds, sdeps_of U vs1 ss = Some ds ->
  Forall (apart m) ss -> Forall (outside m) (flat_map srefs ds).
Proof.
  intros Hi Hk. induction ss as [|s ss IH]; intros ds Hd Hc; cbn [sdeps_of] in Hd.
  - injection Hd as <-. constructor.
  - destruct (sdep_of U vs1 s) as [o|] eqn:Eo; [|discriminate]. destruct (sdeps_of U vs1 ss) as [os|]; [|discriminate].
    injection Hd as <-. inversion Hc as [|? ? Hs Hc']; subst. cbn. apply Forall_app. split; [|now apply IH].
    destruct s as [x|[x|d|v]]; cbn in Eo, Hs.
    + destruct (nth_error vs1 x); [|discriminate]. injection Eo as <-. cbn. auto.
    + destruct Hs as [Hs|Hs]; [exact (g_out _ _ _ _ Hi Hk x o Hs Eo)|].
      now rewrite (g_con _ _ _ _ Hi x o Hs Eo).
    + injection Eo as <-. constructor.
    + injection Eo as <-. constructor.
Qed.

Lemma var_refs vs x (l : slz) : ordered vs -> nth_error vs x = Some l -> forall y, In y (srefs l) -> y < length vs.
Proof.
  intros Ho Hx y Hy. pose proof (Ho x l Hx y Hy). assert (x < length vs) by (apply nth_error_Some; congruence). lia.
Qed.

(** Calls *)
Lemma ordered_same vs vs' : ordered vs -> same_refs (A:=A) (fid:=fid) (did:=did) vs vs' -> ordered vs'.
Proof. intros Ho [_ H] x l' Hx. destruct (H _ _ Hx) as (l & Hl & ->). now apply Ho. Qed.

Lemma same_refs_update vs vs1 x (l l' : slz) : same_refs vs vs1 -> nth_error vs x = Some l -> srefs l' = srefs l ->
  same_refs vs (update x l' vs1).
Proof.
  intros [L H] Hx E. split; [now rewrite LazyProofs.update_length|]. intros z k Hz. rewrite nth_error_update in Hz.
  destruct (Nat.eqb_spec x z) as [->|]; [|now apply H].
  destruct (z <? length vs1); [|discriminate]. injection Hz as <-. eauto.
Qed.

(** The fuel does not matter. *)
Lemma sstep_fuel n vs (l : slz) w r : ordered vs -> (forall y, In y (srefs l) -> y < length vs) ->
  sstep U n l vs w = Some r -> sstep U (length vs) l vs w = Some r.
Proof.
  intros Ho Hl E. destruct (sstep_done U (length vs) l vs w Ho) as (r1 & l1 & vs1 & w1 & lg & E1 & _).
  { intros y Hy. auto. }
  pose proof (sstep_more U _ (Nat.max n (length vs)) _ _ _ _ (Nat.le_max_r _ _) E1) as E2.
  pose proof (sstep_more U _ (Nat.max n (length vs)) _ _ _ _ (Nat.le_max_l _ _) E) as E3. congruence.
Qed.

Lemma ginv_refs m n vs1 vs2 vs1' vs2' : ginv m n vs1 vs2 -> same_refs vs1 vs1' -> same_refs vs2 vs2' ->
  srel (named m) vs1' vs2' -> ginv m n vs1' vs2'.
Proof.
  intros [Hwf Hn HL Hr Ho Hc O1 O2] S1 S2 Hr'. split; auto.
  - rewrite (proj1 S2). exact Hn.
  - rewrite (proj1 S1). exact HL.
  - intros Hk x l Hx Hxl. destruct (proj2 S1 _ _ Hxl) as (l0 & H0 & ->). eauto.
  - intros x l Hx Hxl. destruct (proj2 S1 _ _ Hxl) as (l0 & H0 & ->). eauto.
  - exact (ordered_same _ _ O1 S1).
  - exact (ordered_same _ _ O2 S2).
Qed.

Lemma group_run m n p ks q : group calls m n p ks q -> forall vs1 vs2 w s1' outs1,
  ginv m n vs1 vs2 -> srun U p (mkSState vs1 w) = Some (s1', outs1) ->
  exists s2', srun U q (mkSState vs2 w) = Some (s2', marked ks outs1) /\ sworld s2' = sworld s1'.
Proof.
  induction 1 as [m n|m n f ss ss' p ks q Hss H IH|m n x y p ks q Hx H IH|m n x y p ks q Hx H IH|m n h p ks q H IH
                 |m n f ss p ks q Hss H IH|m n x p ks q Hx H IH|m n x p ks q Hk Hx H IH];
    intros vs1 vs2 w s1' outs1 Hi E; cbn [srun sexec svars sworld] in *.
  - injection E as <- <-. exists (mkSState vs2 w). auto.
  - destruct (sdeps_of U vs1 ss) as [os|] eqn:Ed; [|discriminate].
    destruct (deps_sren _ _ _ _ _ _ Hi Hss _ Ed) as (os' & Ed' & Hos). rewrite Ed'.
    destruct (srun U p _) as [[se outs]|] eqn:Er; [|discriminate]. injection E as <- <-.
    destruct (fun K => IH _ (vs2 ++ [SCore (FnUser f) None os']) _ _ _ K Er) as (s2' & E2 & Hw2).
    { apply ginv_keep; auto.
      - now constructor.
      - exact (deps_contained _ _ _ _ _ Hi _ Ed).
      - exact (sdeps_refs U _ _ _ (g_ord1 _ _ _ _ Hi) Ed).
      - exact (sdeps_refs U _ _ _ (g_ord2 _ _ _ _ Hi) Ed'). }
    exists s2'. now rewrite E2.
  - destruct (g_rel _ _ _ _ Hi x y Hx) as (k1 & k2 & H1 & H2 & Hk). rewrite H1 in E. rewrite H2.
    destruct (srun U p _) as [[se outs]|] eqn:Er; [|discriminate]. injection E as <- <-.
    destruct (fun K => IH _ (vs2 ++ [k2]) _ _ _ K Er) as (s2' & E2 & Hw2).
    { apply ginv_keep; auto.
      - intros Hc. exact (g_con _ _ _ _ Hi x k1 Hc H1).
      - exact (var_refs _ _ _ (g_ord1 _ _ _ _ Hi) H1).
      - exact (var_refs _ _ _ (g_ord2 _ _ _ _ Hi) H2). }
    exists s2'. now rewrite E2.
  - destruct (g_rel _ _ _ _ Hi x y Hx) as (k1 & k2 & H1 & H2 & Hk). rewrite H1 in E. rewrite H2.
    destruct (sstep U (length vs1) k1 vs1 w) as [[[[[r l'] vs1'] w'] lg]|] eqn:Es; [|discriminate].
    assert (Hf : forall a b b', named m a b -> named m a b' -> b = b') by (intros a b b'; apply named_fun).
    destruct (sstep_rename U (named m) Hf (proj2 (g_wf _ _ _ _ Hi)) _ _ _ _ _ _ _ _ _ _ _ Hk (g_rel _ _ _ _ Hi) Es)
      as (l2' & vs2' & Es2 & Hl' & Hr').
    pose proof (sstep_fuel _ _ _ _ _ (g_ord2 _ _ _ _ Hi) (var_refs _ _ _ (g_ord2 _ _ _ _ Hi) H2) Es2) as Es3.
    rewrite Es3. destruct (srun U p _) as [[se outs]|] eqn:Er; [|discriminate]. injection E as <- <-.
    destruct (sstep_refs _ _ _ _ _ _ _ _ _ _ Es) as [R1 S1]. destruct (sstep_refs _ _ _ _ _ _ _ _ _ _ Es3) as [R2 S2].
    destruct (fun K => IH _ (update y l2' vs2') _ _ _ K Er) as (s2' & E2 & Hw2).
    { apply (ginv_refs _ _ _ _ _ _ Hi).
      - now apply same_refs_update with k1.
      - now apply same_refs_update with k2.
      - now apply srel_update; [exact Hf|exact (proj2 (g_wf _ _ _ _ Hi))| | |]. }
    exists s2'. now rewrite E2.
  - destruct (srun U p _) as [[se outs]|] eqn:Er; [|discriminate]. injection E as <- <-.
    destruct (IH _ vs2 _ _ _ Hi Er) as (s2' & E2 & Hw2). exists s2'. now rewrite E2.
  - destruct (sdeps_of U vs1 ss) as [os|] eqn:Ed; [|discriminate].
    destruct (srun U p _) as [[se outs]|] eqn:Er; [|discriminate]. injection E as <- <-.
    apply (fun K => IH _ vs2 _ _ _ K Er). apply ginv_skip; auto.
    + intros Hk. exact (deps_apart _ _ _ _ _ Hi Hk _ Ed (Hss Hk)).
    + exact (deps_contained _ _ _ _ _ Hi _ Ed).
    + exact (sdeps_refs U _ _ _ (g_ord1 _ _ _ _ Hi) Ed).
  - destruct (nth_error vs1 x) as [k1|] eqn:H1; [|discriminate].
    destruct (srun U p _) as [[se outs]|] eqn:Er; [|discriminate]. injection E as <- <-.
    apply (fun K => IH _ vs2 _ _ _ K Er). apply ginv_skip; auto.
    + intros Hk. destruct (Hx Hk) as [Ho|Hc]; [exact (g_out _ _ _ _ Hi Hk x k1 Ho H1)|].
      now rewrite (g_con _ _ _ _ Hi x k1 Hc H1).
    + intros Hc. exact (g_con _ _ _ _ Hi x k1 Hc H1).
    + exact (var_refs _ _ _ (g_ord1 _ _ _ _ Hi) H1).
  - destruct (nth_error vs1 x) as [k1|] eqn:H1; [|discriminate].
    destruct (sstep U (length vs1) k1 vs1 w) as [[[[[r l'] vs1'] w'] lg]|] eqn:Es; [|discriminate].
    pose proof (sstep_quiet U (Hcalls Hk) _ _ _ _ _ _ _ _ _ Es) as ->.
    destruct (srun U p _) as [[se outs]|] eqn:Er; [|discriminate]. injection E as <- <-.
    apply (fun K => IH _ vs2 _ _ _ K Er).
    destruct (sstep_frame U (outside m) _ _ _ _ _ _ _ _ _ (g_out _ _ _ _ Hi Hk) (g_out _ _ _ _ Hi Hk x k1 Hx H1) Es)
      as (R1 & S1 & F1).
    apply (ginv_refs _ _ _ _ _ _ Hi).
    + now apply same_refs_update with k1.
    + apply same_refs_refl.
    + intros a b Hab. destruct (g_rel _ _ _ _ Hi a b Hab) as (j1 & j2 & J1 & J2 & Hj). exists j1, j2.
      assert (Hna : ~ outside m a). { intros [? Ho]. destruct Hab as [? Hab]. congruence. }
      rewrite SliceThms.update_other by (intros ->; contradiction). rewrite F1 by exact Hna. auto.
Qed.

Lemma group_runs p ks q w s outs : group calls [] 0 p ks q -> srun U p (mkSState [] w) = Some (s, outs) ->
  exists s', srun U q (mkSState [] w) = Some (s', marked ks outs) /\ sworld s' = sworld s.
Proof.
  intros H. apply (group_run _ _ _ _ _ H).
  assert (Hn : forall x y, ~ named [] x y) by (intros [|x] y [b E]; discriminate).
  split; try reflexivity.
  - split; intros; exfalso; eapply Hn; eauto.
  - intros x y Hx. exfalso. eapply Hn; eauto.
  - intros _ [|x] l [b E]; discriminate.
  - intros [|x] l E; discriminate.
  - intros [|x] l E; discriminate.
  - intros [|x] l E; discriminate.
Qed.
End Programs.

Section Laws.
Context {A W fid did : Type}.
Notation slz := (slz A fid did).
Variable U : user A W fid did.

(** C86 (1) *)
Lemma group_unused p ks q w s outs : group (A:=A) False [] 0 p ks q -> srun U p (mkSState [] w) = Some (s, outs) ->
  exists s', srun U q (mkSState [] w) = Some (s', marked ks outs) /\ sworld s' = sworld s.
Proof. apply group_runs. tauto. Qed.

Hypothesis Hro : readonly_user U.
(** C86 (2) *)
Lemma group_independent p ks q w s outs : group (A:=A) True [] 0 p ks q -> srun U p (mkSState [] w) = Some (s, outs) ->
  exists s', srun U q (mkSState [] w) = Some (s', marked ks outs) /\ sworld s' = sworld s.
Proof. now apply group_runs. Qed.

(** C86 (3) *)
Lemma group_same p1 ks1 p2 ks2 q w s1 outs1 s2 outs2 :
  group (A:=A) True [] 0 p1 ks1 q -> group True [] 0 p2 ks2 q ->
  srun U p1 (mkSState [] w) = Some (s1, outs1) -> srun U p2 (mkSState [] w) = Some (s2, outs2) ->
  marked ks1 outs1 = marked ks2 outs2.
Proof.
  intros H1 H2 E1 E2. destruct (group_independent _ _ _ _ _ _ H1 E1) as (s1' & R1 & _).
  destruct (group_independent _ _ _ _ _ _ H2 E2) as (s2' & R2 & _). congruence.
Qed.

(** *** Swapping *)

(** Two states that agree on a closed set. *)
Lemma sren_diag (P : nat -> Prop) : forall l : slz, Forall P (srefs l) -> sren (fun x y => P x /\ x = y) l l.
Proof.
  induction l as [v ch|g c ds IH|x] using slz_ind'; intros Hl; constructor.
  - cbn in Hl. induction IH as [|d ds Hd Hds IHs]; constructor; cbn in Hl; apply Forall_app in Hl as [H1 H2]; auto.
  - inversion Hl; auto.
Qed.
Lemma sren_same (P : nat -> Prop) : forall l l' : slz, sren (fun x y => P x /\ x = y) l l' -> l' = l.
Proof.
  induction l as [v ch|g c ds IH|x] using slz_ind'; intros l' Hl; inversion Hl as [|? ? ? ds' Hds|? y [_ ->]]; subst; auto.
  f_equal. clear Hl. induction Hds as [|d d' ds ds' Hd Hds IHs]; [reflexivity|]. inversion IH; subst. f_equal; auto.
Qed.

Lemma sstep_agree (P : nat -> Prop) n l vs vs2 w r l' vs' w' lg : closed P vs -> Forall P (srefs l) ->
  (forall x, P x -> nth_error vs2 x = nth_error vs x) ->
  (forall x, P x -> x < length vs) ->
  sstep U n l vs w = Some (r, l', vs', w', lg) ->
  exists vs2', sstep U n l vs2 w = Some (r, l', vs2', w', lg) /\ forall x, P x -> nth_error vs2' x = nth_error vs' x.
Proof.
  intros Hc Hl Ha Hb E.
  destruct (sstep_rename U (fun x y => P x /\ x = y)) with (l := l) (l2 := l) (vs1 := vs) (vs2 := vs2) (n := n)
    (w := w) (r := r) (l1' := l') (vs1' := vs') (w' := w') (lg := lg) as (l2' & vs2' & E2 & Hl' & Hr').
  - intros x y y' [_ <-] [_ <-]. reflexivity.
  - intros x x' y [_ ->] [_ ->]. reflexivity.
  - now apply sren_diag.
  - intros x y [Hx <-]. specialize (Hb x Hx). apply nth_error_Some in Hb. destruct (nth_error vs x) as [k|] eqn:Ek; [|contradiction].
    exists k, k. split; [reflexivity|]. split; [now rewrite Ha|]. apply sren_diag. exact (Hc x k Hx Ek).
  - exact E.
  - apply sren_same in Hl'. subst l2'. exists vs2'. split; [exact E2|]. intros x Hx.
    destruct (Hr' x x (conj Hx eq_refl)) as (k1 & k2 & H1 & H2 & Hk). apply sren_same in Hk. congruence.
Qed.

Lemma nth_ext_error {X} (l l' : list X) : (forall x, nth_error l x = nth_error l' x) -> l = l'.
Proof.
  revert l'. induction l as [|a l IH]; intros [|b l'] H; auto.
  - discriminate (H 0).
  - discriminate (H 0).
  - f_equal; [now injection (H 0)|]. apply IH. intros x. exact (H (S x)).
Qed.

(** Calls of variables of two closed sets that have nothing in common. *)
Lemma sexec_swap (P Q : nat -> Prop) x y vs w : closed P vs -> closed Q vs ->
  (forall z, P z -> z < length vs) -> (forall z, Q z -> z < length vs) ->
  (forall z, P z \/ ~ P z) -> (forall z, Q z \/ ~ Q z) ->
  (forall z, P z -> Q z -> False) -> P x -> Q y -> forall p s' outs,
  srun U (SCall x :: SCall y :: p) (mkSState vs w) = Some (s', outs) ->
  exists o1 o2 os, outs = o1 :: o2 :: os /\ srun U (SCall y :: SCall x :: p) (mkSState vs w) = Some (s', o2 :: o1 :: os).
Proof.
  intros Pc Qc Pb Qb Pd Qd Hd Px Qy p s' outs E. cbn [srun sexec svars sworld] in *.
  assert (Hne : x <> y) by (intros ->; eauto).
  destruct (nth_error vs x) as [lx|] eqn:Hx; [|discriminate].
  destruct (sstep U (length vs) lx vs w) as [[[[[rx lx'] vsx] wx] gx]|] eqn:Ex; [|discriminate].
  pose proof (sstep_quiet U Hro _ _ _ _ _ _ _ _ _ Ex) as ->.
  destruct (sstep_frame U P _ _ _ _ _ _ _ _ _ Pc (Pc x lx Px Hx) Ex) as (Rx & Sx & Fx).
  cbn [svars sworld] in E.
  assert (Ny : forall z, Q z -> nth_error (update x lx' vsx) z = nth_error vs z).
  { intros z Hz. rewrite SliceThms.update_other by (intros ->; eauto). apply Fx. eauto. }
  rewrite (Ny y Qy) in E. destruct (nth_error vs y) as [ly|] eqn:Hy; [|discriminate].
  rewrite !LazyProofs.update_length, (proj1 Sx) in E.
  destruct (sstep U (length vs) ly (update x lx' vsx) w) as [[[[[ry ly'] vsxy] wy] gy]|] eqn:Ey; [|discriminate].
  assert (Qc' : closed Q (update x lx' vsx)).
  { intros z l Hz Hl. rewrite (Ny z Hz) in Hl. exact (Qc z l Hz Hl). }
  destruct (fun B => sstep_agree Q _ _ _ vs _ _ _ _ _ _ Qc' (Qc y ly Qy Hy) (fun z Hz => eq_sym (Ny z Hz)) B Ey) as (vsy & Ey2 & Ay).
  { intros z Hz. rewrite LazyProofs.update_length, (proj1 Sx). auto. }
  pose proof (sstep_quiet U Hro _ _ _ _ _ _ _ _ _ Ey2) as ->.
  destruct (sstep_frame U Q _ _ _ _ _ _ _ _ _ Qc' (Qc y ly Qy Hy) Ey) as (Ry & Sy & Fy).
  destruct (sstep_frame U Q _ _ _ _ _ _ _ _ _ Qc (Qc y ly Qy Hy) Ey2) as (Ry2 & Sy2 & Fy2).
  rewrite Ey2. cbn [svars sworld].
  assert (Nx : forall z, P z -> nth_error (update y ly' vsy) z = nth_error vs z).
  { intros z Hz. rewrite SliceThms.update_other by (intros ->; eauto). apply Fy2. eauto. }
  rewrite (Nx x Px), Hx. rewrite !LazyProofs.update_length, (proj1 Sy2).
  destruct (sstep_agree P _ _ _ (update y ly' vsy) _ _ _ _ _ _ Pc (Pc x lx Px Hx) Nx Pb Ex) as (vsyx & Ex2 & Ax).
  rewrite Ex2. assert (Pc2 : closed P (update y ly' vsy)).
  { intros z l Hz Hl. rewrite (Nx z Hz) in Hl. exact (Pc z l Hz Hl). }
  destruct (sstep_frame U P _ _ _ _ _ _ _ _ _ Pc2 (Pc x lx Px Hx) Ex2) as (Rx2 & Sx2 & Fx2).
  assert (Ev : update x lx' vsyx = update y ly' vsxy).
  { apply nth_ext_error. intros z.
    assert (Lx : x < length vs) by auto. assert (Ly : y < length vs) by auto.
    assert (L1 : length vsxy = length vs) by (rewrite (proj1 Sy), LazyProofs.update_length; exact (proj1 Sx)).
    assert (L2 : length vsyx = length vs) by (rewrite (proj1 Sx2), LazyProofs.update_length; exact (proj1 Sy2)).
    rewrite !nth_error_update, L1, L2.
    destruct (Nat.eqb_spec x z) as [<-|Hxz].
    - destruct (Nat.eqb_spec y x) as [->|_]; [contradiction|]. rewrite Fy by eauto. rewrite nth_error_update, Nat.eqb_refl, (proj1 Sx). reflexivity.
    - destruct (Nat.eqb_spec y z) as [<-|Hyz].
      + rewrite Fx2 by eauto. rewrite nth_error_update, Nat.eqb_refl, (proj1 Sy2). reflexivity.
      + destruct (Pd z) as [Pz|Pz].
        * rewrite (Ax z Pz), Fy by eauto. rewrite SliceThms.update_other by auto. reflexivity.
        * rewrite (Fx2 z Pz). rewrite SliceThms.update_other by auto. destruct (Qd z) as [Qz|Qz]; [exact (Ay z Qz)|].
          rewrite Fy2, Fy by exact Qz. rewrite SliceThms.update_other by auto. symmetry. exact (Fx z Pz). }
  rewrite Ev. destruct (srun U p _) as [[se os]|]; [|discriminate]. injection E as <- <-.
  do 3 eexists. split; reflexivity.
Qed.
End Laws.

Section Swap.
Context {A W fid did : Type}.
Notation slz := (slz A fid did).
Variable U : user A W fid did.

Lemma nth_refs (vs : list slz) x l : nth_error vs x = Some l -> nth x (map srefs vs) [] = srefs l.
Proof. intros H. apply nth_error_nth. now apply map_nth_error. Qed.

Lemma deps_refers (vs : list slz) ss : forall ds, sdeps_of U vs ss = Some ds ->
  flat_map (dep_refs (map srefs vs)) ss = flat_map srefs ds.
Proof.
  induction ss as [|s ss IH]; intros ds Hd; cbn [sdeps_of] in Hd.
  - injection Hd as <-. reflexivity.
  - destruct (sdep_of U vs s) as [o|] eqn:Eo; [|discriminate]. destruct (sdeps_of U vs ss) as [os|]; [|discriminate].
    injection Hd as <-. cbn [flat_map]. rewrite (IH _ eq_refl). f_equal.
    destruct s as [x|[x|d|v]]; cbn in Eo |- *.
    + destruct (nth_error vs x); [|discriminate]. now injection Eo as <-.
    + now apply nth_refs.
    + now injection Eo as <-.
    + now injection Eo as <-.
Qed.

Lemma same_refs_map (vs vs' : list slz) : same_refs vs vs' -> map srefs vs' = map srefs vs.
Proof.
  intros [L H]. apply nth_ext_error. intros x. rewrite !nth_error_map.
  destruct (nth_error vs' x) as [l'|] eqn:E.
  - destruct (H x l' E) as (l & -> & E'). cbn. now rewrite E'.
  - assert (E' : nth_error vs x = None) by (apply nth_error_None; apply nth_error_None in E; lia). now rewrite E'.
Qed.

Lemma srun_refers p : forall vs w s outs, ordered vs -> srun U p (mkSState vs w) = Some (s, outs) ->
  ordered (svars s) /\ refers p (map srefs vs) = map srefs (svars s).
Proof.
  induction p as [|o p IH]; intros vs w s outs Ho E; cbn [srun] in E.
  - injection E as <- <-. auto.
  - destruct o as [f ss|x|x|h]; cbn [sexec svars sworld refers] in *.
    + destruct (sdeps_of U vs ss) as [ds|] eqn:Ed; [|discriminate].
      destruct (srun U p _) as [[se os]|] eqn:Er; [|discriminate]. injection E as <- <-.
      apply IH in Er; [|apply ordered_snoc; [exact Ho|exact (sdeps_refs U _ _ _ Ho Ed)]].
      rewrite map_app in Er. cbn in Er. now rewrite (deps_refers _ _ _ Ed).
    + destruct (nth_error vs x) as [l|] eqn:Ex; [|discriminate].
      destruct (srun U p _) as [[se os]|] eqn:Er; [|discriminate]. injection E as <- <-.
      apply IH in Er; [|apply ordered_snoc; [exact Ho|exact (var_refs _ _ _ Ho Ex)]].
      rewrite map_app in Er. cbn in Er. now rewrite (nth_refs _ _ _ Ex).
    + destruct (nth_error vs x) as [l|] eqn:Ex; [|discriminate].
      destruct (sstep U (length vs) l vs w) as [[[[[r l'] vs'] w'] lg]|] eqn:Es; [|discriminate].
      destruct (srun U p _) as [[se os]|] eqn:Er; [|discriminate]. injection E as <- <-.
      destruct (sstep_refs _ _ _ _ _ _ _ _ _ _ Es) as [R1 S1].
      pose proof (same_refs_update _ _ _ _ _ S1 Ex R1) as S2.
      apply IH in Er; [|exact (ordered_same _ _ Ho S2)]. now rewrite (same_refs_map _ _ S2) in Er.
    + destruct (srun U p _) as [[se os]|] eqn:Er; [|discriminate]. injection E as <- <-. now apply IH in Er.
Qed.

Lemma touches_dec rs : (forall x y, In y (nth x rs []) -> y < x) -> forall x z, touches rs x z \/ ~ touches rs x z.
Proof.
  intros Ho x. induction x as [x IH] using lt_wf_ind. intros z.
  destruct (Nat.eq_dec x z) as [->|Hne]; [left; constructor|].
  assert (H : forall l, (forall y, In y l -> y < x) ->
    (exists y, In y l /\ touches rs y z) \/ ~ (exists y, In y l /\ touches rs y z)).
  { induction l as [|a l IHl]; intros Hl.
    - right. intros (y & [] & _).
    - destruct (IH a (Hl a (or_introl eq_refl)) z) as [H|H]; [left; exists a; cbn; auto|].
      destruct IHl as [(y & Hy & Ht)|Hn]; [intros y Hy; apply Hl; now right|left; exists y; cbn; auto|].
      right. intros (y & [<-|Hy] & Ht); eauto. }
  destruct (H (nth x rs []) (Ho x)) as [(y & Hy & Ht)|Hn].
  - left. exact (touches_next _ _ _ _ Hy Ht).
  - right. intros Ht. inversion Ht as [|? y ? Hy Hz]; subst; [congruence|eauto].
Qed.

Lemma touches_trans rs x y z : touches rs x y -> touches rs y z -> touches rs x z.
Proof. induction 1; eauto using touches_next. Qed.

Hypothesis Hro : readonly_user U.
(** C86 (4) *)
Lemma group_swap p w s outs x y rest s' outs' : srun U p (mkSState [] w) = Some (s, outs) ->
  (forall z, touches (refers p []) x z -> touches (refers p []) y z -> False) ->
  srun U (SCall x :: SCall y :: rest) s = Some (s', outs') ->
  exists o1 o2 os, outs' = o1 :: o2 :: os /\ srun U (SCall y :: SCall x :: rest) s = Some (s', o2 :: o1 :: os).
Proof.
  intros E Hd E'. destruct s as [vs w1]. apply srun_refers in E as [Ho Er]; [|intros [|]; discriminate].
  cbn [map svars] in *. rewrite Er in Hd.
  assert (Hn : forall a b, In b (nth a (map srefs vs) []) -> exists l, nth_error vs a = Some l /\ In b (srefs l)).
  { intros a b H. destruct (nth_error vs a) as [l|] eqn:El; [rewrite (nth_refs _ _ _ El) in H; eauto|].
    rewrite nth_overflow in H; [destruct H|]. rewrite map_length. now apply nth_error_None. }
  assert (Hlt : forall a b, In b (nth a (map srefs vs) []) -> b < a).
  { intros a b H. destruct (Hn _ _ H) as (l & El & Hb). exact (Ho a l El b Hb). }
  assert (Hc : forall a, closed (touches (map srefs vs) a) vs).
  { intros a b l Hb Hl. apply Forall_forall. intros c Hin. apply touches_trans with b; [exact Hb|].
    apply touches_next with c; [now rewrite (nth_refs _ _ _ Hl)|constructor]. }
  assert (Hb : forall a, a < length vs -> forall z, touches (map srefs vs) a z -> z < length vs).
  { intros a Ha z Hz. induction Hz as [a|a b z Hin _ IH]; [exact Ha|]. apply IH. apply Hlt in Hin. lia. }
  assert (Hx : x < length vs).
  { cbn in E'. destruct (nth_error vs x) eqn:Ex; [|discriminate]. apply nth_error_Some. congruence. }
  assert (Hy : y < length vs).
  { cbn in E'. destruct (nth_error vs x) as [l|] eqn:Ex; [|discriminate].
    destruct (sstep U (length vs) l vs w1) as [[[[[r l'] vs'] w'] lg]|] eqn:Es; [|discriminate]. cbn in E'.
    destruct (nth_error (update x l' vs') y) eqn:Ey; [|discriminate].
    destruct (sstep_refs _ _ _ _ _ _ _ _ _ _ Es) as [R1 S1].
    assert (L : length (update x l' vs') = length vs) by (rewrite LazyProofs.update_length; exact (proj1 S1)).
    rewrite <- L. apply nth_error_Some. congruence. }
  apply (sexec_swap U Hro (touches (map srefs vs) x) (touches (map srefs vs) y)); auto;
    try (apply Hb; assumption); try (apply touches_dec; assumption); apply touches_self.
Qed.
End Swap.

(** ** Examples *)

(** Two sums of an input that share what reads it: after a change of the input, whichever is called
    first gets the change, the other does not. *)
Definition sharing : list (sop nat (nat * nat) nat bool) :=
  [SNew 0 [SDep (DFun true)]; SNew 0 [SDRef 0]; SNew 0 [SDRef 0]; SCall 1; SCall 2; SEnv (fun w => (1, 2))].

Lemma swap_sharing : exists (U : user nat (nat * nat) nat bool) pf rd x y p s s1 outs1 s2 outs2,
  pure_user U pf rd /\ x <> y /\ ~ touches (refers p []) x y /\ ~ touches (refers p []) y x /\
  srun U (p ++ [SCall x; SCall y]) s = Some (s1, outs1) /\ srun U (p ++ [SCall y; SCall x]) s = Some (s2, outs2) /\
  option_map fst (nth_error outs1 (length p)) = Some (Some (Ok (Some (VAtom 1)))) /\
  option_map fst (nth_error outs2 (S (length p))) = Some (Some (Ok (Some (VAtom 0)))).
Proof.
  exists law_pure_user, law_pf, ex_rd, 1, 2, sharing, (mkSState [] (0, 0)). do 4 eexists.
  split; [exact law_pure|]. split; [discriminate|].
  assert (H0 : forall z, touches (refers sharing []) 0 z -> z = 0).
  { intros z H. inversion H as [|? y ? Hy]; subst; [reflexivity|destruct Hy]. }
  split; [intros H; inversion H as [|? y ? Hy Hz]; subst; destruct Hy as [<-|[]]; apply H0 in Hz; discriminate|].
  split; [intros H; inversion H as [|? y ? Hy Hz]; subst; destruct Hy as [<-|[]]; apply H0 in Hz; discriminate|].
  split; [vm_compute; reflexivity|]. split; [vm_compute; reflexivity|]. split; reflexivity.
Qed.

Lemma omit_sharing : exists (U : user nat (nat * nat) nat bool) pf rd x y p s s1 outs1 s2 outs2,
  pure_user U pf rd /\ x <> y /\ ~ touches (refers p []) x y /\ ~ touches (refers p []) y x /\
  srun U (p ++ [SCall x; SCall y]) s = Some (s1, outs1) /\ srun U (p ++ [SCall y]) s = Some (s2, outs2) /\
  option_map fst (nth_error outs1 (S (length p))) = Some (Some (Ok (Some (VAtom 0)))) /\
  option_map fst (nth_error outs2 (length p)) = Some (Some (Ok (Some (VAtom 1)))).
Proof.
  exists law_pure_user, law_pf, ex_rd, 1, 2, sharing, (mkSState [] (0, 0)). do 4 eexists.
  split; [exact law_pure|]. split; [discriminate|].
  assert (H0 : forall z, touches (refers sharing []) 0 z -> z = 0).
  { intros z H. inversion H as [|? y ? Hy]; subst; [reflexivity|destruct Hy]. }
  split; [intros H; inversion H as [|? y ? Hy Hz]; subst; destruct Hy as [<-|[]]; apply H0 in Hz; discriminate|].
  split; [intros H; inversion H as [|? y ? Hy Hz]; subst; destruct Hy as [<-|[]]; apply H0 in Hz; discriminate|].
  split; [vm_compute; reflexivity|]. split; [vm_compute; reflexivity|]. split; reflexivity.
Qed.

(** Two groups: a sum of two inputs with a copy, and a parity of an input. *)
Definition groups : list (sop nat (nat * nat) nat bool) :=
  [SNew 0 [SDep (DFun true)]; SNew 2 [SDep (DFun false)]; SNew 0 [SDRef 0; SDep (DFun false)]; SNew 0 [SDRef 1; SDep (DVar 0)];
   SCall 2; SCall 3; SCopy 2; SEnv (fun w => (fst w, S (snd w))); SCall 3; SCall 1; SCall 4; SCall 2].
