(** Lemmas about Layout.v. *)
From Coq Require Import List Bool Arith Lia Permutation.
From Verif Require Import Partition PartitionProofs Layout.
Import ListNotations.

Lemma align_up_ge n a : 0 < a -> n <= align_up n a.
Proof.
  intros Ha. unfold align_up.
  pose proof (Nat.div_mod (n + a - 1) a ltac:(lia)) as H.
  pose proof (Nat.mod_upper_bound (n + a - 1) a ltac:(lia)). nia.
Qed.

Lemma align_up_divide n a : Nat.divide a (align_up n a).
Proof. unfold align_up. apply Nat.divide_factor_r. Qed.

Lemma align_up_id n a : 0 < a -> Nat.divide a n -> align_up n a = n.
Proof.
  intros Ha [k ->]. unfold align_up.
  replace (k * a + a - 1) with (a - 1 + k * a) by lia.
  rewrite Nat.div_add by lia. rewrite Nat.div_small by lia. lia.
Qed.

Lemma align_up_0 a : 0 < a -> align_up 0 a = 0.
Proof. intros. apply align_up_id; auto. apply Nat.divide_0_r. Qed.

Lemma max_align_pos l : 1 <= fold_right Nat.max 1 l.
Proof. induction l; cbn; lia. Qed.

Lemma class_proper reuse bs ms :
  proper_lay (class_lay reuse bs ms).
Proof.
  unfold class_lay, proper_lay; cbn [lempty ldsize lalign lsize].
  set (al := fold_right Nat.max 1 _).
  set (off := fold_left _ ms _).
  assert (Ha : 1 <= al) by apply max_align_pos.
  pose proof (align_up_ge (Nat.max 1 off) al ltac:(lia)).
  repeat split; try lia. apply align_up_divide.
Qed.

Section A.
Variable reuse sorts : bool.
Notation class_lay := (class_lay reuse).
Notation closure := (closure reuse).
Notation overload_lay := (overload_lay reuse sorts).
Notation element_lay := (element_lay reuse sorts).
Notation compressed_tuple_lay := (compressed_tuple_lay reuse sorts).
Notation bind_tuple_lay := (bind_tuple_lay reuse sorts).

(** ** Emptiness *)

Lemma closure_empty ms : lempty (closure ms) = match ms with [] => true | _ => false end.
Proof. reflexivity. Qed.

Lemma forallb_permutation {X} (f : X -> bool) l m :
  Permutation l m -> forallb f l = forallb f m.
Proof.
  intros H. apply eq_true_iff_eq. rewrite !forallb_forall. split; intros G x Hx; apply G;
    eapply Permutation_in; try eassumption; auto; now symmetry.
Qed.

Lemma overload_empty fs : lempty (overload_lay fs) = forallb lempty fs.
Proof.
  unfold overload_lay. destruct sorts; cbn; rewrite ?andb_true_r; auto.
  apply forallb_permutation. unfold partition_t. apply partition_permutation.
Qed.

Lemma recursive_empty f : lempty (recursive_lay reuse f) = lempty f.
Proof. cbn. now rewrite !andb_true_r. Qed.

Lemma element_empty t : lempty (element_lay t) = lempty t.
Proof.
  unfold element_lay. destruct (lempty t); [reflexivity|]. rewrite overload_empty. reflexivity.
Qed.

Lemma compressed_tuple_empty ts : lempty (compressed_tuple_lay ts) = forallb lempty ts.
Proof.
  unfold compressed_tuple_lay.
  transitivity (lempty (recursive_lay reuse (overload_lay (map element_lay ts)))).
  { cbn. now rewrite !andb_true_r. }
  rewrite recursive_empty, overload_empty.
  induction ts as [|t ts IH]; cbn; auto. now rewrite element_empty, IH.
Qed.

Lemma bind_tuple_empty f t : lempty (bind_tuple_lay f t) = lempty f && lempty t.
Proof.
  unfold bind_tuple_lay. rewrite recursive_empty, overload_empty. cbn [forallb].
  rewrite !element_empty, closure_empty. now rewrite !andb_true_r.
Qed.

Lemma void_adapter_empty f : lempty (void_adapter_lay reuse sorts f) = lempty f.
Proof.
  unfold void_adapter_lay. rewrite bind_tuple_empty, compressed_tuple_empty. cbn.
  now rewrite andb_true_r.
Qed.

Lemma lazy_core_empty cache f deps : lempty (lazy_core_lay reuse sorts cache f deps) = false.
Proof. unfold lazy_core_lay. now rewrite bind_tuple_empty. Qed.

Lemma unwrap_empty f : lempty (unwrap_lay reuse sorts f) = lempty f.
Proof.
  unfold unwrap_lay. rewrite recursive_empty, overload_empty. cbn [forallb].
  rewrite bind_tuple_empty, compressed_tuple_empty. cbn. now rewrite !andb_true_r.
Qed.

Lemma lazy_empty cache f deps : lempty (lazy_lay reuse sorts cache f deps) = false.
Proof. unfold lazy_lay. now rewrite void_adapter_empty, unwrap_empty, lazy_core_empty. Qed.

(** ** Size *)

(** A class whose only non-empty parts are laid out like the plain struct of [ts]. *)
Definition like_struct (l : lay) (ts : list lay) : Prop :=
  ldsize l = ldsize (plain_struct reuse ts) /\ lalign l = lalign (plain_struct reuse ts) /\
  lsize l = lsize (plain_struct reuse ts).

Definition solid (t : lay) : bool := negb (lempty t).

(** [l] is laid out as a base exactly like a member of type [t]. *)
Definition base_like (l t : lay) : Prop :=
  lempty l = false /\ ldsize l = lsize t /\ lsize l = lsize t /\ lalign l = lalign t.

Lemma struct1 t :
  proper_lay t ->
  ldsize (class_lay [] [t]) = lsize t /\ lalign (class_lay [] [t]) = lalign t /\
  lsize (class_lay [] [t]) = lsize t.
Proof.
  intros (Hs & Ha & Hd & _). unfold Layout.class_lay, member_offset.
  cbn [lempty ldsize lalign lsize fold_left app map fold_right].
  rewrite align_up_0 by auto. cbn [Nat.add]. rewrite (Nat.max_l (lalign t) 1) by lia.
  repeat split; auto. rewrite Nat.max_r by lia. now apply align_up_id.
Qed.

(** A class with a single non-empty base among empty ones of alignment 1. *)
Definition light (b : lay) : Prop := lempty b = true /\ lalign b = 1.

Lemma light_prefix bs off :
  Forall light bs -> fold_left (base_offset reuse) bs off = off.
Proof.
  intros H; revert off; induction H as [|b bs [Hb _] _ IH]; intros off; cbn; auto.
  unfold base_offset at 2. rewrite Hb. apply IH.
Qed.

Lemma light_align bs k : Forall light bs -> 1 <= k ->
  fold_right Nat.max k (map lalign bs) = k.
Proof. induction 1 as [|b bs [_ Hb] _ IH]; cbn; intros; auto. rewrite Hb, IH by auto. lia. Qed.

Lemma fold_max_app l m : fold_right Nat.max 1 (l ++ m) = fold_right Nat.max (fold_right Nat.max 1 m) l.
Proof. apply fold_right_app. Qed.

Lemma one_solid_base es b t :
  proper_lay t -> Forall light es -> base_like b t -> base_like (class_lay (es ++ [b]) []) t.
Proof.
  intros Hp He (H1 & H2 & H3 & H4). destruct Hp as (Hs & Ha & Hd & Hle).
  assert (O : fold_left (base_offset reuse) (es ++ [b]) 0 = lsize t).
  { rewrite fold_left_app, (light_prefix es 0 He). cbn [fold_left].
    unfold base_offset. rewrite H1, H2, H3, H4, align_up_0 by auto. now destruct reuse. }
  assert (G : fold_right Nat.max 1 (map lalign ((es ++ [b]) ++ [])) = lalign t).
  { rewrite app_nil_r, map_app, fold_max_app. cbn [map fold_right].
    rewrite light_align by (auto; lia). lia. }
  unfold base_like, Layout.class_lay; cbn [lempty ldsize lsize lalign].
  cbn [fold_left]. rewrite O, G. repeat split.
  - rewrite forallb_app. cbn. rewrite H1. now rewrite !andb_false_r.
  - rewrite Nat.max_r by lia. now apply align_up_id.
Qed.

Lemma closure0_light : light (closure []).
Proof. split; reflexivity. Qed.

Lemma partition_light_one es b :
  Forall light es -> lempty b = false ->
  partition_t lempty (es ++ [b]) = es ++ [b].
Proof.
  intros He Hb. rewrite partition_t_filters, !filter_app. cbn. rewrite Hb; cbn.
  assert (E1 : filter lempty es = es).
  { clear Hb. induction He as [|e es [He1 _] He IH]; cbn; auto. now rewrite He1, IH. }
  assert (E2 : filter (fun t => negb (lempty t)) es = []).
  { clear E1 Hb. induction He as [|e es [He1 _] He IH]; cbn; auto. now rewrite He1. }
  rewrite E1, E2. cbn. now rewrite app_nil_r.
Qed.

Lemma overload_one es b t :
  proper_lay t -> Forall light es -> base_like b t -> base_like (overload_lay (es ++ [b])) t.
Proof.
  intros Hp He Hb. unfold overload_lay. destruct sorts.
  - rewrite partition_light_one by (auto; apply Hb).
    apply (one_solid_base []); auto. now apply one_solid_base.
  - now apply one_solid_base.
Qed.

Lemma element_solid t :
  proper_lay t -> lempty t = false -> base_like (element_lay t) t.
Proof.
  intros Hp He. unfold element_lay. rewrite He.
  apply (overload_one [closure []] (closure [std_tuple1 reuse t])); auto.
  - repeat constructor.
  - destruct (struct1 t Hp) as (D & A & S).
    unfold closure, Layout.closure, std_tuple1.
    assert (Hp' : proper_lay (class_lay [] [t])) by apply class_proper.
    destruct (struct1 _ Hp') as (D' & A' & S').
    repeat split; auto; congruence.
Qed.

Lemma element_light t : lempty t = true -> light (element_lay t).
Proof. intros H. unfold element_lay. rewrite H. apply closure0_light. Qed.

(** Laying out elements as bases is laying out the solid ones as members. *)
Lemma bases_as_members ts off :
  Forall proper_lay ts ->
  fold_left (base_offset reuse) (map element_lay ts) off
  = fold_left member_offset (filter solid ts) off.
Proof.
  intros H; revert off; induction H as [|t ts Hp _ IH]; intros off; cbn; auto.
  unfold solid at 1. destruct (lempty t) eqn:E; cbn.
  - destruct (element_light t E) as [E1 _]. unfold base_offset at 2. now rewrite E1.
  - destruct (element_solid t Hp E) as (E1 & E2 & E3 & E4).
    unfold base_offset at 2, member_offset at 2. rewrite E1, E2, E3, E4.
    destruct reuse; apply IH.
Qed.

Lemma aligns_as_members ts k :
  Forall proper_lay ts -> 1 <= k ->
  fold_right Nat.max k (map lalign (map element_lay ts))
  = fold_right Nat.max k (map lalign (filter solid ts)).
Proof.
  intros H Hk; induction H as [|t ts Hp _ IH]; cbn; auto.
  unfold solid at 1. rewrite IH. destruct (lempty t) eqn:E; cbn.
  - destruct (element_light t E) as [_ E1]. rewrite E1.
    assert (k <= fold_right Nat.max k (map lalign (filter solid ts))).
    { clear. induction (map lalign (filter solid ts)); cbn; lia. }
    lia.
  - destruct (element_solid t Hp E) as (_ & _ & _ & E4). now rewrite E4.
Qed.

Lemma elements_class ts :
  Forall proper_lay ts -> like_struct (class_lay (map element_lay ts) []) (filter solid ts).
Proof.
  intros H. unfold like_struct, plain_struct, Layout.class_lay; cbn [ldsize lsize lalign].
  cbn [fold_left app]. rewrite app_nil_r.
  rewrite (bases_as_members ts 0 H), (aligns_as_members ts 1 H) by lia. auto.
Qed.

(** Moving the light bases to the front changes nothing. *)
Lemma sorted_elements ts :
  Forall proper_lay ts ->
  exists us, Forall proper_lay us /\ filter solid us = filter solid ts /\
    partition_t lempty (map element_lay ts) = map element_lay us.
Proof.
  intros H. exists (filter lempty ts ++ filter solid ts). repeat split.
  - apply Forall_app. split; apply Forall_forall; intros t Ht; apply filter_In in Ht;
      rewrite Forall_forall in H; now apply H.
  - rewrite filter_app.
    assert (E1 : filter solid (filter lempty ts) = []).
    { clear. induction ts as [|t ts IH]; cbn; auto. destruct (lempty t) eqn:E; cbn; auto.
      unfold solid at 1. now rewrite E. }
    rewrite E1. cbn. clear. induction ts as [|t ts IH]; cbn; auto.
    destruct (solid t) eqn:E; cbn; auto. now rewrite E, IH.
  - rewrite partition_t_filters, map_app. f_equal.
    + clear H. induction ts as [|t ts IH]; cbn; auto. rewrite element_empty.
      destruct (lempty t); cbn; now rewrite IH.
    + clear H. induction ts as [|t ts IH]; cbn; auto. rewrite element_empty.
      unfold solid at 1. destruct (lempty t); cbn; now rewrite IH.
Qed.

(** Wrapping a class into one that derives from it. *)
Definition rounded (l : lay) : Prop :=
  lsize l = align_up (Nat.max 1 (ldsize l)) (lalign l) /\
  (lempty l = true -> ldsize l = 0) /\ 1 <= lalign l.

Lemma empty_bases_offset bs : forallb lempty bs = true -> fold_left (base_offset reuse) bs 0 = 0.
Proof.
  generalize 0. induction bs as [|b bs IH]; intros n H; cbn in *; auto.
  apply andb_true_iff in H as [H1 H2]. unfold base_offset at 2. rewrite H1. now apply IH.
Qed.

Lemma class_rounded bs ms : rounded (class_lay bs ms).
Proof.
  unfold rounded, Layout.class_lay; cbn [lempty ldsize lalign lsize]. repeat split.
  - intros H. apply andb_true_iff in H as [H1 H2]. destruct ms; [|discriminate].
    cbn [fold_left]. now apply empty_bases_offset.
  - apply max_align_pos.
Qed.

Lemma derive l :
  rounded l ->
  lsize (class_lay [l] []) = lsize l /\ lalign (class_lay [l] []) = lalign l.
Proof.
  intros (Hs & He & Ha). unfold Layout.class_lay; cbn [lempty ldsize lalign lsize].
  cbn [fold_left app map fold_right]. rewrite (Nat.max_l _ 1) by auto. split; auto.
  unfold base_offset. destruct (lempty l).
  - now rewrite Hs, He.
  - rewrite align_up_0 by lia. cbn [Nat.add]. destruct reuse; auto.
    pose proof (align_up_ge (Nat.max 1 (ldsize l)) (lalign l) ltac:(lia)).
    rewrite Nat.max_r by lia. apply align_up_id; [lia|]. rewrite Hs. apply align_up_divide.
Qed.

Lemma overload_rounded fs : rounded (overload_lay fs).
Proof. unfold overload_lay, Layout.overload_lay. destruct sorts; apply class_rounded. Qed.

Lemma overload_elements ts :
  Forall proper_lay ts ->
  lsize (overload_lay (map element_lay ts)) = lsize (plain_struct reuse (filter solid ts)) /\
  lalign (overload_lay (map element_lay ts)) = lalign (plain_struct reuse (filter solid ts)).
Proof.
  intros H. unfold Layout.overload_lay. destruct sorts eqn:Es.
  - assert (E : Layout.element_lay reuse true = element_lay) by now rewrite Es.
    rewrite <- Es.
    destruct (sorted_elements ts H) as (us & Hu & Hf & ->).
    destruct (derive (class_lay (map element_lay us) []) (class_rounded _ _)) as [-> ->].
    destruct (elements_class us Hu) as (_ & -> & ->). now rewrite Hf.
  - rewrite <- Es. destruct (elements_class ts H) as (_ & -> & ->). auto.
Qed.

Lemma compressed_tuple_size ts :
  Forall proper_lay ts ->
  lsize (compressed_tuple_lay ts) = lsize (plain_struct reuse (filter solid ts)) /\
  lalign (compressed_tuple_lay ts) = lalign (plain_struct reuse (filter solid ts)).
Proof.
  intros H. unfold compressed_tuple_lay, Layout.compressed_tuple_lay, recursive_lay.
  destruct (derive _ (class_rounded [overload_lay (map element_lay ts)] [])) as [-> ->].
  destruct (derive _ (overload_rounded (map element_lay ts))) as [-> ->].
  now apply overload_elements.
Qed.

Lemma insert_empty ts us e :
  Forall proper_lay (ts ++ e :: us) -> lempty e = true ->
  lsize (compressed_tuple_lay (ts ++ e :: us)) = lsize (compressed_tuple_lay (ts ++ us)).
Proof.
  intros H He.
  assert (H' : Forall proper_lay (ts ++ us)).
  { apply Forall_app in H as [H1 H2]. inversion H2; subst. now apply Forall_app. }
  rewrite (proj1 (compressed_tuple_size _ H)), (proj1 (compressed_tuple_size _ H')).
  rewrite !filter_app. cbn [filter]. replace (solid e) with false; auto.
  unfold solid. now rewrite He.
Qed.

Lemma all_empty_size ts :
  Forall proper_lay ts -> forallb lempty ts = true -> lsize (compressed_tuple_lay ts) = 1.
Proof.
  intros H He. rewrite (proj1 (compressed_tuple_size _ H)).
  replace (filter solid ts) with (@nil lay); [reflexivity|].
  symmetry. clear H. induction ts as [|t ts IH]; cbn in *; auto.
  apply andb_true_iff in He as [H1 H2]. unfold solid at 1. rewrite H1. now apply IH.
Qed.

(** The size of a whole binder: its function and its tuple, as a struct. *)
Lemma bind_tuple_size f t :
  proper_lay f -> proper_lay t ->
  lsize (bind_tuple_lay f t) = lsize (plain_struct reuse (filter solid [f; t])).
Proof.
  intros Hf Ht. unfold bind_tuple_lay, Layout.bind_tuple_lay, recursive_lay.
  destruct (derive _ (overload_rounded [element_lay f; element_lay t; closure []])) as [-> _].
  assert (E : lsize (plain_struct reuse (filter solid [f; t; closure []]))
              = lsize (plain_struct reuse (filter solid [f; t]))) by reflexivity.
  assert (Hc : closure [] = element_lay (closure [])) by reflexivity.
  rewrite Hc at 1. rewrite <- E.
  apply (overload_elements [f; t; closure []]).
  apply Forall_cons; auto. apply Forall_cons; auto. apply Forall_cons; auto. apply class_proper.
Qed.

(** ** Wrappers *)

(** Interchangeable as members. *)
Definition same_lay (l m : lay) : Prop :=
  lempty l = lempty m /\ lsize l = lsize m /\ lalign l = lalign m.

Lemma struct_same ls ms :
  Forall2 same_lay ls ms ->
  same_lay (plain_struct reuse (filter solid ls)) (plain_struct reuse (filter solid ms)).
Proof.
  intros H.
  assert (H1 : forall off, fold_left member_offset (filter solid ls) off
                           = fold_left member_offset (filter solid ms) off).
  { induction H as [|l m ls ms (A1 & A2 & A3) _ IH]; intros off; cbn; auto.
    change (solid l) with (negb (lempty l)). change (solid m) with (negb (lempty m)).
    rewrite A1. destruct (lempty m); cbn; auto.
    assert (A : member_offset off l = member_offset off m) by (unfold member_offset; now rewrite A2, A3).
    now rewrite A. }
  assert (H2 : map lalign (filter solid ls) = map lalign (filter solid ms)).
  { clear H1. induction H as [|l m ls ms (A1 & A2 & A3) _ IH]; cbn; auto.
    change (solid l) with (negb (lempty l)). change (solid m) with (negb (lempty m)).
    rewrite A1. destruct (lempty m); cbn; auto. now rewrite A3, IH. }
  assert (H3 : match filter solid ls with [] => true | _ => false end
               = match filter solid ms with [] => true | _ => false end).
  { destruct (filter solid ls), (filter solid ms); auto; discriminate. }
  unfold same_lay, plain_struct, Layout.class_lay; cbn [lempty lsize lalign].
  cbn [fold_left app forallb]. now rewrite H1, H2, H3.
Qed.

Lemma same_refl l : same_lay l l.
Proof. now repeat split. Qed.

Lemma same_trans l m n : same_lay l m -> same_lay m n -> same_lay l n.
Proof. unfold same_lay. intuition congruence. Qed.

(** A struct of one member. *)
Lemma same_struct1 t : proper_lay t -> lempty t = false -> same_lay (plain_struct reuse [t]) t.
Proof. intros H He. destruct (struct1 t H) as (_ & A & S). repeat split; auto. Qed.

Lemma compressed_tuple_same ts :
  Forall proper_lay ts ->
  same_lay (compressed_tuple_lay ts) (plain_struct reuse (filter solid ts)).
Proof.
  intros H. destruct (compressed_tuple_size ts H) as [S A]. repeat split; auto.
  rewrite compressed_tuple_empty. cbn.
  clear. induction ts as [|t ts IH]; cbn; auto. unfold solid at 1.
  destruct (lempty t); cbn; auto.
Qed.

Lemma bind_tuple_same f t :
  proper_lay f -> proper_lay t ->
  same_lay (bind_tuple_lay f t) (plain_struct reuse (filter solid [f; t])).
Proof.
  intros Hf Ht. split; [|split].
  - rewrite bind_tuple_empty. cbn. unfold solid. destruct (lempty f), (lempty t); reflexivity.
  - now apply bind_tuple_size.
  - unfold bind_tuple_lay, Layout.bind_tuple_lay, recursive_lay.
    destruct (derive _ (overload_rounded [element_lay f; element_lay t; closure []])) as [_ ->].
    assert (E : lalign (plain_struct reuse (filter solid [f; t; closure []]))
                = lalign (plain_struct reuse (filter solid [f; t]))) by reflexivity.
    assert (Hc : closure [] = element_lay (closure [])) by reflexivity.
    rewrite Hc at 1. rewrite <- E.
    apply (overload_elements [f; t; closure []]).
    apply Forall_cons; auto. apply Forall_cons; auto. apply Forall_cons; auto. apply class_proper.
Qed.

(** [t] as stored: nothing if it is empty. *)
Definition as_stored (t : lay) : lay := if lempty t then closure [] else t.

Lemma one_tuple_same f :
  proper_lay f -> same_lay (compressed_tuple_lay [f]) (as_stored f).
Proof.
  intros H. eapply same_trans; [apply compressed_tuple_same; auto|].
  unfold as_stored. cbn. unfold solid. destruct (lempty f) eqn:E; cbn [negb].
  - apply same_refl.
  - now apply same_struct1.
Qed.

Lemma bind_one_same f :
  proper_lay f -> same_lay (bind_tuple_lay (closure []) (compressed_tuple_lay [f])) (as_stored f).
Proof.
  intros H. eapply same_trans.
  { apply bind_tuple_same; apply class_proper. }
  eapply same_trans.
  { apply (struct_same _ [closure []; as_stored f]).
    repeat apply Forall2_cons; auto; [apply same_refl|now apply one_tuple_same]. }
  unfold as_stored. destruct (lempty f) eqn:E.
  - apply same_refl.
  - cbn. unfold solid. rewrite E. cbn [negb]. now apply same_struct1.
Qed.

Lemma void_adapter_same f :
  proper_lay f -> same_lay (void_adapter_lay reuse sorts f) (as_stored f).
Proof. apply bind_one_same. Qed.

Lemma unwrap_same f :
  proper_lay f -> lempty f = false -> same_lay (unwrap_lay reuse sorts f) f.
Proof.
  intros H He. unfold unwrap_lay, recursive_lay.
  set (b := Layout.bind_tuple_lay reuse sorts (Layout.closure reuse []) (Layout.compressed_tuple_lay reuse sorts [f])).
  assert (Hb : same_lay b f).
  { unfold b. pose proof (bind_one_same f H) as Hs. unfold as_stored in Hs. now rewrite He in Hs. }
  destruct Hb as (B1 & B2 & B3).
  assert (Hp : proper_lay b) by apply class_proper.
  assert (Ho : lsize (overload_lay [b; closure []]) = lsize b /\
               lalign (overload_lay [b; closure []]) = lalign b).
  { assert (Hr : rounded b) by apply class_rounded.
    assert (Hx : forall bs, bs = [b; closure []] \/ bs = [closure []; b] ->
              lsize (class_lay bs []) = lsize b /\ lalign (class_lay bs []) = lalign b).
    { intros bs Hbs. destruct (derive b Hr) as [D1 D2].
      assert (Ea : fold_right Nat.max 1 (map lalign (bs ++ [])) = lalign b).
      { destruct Hr as (_ & _ & Ha). destruct Hbs; subst bs; cbn [map fold_right app];
          change (lalign (closure [])) with 1; lia. }
      assert (Eo : fold_left (base_offset reuse) bs 0 = fold_left (base_offset reuse) [b] 0)
        by (destruct Hbs; subst bs; reflexivity).
      unfold Layout.class_lay in *. cbn [lsize lalign] in *. cbn [fold_left] in *.
      rewrite Ea, Eo. split; auto. cbn [map app fold_right] in D1, D2.
      cbn [fold_left]. rewrite <- D2 at 1. exact D1. }
    unfold Layout.overload_lay. destruct sorts eqn:Es.
    - rewrite partition_t_filters. cbn [filter]. rewrite B1, He.
      change (lempty (closure [])) with true. cbn [negb app].
      destruct (derive _ (class_rounded [closure []; b] [])) as [-> ->].
      apply Hx. now right.
    - apply Hx. now left. }
  destruct Ho as [O1 O2].
  destruct (derive _ (overload_rounded [b; closure []])) as [D1 D2].
  unfold same_lay. rewrite D1, D2, O1, O2. repeat split; auto.
  pose proof (overload_empty [b; closure []]) as Oe. cbn [forallb] in Oe.
  change (lempty (class_lay [overload_lay [b; closure []]] []))
    with (lempty (overload_lay [b; closure []]) && true && true).
  rewrite Oe, B1, He. reflexivity.
Qed.

(** A lazy function is as big as a struct of the cache and (unless all are
    empty) a struct of the wrapped function and the dependencies. *)
Lemma lazy_size cache f deps :
  proper_lay cache -> lempty cache = false -> proper_lay f -> Forall proper_lay deps ->
  lsize (lazy_lay reuse sorts cache f deps)
  = lsize (plain_struct reuse
             (cache :: (if forallb lempty (f :: deps) then []
                        else [plain_struct reuse (filter solid (f :: deps))]))).
Proof.
  intros Hc Hce Hf Hd. unfold lazy_lay.
  set (core := lazy_core_lay reuse sorts cache (void_adapter_lay reuse sorts f) deps).
  assert (Hpc : proper_lay core) by apply class_proper.
  assert (Hec : lempty core = false) by apply lazy_core_empty.
  assert (Hpu : proper_lay (unwrap_lay reuse sorts core)) by apply class_proper.
  destruct (void_adapter_same _ Hpu) as (_ & -> & _).
  unfold as_stored. rewrite unwrap_empty, Hec.
  destruct (unwrap_same core Hpc Hec) as (_ & -> & _).
  unfold core, lazy_core_lay.
  assert (Hca : same_lay (closure [cache]) cache) by now apply same_struct1.
  assert (Hva : same_lay (void_adapter_lay reuse sorts f) (as_stored f)) by now apply void_adapter_same.
  assert (Hct : same_lay (compressed_tuple_lay (void_adapter_lay reuse sorts f :: deps))
                         (plain_struct reuse (filter solid (f :: deps)))).
  { eapply same_trans.
    { apply compressed_tuple_same. constructor; [apply class_proper|auto]. }
    assert (Es : filter solid (as_stored f :: deps) = filter solid (f :: deps)).
    { cbn. unfold as_stored, solid. destruct (lempty f) eqn:E; cbn; [reflexivity|now rewrite E]. }
    rewrite <- Es. apply struct_same. constructor; auto.
    clear. induction deps; constructor; auto. apply same_refl. }
  rewrite bind_tuple_size by apply class_proper.
  destruct (struct_same [closure [cache]; compressed_tuple_lay (void_adapter_lay reuse sorts f :: deps)]
              [cache; plain_struct reuse (filter solid (f :: deps))]) as (_ & -> & _).
  { repeat apply Forall2_cons; auto. }
  f_equal. f_equal. destruct Hct as (E & _). rewrite compressed_tuple_empty in E.
  cbn [forallb] in *. rewrite void_adapter_empty in E.
  set (st := plain_struct reuse (filter solid (f :: deps))) in *.
  cbn [filter]. change (solid cache) with (negb (lempty cache)).
  change (solid st) with (negb (lempty st)). rewrite <- E, Hce. cbn [negb].
  now destruct (lempty f && forallb lempty deps).
Qed.

(** ** uncapture.h *)

Lemma uncaptured_chain_empty ts f :
  lempty (uncaptured_chain_lay reuse ts f) = forallb lempty ts && lempty f.
Proof.
  induction ts as [|t ts IH]; auto.
  cbn [uncaptured_chain_lay forallb]. unfold invocable_lay, Layout.class_lay; cbn [lempty forallb].
  rewrite IH. unfold uncaptured_lay.
  destruct (lempty t) eqn:E; cbn; now rewrite ?andb_true_r.
Qed.

Lemma uncaptured_chain_size ts f :
  proper_lay f -> lempty f = false -> ldsize f = lsize f -> forallb lempty ts = true ->
  lsize (uncaptured_chain_lay reuse ts f) = lsize f.
Proof.
  intros Hp He Hd Ht.
  assert (H : base_like (uncaptured_chain_lay reuse ts f) f); [|apply H].
  induction ts as [|t ts IH]; [now repeat split|].
  cbn in Ht. apply andb_true_iff in Ht as [H1 H2].
  cbn [uncaptured_chain_lay]. unfold invocable_lay.
  apply (one_solid_base [uncaptured_lay reuse t]); auto.
  unfold uncaptured_lay. rewrite H1. repeat constructor.
Qed.

Lemma bind_compressed_empty f ts :
  lempty (bind_tuple_lay f (compressed_tuple_lay ts)) = lempty f && forallb lempty ts.
Proof. now rewrite bind_tuple_empty, compressed_tuple_empty. Qed.

End A.

(** ** Examples: int (4, 4), char (1, 1), double (8, 8), an empty class *)

Definition ex_int := prim 4 4.
Definition ex_char := prim 1 1.
Definition ex_double := prim 8 8.
Definition ex_nothing := mkLay true 0 1 1.

Lemma ex_C36 reuse sorts :
  lempty (compressed_tuple_lay reuse sorts [ex_nothing; ex_nothing]) = true /\
  lempty (compressed_tuple_lay reuse sorts [ex_nothing; ex_int]) = false /\
  lempty (bind_tuple_lay reuse sorts ex_nothing (compressed_tuple_lay reuse sorts [ex_nothing])) = true /\
  lempty (bind_tuple_lay reuse sorts ex_int (compressed_tuple_lay reuse sorts [ex_nothing])) = false /\
  lempty (lazy_lay reuse sorts ex_int ex_nothing []) = false.
Proof. destruct reuse, sorts; now repeat split. Qed.

Lemma ex_C37 reuse sorts :
  Forall proper_lay [ex_char; ex_nothing; ex_double; ex_nothing; ex_int; ex_char] /\
  lsize (compressed_tuple_lay reuse sorts [ex_char; ex_nothing; ex_double; ex_nothing; ex_int; ex_char]) = 24 /\
  lsize (plain_struct reuse [ex_char; ex_double; ex_int; ex_char]) = 24 /\
  lsize (compressed_tuple_lay reuse sorts [ex_nothing]) = 1 /\
  lsize (compressed_tuple_lay reuse sorts []) = 1.
Proof.
  split.
  - repeat apply Forall_cons; auto; unfold proper_lay; cbn;
      (repeat split; try lia; try (exists 1; reflexivity)).
  - destruct reuse, sorts; now repeat split.
Qed.

(** A cache of an [int] (8 bytes), a captureless function and two dependencies. *)
Lemma ex_C50 reuse sorts :
  proper_lay (prim 8 4) /\ proper_lay ex_nothing /\ Forall proper_lay [ex_nothing; ex_double] /\
  lsize (lazy_lay reuse sorts (prim 8 4) ex_nothing [ex_nothing; ex_double]) = 16 /\
  lsize (lazy_lay reuse sorts (prim 8 4) ex_nothing []) = 8.
Proof.
  split; [|split; [|split]].
  - unfold proper_lay; cbn. repeat split; try lia. exists 2; reflexivity.
  - unfold proper_lay; cbn. repeat split; try lia. exists 1; reflexivity.
  - repeat apply Forall_cons; auto; unfold proper_lay; cbn;
      (repeat split; try lia; try (exists 1; reflexivity)).
  - destruct reuse, sorts; now split.
Qed.

Lemma ex_C51 reuse :
  lempty (uncaptured_chain_lay reuse [ex_nothing; ex_nothing] ex_nothing) = true /\
  lempty (uncaptured_chain_lay reuse [ex_nothing; ex_int] ex_nothing) = false /\
  proper_lay ex_double /\
  lsize (uncaptured_chain_lay reuse [ex_nothing; ex_nothing] ex_double) = 8.
Proof.
  split; [now destruct reuse|]. split; [now destruct reuse|].
  split; [|now destruct reuse].
  unfold proper_lay; cbn. repeat split; try lia. exists 1; reflexivity.
Qed.
