(** Cases for C93. *)
From Coq Require Import List Bool Arith Lia.
From Verif Require Import Value TupleAlg TupleAlgProofs LazyModel LazySpec LazySpec2 LazyProofs LazyExamples DocModel DocSpec DocThms
  CompareModel CompareSpec CompareThms.
Import ListNotations.

(** A lazy function that depends on one plain function [n + 1] times; the plain function's value changes. *)
Section Many.
Variable n : nat.
Notation sp := (repeat (DFun (A:=nat) true) (S n)).
Definition many : list (op nat (nat * nat) nat bool) := [New 0 sp; Call 0; Env (set_first 1); Call 0].
Notation e0 := (EApp (A:=nat) 0 (repeat (EFun true) (S n))).
Notation t0 := (TApp (A:=nat) (W:=nat * nat) 0 None (repeat (TFun true None) (S n))).
Notation wa := (0, 0).
Notation wb := (1, 0).

Lemma eval_many w : sum_of (map (fun e => eval ex_pf ex_rd e w) (repeat (EFun true) n)) = n * fst w.
Proof. induction n as [|m IH]; [reflexivity|]. cbn [repeat map sum_of fold_right]. unfold sum_of in IH. rewrite IH. reflexivity. Qed.
Lemma eval_e0 w : eval ex_pf ex_rd e0 w = VAtom (S n * fst w).
Proof. cbn. pose proof (eval_many w) as E. unfold sum_of in E. rewrite E. reflexivity. Qed.
Lemma regular_e0 : regular ex_pf ex_rd e0.
Proof.
  apply regular_app. split.
  - destruct n; cbn; auto.
  - apply Forall_forall. intros e Hi. apply repeat_spec in Hi. subst e. exact I.
Qed.
Lemma never_null_e0 : never_null ex_pf ex_rd e0.
Proof.
  split.
  - intros w. reflexivity.
  - induction (S n) as [|m IH]; cbn [repeat]; [exact I|]. split; [intros w; reflexivity|exact IH].
Qed.
Lemma erase_t0 : erase t0 = e0.
Proof. cbn [erase]. f_equal. generalize (S n). intros m. induction m as [|m IH]; cbn; [reflexivity|]. now rewrite IH. Qed.
Lemma deps_many : deps_of [] sp = Some (repeat (ObjPlain true) (S n) : list (depobj nat nat bool)).
Proof. generalize (S n). intros m. induction m as [|m IH]; [reflexivity|]. cbn [repeat deps_of dep_of]. now rewrite IH. Qed.
Lemma wdeps_many : wdeps_of [] sp = Some (repeat (WFun true) (S n) : list (wz nat nat bool)).
Proof. generalize (S n). intros m. induction m as [|m IH]; [reflexivity|]. cbn [repeat wdeps_of wdep_of]. now rewrite IH. Qed.
Lemma rel_t0 : rel ex_user ex_pf ex_rd t0 (mk_lazy ex_user 0 (repeat (ObjPlain true) (S n))).
Proof.
  apply (rel_app ex_user ex_pf ex_rd 0 None (repeat (TFun true None) (S n))); [|discriminate].
  generalize (S n). intros m. induction m as [|m IH]; cbn [repeat map]; constructor; [|exact IH]. exact (rel_fun ex_user ex_pf ex_rd true None).
Qed.
Lemma wrel_t0 : wrel ex_pf ex_rd t0 (WNode 0 None None (repeat (WFun true) (S n))).
Proof.
  apply (wrel_app ex_pf ex_rd 0 None (repeat (TFun true None) (S n))); [|discriminate].
  generalize (S n). intros m. induction m as [|m IH]; cbn [repeat]; constructor; [|exact IH]. constructor.
Qed.
Lemma expected_many m : length (comparisons (flat_map (fun t => expected ex_pf ex_rd (veq Nat.eqb) t wb) (map (touch wa) (repeat (TFun true None) m))) : list (val nat * val nat)) = m.
Proof. induction m as [|m IH]; [reflexivity|]. cbn [repeat map flat_map]. rewrite comparisons_app, app_length, IH. reflexivity. Qed.

Lemma kcalls_many m : wcalls_with (kcall ex_user) (repeat (WFun true) m) wb =
  (Ok (repeat (VAtom 1) m), repeat (WFun true) m, wb, repeat (EvSample true) m).
Proof.
  induction m as [|m IH]; [reflexivity|]. cbn [repeat wcalls_with kcall].
  change ((fix calls (ds : list (wz nat nat bool)) (w : nat * nat) := _) (repeat (WFun true) m) wb) with (wcalls_with (kcall ex_user) (repeat (WFun true) m) wb).
  cbn. rewrite IH. reflexivity.
Qed.
Lemma no_comparisons_many m : comparisons (repeat (EvSample (A:=nat) (fid:=nat) true) m) = [].
Proof. induction m; auto. Qed.

Lemma wrel_many m : forall ls, Forall2 (wrel ex_pf ex_rd) (map (touch wa) (repeat (TFun (A:=nat) (fid:=nat) true None) m)) ls -> ls = repeat (WFun true) m.
Proof.
  induction m as [|m IH]; intros ls H; cbn [repeat map touch] in H; inversion H as [|? k ? ls' Hk Hls]; subst; [reflexivity|].
  inversion Hk; subst. cbn. f_equal. now apply IH.
Qed.
Lemma many_more : exists s outs ws outs' r lg lg',
  run ex_user many (mkState [] wa) = Some (s, outs ++ [(r, lg)]) /\ krun ex_user many [] wa = Some (ws, wb, outs' ++ [(r, lg')]) /\
  length (comparisons lg) = n + 2 /\ length (comparisons lg') = 1.
Proof.
  assert (Hr : regular ex_pf ex_rd (erase t0)) by (rewrite erase_t0; exact regular_e0).
  assert (Hn : never_null ex_pf ex_rd (erase t0)) by (rewrite erase_t0; exact never_null_e0).
  destruct (step_spec ex_user ex_pf ex_rd ex_pure ex_exact t0 _ wa rel_t0 Hr Hn) as (l' & E1 & Hl').
  destruct (wcall_spec ex_user ex_pf ex_rd ex_pure ex_exact t0 _ wa wrel_t0 Hr) as (k' & E2 & Hk').
  assert (Hr' : regular ex_pf ex_rd (erase (touch wa t0))) by (rewrite erase_touch; exact Hr).
  assert (Hn' : never_null ex_pf ex_rd (erase (touch wa t0))) by (rewrite erase_touch; exact Hn).
  destruct (step_spec ex_user ex_pf ex_rd ex_pure ex_exact _ _ wb Hl' Hr' Hn') as (l2 & E3 & _).
  destruct (wcall_spec ex_user ex_pf ex_rd ex_pure ex_exact _ _ wb Hk' Hr') as (k2 & E4 & _).
  rewrite kcall_erase in E2, E4. destruct (kcall ex_user _ wa) as [[[r1 k1] w1] lg1] eqn:K1. injection E2 as -> -> -> _.
  destruct (kcall ex_user k' wb) as [[[r3 k3] w3] lg3] eqn:K2. injection E4 as -> -> -> _.
  eexists _, [_; _; _], _, [_; _; _], _, _, _. split; [|split; [|split]].
  - unfold many. cbn [run exec vars world]. rewrite deps_many. cbn [run exec vars world app nth_error]. rewrite E1. cbn [vars world update nth_error].
    change (set_first 1 wa) with wb. rewrite E3. cbn [app]. rewrite !api_visible. reflexivity.
  - unfold many. cbn [krun kexec]. rewrite wdeps_many. cbn [app nth_error]. rewrite K1. cbn [update nth_error].
    change (set_first 1 wa) with wb. rewrite K2. cbn [app]. rewrite !api_visible. reflexivity.
  - change (comparisons (expected ex_pf ex_rd (veq (aeq ex_user)) (touch wa t0) wb)) with
      (comparisons (flat_map (fun t => expected ex_pf ex_rd (veq Nat.eqb) t wb) (map (touch wa) (repeat (TFun true None) (S n))) ++
         [EvCall 0 (map (fun t => eval ex_pf ex_rd (erase t) wb) (map (touch wa) (repeat (TFun true None) (S n)))); EvCmp (eval ex_pf ex_rd (erase (touch wa t0)) wa) (eval ex_pf ex_rd (erase (touch wa t0)) wb)])).
    rewrite comparisons_app, app_length, expected_many. cbn. lia.
  - cbn [touch] in Hk'. inversion Hk' as [| |f' last' ts' ls Hts Hsync]. subst f' last' ts'. rewrite <- H2 in K2. clear Hk' Hsync H2.
    assert (Els : ls = repeat (WFun true) (S n)).
    { apply (wrel_many (S n)). exact Hts. }
    subst ls. cbn [kcall] in K2. rewrite kcalls_many in K2. cbv zeta in K2.
    rewrite ctad_regular in K2 by (intros x Hx; destruct n; [injection Hx as <-; reflexivity|discriminate]).
    cbn [option_map is_some negb orb repeat map touch erase compare_args compare_elements args_differ] in K2.
    change (eval ex_pf ex_rd (EFun true) wa) with (VAtom 0) in K2. change (veq (aeq ex_user) (VAtom 0) (VAtom 1)) with false in K2.
    cbn [veq andb negb] in K2. change (aeq ex_user 0 1) with false in K2. cbn [andb negb] in K2. injection K2 as _ _ <-.
    rewrite app_comm_cons. change (EvSample true :: repeat (EvSample true) n) with (repeat (EvSample (A:=nat) (fid:=nat) true) (S n)).
    rewrite comparisons_app, no_comparisons_many. reflexivity.
Qed.
End Many.
