(** The properties about sizes (C36, C37, C50, C51).  Statements only: each is
    closed by a lemma proved elsewhere.  After each theorem an example shows
    concrete cases.

    [reuse] and [sorts] select the ABI and the version of [overload]. *)
From Coq Require Import List Bool Arith.
From Verif Require Import Layout LayoutProofs.
Import ListNotations.

(** C36 *)
Theorem C36_compressed_tuple_empty :
  forall reuse sorts ts, lempty (compressed_tuple_lay reuse sorts ts) = forallb lempty ts.
Proof. exact compressed_tuple_empty. Qed.
Print Assumptions C36_compressed_tuple_empty.

Theorem C36_bind_tuple_empty :
  forall reuse sorts f ts,
  lempty (bind_tuple_lay reuse sorts f (compressed_tuple_lay reuse sorts ts))
  = lempty f && forallb lempty ts.
Proof. exact bind_compressed_empty. Qed.
Print Assumptions C36_bind_tuple_empty.

Theorem C36_lazy_never_empty :
  forall reuse sorts cache f deps, lempty (lazy_lay reuse sorts cache f deps) = false.
Proof. exact lazy_empty. Qed.
Print Assumptions C36_lazy_never_empty.

Example C36_case :
  forall reuse sorts,
  lempty (compressed_tuple_lay reuse sorts [ex_nothing; ex_nothing]) = true /\
  lempty (compressed_tuple_lay reuse sorts [ex_nothing; ex_int]) = false /\
  lempty (bind_tuple_lay reuse sorts ex_nothing (compressed_tuple_lay reuse sorts [ex_nothing])) = true /\
  lempty (bind_tuple_lay reuse sorts ex_int (compressed_tuple_lay reuse sorts [ex_nothing])) = false /\
  lempty (lazy_lay reuse sorts ex_int ex_nothing []) = false.
Proof. exact ex_C36. Qed.

(** C37: size and alignment are those of a plain struct of the non-empty
    elements; 1 if there are none; empty elements never matter. *)
Theorem C37_compressed_tuple_size :
  forall reuse sorts ts, Forall proper_lay ts ->
  lsize (compressed_tuple_lay reuse sorts ts)
  = lsize (plain_struct reuse (filter (fun t => negb (lempty t)) ts)) /\
  lalign (compressed_tuple_lay reuse sorts ts)
  = lalign (plain_struct reuse (filter (fun t => negb (lempty t)) ts)).
Proof. exact compressed_tuple_size. Qed.
Print Assumptions C37_compressed_tuple_size.

Theorem C37_all_empty :
  forall reuse sorts ts, Forall proper_lay ts -> forallb lempty ts = true ->
  lsize (compressed_tuple_lay reuse sorts ts) = 1.
Proof. exact all_empty_size. Qed.
Print Assumptions C37_all_empty.

Theorem C37_empty_elements_free :
  forall reuse sorts ts us e, Forall proper_lay (ts ++ e :: us) -> lempty e = true ->
  lsize (compressed_tuple_lay reuse sorts (ts ++ e :: us))
  = lsize (compressed_tuple_lay reuse sorts (ts ++ us)).
Proof. exact insert_empty. Qed.
Print Assumptions C37_empty_elements_free.

Example C37_case :
  forall reuse sorts,
  Forall proper_lay [ex_char; ex_nothing; ex_double; ex_nothing; ex_int; ex_char] /\
  lsize (compressed_tuple_lay reuse sorts [ex_char; ex_nothing; ex_double; ex_nothing; ex_int; ex_char]) = 24 /\
  lsize (plain_struct reuse [ex_char; ex_double; ex_int; ex_char]) = 24 /\
  lsize (compressed_tuple_lay reuse sorts [ex_nothing]) = 1 /\
  lsize (compressed_tuple_lay reuse sorts []) = 1.
Proof. exact ex_C37. Qed.

(** C50 *)
Theorem C50_lazy_size :
  forall reuse sorts cache f deps,
  proper_lay cache -> lempty cache = false -> proper_lay f -> Forall proper_lay deps ->
  lsize (lazy_lay reuse sorts cache f deps)
  = lsize (plain_struct reuse
             (cache :: (if forallb lempty (f :: deps) then []
                        else [plain_struct reuse (filter (fun t => negb (lempty t)) (f :: deps))]))).
Proof. exact lazy_size. Qed.
Print Assumptions C50_lazy_size.

Example C50_case :
  forall reuse sorts,
  proper_lay (prim 8 4) /\ proper_lay ex_nothing /\ Forall proper_lay [ex_nothing; ex_double] /\
  lsize (lazy_lay reuse sorts (prim 8 4) ex_nothing [ex_nothing; ex_double]) = 16 /\
  lsize (lazy_lay reuse sorts (prim 8 4) ex_nothing []) = 8.
Proof. exact ex_C50. Qed.

(** C51 *)
Theorem C51_uncaptured_empty :
  forall reuse ts f,
  lempty (uncaptured_chain_lay reuse ts f) = forallb lempty ts && lempty f.
Proof. exact uncaptured_chain_empty. Qed.
Print Assumptions C51_uncaptured_empty.

Theorem C51_uncaptured_free :
  forall reuse ts f, proper_lay f -> lempty f = false -> ldsize f = lsize f -> forallb lempty ts = true ->
  lsize (uncaptured_chain_lay reuse ts f) = lsize f.
Proof. exact uncaptured_chain_size. Qed.
Print Assumptions C51_uncaptured_free.

Example C51_case :
  forall reuse,
  lempty (uncaptured_chain_lay reuse [ex_nothing; ex_nothing] ex_nothing) = true /\
  lempty (uncaptured_chain_lay reuse [ex_nothing; ex_int] ex_nothing) = false /\
  proper_lay ex_double /\
  lsize (uncaptured_chain_lay reuse [ex_nothing; ex_nothing] ex_double) = 8.
Proof. exact ex_C51. Qed.
