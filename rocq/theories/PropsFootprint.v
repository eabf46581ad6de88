(** The properties about the memory taken by lazy functions with their
    dependencies (C60) and by overloads (C61).  Statements only.

    [reuse] and [sorts] select the ABI and the version of [overload]; [int] is the
    layout of the type [int]. *)
From Coq Require Import List Bool Arith.
From Verif Require Import Layout LayoutProofs Footprint.
Import ListNotations.

(** C60 (1): exactly a struct of the cache and the parts; a plain function costs its
    cache, itself and an [int]. *)
Theorem C60_footprint :
  forall reuse sorts int cache f deps,
  proper_lay int -> lempty int = false -> proper_lay cache -> lempty cache = false ->
  proper_lay f -> Forall real_dep deps ->
  lsize (user_lazy_lay reuse sorts int cache f deps)
  = lsize (plain_struct reuse
             (cache :: (if forallb lempty (f :: map (dep_cost reuse int) deps) then []
                        else [plain_struct reuse
                                (filter (fun t => negb (lempty t))
                                        (f :: map (dep_cost reuse int) deps))]))).
Proof. exact footprint. Qed.
Print Assumptions C60_footprint.

(** The cache of a function that returns a [t] is a [t], a flag and padding; that of a
    function returning nothing is a byte. *)
Theorem C60_cache :
  forall reuse t, proper_lay t ->
  lsize (optional_lay reuse t) = lsize t + lalign t /\ lalign (optional_lay reuse t) = lalign t /\
  lempty (optional_lay reuse t) = false /\ proper_lay (optional_lay reuse t) /\
  lsize (optional_void_lay reuse) = 1 /\ lempty (optional_void_lay reuse) = false.
Proof. exact cache_size. Qed.
Print Assumptions C60_cache.

(** C60 (2): never less than the parts. *)
Theorem C60_at_least :
  forall reuse sorts int cache f deps,
  proper_lay int -> lempty int = false -> proper_lay cache -> lempty cache = false ->
  proper_lay f -> Forall real_dep deps ->
  sum (map bytes (cache :: f :: flat_map (dep_parts int) deps))
  <= lsize (user_lazy_lay reuse sorts int cache f deps).
Proof. exact footprint_at_least. Qed.
Print Assumptions C60_at_least.

(** C60 (3): the sum of the parts if all alignments are equal. *)
Theorem C60_sum :
  forall reuse sorts a int cache f deps,
  0 < a -> proper_lay int -> lempty int = false -> proper_lay cache -> lempty cache = false ->
  proper_lay f -> Forall real_dep deps ->
  Forall (fun t => lempty t = true \/ lalign t = a)
         (cache :: f :: flat_map (dep_parts int) deps) ->
  lsize (user_lazy_lay reuse sorts int cache f deps)
  = sum (map bytes (cache :: f :: flat_map (dep_parts int) deps)).
Proof. exact footprint_sum. Qed.
Print Assumptions C60_sum.

(** C60 (4): a plain function does not just cost its cache and itself, even if there
    is no padding. *)
Theorem C60_plain_function_refuted :
  exists reuse sorts int cache f gcache g,
    proper_lay int /\ lempty int = false /\ proper_lay cache /\ lempty cache = false /\
    proper_lay f /\ real_dep (DepPlain gcache g) /\
    (forall t, In t [int; cache; f; gcache; g] -> lempty t = true \/ lalign t = 4) /\
    lsize (user_lazy_lay reuse sorts int cache f [DepPlain gcache g])
    <> bytes cache + bytes f + (bytes gcache + bytes g).
Proof. exact plain_dep_costs_int. Qed.
Print Assumptions C60_plain_function_refuted.

Example C60_case :
  forall reuse,
  proper_lay ex_int /\ proper_lay (ex_opt reuse) /\ lempty (ex_opt reuse) = false /\
  proper_lay ex_nothing /\
  Forall real_dep [DepPlain (ex_opt reuse) ex_nothing; DepValue ex_int; DepLazy ex_nothing] /\
  Forall (fun t => lempty t = true \/ lalign t = 4)
    (ex_opt reuse :: ex_nothing ::
     flat_map (dep_parts ex_int) [DepPlain (ex_opt reuse) ex_nothing; DepValue ex_int; DepLazy ex_nothing]).
Proof. exact ex_C60. Qed.

Example C60_case_sizes :
  forall reuse sorts,
  let lz := user_lazy_lay reuse sorts ex_int in
  let opt := ex_opt reuse in
  lsize opt = 8 /\
  lsize (lz (optional_void_lay reuse) ex_nothing []) = 1 /\
  lsize (lz opt ex_nothing []) = 8 /\
  lsize (lz opt (closure reuse [ex_int]) []) = 12 /\
  lsize (lz opt (closure reuse [ex_ref]) []) = 16 /\
  lsize (lz opt ex_nothing [DepValue ex_int]) = 12 /\
  lsize (lz (optional_lay reuse ex_nothing) ex_nothing [DepValue ex_nothing]) = 2 /\
  lsize (lz opt ex_nothing [DepPlain opt ex_nothing]) = 20 /\
  lsize (lz opt ex_nothing [DepPlain opt (closure reuse [ex_int])]) = 24 /\
  lsize (lz opt ex_nothing [DepPlain opt (closure reuse [ex_ref])]) = 32 /\
  lsize (lz opt ex_nothing [DepLazy (lz opt ex_nothing [])]) = 16.
Proof. exact ex_C60_sizes. Qed.

(** C61 (1): the non-empty functions in order, as bases. *)
Theorem C61_overload_size :
  forall reuse sorts fs, Forall (fun t => lempty t = true -> lalign t = 1) fs ->
  lsize (overload_lay reuse sorts fs)
  = lsize (class_lay reuse (filter (fun t => negb (lempty t)) fs) []) /\
  lalign (overload_lay reuse sorts fs)
  = lalign (class_lay reuse (filter (fun t => negb (lempty t)) fs) []).
Proof. exact overload_size. Qed.
Print Assumptions C61_overload_size.

(** C61 (2) *)
Theorem C61_empty :
  forall reuse sorts fs, lempty (overload_lay reuse sorts fs) = forallb lempty fs.
Proof. exact overload_empty. Qed.
Print Assumptions C61_empty.

Theorem C61_all_empty :
  forall reuse sorts fs, Forall (fun t => lempty t = true -> lalign t = 1) fs ->
  forallb lempty fs = true -> lsize (overload_lay reuse sorts fs) = 1.
Proof. exact overload_all_empty. Qed.
Print Assumptions C61_all_empty.

Theorem C61_empty_functions_free :
  forall reuse sorts fs gs e,
  Forall (fun t => lempty t = true -> lalign t = 1) (fs ++ e :: gs) -> lempty e = true ->
  lsize (overload_lay reuse sorts (fs ++ e :: gs)) = lsize (overload_lay reuse sorts (fs ++ gs)).
Proof. exact overload_empty_free. Qed.
Print Assumptions C61_empty_functions_free.

(** C61 (3) *)
Theorem C61_versions :
  forall reuse fs, Forall (fun t => lempty t = true -> lalign t = 1) fs ->
  lsize (overload_lay reuse true fs) = lsize (overload_lay reuse false fs) /\
  lalign (overload_lay reuse true fs) = lalign (overload_lay reuse false fs) /\
  lempty (overload_lay reuse true fs) = lempty (overload_lay reuse false fs).
Proof. exact overload_versions. Qed.
Print Assumptions C61_versions.

(** C61 (4) *)
Theorem C61_sum :
  forall reuse sorts a fs, 0 < a -> Forall proper_lay fs -> forallb lempty fs = false ->
  Forall (fun t => if lempty t then lalign t = 1 else lalign t = a /\ ldsize t = lsize t) fs ->
  lsize (overload_lay reuse sorts fs) = sum (map bytes fs).
Proof. exact overload_sum. Qed.
Print Assumptions C61_sum.

Theorem C61_sum_refuted :
  exists fs, Forall proper_lay fs /\ Forall (fun t => lempty t = true -> lalign t = 1) fs /\
    lsize (overload_lay true false fs) < sum (map bytes fs).
Proof. exact tail_padding_reused. Qed.
Print Assumptions C61_sum_refuted.

Example C61_case :
  forall reuse,
  let e := closure reuse [] in let x := closure reuse [ex_int] in
  Forall proper_lay [e; x; e; x] /\ forallb lempty [e; x; e; x] = false /\
  Forall (fun t => if lempty t then lalign t = 1 else lalign t = 4 /\ ldsize t = lsize t) [e; x; e; x].
Proof. exact ex_C61. Qed.

Example C61_case_sizes :
  forall reuse sorts,
  let e := closure reuse [] in let x := closure reuse [ex_int] in
  let c := closure reuse [ex_char] in
  lsize (overload_lay reuse sorts [e; e]) = 1 /\
  lsize (overload_lay reuse sorts [e; x]) = 4 /\
  lsize (overload_lay reuse sorts [c; e]) = 1 /\
  lsize (overload_lay reuse sorts [e; x; e; x]) = 8 /\
  lsize (overload_lay reuse sorts [x; e; x; e]) = 8.
Proof. exact ex_C61_sizes. Qed.
