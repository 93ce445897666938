(** * Proofs of the theorems of Props_Hash.v *)
From Coq Require Import Permutation.
From Verif Require Import Tac Base Std Convert HashMap HashMapSpec HashMapProofs FnvProofs.



Lemma C99_macro_proof :
  forall (K V : Type) (H : hash_map K V), lawful H -> (forall a b : K, a = b \/ a <> b) ->
  forall pairs,
    (forall k v, get H (hashmap H pairs) k = Some v <-> last_pair pairs k v) /\
    (forall k, get H (hashmap H pairs) k = None <-> forall v, ~ In (k, v) pairs) /\
    (forall ks, NoDup ks -> (forall k, In k ks -> get H (hashmap H pairs) k <> None) -> (length ks <= count pairs)%nat) /\
    (forall pairs', NoDup (map fst pairs) -> Permutation pairs pairs' ->
       forall k, get H (hashmap H pairs) k = get H (hashmap H pairs') k).
Proof.
  intros K V H L D pairs. split; [|split; [|split]].
  - intros k v. now apply macro_get.
  - intro k. now apply macro_get.
  - intros ks. now apply macro_room.
  - intros pairs'. now apply macro_order.
Qed.

Lemma C99_long_vowels_proof :
  forall H, lawful H ->
    (forall c, get H (LONG_VOWELS_map H) c = LONG_VOWELS c) /\
    (forall c v, get H (LONG_VOWELS_map H) c = Some v <->
       In (c, v) [(0x61, 0x3042); (0x69, 0x3044); (0x75, 0x3046); (0x65, 0x3048); (0x6f, 0x3046)]).
Proof.
  intros H L. split; [now apply long_vowels_map|]. intros c v.
  rewrite (proj1 (macro_get H L N_cases long_vowel_pairs c) v), last_distinct by exact distinct_vowels. reflexivity.
Qed.

Lemma C99_table_proof :
  forall (V : Type) (hash : char -> N), lawful (buckets (V := V) hash).
Proof.
  intros V hash. apply buckets_lawful.
Qed.

Lemma C99_fnv_proof :
  forall c d, is_scalar c = true -> is_scalar d = true -> fnv c = fnv d -> c = d.
Proof.
  intros c d C D. apply fnv_inj; apply scalar_24; assumption.
Qed.
