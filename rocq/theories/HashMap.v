(** * The macro [hashmap!] and the map [LONG_VOWELS]: utils/hashmap_macro.rs, utils/katakana_to_hiragana.rs:33-41

    The hash map itself belongs to the standard library; it is taken by its documentation ([lawful]).  The table at the end,
    with the hash function of the crate fnv, is one that keeps it. *)
From Verif Require Import Base Std.

Record hash_map (K V : Type) := {
  table : Type;
  with_capacity : nat -> table;
  insert : table -> K -> V -> table * option V;
  get : table -> K -> option V
}.
Arguments table {K V}.
Arguments with_capacity {K V}.
Arguments insert {K V}.
Arguments get {K V}.
(** [HashMap::with_capacity_and_hasher], [insert] (returns the value the key had before) and [get] *)
Record lawful {K V : Type} (H : hash_map K V) : Prop := {
  get_new : forall n k, get H (with_capacity H n) k = None;
  get_same : forall t k v, get H (fst (insert H t k v)) k = Some v;
  get_other : forall t k v k', k <> k' -> get H (fst (insert H t k v)) k' = get H t k';
  insert_old : forall t k v, snd (insert H t k v) = get H t k
}.

Section Macro.
  Context {K V : Type} (H : hash_map K V).
  (** hashmap_macro.rs:3-4: [@single], [@count], the length of an array of units *)
  Definition count (pairs : list (K * V)) : nat := length (map (fun _ => tt) pairs).
  (** hashmap_macro.rs:7-15 (the rule of line 6 only drops the comma after the last pair) *)
  Definition hashmap (pairs : list (K * V)) : table H :=
    let cap := count pairs in
    fold_left (fun map p => fst (insert H map (fst p) (snd p))) pairs (with_capacity H cap).
End Macro.

(** katakana_to_hiragana.rs:34-40 *)
Definition long_vowel_pairs : list (char * char) :=
  [(ch "a", ch "あ"); (ch "i", ch "い"); (ch "u", ch "う"); (ch "e", ch "え"); (ch "o", ch "う")].
Definition LONG_VOWELS_map (H : hash_map char char) : table H := hashmap H long_vowel_pairs.

(** ** A table of buckets, with any hash function *)
Section Table.
  Context {V : Type} (hash : char -> N).
  (** one bucket and the others, so that there is always one *)
  Definition rows : Type := list (char * V) * list (list (char * V)).
  Definition bucket (t : rows) (k : char) : nat := N.to_nat (hash k mod N.of_nat (S (length (snd t)))).
  Fixpoint find (l : list (char * V)) (k : char) : option V :=
    match l with [] => None | (x, v) :: r => if x =? k then Some v else find r k end.
  Fixpoint replace (l : list (char * V)) (k : char) (v : V) : list (char * V) :=
    match l with [] => [(k, v)] | (x, w) :: r => if x =? k then (x, v) :: r else (x, w) :: replace r k v end.
  Fixpoint update (t : list (list (char * V))) (i : nat) (k : char) (v : V) : list (list (char * V)) :=
    match t, i with
    | [], _ => []
    | l :: r, O => replace l k v :: r
    | l :: r, S i' => l :: update r i' k v
    end.
  Definition put (t : rows) (k : char) (v : V) : rows :=
    match bucket t k with
    | O => (replace (fst t) k v, snd t)
    | S i => (fst t, update (snd t) i k v)
    end.
  Definition lookup (t : rows) (k : char) : option V := find (nth (bucket t k) (fst t :: snd t) []) k.
  Definition buckets : hash_map char V := {|
    table := rows;
    with_capacity := fun n => ([], repeat [] n);
    insert := fun t k v => (put t k v, lookup t k);
    get := lookup
  |}.
End Table.

(** FNV-1a of the four bytes of a character, the hash function of [FnvHashMap] (crate fnv 1.0, lib.rs) *)
Definition fnv_step (h b : N) : N := (N.lxor h b * 0x100000001b3) mod 2 ^ 64.
Definition fnv (c : char) : N :=
  fold_left fnv_step [c mod 256; (c / 256) mod 256; (c / 65536) mod 256; c / 16777216] 0xcbf29ce484222325.
Definition fnv_map (V : Type) : hash_map char V := buckets (V := V) fnv.
