(** * C99: the map built by [hashmap!] *)
From Coq Require Import Permutation.
From Verif Require Import Base Std Convert HashMap HashMapSpec HashMapProofs Results_Hash.

(** C99.  A map written with [hashmap!] has for every key the value of the last pair with this key and no
    value for any other key, whatever hash map stands behind it; no more keys than the capacity it
    reserves; and the order of pairs with different keys does not matter. *)
Theorem C99_macro :
  forall (K V : Type) (H : hash_map K V), lawful H -> (forall a b : K, a = b \/ a <> b) ->
  forall pairs,
    (forall k v, get H (hashmap H pairs) k = Some v <-> last_pair pairs k v) /\
    (forall k, get H (hashmap H pairs) k = None <-> forall v, ~ In (k, v) pairs) /\
    (forall ks, NoDup ks -> (forall k, In k ks -> get H (hashmap H pairs) k <> None) -> (length ks <= count pairs)%nat) /\
    (forall pairs', NoDup (map fst pairs) -> Permutation pairs pairs' ->
       forall k, get H (hashmap H pairs) k = get H (hashmap H pairs') k).
Proof. exact C99_macro_proof. Qed.
Print Assumptions C99_macro.

Example C99_macro_case :
  let m := hashmap (fnv_map char) [(ch "a", ch "あ"); (ch "b", ch "び"); (ch "a", ch "い"); (ch "漢", ch "k")] in
  lawful (fnv_map char)
  /\ map (get (fnv_map char) m) [ch "a"; ch "b"; ch "c"; ch "漢"] = [Some (ch "い"); Some (ch "び"); None; Some (ch "k")]
  /\ get (fnv_map char) (hashmap (fnv_map char) [(ch "a", ch "い"); (ch "b", ch "び"); (ch "a", ch "あ")]) (ch "a") = Some (ch "あ")
  /\ insert (fnv_map char) m (ch "b") (ch "ぶ") = (fst (insert (fnv_map char) m (ch "b") (ch "ぶ")), Some (ch "び")).
Proof. split; [apply buckets_lawful|]. repeat split; vm_compute; reflexivity. Qed.

(** C99.  The map [LONG_VOWELS] has the hiragana of the five vowels (う for o as well as for u) and nothing
    else, whatever hash map stands behind it: it is the function that the model of the conversion uses. *)
Theorem C99_long_vowels :
  forall H, lawful H ->
    (forall c, get H (LONG_VOWELS_map H) c = LONG_VOWELS c) /\
    (forall c v, get H (LONG_VOWELS_map H) c = Some v <->
       In (c, v) [(0x61, 0x3042); (0x69, 0x3044); (0x75, 0x3046); (0x65, 0x3048); (0x6f, 0x3046)]).
Proof. exact C99_long_vowels_proof. Qed.
Print Assumptions C99_long_vowels.

Example C99_long_vowels_case :
  map (get (fnv_map char) (LONG_VOWELS_map (fnv_map char))) (u "aiueony") =
    [Some (ch "あ"); Some (ch "い"); Some (ch "う"); Some (ch "え"); Some (ch "う"); None; None]
  /\ map fnv (u "a漢") = [0xac804b820e4fe984; 0x79869483c50a742e].
Proof. split; vm_compute; reflexivity. Qed.

(** C99.  A table of buckets is such a hash map with every hash function, also one under which all keys
    fall into the same bucket. *)
Theorem C99_table :
  forall (V : Type) (hash : char -> N), lawful (buckets (V := V) hash).
Proof. exact C99_table_proof. Qed.
Print Assumptions C99_table.

Example C99_table_case :
  let H := buckets (V := char) (fun _ => 7) in
  map (get H (LONG_VOWELS_map H)) (u "aiueony") =
    [Some (ch "あ"); Some (ch "い"); Some (ch "う"); Some (ch "え"); Some (ch "う"); None; None]
  /\ map (@length _) (let t := LONG_VOWELS_map H in fst t :: snd t) = [0; 5; 0; 0; 0; 0]%nat
  /\ map (@length _) (let t := LONG_VOWELS_map (fnv_map char) in fst t :: snd t) <> [0; 5; 0; 0; 0; 0]%nat.
Proof. split; [vm_compute; reflexivity|]. split; [vm_compute; reflexivity|vm_compute; discriminate]. Qed.

(** C99.  No two characters have the same hash under FNV-1a, the hash function of [FnvHashMap]: equal hashes, which make a
    table compare the keys, mean equal keys. *)
Theorem C99_fnv :
  forall c d, is_scalar c = true -> is_scalar d = true -> fnv c = fnv d -> c = d.
Proof. exact C99_fnv_proof. Qed.
Print Assumptions C99_fnv.

Example C99_fnv_case :
  map fnv [0x0; 0xff; 0xffff; 0x10000; 0x10ffff] = [0x4d25767f9dce13f5; 0x6961186491cc667a; 0x988ce9653d8437db; 0x4d22107f9dcb30cc; 0x98c349653db26a6b].
Proof. vm_compute. reflexivity. Qed.
