(** * Texts that survive the way through the other script and back (C84, C86, C87) *)
From Verif Require Import Base KanaSpec ScriptSpec RomajiSpec JoinSpec FixedSpec.

(** The key [k] stands for [v] and [v] is romanised as [k].  [rv] and [rtv] are the romaji of ゔ
    and っゔ, which differ between libraries (C70). *)
Definition two_way (m : mode) (rv rtv : str) (k v : str) : Prop :=
  entry m k v /\ r_entry v k /\
  ((exists y, v = ch "ゔ" :: y) -> rv = u "vu") /\ ((exists y, v = ch "っ" :: ch "ゔ" :: y) -> rtv = u "vvu").

(** A text of such keys, and of characters that are left over by the conversion to kana and
    have no romaji reading.  ん is spelled n' in front of a vowel or y, and n otherwise. *)
Inductive survives (m : mode) (rv rtv : str) : str -> Prop :=
| SV_nil : survives m rv rtv []
| SV_left c p r : longest m p (c :: r) -> (forall k v, casing p k -> ~ entry m k v) -> ~ romanised c ->
    survives m rv rtv r -> survives m rv rtv (c :: r)
| SV_key k v r : two_way m rv rtv k v -> k <> u "n" -> survives m rv rtv r -> survives m rv rtv (k ++ r)
| SV_n r : m <> Ime -> (forall c r', r = c :: r' -> ~ n_follow c) -> survives m rv rtv r -> survives m rv rtv (u "n" ++ r)
| SV_n' k b y r : two_way m rv rtv k (b :: y) -> In b after_n -> survives m rv rtv r -> survives m rv rtv (u "n'" ++ k ++ r).

(** The kana [s] and the romaji [t] are read side by side in the same way. *)
Inductive spells (m : mode) (rv rtv : str) : str -> str -> Prop :=
| SP_nil : spells m rv rtv [] []
| SP_left c p s t : longest m p (c :: t) -> (forall k v, casing p k -> ~ entry m k v) -> ~ romanised c ->
    spells m rv rtv s t -> spells m rv rtv (c :: s) (c :: t)
| SP_key k v s t : two_way m rv rtv k v -> k <> u "n" -> spells m rv rtv s t -> spells m rv rtv (v ++ s) (k ++ t)
| SP_n s t : m <> Ime -> (forall c t', t = c :: t' -> ~ n_follow c) -> spells m rv rtv s t -> spells m rv rtv (u "ん" ++ s) (u "n" ++ t)
| SP_n' k b y s t : two_way m rv rtv k (b :: y) -> In b after_n -> spells m rv rtv s t ->
    spells m rv rtv (u "ん" ++ (b :: y) ++ s) (u "n'" ++ k ++ t).

(** The same with upper case letters, which stand for katakana (C87).  N' is read as ん and n' can't
    be followed by upper case. *)
Inductive spells_up (m : mode) (rv rtv : str) : str -> str -> Prop :=
| SU_nil : spells_up m rv rtv [] []
| SU_left c p s t : longest m p (c :: t) -> (forall k v, casing p k -> ~ entry m k v) -> ~ romanised c ->
    spells_up m rv rtv s t -> spells_up m rv rtv (c :: s) (c :: t)
| SU_key k v s t : two_way m rv rtv k v -> k <> u "n" -> spells_up m rv rtv s t -> spells_up m rv rtv (v ++ s) (k ++ t)
| SU_upper k v q w s t : two_way m rv rtv k v -> k <> u "n" -> (forall c, In c k -> lower_letter c) -> Forall2 uppers k q ->
    Forall2 katakana_for v w -> spells_up m rv rtv s t -> spells_up m rv rtv (w ++ s) (q ++ t)
| SU_n (b : bool) s t : m <> Ime -> (forall c t', t = c :: t' -> ~ n_follow c) -> spells_up m rv rtv s t ->
    spells_up m rv rtv ((if b then u "ン" else u "ん") ++ s) ((if b then u "N" else u "n") ++ t)
| SU_n' k b y s t : two_way m rv rtv k (b :: y) -> In b after_n -> spells_up m rv rtv s t ->
    spells_up m rv rtv (u "ん" ++ (b :: y) ++ s) (u "n'" ++ k ++ t).
