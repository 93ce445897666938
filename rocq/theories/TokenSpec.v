(** * Specification of tokenisation (C40-C45) and okurigana trimming (C46-C49),
    independent of how the code groups characters *)
From Verif Require Import Base Tokenize Predicates.

(** [ty] assigns a type to every character. *)
Section Spec.
  Context {A K : Type} (ty : A -> K).

  (** all characters of [t] have the same type *)
  Definition homogeneous (t : list A) : Prop := forall x y, In x t -> In y t -> ty x = ty y.

  (** the last character of [a] and the first of [b] differ in type *)
  Definition boundary (a b : list A) : Prop :=
    forall a' x y b', a = a' ++ [x] -> b = y :: b' -> ty x <> ty y.

  (** every two neighbours are separated by a type change *)
  Definition separated (ts : list (list A)) : Prop :=
    forall pre a b post, ts = pre ++ a :: b :: post -> boundary a b.

  (** [ts] cuts [s] into maximal non-empty single-type runs *)
  Definition tokenisation (ts : list (list A)) (s : list A) : Prop :=
    concat ts = s /\ (forall t, In t ts -> t <> []) /\ (forall t, In t ts -> homogeneous t)
    /\ separated ts.
End Spec.

(** [coarse] is obtained from [fine] by joining consecutive blocks *)
Definition merges {A} (fine coarse : list (list A)) : Prop :=
  exists blocks : list (list (list A)), concat blocks = fine /\ map (@concat A) blocks = coarse.

(** [n] copies of [t] in a row *)
Definition copies {A} (n : nat) (t : list A) : list A := concat (repeat t n).
Definition prefix_of {A} (p s : list A) : Prop := exists r, s = p ++ r.
Definition suffix_of {A} (p s : list A) : Prop := exists r, s = r ++ p.

(** [r] is [s] without the copies of [t] at its end (at its start) *)
Definition trimmed_end {A} (t s r : list A) : Prop :=
  (exists n, s = r ++ copies n t) /\ ~ suffix_of t r.
Definition trimmed_start {A} (t s r : list A) : Prop :=
  (exists n, s = copies n t ++ r) /\ ~ prefix_of t r.

Definition S_kana (c : N) : Prop := S_hiragana c \/ S_katakana c.

(** when [trim_okurigana_with_opt] does anything at all *)
Definition ends_in_kana (s : list N) : Prop := exists r c, s = r ++ [c] /\ S_kana c.
Definition starts_with_kana (s : list N) : Prop := exists r c, s = c :: r /\ S_kana c.
Definition trim_active (s : list N) (from_start : bool) (matcher : option (list N)) : Prop :=
  all_nonempty S_japanese s
  /\ (if from_start then starts_with_kana s else ends_in_kana s)
  /\ match matcher with
     | None => exists c, In c s /\ ~ S_kana c
     | Some m => exists c, In c m /\ ~ S_kanji c
     end.

(** the two spaces are never next to each other *)
Definition no_space_clash (s : str) : Prop :=
  forall pre x y post, s = pre ++ x :: y :: post ->
    ~ (x = 0x20 /\ y = 0x3000) /\ ~ (x = 0x3000 /\ y = 0x20).

(** token types and character classes *)
Definition label_spec (k : token_type) (c : N) : Prop :=
  match k with
  | Space => c = 0x20 \/ c = 0x3000
  | JaNum => S_ja_number c
  | EnNum => between 0x30 0x39 c
  | EnPunc => S_en_punct c /\ c <> 0x20
  | JaPunc => S_ja_punct c /\ c <> 0x3000
  | Kanji => S_kanji c
  | Hiragana => between 0x3041 0x3096 c
  | Katakana => between 0x30A1 0x30FA c
  | En => S_romaji c /\ ~ between 0x30 0x39 c /\ ~ S_en_punct c
  | Ja => S_japanese c /\ ~ S_kanji c /\ ~ S_hiragana c /\ ~ S_katakana c /\ ~ S_ja_punct c
          /\ ~ S_ja_number c
  | Other => ~ S_japanese c /\ ~ S_romaji c /\ ~ S_en_punct c
  end.

(** the compact label in terms of character classes *)
Definition compact_spec (k : token_type) (c : N) : Prop :=
  match k with
  | En => c = 0x20 \/ (S_romaji c /\ ~ between 0x30 0x39 c /\ ~ S_en_punct c)
  | Ja => c = 0x3000 \/ (S_japanese c /\ ~ S_ja_number c /\ ~ S_ja_punct c)
  | Other => c <> 0x20 /\ c <> 0x3000 /\
      (S_ja_number c \/ between 0x30 0x39 c \/ S_en_punct c \/ S_ja_punct c
       \/ (~ S_japanese c /\ ~ S_romaji c))
  | _ => False
  end.

(** [ty] is the classification of characters described above *)
Definition labels (compact : bool) (ty : N -> token_type) : Prop :=
  forall c, if compact then compact_spec (ty c) c else label_spec (ty c) c.

(** [source]: the text whose outer token is removed *)
Definition source (s : str) (m : option str) : str := match m with Some m => m | None => s end.
(** [tok] is the last (first) token of [src] in the detailed tokenisation *)
Definition outer_token {K} (ty : N -> K) (src : str) (from_start : bool) (tok : str) : Prop :=
  exists ts, tokenisation ty (if from_start then tok :: ts else ts ++ [tok]) src.
Definition trimmed (from_start : bool) (tok s r : str) : Prop :=
  if from_start then trimmed_start tok s r else trimmed_end tok s r.

(** trimming [k] times in a row *)
Fixpoint trim_times (k : nat) (s : str) : res str :=
  match k with
  | O => Ok s
  | S k => r <- trim_okurigana s ;; trim_times k r
  end.
