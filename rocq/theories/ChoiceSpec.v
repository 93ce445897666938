(** * What a choice among the five readings of ゔ determines (C70)

    The tree has ゔ five times at its root and five times after っ (C53); which of them the
    standard library's binary search hits is its choice. *)
From Verif Require Import Base KanaSpec ScriptSpec RomajiSpec.

(** the keys of the [r]-th reading: only the first one can be continued *)
Definition v_entries (r : nat) : list (str * str) := nth r [
  (u "ゔ", u "vu") :: yoon (u "ゔ", u "vyi vye vya vyu vyo");
  [(u "ゔ", u "va")]; [(u "ゔ", u "vi")]; [(u "ゔ", u "ve")]; [(u "ゔ", u "vo")]] [].
(** the vowel by which a mark lengthens ヴ *)
Definition v_vowel (o : str) (r : nat) : str := nth r [u "う"; u "あ"; u "い"; u "え"; o] [].

(** the dictionary with reading [r] of ゔ and reading [r'] after っ *)
Definition chosen_dict (r r' : nat) : list (str * str) :=
  filter (fun e => negb (existsb (N.eqb (ch "ゔ")) (fst e))) rdict ++ v_entries r ++ map sokuon (v_entries r').

(** longest-match substitution; [orig] is the original text as in [romanises] *)
Inductive substitutes (dict : list (str * str)) (up : bool) : str -> str -> str -> Prop :=
| SB_nil orig : substitutes dict up orig [] []
| SB_hit oseg orig seg s v out out' :
    In (seg, v) dict -> length oseg = length seg ->
    (forall c s' w, s = c :: s' -> ~ In (seg ++ [c], w) dict) ->
    r_output up oseg v out -> substitutes dict up orig s out' ->
    substitutes dict up (oseg ++ orig) (seg ++ s) (out ++ out')
| SB_copy d orig c s out :
    (forall v, ~ In ([c], v) dict) -> substitutes dict up orig s out ->
    substitutes dict up (d :: orig) (c :: s) (c :: out).

(** [hiragana_text] with one vowel for ヴ *)
Inductive chosen_text (r : nat) (o : str) : str -> str -> str -> Prop :=
| CT_nil a : chosen_text r o a [] []
| CT_cons a c s p t : hiragana_piece o a c p ->
    (c = long_mark -> lengthens a (ch "ヴ") -> p = v_vowel o r) ->
    chosen_text r o (a ++ [c]) s t -> chosen_text r o a (c :: s) (p ++ t).
