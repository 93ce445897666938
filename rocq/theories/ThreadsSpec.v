(** * What calls give one after another in one thread (C107) *)
From Verif Require Import Base Std Strings Tokenize Convert Threads.

Definition text (r : res str) : res answer := match r with Ok s => Ok (Text s) | Panic => Panic | NoFuel => NoFuel end.
(** the functions of the model without threads *)
Definition answer_of (E : std) (c : call) : res answer :=
  match c with
  | ToKana s o => text (to_kana_with_opt E s o)
  | ToHiragana s o => text (to_hiragana_with_opt E s o)
  | ToKatakana s o => text (to_katakana_with_opt E s o)
  | ToRomaji s o => text (to_romaji_with_opt E s o)
  | IsJapanese s => Ok (Truth (is_japanese s))
  | IsRomaji s => Ok (Truth (is_romaji s))
  | IsMixed s k => Ok (Truth (is_mixed_pass_kanji s k))
  | Tokens s k => Ok (Parts (tokenize_with_opt s k))
  | Trim s f m => text (trim_okurigana_with_opt s f m)
  end.
(** the answers of a thread; it ends with the first call that panics *)
Fixpoint answers (E : std) (cs : list call) : res (list answer) :=
  match cs with
  | [] => Ok []
  | c :: cs' => match answer_of E c with
                | Ok a => match answers E cs' with Ok l => Ok (a :: l) | r => r end
                | Panic => Panic
                | NoFuel => NoFuel
                end
  end.
(** a finished thread *)
Definition done_with (st : state) (t : nat) (r : res (list answer)) : Prop :=
  exists th, nth_error (snd st) t = Some th /\ finished th r.
(** how often the initialiser of a static was started *)
Definition starts (i : static) (evs : list (option static)) : nat :=
  length (filter (fun ev => match ev with Some j => if static_eq_dec i j then true else false | None => false end) evs).
