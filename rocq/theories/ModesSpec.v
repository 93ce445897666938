(** * Where the modes of to_kana differ (C71) *)
From Verif Require Import Base KanaSpec ExactSpec.

(** an n that is read on its own and is not followed by an apostrophe, a vowel or y *)
Definition n_alone (s : str) : Prop := exists p n b,
  s = p ++ n :: b /\ n_letter n /\ n_starts Default p /\ (forall c b', b = c :: b' -> ~ n_follow c).

(** wi or we, in any letter case, that is not the end of dwi, fwi, gwi, qwi, swi, twi, wwi and
    the like *)
Definition wi_we_alone (s : str) : Prop := exists p w x b,
  s = p ++ w :: x :: b /\ (w = 0x77 \/ w = 0x57) /\ (x = 0x69 \/ x = 0x49 \/ x = 0x65 \/ x = 0x45) /\
  (forall p' c d, p = p' ++ [c] -> lowers c d -> ~ In d (u "dfgqstw")).
