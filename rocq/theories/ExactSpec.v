(** * Where the letter n is read on its own (C08, C13, C64) *)
From Verif Require Import Base KanaSpec.

Definition x_letter (c : N) : Prop := c = 0x78 \/ c = 0x58.

(** An n after [p] is not taken as the second letter of xn or, in IME mode, of nn: [p] does
    not end in x; in IME mode an even number of n comes before it, not counting that of xn. *)
Definition n_starts (m : mode) (p : str) : Prop :=
  match m with
  | Ime => exists q ns, p = q ++ ns /\ Forall n_letter ns /\ (exists j, length ns = 2 * j)%nat /\
      ((exists q' x n, q = q' ++ [x; n] /\ x_letter x /\ n_letter n)
       \/ (forall q' c, q = q' ++ [c] -> ~ x_letter c /\ ~ n_letter c))
  | _ => forall p' c, p = p' ++ [c] -> ~ x_letter c
  end.

(** N' (in IME mode also N and a space), read as n' is *)
Definition reads_n_mark (m : mode) (s : str) : Prop := exists p d b,
  s = p ++ ch "N" :: d :: b /\ (d = ch "'" \/ m = Ime /\ d = ch " ") /\ n_starts m p.

(** n and yya, yyi, yyu, yye or yyo, in any letter case *)
Definition reads_nyy (m : mode) (s : str) : Prop := exists p n seg v b,
  s = p ++ n :: seg ++ b /\ n_letter n /\ casing seg (u "yy" ++ [v]) /\ In v (u "aiueo") /\ n_starts m p.

(** the same in a text about to be lower-cased, where İ (U+0130) becomes i and a combining dot *)
Definition reads_nyy_lowered (m : mode) (s : str) : Prop := exists p n seg c b,
  s = p ++ n :: seg ++ c :: b /\ n_letter n /\ casing seg (u "yy") /\
  ((exists v, lowers c v /\ In v (u "aiueo")) \/ c = 0x130) /\ n_starts m p.
