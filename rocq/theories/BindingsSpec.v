(** * Strings of JavaScript (C85) *)
From Verif Require Import Base.

Definition high (c : N) : Prop := 0xD800 <= c < 0xDC00.
Definition low (c : N) : Prop := 0xDC00 <= c < 0xE000.

(** The code units [x] are the characters [s]; a surrogate without its partner stands for U+FFFD. *)
Inductive js_text : list N -> str -> Prop :=
| JT_nil : js_text [] []
| JT_unit c x s : c < 0x10000 -> ~ high c -> ~ low c -> js_text x s -> js_text (c :: x) (c :: s)
| JT_pair h l c x s : high h -> low l -> 0xD800 * 0x400 + 0xDC00 + c = h * 0x400 + l + 0x10000 -> js_text x s ->
    js_text (h :: l :: x) (c :: s)
| JT_lone c x s : high c \/ low c -> (high c -> forall d x', x = d :: x' -> ~ low d) -> js_text x s ->
    js_text (c :: x) (0xFFFD :: s).
(** no such surrogate stands in [x] *)
Definition well_formed (x : list N) : Prop :=
  forall a c b, x = a ++ c :: b ->
    (high c -> exists d b', b = d :: b' /\ low d) /\ (low c -> exists a' d, a = a' ++ [d] /\ high d).
