(** * Text in composed form (C108)

    In composed text (Unicode NFC) no kana is followed by a combining mark with which it could be written as one character. *)
From Verif Require Import Base NormSpec.

Definition composes (b v : N) : Prop := exists c, In (c, [b; v]) composed.
Definition in_composed_form (s : str) : Prop := forall a b v r, s = a ++ b :: v :: r -> ~ composes b v.
(** a combining mark *)
Definition combining (v : N) : Prop := v = voicing \/ v = semivoicing.
