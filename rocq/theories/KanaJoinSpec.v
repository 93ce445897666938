(** * Converting to kana in parts and token by token (C77, C78) *)
From Coq Require Import PeanoNat.
From Verif Require Import Base KanaSpec.

Definition x_letter (c : N) : Prop := c = 0x78 \/ c = 0x58.
Definition ends_in (P : N -> Prop) (x : str) : Prop := exists x' c, x = x' ++ [c] /\ P c.

(** The text ends with an n that begins a key: in IME mode, where nn is ん, the n left over when
    the run of n at the end is read in pairs; never the n of xn, which is ん too. *)
Definition open_n (m : mode) (x : str) : Prop :=
  match m with
  | Ime => exists x0 run, x = x0 ++ run /\ run <> [] /\ Forall n_letter run /\ ~ ends_in n_letter x0 /\
             ((ends_in x_letter x0 /\ Nat.Even (length run)) \/ (~ ends_in x_letter x0 /\ Nat.Odd (length run)))
  | _ => exists x0 c, x = x0 ++ [c] /\ n_letter c /\ ~ ends_in x_letter x0
  end.

(** Text [y] standing directly after [x] is read differently than on its own:
    - a key other than n and its extensions goes across the boundary;
    - [x] ends with an n that begins a key, and [y] goes on with it.  Outside of IME mode one of
      the characters which n waits for is enough, whether or not a key comes of it. *)
Definition joins (m : mode) (x y : str) : Prop :=
  (exists x1 b b' y' k v, x = x1 ++ b /\ y = b' ++ y' /\ b <> [] /\ b' <> [] /\
     (forall c, b = [c] -> ~ n_letter c) /\ casing (b ++ b') k /\ entry m k v)
  \/ (open_n m x /\ m <> Ime /\ exists d y', y = d :: y' /\ n_follow d)
  \/ (open_n m x /\ m = Ime /\ exists b' y' k v, y = b' ++ y' /\ casing b' k /\ entry Ime (ch "n" :: k) v).
