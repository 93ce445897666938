(** * Further conforming standard libraries, and the texts on which libraries differ
    (C30, C63, C69) *)
From Verif Require Import Base Std StdInstances ScriptSpec.

(** positions of [k] in [keys], which begins at position [i] *)
Fixpoint matches (i : nat) (keys : list char) (k : char) : list nat :=
  match keys with
  | [] => []
  | c :: keys' => (if c =? k then [i] else []) ++ matches (S i) keys' k
  end.
(** a search that finds the [n]-th match, or the last one *)
Definition pick (n : nat) (keys : list char) (k : char) : option nat :=
  let l := matches 0 keys k in nth_error l (Nat.min n (length l - 1)).
Definition std_pick (n : nat) : std := unicode14_std (pick n).

(** っ and ゔ in either script, with nothing in between (after ッ: but long marks) *)
Definition double_v (s : str) : Prop := exists a q m v b, s = a ++ q :: m ++ v :: b /\ In v (u "ゔヴ")
  /\ (q = ch "っ" /\ m = [] \/ q = ch "ッ" /\ Forall (eq long_mark) m).

(** a long mark that lengthens ヴ *)
Definition long_v (s : str) : Prop := exists a b, s = a ++ long_mark :: b /\ lengthens a (ch "ヴ").
