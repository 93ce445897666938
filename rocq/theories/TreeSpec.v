(** * Nodes of the conversion trees (C52, C53) *)
From Coq Require Import Sorted.
From Verif Require Import Base Trees KanaTree RomajiTree.

(** the transitions of a romaji node; no vector means none *)
Definition r_edges (n : rnode) : list (char * rnode) :=
  match rtrans n with Some t => t | None => [] end.

(** [n] is the tree [t] or a node below it *)
Inductive k_inside (t : knode) : knode -> Prop :=
| k_self : k_inside t t
| k_below n c m : k_inside t n -> In (c, m) (ktrans n) -> k_inside t m.
Inductive r_inside (t : rnode) : rnode -> Prop :=
| r_self : r_inside t t
| r_below n c m : r_inside t n -> In (c, m) (r_edges n) -> r_inside t m.

(** in ascending order, and no key twice *)
Definition ascending (l : list N) : Prop := StronglySorted N.lt l.
(** in ascending order, a key may occur repeatedly *)
Definition weakly_ascending (l : list N) : Prop := StronglySorted N.le l.
