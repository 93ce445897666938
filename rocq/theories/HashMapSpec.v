(** * What a list of pairs says about a key (C99) *)
From Verif Require Import Base.

(** the last pair with the key [k] has the value [v] *)
Definition last_pair {K V : Type} (pairs : list (K * V)) (k : K) (v : V) : Prop :=
  exists a b, pairs = a ++ (k, v) :: b /\ forall w, ~ In (k, w) b.
