(** * Tables with fewer entries (C101) *)
From Verif Require Import Base Std Trees KanaTree RomajiTree RomajiSpec.

(** the tree without the entry for the key [k]: its node has no kana any more *)
Fixpoint without (k : str) (t : knode) : knode :=
  match k with
  | [] => KNode (ktrans t) None
  | c :: k' => KNode (map (fun q => if fst q =? c then (fst q, without k' (snd q)) else q) (ktrans t)) (kout t)
  end.
(** the tree without the node at [k] and what is below it *)
Fixpoint cut (k : str) (n : rnode) : rnode :=
  match k with
  | [] => n
  | [c] => RNode (option_map (filter (fun q => negb (fst q =? c))) (rtrans n)) (rout n)
  | c :: k' => RNode (option_map (map (fun q => if fst q =? c then (fst q, cut k' (snd q)) else q)) (rtrans n)) (rout n)
  end.
(** the romaji tree without the entries that begin with っ and one of [l] and, if [w], without ヷ *)
Definition prune (l : list char) (n : rnode) : rnode :=
  RNode (option_map (filter (fun q => negb (existsb (N.eqb (fst q)) l))) (rtrans n)) (rout n).
Definition thin (w : bool) (l : list char) : rnode :=
  RNode (option_map (fun ts => map (fun q => if fst q =? ch "っ" then (fst q, prune l (snd q)) else q)
                                 (if w then filter (fun q => negb (fst q =? ch "ヷ")) ts else ts)) (rtrans TO_ROMAJI_NODE_TREE))
    (rout TO_ROMAJI_NODE_TREE).
(** what can stand after っ without being doubled: symbols and, as long as nothing is upper-cased, small and
    plain vowels, the rows な and や *)
Definition undoubled_symbols : str := u "　、。「」『』〜・ー！（）：？［］｛｝".
Definition undoubled_kana : str := u "ぁあぃいぅうぇえぉおなにぬねのゃやゅゆょよ".
(** っ does nothing before [d], so the entries that begin with っ[d] are not needed *)
Definition superfluous (up : bool) (d : char) : Prop :=
  In d undoubled_symbols \/ (up = false /\ In d undoubled_kana).
(** the entries that no text needs *)
Definition dead (up : bool) (k : str) : Prop := k = u "ヷ" \/ exists d, k = [ch "っ"; d] /\ superfluous up d.
Definition no_v (s : str) : Prop := ~ In (ch "ゔ") s /\ ~ In (ch "ヴ") s.
Definition drops (up : bool) (l : list char) : Prop := forall d, In d l -> is_key [ch "っ"; d] -> superfluous up d.
