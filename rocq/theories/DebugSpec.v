(** * The text the table generators should print (C73)

    Written line by line with the depth as a number, without the adapters of core::fmt. *)
From Verif Require Import Base Trees.

(** [d] levels of four spaces *)
Fixpoint deep (d : nat) : str := match d with O => [] | S d' => u "    " ++ deep d' end.
Definition line (d : nat) (s : str) : str := deep d ++ s ++ [10].
(** a value that may take several lines, in an entry of a list or of a record *)
Definition item (d : nat) (s : str) : str := deep d ++ s ++ u "," ++ [10].

(** hexadecimal numerals *)
Definition hex_digit_is (c : char) (v : N) : Prop :=
  (ch "0" <= c <= ch "9" /\ v = c - ch "0") \/ (ch "a" <= c <= ch "f" /\ v = c - ch "a" + 10).
Inductive hex_value : str -> N -> Prop :=
| hex_one c v : hex_digit_is c v -> hex_value [c] v
| hex_more s n c v : hex_value s n -> n <> 0 -> hex_digit_is c v -> hex_value (s ++ [c]) (16 * n + v).

(** How a character is written between the quotes [q].  [hidden] says which characters are
    written as numbers. *)
Inductive writes (hidden : char -> bool) (q : char) : char -> str -> Prop :=
| writes_short c x : In (c, x) [(0, ch "0"); (9, ch "t"); (10, ch "n"); (13, ch "r"); (ch "\", ch "\"); (q, q)] ->
    writes hidden q c (u "\" ++ [x])
| writes_number c ds : ~ In c [0; 9; 10; 13; ch "\"; q] -> hidden c = true -> hex_value ds c ->
    writes hidden q c (u "\u{" ++ ds ++ u "}")
| writes_itself c : ~ In c [0; 9; 10; 13; ch "\"; q] -> hidden c = false -> writes hidden q c [c].

Section Text.
  (** how the characters are written, depending on the quotes *)
  Variable w : char -> char -> str.

  Definition char_text (c : char) : str := u "'" ++ w (ch "'") c ++ u "'".
  Definition quote : char := 0x22.
  Definition str_text (s : str) : str := [quote] ++ flat_map (w quote) s ++ [quote].

  (** Some(..) over three lines *)
  Definition some_text (d : nat) (s : str) : str := line 0 (u "Some(") ++ item (S d) s ++ deep d ++ u ")".

  (** a list of pairs, given the texts of their second parts at depth [d + 2] *)
  Definition pairs_text (d : nat) (ts : list (char * str)) : str :=
    match ts with
    | [] => u "[]"
    | _ => line 0 (u "[") ++
           flat_map (fun t => line (S d) (u "(") ++
                              item (S (S d)) (char_text (fst t)) ++
                              item (S (S d)) (snd t) ++
                              line (S d) (u "),")) ts ++
           deep d ++ u "]"
    end.

  (** a node, given the texts of its fields at depth [d + 1] *)
  Definition node_text (d : nat) (transitions output : str) : str :=
    line 0 (u "Node {") ++
    item (S d) (u "transitions: " ++ transitions) ++
    item (S d) (u "output: " ++ output) ++
    deep d ++ u "}".

  Fixpoint knode_text (d : nat) (n : knode) : str :=
    match n with KNode ts o =>
      node_text d
        (pairs_text (S d) (map (fun t => match t with (c, m) => (c, knode_text (3 + d) m) end) ts))
        (match o with Some s => some_text (S d) (str_text s) | None => u "None" end)
    end.
  Fixpoint rnode_text (d : nat) (n : rnode) : str :=
    match n with RNode ts o =>
      node_text d
        (match ts with
         | Some l => some_text (S d) (pairs_text (2 + d) (map (fun t => match t with (c, m) => (c, rnode_text (4 + d) m) end) l))
         | None => u "None"
         end)
        (str_text o)
    end.

  (** the whole output *)
  Definition kana_text (ts : list (char * knode)) : str :=
    line 0 (pairs_text 0 (map (fun t => (fst t, knode_text 2 (snd t))) ts)).
  Definition romaji_text (ts : option (list (char * rnode))) : str :=
    line 0 (match ts with
            | Some l => some_text 0 (pairs_text 1 (map (fun t => (fst t, rnode_text 3 (snd t))) l))
            | None => u "None"
            end).
End Text.

(** texts for examples *)
Definition lines (l : list str) : str := flat_map (fun s => s ++ [10]) l.
