(** * The pretty form [{:#?}] of derived [Debug] implementations

    core::fmt::builders and the [Debug] implementations of [char], [str], [Option], tuples and
    [Vec], as of the releases that put a comma after the last entry (since Rust 1.37); nothing
    in this file models repository code. *)
From Verif Require Import Base.

(** [PadAdapter]: four spaces in front of every line of what is written through it *)
Fixpoint pad (on_newline : bool) (s : str) : str :=
  match s with
  | [] => []
  | c :: r => (if on_newline then u "    " else []) ++ c :: pad (c =? 10) r
  end.
(** an entry of a list, tuple or struct: its own adapter, a comma and a newline *)
Definition entry_line (s : str) : str := pad true (s ++ [0x2C; 10]).

(** [DebugList], [DebugTuple], [DebugStruct] *)
Definition debug_list (items : list str) : str :=
  match items with
  | [] => u "[]"
  | _ => u "[" ++ [10] ++ flat_map entry_line items ++ u "]"
  end.
Definition debug_tuple (name : str) (items : list str) : str :=
  match items with
  | [] => name
  | _ => name ++ u "(" ++ [10] ++ flat_map entry_line items ++ u ")"
  end.
Definition debug_struct (name : str) (fields : list (str * str)) : str :=
  match fields with
  | [] => name
  | _ => name ++ u " {" ++ [10] ++ flat_map (fun f => entry_line (fst f ++ u ": " ++ snd f)) fields ++ u "}"
  end.

(** [char::escape_debug_ext].  Which characters are written as [\u{..}] depends on the Unicode
    version: [hidden] is true of those that extend a grapheme or are not printable. *)
Definition hex_digit (d : N) : char := if d <? 10 then 0x30 + d else 0x57 + d.
Fixpoint hex_digits (fuel : nat) (n : N) : str :=
  match fuel with
  | O => [hex_digit n]
  | S f => if n <? 16 then [hex_digit n] else hex_digits f (n / 16) ++ [hex_digit (n mod 16)]
  end.
(** six digits are enough for every [char] *)
Definition hex (n : N) : str := hex_digits 6 n.
Definition escape (hidden : char -> bool) (quote c : char) : str :=
  if c =? 0 then u "\0"
  else if c =? 9 then u "\t"
  else if c =? 13 then u "\r"
  else if c =? 10 then u "\n"
  else if (c =? 0x5C) || (c =? quote) then [0x5C; c]
  else if hidden c then u "\u{" ++ hex c ++ u "}"
  else [c].
(** char escapes the single quote only, str the double quote only *)
Definition debug_char (hidden : char -> bool) (c : char) : str := [0x27] ++ escape hidden 0x27 c ++ [0x27].
Definition debug_str (hidden : char -> bool) (s : str) : str := [0x22] ++ flat_map (escape hidden 0x22) s ++ [0x22].
Definition debug_option (o : option str) : str :=
  match o with Some s => debug_tuple (u "Some") [s] | None => u "None" end.
