(** * utils/get_chunk.rs, on UTF-8 bytes *)
From Verif Require Import Base.

(** [str::char_indices]: byte offset of every character. *)
Fixpoint char_indices_from (off : nat) (s : str) : list (nat * char) :=
  match s with
  | [] => []
  | c :: s' => (off, c) :: char_indices_from (off + len_utf8 c) s'
  end.
Definition char_indices (s : str) : list (nat * char) := char_indices_from 0 s.

(** [str::is_char_boundary] on the bytes: 0, the length, or a non-continuation byte. *)
Definition is_char_boundary (b : list N) (i : nat) : bool :=
  Nat.eqb i 0 || Nat.eqb i (length b)
  || match nth_error b i with Some x => negb (is_cont x) | None => false end.

(** [&text[a..b]] on a [str]: panics when out of order, out of bounds or inside a
    character. *)
Definition str_slice (text : list N) (a b : nat) : res (list N) :=
  if Nat.leb a b && Nat.leb b (length text) && is_char_boundary text a && is_char_boundary text b
  then Ok (firstn (b - a) (skipn a text)) else Panic.

(** utils/get_chunk.rs:2-10.  The result is the byte content of the returned [&str]. *)
Definition get_chunk (text : str) (start stop : nat) : res (list N) :=
  let start := match option_map fst (nth_error (char_indices text) start) with
               | Some o => o | None => 0%nat end in
  let stop := match option_map fst (nth_error (char_indices text) stop) with
              | Some o => o | None => length (encode text) end in
  str_slice (encode text) start stop.
