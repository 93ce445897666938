(** * bin/to_kana.rs and bin/to_romaji.rs *)
From Verif Require Import Base Std Convert Strings Traits.

(** [env::args()]: every argument, program name included, is checked to be UTF-8
    while iterating (also the ones that [skip] drops); panics otherwise. *)
Fixpoint args_utf8 (argv : list (list N)) : res (list str) :=
  match argv with
  | [] => Ok []
  | a :: r => s <- unwrap (decode a) ;; l <- args_utf8 r ;; Ok (s :: l)
  end.

(** [Vec<String>::join(" ")] *)
Fixpoint join_space (l : list str) : str :=
  match l with
  | [] => []
  | [a] => a
  | a :: r => a ++ [32] ++ join_space r
  end.

(** bin/to_kana.rs:6-17 and bin/to_romaji.rs:6-17, which differ only in the
    trait method called.  Input: argument vector (program name first) and the bytes
    on standard input; output: the bytes written to standard output.  A failing
    read (an I/O error) is not modelled. *)
Definition main_with (conv : str -> res str) (argv : list (list N)) (stdin : list N)
  : res (list N) :=
  args <- args_utf8 argv ;;
  let line := join_space (tl args) in
  if negb (is_empty line) then
    r <- conv line ;; Ok (encode r ++ [10])
  else
    buffer <- unwrap (decode stdin) ;;
    if negb (is_empty buffer) then r <- conv buffer ;; Ok (encode r) else Ok [].

(** bin/to_kana.rs:6-17 *)
Definition main_to_kana (E : std) := main_with (str_to_kana E).
(** bin/to_romaji.rs:6-17 *)
Definition main_to_romaji (E : std) := main_with (str_to_romaji E).
