(** * The bindings for JavaScript: wana_kana_wasm/src/lib.rs and nodejs-bindings/native/src/lib.rs *)
From Verif Require Import Base Std Convert.

(** A JavaScript string is a list of UTF-16 code units.  The glue code of wasm-bindgen takes its
    scalar values (a surrogate without its partner counts as U+FFFD), writes them to the memory of the library as UTF-8
    ([TextEncoder]), and reads the result back from there ([TextDecoder], not skipping a byte order mark). *)
Definition is_high (c : N) : bool := (0xD800 <=? c) && (c <=? 0xDBFF).
Definition is_low (c : N) : bool := (0xDC00 <=? c) && (c <=? 0xDFFF).
Fixpoint from_utf16 (s : list N) : str :=
  match s with
  | [] => []
  | c :: t =>
    if is_high c then
      match t with
      | d :: t' => if is_low d then (0x10000 + (c - 0xD800) * 0x400 + (d - 0xDC00)) :: from_utf16 t' else 0xFFFD :: from_utf16 t
      | [] => [0xFFFD]
      end
    else if is_low c then 0xFFFD :: from_utf16 t
    else c :: from_utf16 t
  end.
Definition units (c : char) : list N :=
  if c <? 0x10000 then [c] else [0xD800 + (c - 0x10000) / 0x400; 0xDC00 + (c - 0x10000) mod 0x400].
Definition to_utf16 (s : str) : list N := flat_map units s.

(** A string handed over as its UTF-8 bytes; bytes that are not UTF-8 would be undefined behaviour, here a panic *)
Definition through_memory (s : str) : res str := unwrap (decode (encode s)).

(** ** wana_kana_wasm *)
(** lib.rs:9-12; [checks]: compiled with overflow checks *)
Definition wasm_add (checks : bool) (a b : N) : res N :=
  if a + b <? 2 ^ 32 then Ok (a + b) else if checks then Panic else Ok ((a + b) mod 2 ^ 32).
Definition wasm_call (f : str -> res str) (input : list N) : res (list N) :=
  arg <- through_memory (from_utf16 input) ;;
  r <- f arg ;;
  ret <- through_memory r ;;
  Ok (to_utf16 ret).
(** lib.rs:14-17 *)
Definition wasm_to_romaji (E : std) := wasm_call (to_romaji E).
(** lib.rs:19-22 *)
Definition wasm_to_kana (E : std) := wasm_call (to_kana E).
(** lib.rs:24-27 *)
Definition wasm_to_hiragana (E : std) := wasm_call (to_hiragana E).
(** lib.rs:29-32 *)
Definition wasm_to_katakana (E : std) := wasm_call (to_katakana E).

(** ** nodejs-bindings *)
Inductive js_value := JsString (s : list N) | JsOther.
Inductive outcome := Returns (s : list N) | Throws.
(** [cx.argument::<JsString>(0)?.value()]: throws if there is no argument or it is no string.
    [value] gives the characters of a string; what it does to a surrogate without its partner
    is left open.  The result is handed over as UTF-8. *)
Definition node_call (value : list N -> str) (f : str -> res str) (args : list js_value) : res outcome :=
  match args with
  | JsString s :: _ => arg <- through_memory (value s) ;; r <- f arg ;; ret <- through_memory r ;; Ok (Returns (to_utf16 ret))
  | _ => Ok Throws
  end.
(** lib.rs:13-16 *)
Definition node_to_romaji (value : list N -> str) (E : std) := node_call value (to_romaji E).
(** lib.rs:18-21 *)
Definition node_to_kana (value : list N -> str) (E : std) := node_call value (to_kana E).
(** lib.rs:23-26 *)
Definition node_to_hiragana (value : list N -> str) (E : std) := node_call value (to_hiragana E).
(** lib.rs:28-31 *)
Definition node_to_katakana (value : list N -> str) (E : std) := node_call value (to_katakana E).
(** lib.rs:33-39 *)
Definition node_exports (value : list N -> str) (E : std) : list (str * (list js_value -> res outcome)) :=
  [(u "to_romaji", node_to_romaji value E); (u "to_kana", node_to_kana value E);
   (u "to_hiragana", node_to_hiragana value E); (u "to_katakana", node_to_katakana value E)].
