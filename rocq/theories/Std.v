(** * The parts of the Rust standard library (and itertools) the crate calls

    Library behaviour that is fixed by its documentation is defined outright.
    Behaviour that the documentation leaves open, or that depends on the Unicode
    version shipped with the compiler, is a field of [std]; [std_ok] is the
    contract assumed of it. *)

From Coq Require Import NArith List Bool Lia Sorted.
From Verif Require Import Base.

(** ** ASCII case ([char::to_ascii_lowercase], [str::to_ascii_uppercase]) *)
Definition ascii_lower (c : char) : char :=
  if (0x41 <=? c) && (c <=? 0x5A) then c + 32 else c.
Definition ascii_upper (c : char) : char :=
  if (0x61 <=? c) && (c <=? 0x7A) then c - 32 else c.

(** ** What may differ between Rust releases *)
Record std := {
  (** [keys.binary_search_by_key(&k, ..).ok()] on the list of keys. *)
  bsearch : list char -> char -> option nat;
  (** [char::is_uppercase]. *)
  is_upper : char -> bool;
  (** [core::unicode::conversions::to_lower] / [to_upper]. *)
  lower_char : char -> str;
  upper_char : char -> str;
  (** Unicode properties [Cased] and [Case_Ignorable]. *)
  cased : char -> bool;
  case_ignorable : char -> bool
}.

(** Caseless blocks: typographic quotes and dashes U+2010..U+2027,
    everything from CJK punctuation to the end of the CJK ideographs, and the
    full-width forms except the letters (and from ･ on). *)
Definition caseless (c : char) : bool :=
  ((0x2010 <=? c) && (c <=? 0x2027)) || ((0x3000 <=? c) && (c <=? 0x9FFF))
  || ((0xFF01 <=? c) && (c <=? 0xFF20)) || ((0xFF3B <=? c) && (c <=? 0xFF40))
  || ((0xFF5B <=? c) && (c <=? 0xFF65)).

(** Capital sigma, whose lower case depends on the context *)
Definition SIGMA : char := 0x3A3.

Definition sorted_keys (l : list char) : Prop := Sorted N.le l.

Record std_ok (E : std) : Prop := {
  (** documented contract of [binary_search_by_key]: on a sorted slice, [Ok i]
      means element [i] matches, [Err] means no element matches; "if there are
      multiple matches, then any one of the matches could be returned". *)
  ok_bsearch : forall keys k, sorted_keys keys ->
    match bsearch E keys k with
    | Some i => nth_error keys i = Some k
    | None => ~ In k keys
    end;
  ok_is_upper : forall c, c < 128 ->
    is_upper E c = (0x41 <=? c) && (c <=? 0x5A);
  ok_lower_ascii : forall c, c < 128 -> lower_char E c = [ascii_lower c];
  ok_lower_caseless : forall c, caseless c = true -> lower_char E c = [c];
  ok_lower_other : forall c, caseless c = false ->
    forallb (fun d => negb (caseless d)) (lower_char E c) = true;
  (** lower-case text has no upper-case ASCII letter *)
  ok_lower_no_upper : forall c,
    forallb (fun d => negb ((0x41 <=? d) && (d <=? 0x5A))) (lower_char E c) = true;
  (** lower case stays as it is, and no character vanishes *)
  ok_lower_fixed : forall c d, In d (lower_char E c) -> lower_char E d = [d];
  ok_lower_sigma : lower_char E SIGMA = [0x3C3] /\ lower_char E 0x3C2 = [0x3C2];
  ok_lower_some : forall c, lower_char E c <> [];
  (** outside ASCII only İ and the Kelvin sign have ASCII letters in their lower case *)
  ok_lower_dotted_i : lower_char E 0x130 = [0x69; 0x307];
  ok_lower_kelvin : lower_char E 0x212A = [0x6B];
  (** Ā Ē Ī Ō Ū become ā ē ī ō ū *)
  ok_lower_macron : forall c, In c [0x100; 0x112; 0x12A; 0x14C; 0x16A] -> lower_char E c = [c + 1];
  ok_lower_to_ascii : forall c d, 128 <= c -> In d (lower_char E c) -> d < 128 ->
    c = 0x130 \/ c = 0x212A;
  ok_lower_scalar : forall c, is_scalar c = true ->
    forallb is_scalar (lower_char E c) = true;
  ok_upper_ascii : forall c, c < 128 -> upper_char E c = [ascii_upper c];
  ok_upper_caseless : forall c, caseless c = true -> upper_char E c = [c];
  (** ASCII letters are Cased and not Case_Ignorable. *)
  ok_cased_ascii : forall c, ascii_lower c <> c \/ ascii_upper c <> c ->
    cased E c = true /\ case_ignorable E c = false
}.

(** ** [str::to_lowercase]: character by character, except capital sigma *)
Definition case_ignorable_then_cased (E : std) (l : str) : bool :=
  (fix go l := match l with
     | [] => false
     | c :: l' => if case_ignorable E c then go l' else cased E c
     end) l.
(** [before] is the text already processed, nearest character first. *)
Fixpoint to_lowercase_from (E : std) (before rest : str) : str :=
  match rest with
  | [] => []
  | c :: rest' =>
    (if c =? SIGMA then
       if case_ignorable_then_cased E before && negb (case_ignorable_then_cased E rest')
       then [0x3C2] else [0x3C3]
     else lower_char E c)
    ++ to_lowercase_from E (c :: before) rest'
  end.
Definition to_lowercase (E : std) (s : str) : str := to_lowercase_from E [] s.

(** [str::to_uppercase]: character by character. *)
Definition to_uppercase (E : std) (s : str) : str := flat_map (upper_char E) s.

(** ** [slice::sort_by_key] (stable) *)
Fixpoint insert_by_key {A} (x : char * A) (l : list (char * A)) : list (char * A) :=
  match l with
  | [] => [x]
  | y :: l' => if fst x <=? fst y then x :: l else y :: insert_by_key x l'
  end.
Definition sort_by_key {A} (l : list (char * A)) : list (char * A) :=
  fold_right insert_by_key [] l.

(** ** The binary search of Rust 1.52 .. 1.81 ([slice::binary_search_by]):
<<
    let mut size = self.len(); let mut left = 0; let mut right = size;
    while left < right {
        let mid = left + size / 2;
        let cmp = f(self.get_unchecked(mid));
        left = if cmp == Less { mid + 1 } else { left };
        right = if cmp == Greater { mid } else { right };
        if cmp == Equal { return Ok(mid); }
        size = right - left;
    }
    Err(left)
>> *)
Fixpoint bsearch_152_loop (fuel : nat) (keys : list char) (k : char) (left size : nat)
  : option nat :=
  match fuel with
  | O => None
  | S fuel' =>
    match size with
    | O => None
    | _ =>
      let mid := (left + Nat.div2 size)%nat in
      let e := nth mid keys 0 in
      match N.compare e k with
      | Lt => bsearch_152_loop fuel' keys k (S mid) (left + size - S mid)
      | Gt => bsearch_152_loop fuel' keys k left (mid - left)
      | Eq => Some mid
      end
    end
  end.
Definition bsearch_152 (keys : list char) (k : char) : option nat :=
  bsearch_152_loop (S (length keys)) keys k 0 (length keys).

(** ** The binary search since Rust 1.82:
<<
    let mut size = self.len();
    if size == 0 { return Err(0); }
    let mut base = 0usize;
    while size > 1 {
        let half = size / 2;
        let mid = base + half;
        let cmp = f(self.get_unchecked(mid));
        base = if cmp == Greater { base } else { mid };
        size -= half;
    }
    let cmp = f(self.get_unchecked(base));
    if cmp == Equal { Ok(base) } else { Err(..) }
>> *)
Fixpoint bsearch_182_loop (fuel : nat) (keys : list char) (k : char) (base size : nat)
  : nat :=
  match fuel with
  | O => base
  | S fuel' =>
    if Nat.leb size 1 then base
    else
      let half := Nat.div2 size in
      let mid := (base + half)%nat in
      bsearch_182_loop fuel' keys k
        (if k <? nth mid keys 0 then base else mid) (size - half)
  end.
Definition bsearch_182 (keys : list char) (k : char) : option nat :=
  match length keys with
  | O => None
  | n => let base := bsearch_182_loop n keys k 0 n in
         if nth base keys 0 =? k then Some base else None
  end.

(** ** [str::trim_start_matches(&str)] / [trim_end_matches(&str)]
    "Returns a string slice with all prefixes (suffixes) that match a pattern
    repeatedly removed."  The pattern is never empty where the crate calls it. *)
Fixpoint strip_prefix (p s : str) : option str :=
  match p, s with
  | [], _ => Some s
  | a :: p', b :: s' => if a =? b then strip_prefix p' s' else None
  | _ :: _, [] => None
  end.
Fixpoint trim_start_fuel (fuel : nat) (p s : str) : str :=
  match fuel with
  | O => s
  | S f => match p with
           | [] => s
           | _ => match strip_prefix p s with
                  | Some s' => trim_start_fuel f p s'
                  | None => s
                  end
           end
  end.
(** Every removal shortens the text, so [length s] rounds are enough. *)
Definition trim_start_matches (s p : str) : str := trim_start_fuel (length s) p s.
Definition trim_end_matches (s p : str) : str := rev (trim_start_matches (rev s) (rev p)).

(** ** [Itertools::group_by]: consecutive elements with equal keys *)
Fixpoint group_by {A K} (eqb : K -> K -> bool) (key : A -> K) (l : list A)
  : list (K * list A) :=
  match l with
  | [] => []
  | x :: l' =>
    match group_by eqb key l' with
    | (k, g) :: gs => if eqb (key x) k then (k, x :: g) :: gs else (key x, [x]) :: (k, g) :: gs
    | [] => [(key x, [x])]
    end
  end.
