(** * Rust primitives used by the model: characters, strings, panics, slices, UTF-8

    Nothing in this file models repository code; it fixes the vocabulary in
    which the repository code is modelled.  The Rust library behaviour that is
    described here is that of [core::slice], [core::char] and [core::str]. *)

From Coq Require Import String Ascii.
Export StringSyntax.
From Coq Require Export NArith List Bool.
Export ListNotations.
Open Scope N_scope.

(** A Rust [char] is a Unicode scalar value; we use its code point. *)
Notation char := N (only parsing).
(** A Rust [&str]/[String] seen through [chars()]. *)
Notation str := (list N) (only parsing).

(** [char::from_u32] succeeds exactly on scalar values. *)
Definition is_scalar (c : N) : bool :=
  (c <? 0xD800) || ((0xE000 <=? c) && (c <? 0x110000)).
Definition from_u32 (c : N) : option char := if is_scalar c then Some c else None.
(** A list of code points that really is a Rust string. *)
Definition valid_str (s : str) : Prop := Forall (fun c => is_scalar c = true) s.

(** ** Computations that may panic (or, for loops, run out of fuel) *)
Inductive res (A : Type) : Type :=
| Ok (a : A)
| Panic
| NoFuel.
Arguments Ok {A} a.
Arguments Panic {A}.
Arguments NoFuel {A}.

Definition bind {A B} (x : res A) (f : A -> res B) : res B :=
  match x with Ok a => f a | Panic => Panic | NoFuel => NoFuel end.
Notation "x <- e ;; k" := (bind e (fun x => k))
  (at level 61, e at next level, right associativity).

(** [Option::unwrap]. *)
Definition unwrap {A} (o : option A) : res A :=
  match o with Some a => Ok a | None => Panic end.
(** [v[i]]. *)
Definition index {A} (v : list A) (i : nat) : res A := unwrap (nth_error v i).
(** [&v[i..]] panics when [i > len]. *)
Definition slice_from {A} (v : list A) (i : nat) : res (list A) :=
  if Nat.leb i (length v) then Ok (skipn i v) else Panic.
(** [&v[i..j]] panics when [i > j] or [j > len]. *)
Definition slice {A} (v : list A) (i j : nat) : res (list A) :=
  if Nat.leb i j && Nat.leb j (length v)
  then Ok (firstn (j - i) (skipn i v)) else Panic.
(** [a - b] on [usize] (overflow checked, as in a debug build). *)
Definition checked_sub (a b : nat) : res nat :=
  if Nat.leb b a then Ok (a - b)%nat else Panic.

(** ** String equality *)
Fixpoint str_eqb (a b : str) : bool :=
  match a, b with
  | [], [] => true
  | x :: a', y :: b' => (x =? y) && str_eqb a' b'
  | _, _ => false
  end.
Lemma str_eqb_eq a : forall b, str_eqb a b = true <-> a = b.
Proof.
  induction a as [|x a IH]; intros [|y b]; cbn; split; try congruence; try reflexivity.
  - intro H. apply andb_prop in H. destruct H as [H1 H2].
    apply N.eqb_eq in H1. apply IH in H2. congruence.
  - intro H. inversion H; subst. rewrite N.eqb_refl. cbn. now apply IH.
Qed.

(** ** UTF-8 ([core::str], [char::encode_utf8], [core::str::from_utf8]) *)
Definition len_utf8 (c : char) : nat :=
  if c <? 0x80 then 1%nat else if c <? 0x800 then 2%nat
  else if c <? 0x10000 then 3%nat else 4%nat.

Definition encode_char (c : char) : list N :=
  if c <? 0x80 then [c]
  else if c <? 0x800 then [0xC0 + c / 64; 0x80 + c mod 64]
  else if c <? 0x10000 then
    [0xE0 + c / 4096; 0x80 + c / 64 mod 64; 0x80 + c mod 64]
  else
    [0xF0 + c / 262144; 0x80 + c / 4096 mod 64; 0x80 + c / 64 mod 64; 0x80 + c mod 64].

Definition encode (s : str) : list N := flat_map encode_char s.

Definition is_cont (b : N) : bool := (0x80 <=? b) && (b <? 0xC0).

(** Strict decoder: rejects truncated, overlong, surrogate and out-of-range forms. *)
Fixpoint decode (l : list N) : option str :=
  match l with
  | [] => Some []
  | b0 :: r0 =>
    if b0 <? 0x80 then option_map (cons b0) (decode r0)
    else if b0 <? 0xC0 then None
    else if b0 <? 0xE0 then
      match r0 with
      | b1 :: r1 =>
        let c := (b0 - 0xC0) * 64 + (b1 - 0x80) in
        if is_cont b1 && (0x80 <=? c) then option_map (cons c) (decode r1) else None
      | _ => None
      end
    else if b0 <? 0xF0 then
      match r0 with
      | b1 :: b2 :: r2 =>
        let c := (b0 - 0xE0) * 4096 + (b1 - 0x80) * 64 + (b2 - 0x80) in
        if is_cont b1 && is_cont b2 && (0x800 <=? c) && is_scalar c
        then option_map (cons c) (decode r2) else None
      | _ => None
      end
    else if b0 <? 0xF8 then
      match r0 with
      | b1 :: b2 :: b3 :: r3 =>
        let c := (b0 - 0xF0) * 262144 + (b1 - 0x80) * 4096 + (b2 - 0x80) * 64 + (b3 - 0x80) in
        if is_cont b1 && is_cont b2 && is_cont b3 && (0x10000 <=? c) && is_scalar c
        then option_map (cons c) (decode r3) else None
      | _ => None
      end
    else None
  end.

(** ** String and character literals
    [u "かな"] is the list of code points of the (UTF-8) literal; [ch "か"] the
    single character.  Literals that are not UTF-8 would give the empty string;
    none is used. *)
Definition bytes_of (s : string) : list N := map N_of_ascii (list_ascii_of_string s).
Definition u (s : string) : str :=
  match decode (bytes_of s) with Some x => x | None => [] end.
Definition ch (s : string) : char := hd 0 (u s).
Arguments u s%string.
Arguments ch s%string.

Example literal_works : u "aか🐸" = [0x61; 0x304B; 0x1F438]. Proof. reflexivity. Qed.
Example ch_works : ch "ー" = 0x30FC. Proof. reflexivity. Qed.
