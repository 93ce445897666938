(** * C105: machine integers in the conversions

    [um] is [usize::MAX]; a [Debug] build panics when a sum or difference leaves its type, a [Release] build wraps. *)
From Verif Require Import Base Std StdInstances Chars Strings Convert Machine Results_Machine.

(** C105.  In both builds and for every size of [usize], for texts of at most [usize::MAX] characters, every conversion gives
    with machine integers what it gives with numbers: no addition, no subtraction and no cast overflows. *)
Theorem C105_same :
  forall b um E o s,
    hiragana_to_katakana_m b s = hiragana_to_katakana s
    /\ (N.of_nat (length s) <= um ->
          (forall d, katakana_to_hiragana_with_opt_m b um E s d = katakana_to_hiragana_with_opt E s d)
          /\ to_kana_with_opt_m b um E s o = to_kana_with_opt E s o
          /\ to_romaji_with_opt_m b um E s o = to_romaji_with_opt E s o
          /\ ((forall t, (length t <= length s)%nat -> N.of_nat (length (to_lowercase E t)) <= um) ->
                to_hiragana_with_opt_m b um E s o = to_hiragana_with_opt E s o
                /\ to_katakana_with_opt_m b um E s o = to_katakana_with_opt E s o)).
Proof. exact C105_same_proof. Qed.
Print Assumptions C105_same.

Example C105_same_case :
  N.of_nat (length (u "ラーメンkoohii")) <= 0xFFFF
  /\ to_kana_with_opt_m Debug 0xFFFF std_1_82 (u "ラーメンKOohii") default_options = Ok (u "ラーメンコおひい")
  /\ to_hiragana_with_opt_m Debug 0xFFFF std_1_82 (u "ラーメンkoohii") default_options = Ok (u "らあめんこおひい")
  /\ to_katakana_with_opt_m Release 0xFF std_1_82 (u "らーめんkoohii") default_options = Ok (u "ラーメンコオヒイ")
  /\ to_romaji_with_opt_m Release 0xFF std_1_82 (u "ラーメン") default_options = Ok (u "raamen").
Proof. vm_compute. repeat split; congruence. Qed.

(** C105.  With a library as documented, whose lower case of a character is at most three characters, both builds return and
    agree on every text that three times fits into [usize]; to_kana and to_romaji on every text that fits. *)
Theorem C105_returns :
  forall E, std_ok E -> forall um o s,
    (N.of_nat (length s) <= um ->
       (exists t, forall b, to_kana_with_opt_m b um E s o = Ok t) /\ (exists t, forall b, to_romaji_with_opt_m b um E s o = Ok t))
    /\ ((forall c, (length (lower_char E c) <= 3)%nat) -> 3 * N.of_nat (length s) <= um ->
       (exists t, forall b, to_hiragana_with_opt_m b um E s o = Ok t) /\ (exists t, forall b, to_katakana_with_opt_m b um E s o = Ok t)).
Proof. exact C105_returns_proof. Qed.
Print Assumptions C105_returns.

Example C105_returns_case :
  std_ok std_1_82 /\ (forall c, (length (lower_char std_1_82 c) <= 3)%nat) /\ 3 * N.of_nat (length (u "İKAー")) <= 12
  /\ to_katakana_with_opt_m Debug 12 std_1_82 (u "İKAー") default_options = Ok [ch "イ"; 0x307; ch "カ"; ch "ー"]
  /\ to_hiragana_with_opt_m Debug 24 std_1_82 (u "カーKAĀ") default_options = Ok (u "かあかā").
Proof. split; [exact std_1_82_ok|]. split; [exact lower_three_1_82|]. vm_compute. repeat split; congruence. Qed.

(** C105.  A debug build returns exactly on the texts of at most [usize::MAX] characters, so that the bound cannot be higher. *)
Theorem C105_debug :
  forall E, std_ok E -> forall um o s,
    ((exists t, to_kana_with_opt_m Debug um E s o = Ok t) <-> N.of_nat (length s) <= um)
    /\ ((exists t, to_romaji_with_opt_m Debug um E s o = Ok t) <-> N.of_nat (length s) <= um)
    /\ (pass_romaji o = true -> ((exists t, to_hiragana_with_opt_m Debug um E s o = Ok t) <-> N.of_nat (length s) <= um)
                             /\ (exists t, to_katakana_with_opt_m Debug um E s o = Ok t)).
Proof. exact C105_debug_proof. Qed.
Print Assumptions C105_debug.

Example C105_debug_case :
  to_kana_with_opt_m Debug 3 std_1_82 (u "kaka") default_options = Panic
  /\ to_kana_with_opt_m Debug 4 std_1_82 (u "kaka") default_options = Ok (u "かか")
  /\ to_kana_with_opt_m Release 3 std_1_82 (u "kaka") default_options = Panic
  /\ to_romaji_with_opt_m Debug 1 std_1_82 (u "カー") default_options = Panic
  /\ to_romaji_with_opt_m Debug 2 std_1_82 (u "カー") default_options = Ok (u "kaa").
Proof. vm_compute. auto. Qed.
