(** * C98: words that separate the conversion of a text *)
From Coq Require Import Bool.
From Verif Require Import Base Std StdInstances Convert KanaPure KanaSpec KanaDict KanaProofs ScriptSpec Predicates TokenSpec FixedSpec Fixed Joins SepSpec Results_Sep.

(** C98.  A word keeps the conversions on its two sides apart in [to_kana], whatever stands there,
    exactly if it is not empty, no key stands in it (except n in front of y), it does not end with
    a consonant and does not begin with n or an apostrophe, or with y (in IME mode: with a space), which go on
    with an n or x in front of them. *)
Theorem C98_kana :
  forall E, std_ok E -> forall o w,
    separates (fun s => to_kana_with_opt E s o) w <->
    w <> [] /\ untouched (mode_of o) w /\
    (forall c w', w = c :: w' -> ~ goes_on (mode_of o) c) /\ (forall w' c, w = w' ++ [c] -> ~ consonant c).
Proof. exact C98_kana_proof. Qed.
Print Assumptions C98_kana.

Example C98_kana_case : separates (fun s => to_kana_with_opt std_1_82 s default_options) (u "k漢ny漢")
  /\ to_kana std_1_82 (u "nik漢ny漢an") = Ok (u "にk漢ny漢あん")
  /\ ~ separates (fun s => to_kana_with_opt std_1_82 s default_options) (u "漢k")
  /\ to_kana std_1_82 (u "漢ka") = Ok (u "漢か")
  /\ ~ separates (fun s => to_kana_with_opt std_1_82 s default_options) (u "y漢")
  /\ to_kana std_1_82 (u "ny漢") = Ok (u "ny漢") /\ to_kana std_1_82 (u "n") = Ok (u "ん")
  /\ separates (fun s => to_kana_with_opt std_1_82 s (Build_options false false false true)) (u "y漢")
  /\ ~ separates (fun s => to_kana_with_opt std_1_82 s (Build_options false false false true)) (u " 漢").
Proof.
  assert (D : forall m s, untouched m s <-> str_eqb (conv m s) s = true) by (intros; rewrite <- kana_fixed; symmetry; apply str_eqb_eq).
  assert (C : forall c, ~ In (ascii_lower c) (u "bcdfghjklmnpqrstvwxyz") -> ~ consonant c) by (intros c N (d & L & I); apply lowers_lower in L; now subst d).
  assert (Z : ~ In (ch "漢") (u "bcdfghjklmnpqrstvwxyz")) by (apply mem_not; vm_compute; reflexivity).
  split; [|split; [vm_compute; reflexivity|]]; [|split; [|split; [vm_compute; reflexivity|]]]; [| |split; [|split; [vm_compute; reflexivity|split; [vm_compute; reflexivity|split]]]].
  1-5: rewrite (C98_kana std_1_82 std_1_82_ok).
  - split; [discriminate|]. split; [apply D; vm_compute; reflexivity|]. split.
    + intros c w' [= <- _] [[Q|Q]|[Q|[Q|Q]]]; discriminate Q.
    + intros w' c Q. change (u "k漢ny漢") with (u "k漢ny" ++ [ch "漢"]) in Q. apply app_inj_tail in Q. destruct Q as [_ <-]. now apply C.
  - intros (_ & _ & _ & H). apply (H (u "漢") (ch "k") eq_refl). exists (ch "k"). split; [now apply lowers_lower|vm_compute; auto 20].
  - intros (_ & _ & H & _). apply (H (ch "y") (u "漢") eq_refl). right; right. left. reflexivity.
  - split; [discriminate|]. split; [apply D; vm_compute; reflexivity|]. split.
    + intros c w' [= <- _] [[Q|Q]|[Q|Q]]; discriminate Q.
    + intros w' c Q. change (u "y漢") with (u "y" ++ [ch "漢"]) in Q. apply app_inj_tail in Q. destruct Q as [_ <-]. now apply C.
  - intros (_ & _ & H & _). apply (H (ch " ") (u "漢") eq_refl). right; right. reflexivity.
Qed.

(** C98.  In [to_romaji] a word keeps the two sides apart exactly if no character with a reading stands
    in it and some character other than ヵ and ヶ does; with upper case for katakana no
    word does, since a mark that disappears on the left shifts the positions on the right. *)
Theorem C98_romaji :
  forall E, std_ok E -> forall o w,
    (upcase_katakana o = false ->
       (separates (fun s => to_romaji_with_opt E s o) w <->
        (forall c, In c w -> ~ romanised c) /\ exists c, In c w /\ ~ In c (u "ヵヶ"))) /\
    (upcase_katakana o = true -> ~ separates (fun s => to_romaji_with_opt E s o) w).
Proof. exact C98_romaji_proof. Qed.
Print Assumptions C98_romaji.

Example C98_romaji_case : separates (fun s => to_romaji_with_opt std_1_82 s default_options) (u "ヶa")
  /\ to_romaji std_1_82 (u "カっヶaーか") = Ok (u "kaヶa-ka") /\ to_romaji std_1_82 (u "カっ") = Ok (u "ka")
  /\ to_romaji std_1_82 (u "ーか") = Ok (u "-ka")
  /\ ~ separates (fun s => to_romaji_with_opt std_1_82 s default_options) (u "ヶ")
  /\ to_romaji std_1_82 (u "カヶーか") = Ok (u "kaヶaka")
  /\ to_romaji_with_opt std_1_82 (u "ンー漢漢カ") (Build_options false false true false) = Ok (u "N漢漢ka")
  /\ to_romaji_with_opt std_1_82 (u "漢カ") (Build_options false false true false) = Ok (u "漢KA").
Proof.
  split.
  - apply (C98_romaji std_1_82 std_1_82_ok); [reflexivity|]. split.
    + intros c [<-|[<-|[]]]; rewrite <- romanised_spec; vm_compute; discriminate.
    + exists (ch "a"). split; [right; now left|]. intros [Q|[Q|[]]]; discriminate Q.
  - do 3 (split; [vm_compute; reflexivity|]). split; [|repeat split; vm_compute; reflexivity].
    intro H. apply (proj1 (C98_romaji std_1_82 std_1_82_ok default_options _)) in H; [|reflexivity]. destruct H as (_ & c & [<-|[]] & N). apply N. right. now left.
Qed.

(** C98.  With romaji left as it is, a word keeps the two sides apart in [to_katakana] exactly if no
    hiragana stands in it, and in [to_hiragana] exactly if no katakana stands in it but ヵ and ヶ, and
    some other character than ・, ヵ and ヶ comes before the first long mark.  Without the
    option no word does, since it is the whole text that decides whether romaji is read. *)
Theorem C98_scripts :
  forall E, std_ok E -> forall o w,
    (pass_romaji o = true ->
       (separates (fun s => to_katakana_with_opt E s o) w <-> forall c, In c w -> ~ hiragana_letter c) /\
       (separates (fun s => to_hiragana_with_opt E s o) w <->
          (forall c, In c w -> katakana_letter c -> In c (u "ヵヶ")) /\ mark_stop w)) /\
    (pass_romaji o = false ->
       ~ separates (fun s => to_katakana_with_opt E s o) w /\ ~ separates (fun s => to_hiragana_with_opt E s o) w).
Proof. exact C98_scripts_proof. Qed.
Print Assumptions C98_scripts.

Example C98_scripts_case : let o := Build_options false true false false in
  separates (fun s => to_hiragana_with_opt std_1_82 s o) (u "・ヶaー")
  /\ to_hiragana_with_opt std_1_82 (u "カ・ヶaーー") o = Ok (u "か・ヶaーー")
  /\ ~ separates (fun s => to_hiragana_with_opt std_1_82 s o) (u "・ーa")
  /\ to_hiragana_with_opt std_1_82 (u "カ・ーa") o = Ok (u "か・あa")
  /\ to_katakana std_1_82 (u "漢ka") = Ok (u "漢ka") /\ to_katakana std_1_82 (u "漢kaカ") = Ok (u "漢カカ")
  /\ to_katakana std_1_82 (u "漢 ka") = Ok (u "漢 ka") /\ to_katakana std_1_82 (u "ka") = Ok (u "カ").
Proof.
  intro o. split.
  - apply (C98_scripts std_1_82 std_1_82_ok o); [reflexivity|]. split.
    + intros c I K. repeat (destruct I as [<-|I]; [|]); try (right; now left); try (destruct I); exfalso; revert K; unfold katakana_letter; vm_compute; intuition congruence.
    + exists (u "・ヶ"), (ch "a"), (u "ー"). split; [reflexivity|]. split; [repeat (apply Forall_cons; [vm_compute; auto|]); apply Forall_nil|]. apply mem_not. vm_compute. reflexivity.
  - split; [vm_compute; reflexivity|]. split; [|repeat split; vm_compute; reflexivity].
    intro H. apply (proj1 (C98_scripts std_1_82 std_1_82_ok o _) eq_refl) in H. destruct H as (_ & run & c & w' & Q & F & N).
    destruct run as [|d run]; cbn [app] in Q; injection Q as Q Q'; [subst c; apply N; vm_compute; auto|].
    destruct run as [|e run]; cbn [app] in Q'; injection Q' as Q' _; [subst c; apply N; vm_compute; auto|].
    inversion F as [|? ? _ F']; subst. inversion F' as [|? ? I _]; subst. vm_compute in I. intuition discriminate.
Qed.
