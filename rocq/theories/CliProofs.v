(** * The command line programs *)
From Verif Require Import Base Tac Std Strings Convert Cli KanaPure RomajiPure Utf8Proofs
  KanaSpec ScriptProofs RomajiProofs CliSpec.

Lemma decode_utf8 b s : decode b = Some s <-> utf8 b s.
Proof. rewrite decode_iff. unfold utf8. split; intros [A B]; split; auto. Qed.

Lemma utf8_fun b s t : utf8 b s -> utf8 b t -> s = t.
Proof. rewrite <- !decode_utf8. congruence. Qed.

Lemma join_spaced l : join_space l = spaced l.
Proof.
  unfold spaced. induction l as [|a r IH]; [reflexivity|].
  destruct r as [|b r].
  - cbn. now rewrite app_nil_r.
  - change (join_space (a :: b :: r)) with (a ++ [32] ++ join_space (b :: r)).
    rewrite IH. cbn [map concat tl app]. reflexivity.
Qed.

Lemma args_ok argv words : Forall2 utf8 argv words -> args_utf8 argv = Ok words.
Proof.
  induction 1 as [|a w argv words H _ IH]; [reflexivity|].
  cbn [args_utf8]. apply decode_utf8 in H. rewrite H. cbn [unwrap bind]. now rewrite IH.
Qed.

Lemma args_spec argv :
  (exists words, Forall2 utf8 argv words /\ args_utf8 argv = Ok words) \/
  (Exists (fun a => forall s, ~ utf8 a s) argv /\ args_utf8 argv = Panic).
Proof.
  induction argv as [|a argv [(ws & F & Q)|[X Q]]].
  - left. exists []. split; [constructor|reflexivity].
  - destruct (decode a) as [w|] eqn:D.
    + left. exists (w :: ws). split; [constructor; [now apply decode_utf8|exact F]|].
      cbn [args_utf8]. rewrite D. cbn [unwrap bind]. now rewrite Q.
    + right. split.
      * constructor. intros s H. apply decode_utf8 in H. congruence.
      * cbn [args_utf8]. now rewrite D.
  - right. split; [now right|]. cbn [args_utf8].
    destruct (decode a); cbn [unwrap bind]; [now rewrite Q|reflexivity].
Qed.

Section Main.
  Variable conv : str -> res str.
  Variable f : str -> str.
  Hypothesis conv_ok : forall s, conv s = Ok (f s).
  Hypothesis f_valid : forall s, valid_str s -> valid_str (f s).

  Lemma main_args prog argv p words :
    Forall2 utf8 (prog :: argv) (p :: words) -> spaced words <> [] ->
    forall stdin, main_with conv (prog :: argv) stdin = Ok (encode (f (spaced words)) ++ [10]).
  Proof.
    intros F N stdin. unfold main_with. rewrite (args_ok _ _ F). cbn [bind tl].
    rewrite join_spaced. destruct (spaced words) as [|c r] eqn:S; [now destruct N|].
    cbn [is_empty negb]. now rewrite conv_ok.
  Qed.

  Lemma main_stdin argv words :
    Forall2 utf8 argv words -> spaced (tl words) = [] ->
    forall stdin s, utf8 stdin s -> f [] = [] -> main_with conv argv stdin = Ok (encode (f s)).
  Proof.
    intros F N stdin s U Z. unfold main_with. rewrite (args_ok _ _ F). cbn [bind].
    rewrite join_spaced, N. cbn [is_empty negb].
    apply decode_utf8 in U. rewrite U. cbn [unwrap bind].
    destruct s as [|c s]; cbn [is_empty negb]; [now rewrite Z|]. now rewrite conv_ok.
  Qed.

  Lemma main_fails argv stdin :
    main_with conv argv stdin = Panic <->
    Exists (fun a => forall s, ~ utf8 a s) argv \/
    (exists words, Forall2 utf8 argv words /\ spaced (tl words) = [] /\ forall s, ~ utf8 stdin s).
  Proof.
    unfold main_with. destruct (args_spec argv) as [(ws & F & Q)|[X Q]]; rewrite Q; cbn [bind].
    - rewrite join_spaced. split.
      + intro H. right. exists ws. split; [exact F|].
        destruct (spaced (tl ws)) as [|c r] eqn:S; cbn [is_empty negb] in H.
        * split; [reflexivity|]. intros s U. apply decode_utf8 in U. rewrite U in H.
          cbn [unwrap bind] in H. destruct s; cbn [is_empty negb] in H; [discriminate|].
          rewrite conv_ok in H. discriminate.
        * rewrite conv_ok in H. discriminate.
      + intros [X|(ws' & F' & S & U)].
        * exfalso. clear Q. induction F as [|a w argv ws H F IH]; [inversion X|].
          inversion X as [? ? Y|? ? Y]; subst; [now apply (Y w)|now apply IH].
        * pose proof (args_ok _ _ F') as Q'. rewrite Q in Q'. injection Q' as <-.
          rewrite S. cbn [is_empty negb]. destruct (decode stdin) as [s|] eqn:D; [|reflexivity].
          exfalso. apply decode_utf8 in D. now apply (U s).
    - split; [intros _; now left|reflexivity].
  Qed.

  Lemma main_total argv stdin : main_with conv argv stdin <> NoFuel.
  Proof.
    unfold main_with. destruct (args_spec argv) as [(ws & F & Q)|[X Q]]; rewrite Q; cbn [bind];
      [|discriminate].
    destruct (is_empty (join_space (tl ws))); cbn [negb].
    - destruct (decode stdin) as [s|]; cbn [unwrap bind]; [|discriminate].
      destruct (is_empty s); cbn [negb]; [discriminate|]. rewrite conv_ok. discriminate.
    - rewrite conv_ok. discriminate.
  Qed.

  Lemma utf8_line s : valid_str s -> utf8 (encode s ++ [10]) (s ++ [10]).
  Proof.
    intro V. split; [|now rewrite encode_app].
    apply Forall_app. split; [exact V|]. repeat constructor.
  Qed.

  Lemma join_valid ws : Forall valid_str ws -> valid_str (join_space ws).
  Proof.
    induction 1 as [|w ws V _ IH]; [constructor|].
    destruct ws as [|w' ws]; [exact V|].
    change (join_space (w :: w' :: ws)) with (w ++ [32] ++ join_space (w' :: ws)).
    repeat (apply Forall_app; split); auto; repeat constructor.
  Qed.

  Lemma main_utf8 argv stdin out : main_with conv argv stdin = Ok out -> exists t, utf8 out t.
  Proof.
    unfold main_with. destruct (args_spec argv) as [(ws & F & Q)|[X Q]]; rewrite Q; cbn [bind];
      [|discriminate].
    assert (V : valid_str (join_space (tl ws))).
    { apply join_valid. clear Q.
      assert (Forall valid_str ws) as V by (induction F as [|? ? ? ? [? ?] ? ?]; constructor; auto).
      destruct V; [constructor|assumption]. }
    destruct (is_empty (join_space (tl ws))) eqn:Z; cbn [negb].
    - destruct (decode stdin) as [s|] eqn:D; cbn [unwrap bind]; [|discriminate].
      apply decode_utf8 in D as [Vs _].
      destruct (is_empty s); cbn [negb].
      + intros [= <-]. exists []. split; [constructor|reflexivity].
      + rewrite conv_ok. cbn [bind]. intros [= <-]. exists (f s). split; auto.
    - rewrite conv_ok. cbn [bind]. intros [= <-]. eexists. apply utf8_line. auto.
  Qed.
End Main.

Lemma command_main conv f : (forall s, conv s = Ok (f s)) ->
  (forall s, valid_str s -> valid_str (f s)) -> f [] = [] ->
  command conv (main_with conv).
Proof.
  intros C V Z. repeat split.
  - intros name args stdin p words Hn Ha Hs. exists (f (spaced words)).
    split; [apply C|]. split.
    + apply V. rewrite <- join_spaced. apply join_valid.
      clear - Ha. induction Ha as [|? ? ? ? [? ?] ? IH]; constructor; auto.
    + rewrite (main_args conv f C name args p words (Forall2_cons _ _ Hn Ha) Hs).
      now rewrite encode_app.
  - intros name args stdin p words s Hn Ha Hs U. exists (f s). split; [apply C|].
    split; [apply V, U|]. apply (main_stdin conv f C _ (p :: words)); auto.
  - intros [out H].
    unfold main_with in H. destruct (args_spec (name :: args)) as [(ws & F & Q)|[X Q]];
      rewrite Q in H; cbn [bind] in H; [|discriminate].
    inversion F as [|? p ? words Hn Ha]; subst. exists p, words. split; [exact Hn|]. split; [exact Ha|].
    cbn [tl] in H. rewrite join_spaced in H.
    destruct (spaced words) as [|c r]; [right|left; discriminate].
    cbn [is_empty negb] in H. destruct (decode stdin) as [s|] eqn:D; [|discriminate].
    exists s. now apply decode_utf8.
  - intros (p & words & Hn & Ha & [Hs|[s U]]).
    + eexists. apply (main_args conv f C name args p words); auto.
    + destruct (spaced words) as [|c r] eqn:S.
      * eexists. apply (main_stdin conv f C _ (p :: words)); eauto.
      * eexists. apply (main_args conv f C name args p words); auto. rewrite S. discriminate.
  - intros name args stdin. pose proof (main_total conv f C (name :: args) stdin).
    destruct (main_with conv (name :: args) stdin); eauto. congruence.
Qed.

Lemma valid_In s : valid_str s <-> forall c, In c s -> is_scalar c = true.
Proof. apply Forall_forall. Qed.

Theorem C51_holds E : std_ok E ->
  command (to_kana E) (main_to_kana E) /\ command (to_romaji E) (main_to_romaji E).
Proof.
  intro HE. split.
  - apply (command_main _ (kconv (k_tree default_options))).
    + intro s. unfold to_kana. now apply to_kana_with_opt_eq.
    + intros s V. rewrite KanaDict.k_tree_mode. rewrite valid_In in *. now apply conv_scalar.
    + apply kconv_nil.
  - apply (command_main _ (fun s => rconv E false s (k2h E true s))).
    + intro s. unfold to_romaji. now apply to_romaji_with_opt_eq.
    + intros s V. rewrite valid_In in *. now apply rom_scalar.
    + reflexivity.
Qed.
