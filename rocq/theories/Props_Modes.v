(** * C71, C72: the modes of to_kana compared; typing with to_hiragana and to_katakana *)
From Verif Require Import Base Std StdInstances Convert KanaSpec KanaDict Predicates ScriptSpec ScriptProofs
  ExactSpec FixedSpec ModesSpec ModesProofs ModesPairs TypingSpec TypeInSpec TypeIn Results_Modes.

(** C71.  The modes of to_kana give different results exactly as follows: IME mode if some n is read on
    its own without an apostrophe, a vowel or y after it; use_obsolete_kana if some wi or we is
    read on its own; IME mode and
    use_obsolete_kana from each other if there is either.  IME mode never gives the longer text. *)
Theorem C71_modes_compared :
  forall E, std_ok E -> forall s pass up,
    (to_kana_with_opt E s (Build_options false pass up true) = to_kana_with_opt E s (Build_options false pass up false)
     <-> ~ n_alone s) /\
    (forall ime, to_kana_with_opt E s (Build_options true pass up ime) = to_kana_with_opt E s (Build_options false pass up false)
     <-> ~ wi_we_alone s) /\
    (forall ime, to_kana_with_opt E s (Build_options false pass up true) = to_kana_with_opt E s (Build_options true pass up ime)
     <-> ~ n_alone s /\ ~ wi_we_alone s) /\
    (forall t t', to_kana_with_opt E s (Build_options false pass up true) = Ok t ->
                  to_kana_with_opt E s (Build_options false pass up false) = Ok t' -> (length t <= length t')%nat).
Proof. exact C71_modes_compared_proof. Qed.
Print Assumptions C71_modes_compared.

Example C71_case : let ime := Build_options false false false true in let obsolete := Build_options true false false false in
  to_kana_with_opt std_1_82 (u "Kan'i xnnya") ime = Ok (u "かんい んにゃ")
  /\ to_kana_with_opt std_1_82 (u "Kan'i xnnya") default_options = Ok (u "かんい んにゃ")
  /\ to_kana_with_opt std_1_82 (u "konna") ime = Ok (u "こんあ") /\ to_kana_with_opt std_1_82 (u "konna") default_options = Ok (u "こんな")
  /\ n_alone (u "konna")
  /\ to_kana_with_opt std_1_82 (u "SWIwakWe") obsolete = Ok (u "スィわkゑ")
  /\ to_kana_with_opt std_1_82 (u "SWIwakWe") default_options = Ok (u "スィわkうぇ")
  /\ wi_we_alone (u "SWIwakWe") /\ ~ wi_we_alone (u "SWIwa").
Proof.
  cbv zeta. do 4 (split; [vm_compute; reflexivity|]). split; [|split; [vm_compute; reflexivity|split; [vm_compute; reflexivity|split]]].
  - exists (u "ko"), (ch "n"), (u "na"). split; [reflexivity|]. split; [now left|]. split.
    + intros p c Q. change (u "ko") with (u "k" ++ u "o") in Q. apply app_inj_tail in Q. destruct Q as [_ <-]. vm_compute. intuition discriminate.
    + intros c b Q (d & L & I). vm_compute in Q. injection Q as <- _. apply lowers_lower in L. subst d. vm_compute in I. intuition discriminate.
  - exists (u "SWIwak"), (ch "W"), (ch "e"), []. split; [reflexivity|]. split; [vm_compute; auto|]. split; [vm_compute; auto|].
    intros p c d Q L I. change (u "SWIwak") with (u "SWIwa" ++ u "k") in Q. apply app_inj_tail in Q. destruct Q as [_ <-].
    apply lowers_lower in L. subst d. vm_compute in I. intuition discriminate.
  - intros (p & w & x & b & Q & W & X & P). destruct p as [|a [|a2 [|a3 [|a4 [|a5 p]]]]]; vm_compute in Q; injection Q; intros; subst;
      try (destruct W as [W|W]; discriminate W); try match goal with H : _ = [] |- _ => discriminate H | H : [] = _ |- _ => discriminate H end.
    + apply (P [] (ch "S") (ch "s")); [reflexivity|apply lowers_lower; reflexivity|vm_compute; auto 10].
    + destruct X as [X|[X|[X|X]]]; discriminate X.
    + destruct p; discriminate.
Qed.

(** C72.  Partial: typing ASCII text through to_hiragana or to_katakana in IME mode, that is converting what
    is shown together with what is typed next, gives the conversion of the whole text as long as
    what is shown can be typed on: it has a kana or is romaji throughout (or, for to_hiragana, begins with
    English punctuation).  Once it cannot be typed on, nothing typed next is converted; the result is right
    exactly if no upper case letter follows and nothing of it is to be converted.  In particular any text
    without . , : ! ? ~ and brackets can be typed.  Missing: the other texts, for
    which the claim is false, see [C72_typing_refuted]. *)
Theorem C72_typing_partial :
  forall E, std_ok E -> forall o, imemode o = true -> use_obsolete_kana o = false -> pass_romaji o = false ->
    (forall a b shown, Forall ascii (a ++ b) -> to_hiragana_with_opt E a o = Ok shown ->
       (typeable_on shown \/ starts_with_punct shown ->
          to_hiragana_with_opt E (shown ++ b) o = to_hiragana_with_opt E (a ++ b) o) /\
       (~ (typeable_on shown \/ starts_with_punct shown) -> to_hiragana_with_opt E (shown ++ b) o = Ok (shown ++ b))) /\
    (forall a b shown, Forall ascii (a ++ b) -> to_katakana_with_opt E a o = Ok shown ->
       (typeable_on shown -> to_katakana_with_opt E (shown ++ b) o = to_katakana_with_opt E (a ++ b) o) /\
       (~ typeable_on shown -> to_katakana_with_opt E (shown ++ b) o = Ok (shown ++ b))) /\
    (forall convert goes_on,
       (convert = to_hiragana_with_opt E /\ forall shown, goes_on shown <-> typeable_on shown \/ starts_with_punct shown)
       \/ (convert = to_katakana_with_opt E /\ forall shown, goes_on shown <-> typeable_on shown) ->
       forall chunks, Forall ascii (concat chunks) ->
       let typed := fold_left (fun shown typed => match shown with
                                                  | Ok text => convert (text ++ typed) o
                                                  | failed => failed
                                                  end) chunks (Ok []) in
       let all_go_on l := forall a b shown, l = a ++ b -> b <> [] -> convert (concat a) o = Ok shown -> goes_on shown in
       (all_go_on chunks -> typed = convert (concat chunks) o) /\
       (forall before after shown, chunks = before ++ after -> all_go_on before ->
          convert (concat before) o = Ok shown -> ~ goes_on shown ->
          typed = Ok (shown ++ concat after) /\
          (typed = convert (concat chunks) o <->
             (forall c, In c (concat after) -> ~ upper_letter c) /\ untouched Ime (shown ++ concat after))) /\
       (all_go_on chunks \/ exists before after shown, chunks = before ++ after /\ all_go_on before /\
          convert (concat before) o = Ok shown /\ ~ goes_on shown) /\
       ((forall c, In c (concat chunks) -> ~ In c typed_punctuation) -> typed = convert (concat chunks) o)).
Proof. exact C72_typing_partial_proof. Qed.
Print Assumptions C72_typing_partial.

Example C72_case : let ime := Build_options false false false true in
  to_hiragana_with_opt std_1_82 (u "Shin'n") ime = Ok (u "しんn")
  /\ to_hiragana_with_opt std_1_82 (u "しんn" ++ u "YOU(") ime = Ok (u "しんにょう（")
  /\ to_hiragana_with_opt std_1_82 (u "しんにょう（" ++ u "ki") ime = Ok (u "しんにょう（き")
  /\ to_katakana_with_opt std_1_82 (u "シンn" ++ u "you ") ime = Ok (u "シンニョウ ")
  /\ typeable_on (u "しんにょう（") /\ typeable_on (u "sh") /\ ~ typeable_on (u "［k")
  /\ to_hiragana_with_opt std_1_82 (u "［k" ++ u "a") ime = Ok (u "［ka")
  /\ to_katakana_with_opt std_1_82 (u "［k" ++ u "sh") ime = Ok (u "［ksh") /\ to_katakana_with_opt std_1_82 (u "[ksh") ime = Ok (u "［ksh")
  /\ to_katakana_with_opt std_1_82 (u "［k" ++ u "K") ime = Ok (u "［kK") /\ to_katakana_with_opt std_1_82 (u "[kK") ime = Ok (u "［kk").
Proof.
  cbv zeta. do 4 (split; [vm_compute; reflexivity|]). split; [|split; [|split; [|vm_compute; auto 6]]].
  - left. exists (ch "し"). split; [now left|]. left. apply (proj1 (hiragana_spec _)). vm_compute. reflexivity.
  - right. intros c [<-|[<-|[]]]; apply (proj1 (romaji_spec _)); vm_compute; reflexivity.
  - intros [(c & [<-|[<-|[]]] & H)|H].
    + destruct H as [H|H]; apply hiragana_spec in H || apply katakana_spec in H; vm_compute in H; discriminate H.
    + destruct H as [H|H]; apply hiragana_spec in H || apply katakana_spec in H; vm_compute in H; discriminate H.
    + specialize (H (ch "［") (or_introl eq_refl)). apply romaji_spec in H. vm_compute in H. discriminate H.
Qed.

(** C72 refuted: [ka typed letter by letter gives ［ka; converted as a whole it gives ［か. *)
Theorem C72_typing_refuted :
  let ime := Build_options false false false true in
  Forall ascii (u "[ka") /\
  (forall E, std_ok E -> forall convert, convert = to_hiragana_with_opt E \/ convert = to_katakana_with_opt E ->
     exists batch, convert (u "[ka") ime = Ok batch /\
     fold_left (fun shown typed => match shown with
                                   | Ok text => convert (text ++ typed) ime
                                   | failed => failed
                                   end) (map (fun c => [c]) (u "[ka")) (Ok []) <> Ok batch).
Proof. exact C72_typing_refuted_proof. Qed.
Print Assumptions C72_typing_refuted.

Example C72_refuted_case : let ime := Build_options false false false true in
  to_hiragana_with_opt std_1_82 (u "[ka") ime = Ok (u "［か")
  /\ fold_left (fun shown typed => match shown with
                                   | Ok text => to_hiragana_with_opt std_1_82 (text ++ typed) ime
                                   | failed => failed
                                   end) (map (fun c => [c]) (u "[ka")) (Ok []) = Ok (u "［ka").
Proof. vm_compute. auto. Qed.
