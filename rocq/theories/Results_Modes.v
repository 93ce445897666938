(** * Proofs of the theorems of Props_Modes.v *)
From Verif Require Import Tac Base Std StdInstances Strings Convert KanaPure RomajiPure KanaSpec KanaDict KanaProofs Predicates ScriptSpec ScriptProofs
  ExactSpec FixedSpec ModesSpec ModesProofs ModesPairs TypingSpec TypeInSpec TypeIn Results_Script.

Lemma C71_modes_compared_proof :
  forall E, std_ok E -> forall s pass up,
    (to_kana_with_opt E s (Build_options false pass up true) = to_kana_with_opt E s (Build_options false pass up false)
     <-> ~ n_alone s) /\
    (forall ime, to_kana_with_opt E s (Build_options true pass up ime) = to_kana_with_opt E s (Build_options false pass up false)
     <-> ~ wi_we_alone s) /\
    (forall ime, to_kana_with_opt E s (Build_options false pass up true) = to_kana_with_opt E s (Build_options true pass up ime)
     <-> ~ n_alone s /\ ~ wi_we_alone s) /\
    (forall t t', to_kana_with_opt E s (Build_options false pass up true) = Ok t ->
                  to_kana_with_opt E s (Build_options false pass up false) = Ok t' -> (length t <= length t')%nat).
Proof.
  intros E HE s pass up. rewrite !to_kana_with_opt_eq by exact HE. rewrite !k_tree_mode.
  change (mode_of (Build_options false pass up true)) with Ime. change (mode_of (Build_options false pass up false)) with Default.
  split; [|split; [|split]].
  - split; [|intro H; f_equal; now apply ime_conv]. intros Q A. injection Q as Q. now apply (ime_differs s A).
  - intro ime. rewrite to_kana_with_opt_eq by exact HE. rewrite k_tree_mode.
    change (mode_of (Build_options true pass up ime)) with Obsolete.
    split; [|intro H; f_equal; now apply obsolete_conv_exact]. intros Q A. injection Q as Q. now apply (obsolete_differs s A).
  - intro ime. rewrite to_kana_with_opt_eq by exact HE. rewrite k_tree_mode. change (mode_of (Build_options true pass up ime)) with Obsolete.
    rewrite <- ime_obsolete. split; [now intros [= Q]|now intros ->].
  - intros t t' Q Q'. injection Q as <-. injection Q' as <-. apply ime_not_longer.
Qed.

Lemma C72_typing_partial_proof :
  forall E, std_ok E -> forall o, imemode o = true -> use_obsolete_kana o = false -> pass_romaji o = false ->
    (forall a b shown, Forall ascii (a ++ b) -> to_hiragana_with_opt E a o = Ok shown ->
       (typeable_on shown \/ starts_with_punct shown ->
          to_hiragana_with_opt E (shown ++ b) o = to_hiragana_with_opt E (a ++ b) o) /\
       (~ (typeable_on shown \/ starts_with_punct shown) -> to_hiragana_with_opt E (shown ++ b) o = Ok (shown ++ b))) /\
    (forall a b shown, Forall ascii (a ++ b) -> to_katakana_with_opt E a o = Ok shown ->
       (typeable_on shown -> to_katakana_with_opt E (shown ++ b) o = to_katakana_with_opt E (a ++ b) o) /\
       (~ typeable_on shown -> to_katakana_with_opt E (shown ++ b) o = Ok (shown ++ b))) /\
    (forall convert goes_on,
       (convert = to_hiragana_with_opt E /\ forall shown, goes_on shown <-> typeable_on shown \/ starts_with_punct shown)
       \/ (convert = to_katakana_with_opt E /\ forall shown, goes_on shown <-> typeable_on shown) ->
       forall chunks, Forall ascii (concat chunks) ->
       let typed := fold_left (fun shown typed => match shown with
                                                  | Ok text => convert (text ++ typed) o
                                                  | failed => failed
                                                  end) chunks (Ok []) in
       let all_go_on l := forall a b shown, l = a ++ b -> b <> [] -> convert (concat a) o = Ok shown -> goes_on shown in
       (all_go_on chunks -> typed = convert (concat chunks) o) /\
       (forall before after shown, chunks = before ++ after -> all_go_on before ->
          convert (concat before) o = Ok shown -> ~ goes_on shown ->
          typed = Ok (shown ++ concat after) /\
          (typed = convert (concat chunks) o <->
             (forall c, In c (concat after) -> ~ upper_letter c) /\ untouched Ime (shown ++ concat after))) /\
       (all_go_on chunks \/ exists before after shown, chunks = before ++ after /\ all_go_on before /\
          convert (concat before) o = Ok shown /\ ~ goes_on shown) /\
       ((forall c, In c (concat chunks) -> ~ In c typed_punctuation) -> typed = convert (concat chunks) o)).
Proof.
  intros E HE o I1 I2 P. assert (M : mode_of o = Ime) by (unfold mode_of; now rewrite I2, I1). split; [|split].
  - intros a b shown F Q. apply hira_iff in Q; [|exact HE]. subst shown. apply Forall_app in F. destruct F as [Fa Fb].
    rewrite !to_hiragana_with_opt_eq by exact HE. destruct (hira_typed E HE o P M a b Fa Fb) as [H1 H2].
    split; intro H; f_equal; auto.
  - intros a b shown F Q. apply kata_iff in Q; [|exact HE]. subst shown. apply Forall_app in F. destruct F as [Fa Fb].
    rewrite !to_katakana_with_opt_eq by exact HE. destruct (kata_typed E HE o P M a b Fa Fb) as [H1 H2].
    split; intro H; f_equal; auto.
  - intros convert goes_on C chunks F.
    assert (exists f, (forall s, convert s o = Ok (f s)) /\ f [] = [] /\
      (forall a b, Forall ascii a -> Forall ascii b -> goes_on (f a) -> f (f a ++ b) = f (a ++ b)) /\
      (forall a b, Forall ascii a -> Forall ascii b -> ~ goes_on (f a) -> f (f a ++ b) = f a ++ b) /\
      (forall a b, Forall ascii a -> Forall ascii b -> f (a ++ b) = f a ++ b <->
         (forall c, In c b -> ~ upper_letter c) /\ untouched Ime (f a ++ b)) /\
      (forall s, goes_on (f s) \/ ~ goes_on (f s)) /\
      (forall s, Forall ascii s -> (forall c, In c s -> ~ In c typed_punctuation) -> goes_on (f s))) as (f & G & Z & T1 & T2 & T3 & D & K).
    { destruct C as [[-> C]|[-> C]].
      - exists (hira_pure E o). split; [intro s; now apply to_hiragana_with_opt_eq|]. split; [unfold hira_pure; now rewrite P|].
        split; [|split; [|split; [|split]]].
        + intros a b Fa Fb Y. apply (hira_typed E HE o P M a b Fa Fb). now apply C.
        + intros a b Fa Fb Y. apply (hira_typed E HE o P M a b Fa Fb). intro X. now apply Y, C.
        + intros a b. now apply hira_stuck.
        + intro s. rewrite C. destruct (typeable_dec (hira_pure E o s)) as [Y|Y]; [now left; left|].
          destruct (first_punct (hira_pure E o s)) eqn:Q.
          * left. right. now apply first_punct_spec.
          * right. intros [X|X]; [auto|]. apply first_punct_spec in X. congruence.
        + intros s Fs Y. apply C. left. now apply hira_plain_typeable.
      - exists (kata_pure E o). split; [intro s; now apply to_katakana_with_opt_eq|]. split; [unfold kata_pure; now rewrite P|].
        split; [|split; [|split; [|split]]].
        + intros a b Fa Fb Y. apply (kata_typed E HE o P M a b Fa Fb). now apply C.
        + intros a b Fa Fb Y. apply (kata_typed E HE o P M a b Fa Fb). intro X. now apply Y, C.
        + intros a b. now apply kata_stuck.
        + intro s. rewrite C. apply typeable_dec.
        + intros s Fs Y. apply C. now apply kata_plain_typeable. }
    intros typed all_go_on.
    assert (Q0 : typed = Ok (fold_left (fun shown typed => f (shown ++ typed)) chunks (f []))).
    { unfold typed. rewrite Z. apply (fold_ok (fun s => convert s o) f G). }
    assert (Go : forall l, Forall ascii (concat l) -> all_go_on l ->
              fold_left (fun shown typed => f (shown ++ typed)) l (f []) = f (concat l)).
    { intros l Fl H. apply (fold_on f goes_on T1 l []); [exact Fl|]. intros a b -> B. exact (H a b _ eq_refl B (G _)). }
    rewrite Q0, !G. split; [|split; [|split]].
    + intro H. f_equal. now apply Go.
    + intros before after shown -> H Q N. rewrite G in Q. injection Q as <-. rewrite concat_app in F |- *.
      apply Forall_app in F. destruct F as [Fb Fa]. rewrite fold_left_app, (Go before Fb H).
      assert (S : fold_left (fun shown typed => f (shown ++ typed)) after (f (concat before)) = f (concat before) ++ concat after).
      { rewrite <- (app_nil_r (f (concat before))) at 1. apply (fold_stuck f (concat before)); [|exact Fa].
        intros b Fb'. now apply T2. }
      rewrite S. split; [reflexivity|]. rewrite <- (T3 _ _ Fb Fa). split; [now intros [= ->]|now intros ->].
    + destruct (first_stuck (fun l => goes_on (f (concat l))) (fun l => D (concat l)) chunks) as [H|(a & b & Q & H & N)].
      * left. intros a b shown Q B R. rewrite G in R. injection R as <-. now apply (H a b).
      * right. exists a, b, (f (concat a)). split; [exact Q|]. split; [|split; [apply G|exact N]].
        intros a' b' shown Q' B R. rewrite G in R. injection R as <-. now apply (H a' b').
    + intro H. f_equal. apply Go; [exact F|]. intros a b shown -> _ R. rewrite G in R. injection R as <-.
      rewrite concat_app in F, H. apply Forall_app in F. destruct F as [F _]. apply K; [exact F|]. intros c J. apply H.
      apply in_or_app. now left.
Qed.

Lemma C72_typing_refuted_proof :
  let ime := Build_options false false false true in
  Forall ascii (u "[ka") /\
  (forall E, std_ok E -> forall convert, convert = to_hiragana_with_opt E \/ convert = to_katakana_with_opt E ->
     exists batch, convert (u "[ka") ime = Ok batch /\
     fold_left (fun shown typed => match shown with
                                   | Ok text => convert (text ++ typed) ime
                                   | failed => failed
                                   end) (map (fun c => [c]) (u "[ka")) (Ok []) <> Ok batch).
Proof.
  intro ime. split; [repeat constructor; vm_compute; reflexivity|]. intros E HE convert C.
  assert (P : pass_romaji ime = false) by reflexivity. assert (M : mode_of ime = Ime) by reflexivity.
  assert (A : Forall ascii (u "[ka")) by (repeat constructor; vm_compute; reflexivity).
  assert (A1 : Forall ascii (u "[")) by (repeat constructor; vm_compute; reflexivity).
  change (map (fun c => [c]) (u "[ka")) with [u "["; u "k"; u "a"].
  destruct C as [-> | ->].
  - exists (conv Ime (u "[ka")). rewrite to_hiragana_with_opt_eq, (hira_ascii E HE ime P M _ A) by exact HE.
    split; [reflexivity|]. rewrite (fold_ok (fun s => to_hiragana_with_opt E s ime) (hira_pure E ime))
      by (intro s; now apply to_hiragana_with_opt_eq).
    cbn [fold_left app]. rewrite (hira_ascii E HE ime P M _ A1).
    assert (Q1 : conv Ime (low (u "[")) = u "［") by (vm_compute; reflexivity). rewrite Q1.
    assert (H : forall s, is_mixed s = false -> is_romaji s = false -> first_punct s = false -> k2h E false s = s -> hira_pure E ime s = s).
    { intros s H1 H2 H3 H4. unfold hira_pure. now rewrite P, H1, H2, H3. }
    rewrite (H (u "［" ++ u "k")); [|vm_compute; reflexivity..|apply k2h_no_katakana; intros c [<-|[<-|[]]]; left; intro K; unfold katakana_letter in K; vm_compute in K; destruct K as [K1 K2]; congruence].
    rewrite (H ((u "［" ++ u "k") ++ u "a")); [|vm_compute; reflexivity..|apply k2h_no_katakana; intros c [<-|[<-|[<-|[]]]]; left; intro K; unfold katakana_letter in K; vm_compute in K; destruct K as [K1 K2]; congruence].
    vm_compute. intro Q. discriminate Q.
  - exists (h2k (conv Ime (u "[ka"))). rewrite to_katakana_with_opt_eq, (kata_ascii E HE ime P M _ A) by exact HE.
    split; [reflexivity|]. rewrite (fold_ok (fun s => to_katakana_with_opt E s ime) (kata_pure E ime))
      by (intro s; now apply to_katakana_with_opt_eq).
    cbn [fold_left app]. rewrite (kata_ascii E HE ime P M _ A1).
    assert (Q1 : h2k (conv Ime (low (u "["))) = u "［") by (vm_compute; reflexivity). rewrite Q1.
    assert (H : forall s, is_mixed s = false -> is_romaji s = false -> kata_pure E ime s = h2k s).
    { intros s H1 H2. unfold kata_pure. now rewrite P, H1, H2. }
    rewrite (H (u "［" ++ u "k")) by (vm_compute; reflexivity).
    rewrite (H (h2k (u "［" ++ u "k") ++ u "a")) by (vm_compute; reflexivity). vm_compute. intro Q. discriminate Q.
Qed.
