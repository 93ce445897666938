(** * Threads: every schedule gives the sequential results (proofs for C107) *)
From Coq Require Import Eqdep_dec.
From Verif Require Import Tac Base Std Constants Chars Trees KanaTreeData RomajiTreeData KanaTree RomajiTree Strings Tokenize Convert Threads ThreadsSpec.

(** ** The values of the statics and what a computation gives with them *)
Definition val (i : static) : contents i :=
  match i with
  | KanaT => TO_KANA_NODE_TREE | ObsoleteT => TO_KANA_NODE_TREE_OBSOLETE | ImeT => TO_KANA_NODE_TREE_IMEMODE
  | RomajiT => TO_ROMAJI_NODE_TREE | VowelM => LONG_VOWELS
  | JapaneseR => JAPANESE_RANGES | RomajiR => ROMAJI_RANGES | EnPunctR => EN_PUNCTUATION_RANGES
  end.
Fixpoint denote {A} (p : prog A) : res A := match p with Ret r => r | Use i k => denote (k (val i)) end.
Fixpoint uses {A} (p : prog A) : nat := match p with Ret _ => 0 | Use i k => S (uses (k (val i))) end.
Definition rank (i : static) : nat := match i with ObsoleteT | ImeT => 1 | _ => 0 end.
Fixpoint under {A} (n : nat) (p : prog A) : Prop := match p with Ret _ => True | Use i k => (rank i < n)%nat /\ under n (k (val i)) end.
Lemma under_two {A} (p : prog A) : under 2 p.
Proof. induction p as [r|i k IH]; cbn; [exact I|]. split; [destruct i; cbn; lia|apply IH]. Qed.
Lemma kana_value : k_sort (KNode kana_literal None) = TO_KANA_NODE_TREE.
Proof. vm_cast_no_check (eq_refl TO_KANA_NODE_TREE). Qed.
Lemma romaji_value : r_sort (RNode (Some romaji_literal) []) = TO_ROMAJI_NODE_TREE.
Proof. vm_cast_no_check (eq_refl TO_ROMAJI_NODE_TREE). Qed.
Lemma init_denote i : denote (init i) = Ok (val i).
Proof.
  destruct i; cbn [init denote pure val]; [rewrite <- kana_value; reflexivity|exact obsolete_init_ok|exact imemode_init_ok|rewrite <- romaji_value; reflexivity|reflexivity..].
Qed.
Lemma init_under i : under (rank i) (init i).
Proof. destruct i; cbn; auto. Qed.

(** ** The functions are those of the model *)
Lemma denote_bind {A B} (p : prog A) (f : A -> prog B) : denote (bindp p f) = bind (denote p) (fun a => denote (f a)).
Proof. induction p as [[a| |]|i k IH]; cbn; auto. Qed.
Lemma denote_if {A} (b : bool) (p q : prog A) : denote (if b then p else q) = if b then denote p else denote q.
Proof. now destruct b. Qed.
Lemma den_all {A} (f : A -> prog bool) (g : A -> bool) l : (forall x, denote (f x) = Ok (g x)) -> denote (all_p f l) = Ok (forallb g l).
Proof. intros H. induction l as [|x l IH]; [reflexivity|]. cbn. rewrite denote_bind, H. cbn. destruct (g x); [exact IH|reflexivity]. Qed.
Lemma den_any {A} (f : A -> prog bool) (g : A -> bool) l : (forall x, denote (f x) = Ok (g x)) -> denote (any_p f l) = Ok (existsb g l).
Proof. intros H. induction l as [|x l IH]; [reflexivity|]. cbn. rewrite denote_bind, H. cbn. destruct (g x); [reflexivity|exact IH]. Qed.
Lemma den_and p q a b : denote p = Ok a -> denote q = Ok b -> denote (and_p p q) = Ok (a && b).
Proof. intros P Q. unfold and_p. rewrite denote_bind, P. cbn. destruct a; [exact Q|reflexivity]. Qed.
Lemma den_or p q a b : denote p = Ok a -> denote q = Ok b -> denote (or_p p q) = Ok (a || b).
Proof. intros P Q. unfold or_p. rewrite denote_bind, P. cbn. destruct a; [reflexivity|exact Q]. Qed.
Lemma den_japanese s : denote (is_japanese_p s) = Ok (is_japanese s).
Proof. unfold is_japanese_p, is_japanese. destruct (is_empty s); [reflexivity|]. now apply den_all. Qed.
Lemma den_isromaji s : denote (is_romaji_p s) = Ok (is_romaji s).
Proof. unfold is_romaji_p, is_romaji. destruct (is_empty s); [reflexivity|]. now apply den_all. Qed.
Lemma den_mixed s k : denote (is_mixed_pass_kanji_p s k) = Ok (is_mixed_pass_kanji s k).
Proof. unfold is_mixed_pass_kanji_p, is_mixed_pass_kanji. apply den_and; [apply den_and; [reflexivity|now apply den_any]|reflexivity]. Qed.
Lemma den_static o : denote (kana_static o) = kana_tree o.
Proof. unfold kana_static, kana_tree. rewrite obsolete_init_ok, imemode_init_ok. destruct (use_obsolete_kana o), (imemode o); reflexivity. Qed.
Ltac den1 := rewrite denote_bind; cbn [denote];
  match goal with |- bind ?x _ = bind ?x _ => destruct x; cbn [bind]; [|reflexivity|reflexivity] end.
Lemma den_kana_loop E o chars : forall fuel i out, denote (to_kana_loop_p fuel E o chars i out) = to_kana_loop fuel E o chars i out.
Proof.
  induction fuel as [|fuel IH]; intros i out; [reflexivity|]. cbn [to_kana_loop_p to_kana_loop]. destruct (Nat.eqb i (length chars)); [reflexivity|].
  rewrite denote_bind, den_static. destruct (kana_tree o) as [tree| |]; cbn [bind]; try reflexivity.
  den1. cbv zeta. destruct (_ || _).
  - den1. apply IH.
  - den1. den1. destruct (forallb _ _); [den1|]; apply IH.
Qed.
Lemma den_kana E s o : denote (to_kana_p E s o) = to_kana_with_opt E s o.
Proof. apply den_kana_loop. Qed.
Lemma den_k2h_loop E d input : forall rest index pk hira,
  denote (k2h_loop_p E input d index pk rest hira) = k2h_loop E input d index pk rest hira.
Proof.
  induction rest as [|c rest IH]; intros index pk hira; [reflexivity|]. cbn [k2h_loop_p k2h_loop]. cbv zeta.
  destruct (_ || _ || _); [apply IH|].
  assert (G : denote (if negb (is_char_long_dash c) && is_char_katakana c
      then k2h_loop_p E input d (S index) (Some (hira_of_kata c)) rest (hira ++ [hira_of_kata c])
      else k2h_loop_p E input d (S index) None rest (hira ++ [c])) =
    (if negb (is_char_long_dash c) && is_char_katakana c
      then k2h_loop E input d (S index) (Some (hira_of_kata c)) rest (hira ++ [hira_of_kata c])
      else k2h_loop E input d (S index) None rest (hira ++ [c]))) by (destruct (_ && _); apply IH).
  destruct pk as [pk|]; [|exact G]. destruct (is_char_inner_long_dash c index); [|exact G]. clear G.
  rewrite denote_bind. cbn [denote pure bind val]. den1. destruct a as [node|]; [|apply IH].
  den1. destruct (match nth_error input _ with Some _ => _ | None => _ end); [apply IH|].
  destruct (last_char (rout node)) as [r|]; [|apply IH]. rewrite denote_bind. cbn [denote pure bind val].
  destruct (LONG_VOWELS r); apply IH.
Qed.
Lemma den_k2h E s d : denote (katakana_to_hiragana_p E s d) = katakana_to_hiragana_with_opt E s d.
Proof. apply den_k2h_loop. Qed.
Lemma den_hiragana E s o : denote (to_hiragana_p E s o) = to_hiragana_with_opt E s o.
Proof.
  unfold to_hiragana_p, to_hiragana_with_opt, katakana_to_hiragana, romaji_to_hiragana. destruct (pass_romaji o); [apply den_k2h|].
  rewrite denote_bind, den_mixed. cbn [bind]. fold (is_mixed s). destruct (is_mixed s).
  { rewrite denote_bind, den_k2h. destruct (katakana_to_hiragana_with_opt E s false); cbn [bind]; [apply den_kana|reflexivity|reflexivity]. }
  rewrite denote_bind.
  rewrite (den_or _ _ (is_romaji s) (match option_map is_char_english_punctuation (nth_error s 0) with Some b => b | None => false end)
    (den_isromaji s)) by (destruct s; reflexivity). cbn [bind].
  destruct (_ || _); [apply den_kana|apply den_k2h].
Qed.
Lemma den_katakana E s o : denote (to_katakana_p E s o) = to_katakana_with_opt E s o.
Proof.
  unfold to_katakana_p, to_katakana_with_opt, romaji_to_hiragana. destruct (pass_romaji o); [reflexivity|].
  rewrite denote_bind, (den_or _ _ _ _ (den_isromaji s) (den_mixed s true)). cbn [bind]. fold (is_mixed s).
  destruct (_ || _); [|reflexivity]. rewrite denote_bind, den_kana. reflexivity.
Qed.
Lemma den_romaji_loop E o orig chars : forall fuel i out, denote (to_romaji_loop_p fuel E o orig chars i out) = to_romaji_loop fuel E o orig chars i out.
Proof.
  induction fuel as [|fuel IH]; intros i out; [reflexivity|]. cbn [to_romaji_loop_p to_romaji_loop]. destruct (Nat.eqb i (length chars)); [reflexivity|].
  rewrite denote_bind. cbn [denote pure bind val]. den1. den1. destruct (Nat.eqb _ 0); den1; cbv zeta; apply IH.
Qed.
Lemma den_romaji E s o : denote (to_romaji_p E s o) = to_romaji_with_opt E s o.
Proof.
  unfold to_romaji_p, to_romaji_with_opt. rewrite denote_bind, den_k2h.
  destruct (katakana_to_hiragana_with_opt E s true); cbn [bind]; [apply den_romaji_loop|reflexivity|reflexivity].
Qed.
Lemma den_cj c : denote (is_char_japanese_p c) = Ok (is_char_japanese c).
Proof. reflexivity. Qed.
Lemma den_cr c : denote (is_char_romaji_p c) = Ok (is_char_romaji c).
Proof. reflexivity. Qed.
Lemma den_ce c : denote (is_char_english_punctuation_p c) = Ok (is_char_english_punctuation c).
Proof. reflexivity. Qed.
Lemma den_pure {A} (a : A) : denote (pure a) = Ok a.
Proof. reflexivity. Qed.
Lemma den_type c k : denote (get_type_p c k) = Ok (get_type c k).
Proof.
  assert (En2 : denote (en <<- is_char_romaji_p c ;; if (en : bool) then pure En else pure Other) = Ok (if is_char_romaji c then En else Other)).
  { rewrite denote_bind, den_cr. cbn [bind]. now destruct (is_char_romaji c). }
  unfold get_type_p, get_type. destruct k.
  - destruct (c =? ch " "); [reflexivity|]. destruct (c =? 0x3000); [reflexivity|].
    rewrite denote_bind, (den_or _ _ _ _ (den_or _ _ _ _ (den_pure _) (den_ce c)) (den_pure _)). cbn [bind]. destruct (_ || _); [reflexivity|].
    rewrite denote_bind, den_cj. cbn [bind]. destruct (is_char_japanese c); [reflexivity|exact En2].
  - destruct (c =? ch " "); [reflexivity|]. destruct (c =? 0x3000); [reflexivity|]. destruct (is_char_japanese_number c); [reflexivity|].
    destruct (is_char_latin_number c); [reflexivity|]. rewrite denote_bind, den_ce. cbn [bind].
    destruct (is_char_english_punctuation c); [reflexivity|]. destruct (is_char_japanese_punctuation c); [reflexivity|]. destruct (is_char_kanji c); [reflexivity|].
    destruct (is_char_hiragana c); [reflexivity|]. destruct (is_char_katakana c); [reflexivity|].
    rewrite denote_bind, den_cj. cbn [bind]. destruct (is_char_japanese c); [reflexivity|exact En2].
Qed.
Lemma den_keys {A K} (f : A -> prog K) (g : A -> K) l : (forall x, denote (f x) = Ok (g x)) -> denote (keys_p f l) = Ok (map (fun x => (g x, x)) l).
Proof. intros H. induction l as [|x l IH]; [reflexivity|]. cbn. rewrite denote_bind, H. cbn. rewrite denote_bind, IH. reflexivity. Qed.

Lemma groups_keyed {A K} (eqb : K -> K -> bool) (key : A -> K) l :
  map (fun g => (fst g, map snd (snd g))) (group_by eqb fst (map (fun a => (key a, a)) l)) = group_by eqb key l.
Proof.
  induction l as [|a l IH]; [reflexivity|]. cbn [map group_by fst]. rewrite <- IH.
  destruct (group_by eqb fst (map (fun a0 => (key a0, a0)) l)) as [|[k g] gs]; [reflexivity|]. cbn [map fst snd].
  destruct (eqb _ _); reflexivity.
Qed.
Lemma den_tokens s k : denote (tokenize_p s k) = Ok (tokenize_with_opt s k).
Proof.
  unfold tokenize_p, tokenize_with_opt. rewrite denote_bind, (den_keys _ (fun c => get_type c k)) by (intro; apply den_type).
  cbn [bind denote pure]. rewrite <- (groups_keyed token_type_eqb (fun c => get_type c k)), map_map. reflexivity.
Qed.
Lemma den_trim s f m : denote (trim_okurigana_p s f m) = trim_okurigana_with_opt s f m.
Proof.
  unfold trim_okurigana_p, trim_okurigana_with_opt. rewrite denote_bind, den_japanese. cbn [bind]. destruct (negb _); [reflexivity|].
  den1. destruct a; [reflexivity|]. den1. destruct a; [reflexivity|]. destruct (is_invalid_matcher s m); [reflexivity|].
  rewrite denote_bind, den_tokens. cbn [bind denote]. unfold tokenize. destruct m; reflexivity.
Qed.
Lemma den_call E c : denote (call_p E c) = answer_of E c.
Proof.
  destruct c; cbn [call_p answer_of]; rewrite denote_bind; rewrite ?den_kana, ?den_hiragana, ?den_katakana, ?den_romaji, ?den_japanese, ?den_isromaji, ?den_mixed, ?den_tokens, ?den_trim; try reflexivity;
  match goal with |- bind ?x _ = _ => destruct x; reflexivity end.
Qed.
Lemma den_calls E cs : denote (calls_p E cs) = answers E cs.
Proof.
  induction cs as [|c cs IH]; [reflexivity|]. cbn [calls_p answers]. rewrite denote_bind, den_call. destruct (answer_of E c); cbn [bind]; try reflexivity.
  rewrite denote_bind, IH. destruct (answers E cs); reflexivity.
Qed.

(** ** Memory *)
Lemma store_same m i c : store m i c i = c.
Proof.
  unfold store. destruct (static_eq_dec i i) as [e|n]; [|congruence]. rewrite (UIP_dec static_eq_dec e eq_refl). reflexivity.
Qed.
Lemma store_other m i c j : i <> j -> store m i c j = m j.
Proof. intros H. unfold store. destruct (static_eq_dec i j); [congruence|reflexivity]. Qed.

(** ** One thread *)
(** the running computation and all waiting ones are on their way to the right values, and read only statics of lower rank *)
Fixpoint fine (goal : res (list answer)) {B} (fs : frames B) : prog B -> Prop :=
  match fs with
  | Bottom => fun p => denote p = goal
  | Push i k fs' => fun p => denote p = Ok (val i) /\ under (rank i) p /\ fine goal fs' (Use i k)
  end.
Fixpoint inside {B} (fs : frames B) : list static := match fs with Bottom => [] | Push i k fs' => i :: inside fs' end.
Fixpoint left_to_do {B} (fs : frames B) : prog B -> nat :=
  match fs with Bottom => fun p => uses p | Push i k fs' => fun p => (uses p + S (left_to_do fs' (k (val i))))%nat end.
Lemma fine_read goal {B} (fs : frames B) i k : fine goal fs (Use i k) -> fine goal fs (k (val i)).
Proof. destruct fs; cbn; [auto|]. intros (A & [_ U] & F). auto. Qed.
Lemma to_do_read {B} (fs : frames B) i k : left_to_do fs (Use i k) = S (left_to_do fs (k (val i))).
Proof. destruct fs; reflexivity. Qed.
Lemma fine_low goal {B} (fs : frames B) i k : fine goal fs (Use i k) -> forall j, In j (inside fs) -> (rank i < rank j)%nat.
Proof.
  revert i k. induction fs as [|j B k' fs IH]; intros i k F x X; [destruct X|]. cbn in F. destruct F as (_ & [R _] & F). destruct X as [<-|X]; [exact R|].
  specialize (IH j k' F x X). lia.
Qed.
(** the program of a thread, and what it is waiting for *)
Definition thread_fine (goal : res (list answer)) (th : thread) : Prop := match th with Thread p fs => fine goal fs p end.
Definition holds (th : thread) : list static := match th with Thread _ fs => inside fs end.
Definition rest (th : thread) : nat := match th with Thread p fs => left_to_do fs p end.

(** ** All threads *)
Definition weight (m : memory) (i : static) : nat := match m i with Empty => S (uses (init i)) | _ => 0 end.
Definition statics : list static := [KanaT; ObsoleteT; ImeT; RomajiT; VowelM; JapaneseR; RomajiR; EnPunctR].
Definition total (st : state) : nat := (list_sum (map rest (snd st)) + list_sum (map (weight (fst st)) statics))%nat.
Record good (E : std) (css : list (list call)) (st : state) : Prop := {
  g_threads : forall t cs, nth_error css t = Some cs -> exists th, nth_error (snd st) t = Some th /\ thread_fine (answers E cs) th;
  g_same : length (snd st) = length css;
  g_held : forall t th i, nth_error (snd st) t = Some th -> In i (holds th) -> fst st i = Busy t;
  g_busy : forall i t, fst st i = Busy t -> exists th, nth_error (snd st) t = Some th /\ In i (holds th);
  g_done : forall i v, fst st i = Done v -> v = val i;
  g_clean : forall i, fst st i <> Poisoned
}.
Lemma good_start E css : good E css (start E css).
Proof.
  constructor; cbn [start fst snd]; try discriminate.
  - intros t cs H. exists (Thread (calls_p E cs) Bottom). split; [now apply map_nth_error with (f := fun cs => Thread (calls_p E cs) Bottom)|apply den_calls].
  - apply map_length.
  - intros t th i H I. rewrite nth_error_map in H. destruct (nth_error css t); [injection H as <-|discriminate]. destruct I.
Qed.
Lemma replace_same {A} (l : list A) t x y : nth_error l t = Some y -> nth_error (replace l t x) t = Some x.
Proof. revert t. induction l as [|z l IH]; intros [|t] H; try discriminate; [reflexivity|]. now apply IH. Qed.
Lemma replace_other {A} (l : list A) t x t' : t <> t' -> nth_error (replace l t x) t' = nth_error l t'.
Proof. revert t t'. induction l as [|z l IH]; intros [|t] [|t'] H; try reflexivity; try congruence. apply IH. congruence. Qed.
Lemma replace_length {A} (l : list A) t x : length (replace l t x) = length l.
Proof. revert t. induction l as [|z l IH]; intros [|t]; cbn; auto. Qed.
Lemma replace_sum {A} (f : A -> nat) (l : list A) t x y : nth_error l t = Some y -> (list_sum (map f (replace l t x)) + f y = list_sum (map f l) + f x)%nat.
Proof.
  revert t. induction l as [|z l IH]; intros [|t] H; try discriminate.
  - injection H as <-. unfold list_sum. cbn. lia.
  - specialize (IH t H). unfold list_sum in *. cbn. lia.
Qed.
Lemma weight_store m i c : (list_sum (map (weight (store m i c)) statics) + weight m i = list_sum (map (weight m) statics) + match c with Empty => S (uses (init i)) | _ => 0 end)%nat.
Proof.
  assert (W : forall j, weight (store m i c) j = if static_eq_dec i j then match c with Empty => S (uses (init i)) | _ => 0%nat end else weight m j).
  { intros j. unfold weight. destruct (static_eq_dec i j) as [<-|D]; [now rewrite store_same|now rewrite store_other]. }
  unfold statics, list_sum. cbn [map fold_right]. rewrite !W. destruct i; cbn [static_eq_dec static_rec static_rect]; repeat match goal with |- context [if ?d then _ else _] => destruct d; try congruence end; lia.
Qed.
Lemma good_same E css m ths t th th' goal : good E css (m, ths) -> nth_error ths t = Some th ->
  (forall cs, nth_error css t = Some cs -> goal = answers E cs) -> thread_fine goal th' -> holds th' = holds th -> good E css (m, replace ths t th').
Proof.
  intros G T Q F H. destruct G as [G1 G2 G3 G4 G5 G6]. cbn [fst snd] in *. constructor; cbn [fst snd]; auto.
  - intros t' cs C. destruct (Nat.eq_dec t t') as [<-|D].
    + exists th'. split; [now apply replace_same with th|]. now rewrite <- (Q cs C).
    + rewrite replace_other by exact D. auto.
  - now rewrite replace_length.
  - intros t' th1 i T' I. destruct (Nat.eq_dec t t') as [<-|D].
    + rewrite (replace_same _ _ _ th) in T' by exact T. injection T' as <-. rewrite H in I. eauto.
    + rewrite replace_other in T' by exact D. eauto.
  - intros i t' B. destruct (G4 i t' B) as (th1 & T1 & I). destruct (Nat.eq_dec t t') as [<-|D].
    + exists th'. split; [now apply replace_same with th|]. rewrite H. congruence.
    + exists th1. now rewrite replace_other.
Qed.
Lemma good_begin E css m ths t th th' goal i : good E css (m, ths) -> nth_error ths t = Some th ->
  (forall cs, nth_error css t = Some cs -> goal = answers E cs) -> thread_fine goal th' -> m i = Empty -> holds th' = i :: holds th ->
  good E css (store m i (Busy t), replace ths t th').
Proof.
  intros G T Q F Mi H. destruct G as [G1 G2 G3 G4 G5 G6]. cbn [fst snd] in *. constructor; cbn [fst snd].
  - intros t' cs C. destruct (Nat.eq_dec t t') as [<-|D].
    + exists th'. split; [now apply replace_same with th|]. now rewrite <- (Q cs C).
    + rewrite replace_other by exact D. auto.
  - now rewrite replace_length.
  - intros t' th1 j T' I. destruct (Nat.eq_dec t t') as [<-|D].
    + rewrite (replace_same _ _ _ th) in T' by exact T. injection T' as <-. rewrite H in I. destruct I as [<-|I]; [apply store_same|].
      rewrite store_other; [eauto|]. intros <-. specialize (G3 t th i T I). congruence.
    + rewrite replace_other in T' by exact D. rewrite store_other; [eauto|]. intros <-. specialize (G3 t' th1 i T' I). congruence.
  - intros j t' B. destruct (static_eq_dec i j) as [<-|D].
    + rewrite store_same in B. injection B as <-. exists th'. split; [now apply replace_same with th|]. rewrite H. now left.
    + rewrite store_other in B by exact D. destruct (G4 j t' B) as (th1 & T1 & I). destruct (Nat.eq_dec t t') as [<-|D'].
      * exists th'. split; [now apply replace_same with th|]. rewrite H. right. congruence.
      * exists th1. now rewrite replace_other.
  - intros j v B. destruct (static_eq_dec i j) as [<-|D]; [rewrite store_same in B; discriminate|]. rewrite store_other in B by exact D. auto.
  - intros j B. destruct (static_eq_dec i j) as [<-|D]; [rewrite store_same in B; discriminate|]. rewrite store_other in B by exact D. exact (G6 j B).
Qed.
Lemma good_end E css m ths t th th' goal i : good E css (m, ths) -> nth_error ths t = Some th ->
  (forall cs, nth_error css t = Some cs -> goal = answers E cs) -> thread_fine goal th' -> holds th = i :: holds th' -> ~ In i (holds th') ->
  good E css (store m i (Done (val i)), replace ths t th').
Proof.
  intros G T Q F H Nin. destruct G as [G1 G2 G3 G4 G5 G6]. cbn [fst snd] in *.
  assert (Mi : m i = Busy t) by (apply (G3 t th i T); rewrite H; now left).
  constructor; cbn [fst snd].
  - intros t' cs C. destruct (Nat.eq_dec t t') as [<-|D].
    + exists th'. split; [now apply replace_same with th|]. now rewrite <- (Q cs C).
    + rewrite replace_other by exact D. auto.
  - now rewrite replace_length.
  - intros t' th1 j T' I. destruct (Nat.eq_dec t t') as [<-|D].
    + rewrite (replace_same _ _ _ th) in T' by exact T. injection T' as <-.
      rewrite store_other by (intros <-; exact (Nin I)). apply (G3 t th j T). rewrite H. now right.
    + rewrite replace_other in T' by exact D. rewrite store_other; [eauto|]. intros <-. specialize (G3 t' th1 i T' I). congruence.
  - intros j t' B. destruct (static_eq_dec i j) as [<-|D]; [rewrite store_same in B; discriminate|].
    rewrite store_other in B by exact D. destruct (G4 j t' B) as (th1 & T1 & I). destruct (Nat.eq_dec t t') as [<-|D'].
    + exists th'. split; [now apply replace_same with th|]. assert (th1 = th) by congruence. subst th1. rewrite H in I. destruct I as [I|I]; [congruence|exact I].
    + exists th1. now rewrite replace_other.
  - intros j v B. destruct (static_eq_dec i j) as [<-|D]; [rewrite store_same in B; congruence|]. rewrite store_other in B by exact D. auto.
  - intros j B. destruct (static_eq_dec i j) as [<-|D]; [rewrite store_same in B; discriminate|]. rewrite store_other in B by exact D. exact (G6 j B).
Qed.
Lemma nth_some {A} (l : list A) t : (t < length l)%nat -> exists x, nth_error l t = Some x.
Proof. intros H. destruct (nth_error l t) as [x|] eqn:Q; [eauto|]. apply nth_error_None in Q. lia. Qed.
Lemma good_step E css st ev st' : good E css st -> step st ev st' ->
  good E css st' /\ total st = S (total st')
  /\ (forall i, fst st i <> Empty -> fst st' i <> Empty) /\ (forall i, ev = Some i -> fst st i = Empty /\ fst st' i <> Empty).
Proof.
  destruct st as [m ths]. intros G (t & th & m' & th' & T & A & ->). cbn [fst snd] in *.
  assert (L : (t < length css)%nat) by (pose proof (g_same _ _ _ G) as S; cbn in S; rewrite <- S; apply nth_error_Some; congruence).
  destruct (nth_some css t L) as (cs & C). destruct (g_threads _ _ _ G t cs C) as (th0 & T0 & F). cbn in T0. assert (th0 = th) by congruence. subst th0.
  assert (Q : forall cs', nth_error css t = Some cs' -> answers E cs = answers E cs') by (intros cs' C'; congruence).
  assert (Sum := fun x => replace_sum rest ths t x th T). specialize (Sum th'). unfold total. cbn [fst snd].
  destruct th as [T1 p fs]. destruct p as [r|i k].
  - (* an initialiser returns *)
    destruct fs as [|i B k fs]; [discriminate|]. cbn in F. destruct F as (-> & _ & F). cbn [advance] in A. injection A as <- <- <-.
    assert (Low := fine_low _ fs i k F).
    split; [|split; [|split]].
    + apply (good_end E css m ths t _ _ _ i G T Q); [now apply fine_read|reflexivity|]. intros I. specialize (Low i I). lia.
    + pose proof (weight_store m i (Done (val i))) as W. cbn [rest left_to_do uses] in Sum.
      assert (Z : weight m i = 0%nat) by (unfold weight; rewrite (g_held _ _ _ G t _ i T (or_introl eq_refl) : m i = Busy t); reflexivity). rewrite Z in W.
      cbn [uses] in Sum. lia.
    + intros j H. destruct (static_eq_dec i j) as [<-|D]; [rewrite store_same; discriminate|now rewrite store_other].
    + discriminate.
  - (* a static is read *)
    cbn [thread_fine] in F. cbn [advance] in A. destruct (m i) as [|t2|v|] eqn:Mi; [| discriminate | | ].
    + injection A as <- <- <-. split; [|split; [|split]].
      * apply (good_begin E css m ths t _ _ _ i G T Q); [|exact Mi|reflexivity]. cbn. split; [apply init_denote|]. split; [apply init_under|exact F].
      * pose proof (weight_store m i (Busy t)) as W. assert (Z : weight m i = S (uses (init i))) by (unfold weight; now rewrite Mi). rewrite Z in W.
        cbn [rest] in Sum. rewrite to_do_read in Sum. cbn [left_to_do] in Sum. lia.
      * intros j H. destruct (static_eq_dec i j) as [<-|D]; [rewrite store_same; discriminate|now rewrite store_other].
      * intros j [= <-]. rewrite store_same. split; [exact Mi|discriminate].
    + injection A as <- <- <-. pose proof (g_done _ _ _ G i v Mi) as ->. split; [|split; [|split]]; auto; try discriminate.
      * apply (good_same E css m ths t _ _ _ G T Q); [now apply fine_read|reflexivity].
      * cbn [rest] in Sum. rewrite to_do_read in Sum. lia.
    + destruct (g_clean _ _ _ G i Mi).
Qed.
Lemma run_good E css evs st : run E css evs st ->
  good E css st /\ (length evs + total st = total (start E css))%nat
  /\ (forall i, (starts i evs <= 1)%nat /\ (In (Some i) evs -> fst st i <> Empty)).
Proof.
  induction 1 as [|evs ev st st' R (G & L & O) S].
  - split; [apply good_start|]. split; [reflexivity|]. intros i. split; [cbn; lia|intros []].
  - destruct (good_step E css st ev st' G S) as (G' & D & K & N). split; [exact G'|]. split; [cbn [length]; lia|].
    intros i. destruct (O i) as [O1 O2]. split.
    + unfold starts in *. cbn [filter]. destruct ev as [j|]; [|exact O1]. destruct (static_eq_dec i j) as [<-|D']; [|exact O1].
      destruct (N i eq_refl) as [X1 _]. cbn [length].
      assert (Z : filter (fun ev => match ev with Some j => if static_eq_dec i j then true else false | None => false end) evs = []).
      { destruct (filter _ evs) as [|x l] eqn:Fl; [reflexivity|]. exfalso. assert (I : In x (x :: l)) by now left. rewrite <- Fl in I. apply filter_In in I as [I X].
        destruct x as [j|]; [|discriminate]. destruct (static_eq_dec i j) as [<-|]; [|discriminate]. exact (O2 I X1). }
      rewrite Z. cbn. lia.
    + intros [X|I]; [apply (N i X)|apply K, O2, I].
Qed.

(** ** No deadlock *)
Definition wants (th : thread) (i : static) : Prop := match th with Thread (Use j _) _ => i = j | _ => False end.
Lemma stuck E css st : good E css st -> (forall ev st', ~ step st ev st') -> forall t cs, nth_error css t = Some cs -> done_with st t (answers E cs).
Proof.
  destruct st as [m ths]. intros G Stuck.
  assert (Cases : forall t cs, nth_error css t = Some cs -> exists th, nth_error ths t = Some th /\ thread_fine (answers E cs) th /\
     (finished th (answers E cs) \/ exists i t', wants th i /\ m i = Busy t')).
  { intros t cs C. destruct (g_threads _ _ _ G t cs C) as (th & T & F). cbn in T. exists th. split; [exact T|]. split; [exact F|].
    assert (A : forall x, advance t m th <> Some x).
    { intros [[ev m'] th'] A. apply (Stuck ev (m', replace ths t th')). exists t, th, m', th'. auto. }
    destruct th as [T1 p fs]. destruct p as [r|i k].
    - destruct fs as [|i B k fs]; [left; unfold finished; cbn in F; now rewrite F|]. cbn in F. destruct F as (-> & _). cbn in A. now apply A in eq_refl || (exfalso; eapply A; reflexivity).
    - right. cbn [advance] in A. destruct (m i) as [|t2|v|] eqn:Mi; [exfalso; eapply A; reflexivity| |exfalso; eapply A; reflexivity|exfalso; eapply A; reflexivity].
      exists i, t2. split; [reflexivity|exact Mi]. }
  (* a waiting thread waits for one that waits for a static of lower rank *)
  assert (Down : forall n i t, (rank i <= n)%nat -> m i = Busy t -> False).
  { induction n as [n IH] using (well_founded_induction Wf_nat.lt_wf). intros i t Rn B. destruct (g_busy _ _ _ G i t B) as (th & T & I). cbn in T.
    assert (L : (t < length css)%nat) by (pose proof (g_same _ _ _ G) as S; cbn in S; rewrite <- S; apply nth_error_Some; congruence).
    destruct (nth_some css t L) as (cs & C). destruct (Cases t cs C) as (th' & T' & F & [Fi|(j & t' & W & B')]); assert (th' = th) by congruence; subst th'.
    - unfold finished in Fi. subst th. destruct I.
    - destruct th as [T1 p fs]. destruct p as [r|j0 k]; [destruct W|]. cbn in W. subst j0. cbn [thread_fine] in F. cbn [holds] in I.
      pose proof (fine_low _ fs j k F i I) as R. exact (IH (rank j) ltac:(lia) j t' (le_n _) B'). }
  intros t cs C. destruct (Cases t cs C) as (th & T & F & [Fi|(i & t' & _ & B)]).
  - exists th. auto.
  - destruct (Down (rank i) i t' (le_n _) B).
Qed.
Lemma done_right E css st t cs r : good E css st -> nth_error css t = Some cs -> done_with st t r -> r = answers E cs.
Proof.
  intros G C (th & T & ->). destruct (g_threads _ _ _ G t cs C) as (th' & T' & F). assert (th' = Thread (Ret r) Bottom) by congruence. subst th'. exact F.
Qed.
Lemma some_step st : (exists ev st', step st ev st') \/ (forall ev st', ~ step st ev st').
Proof.
  destruct st as [m ths].
  assert (H : (exists t th x, nth_error ths t = Some th /\ advance t m th = Some x) \/ (forall t th, nth_error ths t = Some th -> advance t m th = None)).
  { assert (P : forall k, (k <= length ths)%nat -> (exists t th x, nth_error ths t = Some th /\ advance t m th = Some x) \/ (forall t th, (t < k)%nat -> nth_error ths t = Some th -> advance t m th = None)).
    { induction k as [|k IH]; intros L; [right; intros; lia|]. destruct (IH ltac:(lia)) as [X|X]; [now left|].
      destruct (nth_some ths k ltac:(lia)) as (th & T). destruct (advance k m th) as [x|] eqn:A; [left; eauto|]. right. intros t th' Lt T'.
      destruct (Nat.eq_dec t k) as [->|D]; [congruence|]. apply (X t th'); [lia|exact T']. }
    destruct (P (length ths) (le_n _)) as [X|X]; [now left|]. right. intros t th T. apply (X t th); [|exact T]. apply nth_error_Some. congruence. }
  destruct H as [(t & th & [[ev m'] th'] & T & A)|H].
  - left. exists ev, (m', replace ths t th'). exists t, th, m', th'. auto.
  - right. intros ev st' (t & th & m' & th' & T & A & _). cbn in *. rewrite (H t th T) in A. discriminate.
Qed.
