(** * A change in a text changes its kana only nearby (C94) *)
From Coq Require Import PeanoNat.
From Verif Require Import Tac Base Std Constants Chars Trees KanaTree Strings Convert
  KanaPure KanaSpec KanaDict KanaProofs MoraProofs Splits KanaJoinSpec KanaJoin.

(** ** Facts about the dictionaries *)
Definition isc (c : N) : Prop := In (ascii_lower c) cons.
Lemma isc_dec c : isc c \/ ~ isc c.
Proof.
  unfold isc. destruct (existsb (N.eqb (ascii_lower c)) cons) eqn:E; [left; now apply existsb_In|right].
  intro I. apply existsb_In in I. congruence.
Qed.
Definition len_ok (m : mode) : bool := forallb (fun e => Nat.leb (length (fst e)) 5) (dict m).
Lemma len_ok_true m : len_ok m = true.
Proof. destruct m; vm_compute; reflexivity. Qed.
Lemma key_len m k v : entry m k v -> (length k <= 5)%nat.
Proof. intro I. pose proof (len_ok_true m) as F. unfold len_ok in F. rewrite forallb_forall in F. specialize (F _ I). now apply Nat.leb_le. Qed.
(** y in front of a consonant *)
Fixpoint y_inside (k : str) : bool :=
  match k with
  | c :: ((d :: _) as r) => (c =? ch "y") && existsb (N.eqb d) cons || y_inside r
  | _ => false
  end.
Definition y_ok (m : mode) : bool :=
  forallb (fun e => negb (y_inside (fst e)) ||
                    match fst e with a :: r => (a =? ch "y") && negb (y_inside r) && Nat.eqb (length r) 2 | [] => false end) (dict m).
Lemma y_ok_true m : y_ok m = true.
Proof. destruct m; vm_compute; reflexivity. Qed.
Lemma y_inside_app a c b : In c cons -> y_inside (a ++ ch "y" :: c :: b) = true.
Proof.
  intro I. apply existsb_In in I. assert (B : y_inside (ch "y" :: c :: b) = true) by (cbn [y_inside]; now rewrite I, N.eqb_refl).
  induction a as [|x a IH]; [exact B|]. cbn [app]. change (y_inside (x :: a ++ ch "y" :: c :: b)) with
    (match a ++ ch "y" :: c :: b with d :: _ => (x =? ch "y") && existsb (N.eqb d) cons || y_inside (a ++ ch "y" :: c :: b) | [] => false end).
  rewrite IH. destruct a; cbn [app]; now rewrite orb_true_r.
Qed.
Lemma key_y m a c b v : entry m (a ++ ch "y" :: c :: b) v -> In c cons -> a = [] /\ length b = 1%nat.
Proof.
  intros I J. pose proof (y_ok_true m) as F. unfold y_ok in F. rewrite forallb_forall in F. specialize (F _ I). cbn [fst] in F.
  rewrite (y_inside_app a c b J) in F. cbn [negb orb] in F. destruct a as [|x a]; cbn [app] in F.
  - split; [reflexivity|]. apply andb_prop in F. destruct F as [_ F]. apply Nat.eqb_eq in F. cbn in F. lia.
  - rewrite (y_inside_app a c b J) in F. rewrite andb_false_r in F. discriminate.
Qed.

(** ** Cuts *)
Ltac fcons := repeat (apply Forall_cons; [assumption|]); apply Forall_nil.
Lemma conv_cut m q s : ~ joins m q s -> conv m (q ++ s) = conv m q ++ conv m s.
Proof.
  intro J. destruct s as [|c s].
  - change (conv m []) with (@nil N). now rewrite !app_nil_r.
  - assert (F : Forall (fun t : str => t <> []) [c :: s]) by (constructor; [discriminate|constructor]).
    pose proof (proj2 (parts_conv m q [c :: s] F)) as H. cbn [concat map] in H. rewrite !app_nil_r in H. apply H.
    intros pre t post Q. destruct pre as [|p pre]; [|destruct pre; discriminate]. injection Q as <- _. cbn [concat]. now rewrite app_nil_r.
Qed.
Lemma open_dec m x : open_n m x \/ ~ open_n m x.
Proof.
  induction x as [|c x IH] using rev_ind; [right; apply open_nil|]. rewrite open_snoc.
  destruct (n_dec c) as [C|C]; [|tauto]. destruct (ends_dec x_letter x x_dec) as [X|X]; [tauto|].
  destruct m; [left; split; [exact C|split; [exact X|discriminate]]..|]. destruct IH as [O|O]; [right; intros (_ & _ & H); now apply H|left; auto].
Qed.
Lemma n_isc c : n_letter c -> isc c.
Proof. intro C. apply n_letter_low in C. unfold isc. rewrite C. exact n_in_cons. Qed.
Lemma snoc_cut {A} (x b q : list A) c : x ++ b = q ++ [c] -> b <> [] -> exists b1, b = b1 ++ [c] /\ q = x ++ b1.
Proof.
  intros Q N. destruct (exists_last N) as (b1 & d & ->). rewrite app_assoc in Q. apply app_inj_tail in Q. destruct Q as [<- ->]. eauto.
Qed.
Lemma isc_y d : isc d -> n_follow d -> ascii_lower d = ch "y".
Proof.
  intros C (e & L & I). apply lowers_lower in L. unfold isc in C. rewrite L in *.
  assert (F : forallb (fun e => negb (existsb (N.eqb e) cons) || (e =? ch "y")) (u "'aiueoy") = true) by (vm_compute; reflexivity).
  rewrite forallb_forall in F. specialize (F e I). apply existsb_In in C. rewrite C in F. now apply N.eqb_eq.
Qed.
(** a key across a boundary whose second part consists of consonants *)
Lemma cross_cons m b b' v : entry m (low (b ++ b')) v -> b <> [] -> b' <> [] -> Forall isc b' ->
  exists c d, b = [c] /\ b' = [d] /\ n_letter d /\ (x_letter c \/ (m = Ime /\ n_letter c)).
Proof.
  intros I N N' F. destruct (exists_last N') as (b1 & d & ->). apply Forall_app in F. destruct F as [_ F]. inversion F as [|? ? C _]; subst.
  rewrite app_assoc, low_snoc in I. apply key_ends in I; [|exact C]. rewrite <- low_snoc, <- app_assoc in I.
  destruct I as [I|[[_ I]|[-> I]]].
  - apply low_two in I. destruct I as (x & y & Q & X & Y). destruct b as [|c b]; [congruence|]. injection Q as -> Q.
    destruct b as [|? b]; [|apply (f_equal (@length _)) in Q; rewrite !app_length in Q; cbn in Q; lia].
    destruct b1 as [|? b1]; [|apply (f_equal (@length _)) in Q; rewrite !app_length in Q; cbn in Q; lia].
    injection Q as ->. exists x, y. repeat split; [now apply n_letter_low|left; now apply x_letter_low].
  - apply (f_equal (@length _)) in I. rewrite low_length, !app_length in I. destruct b; [congruence|]. cbn in I. lia.
  - apply low_two in I. destruct I as (x & y & Q & X & Y). destruct b as [|c b]; [congruence|]. injection Q as -> Q.
    destruct b as [|? b]; [|apply (f_equal (@length _)) in Q; rewrite !app_length in Q; cbn in Q; lia].
    destruct b1 as [|? b1]; [|apply (f_equal (@length _)) in Q; rewrite !app_length in Q; cbn in Q; lia].
    injection Q as ->. exists x, y. repeat split; [now apply n_letter_low|right; split; [reflexivity|now apply n_letter_low]].
Qed.
(** nothing goes on after a character other than a consonant *)
Lemma cut_after m q c z : ~ isc c -> ~ joins m (q ++ [c]) z.
Proof.
  intros C [(x1 & b & b' & y' & k & v & Q & Z & N & N' & _ & K & I)|[(O & _)|(O & _)]].
  - symmetry in Q. destruct (snoc_cut _ _ _ _ Q N) as (b1 & -> & _). apply casing_low in K. subst k. rewrite <- app_assoc in I. cbn [app] in I.
    apply key_inner in I; [contradiction|exact N'].
  - apply open_snoc in O. apply C, n_isc, O.
  - apply open_snoc in O. apply C, n_isc, O.
Qed.
Lemma firstn_prefix (P : N -> Prop) a b n : Forall P (firstn n (a ++ b)) -> (length a <= n)%nat -> Forall P a.
Proof.
  intros F L. rewrite firstn_app in F. apply Forall_app in F. destruct F as [F _]. now rewrite firstn_all2 in F.
Qed.
(** what can go on into a text that begins with consonants *)
Lemma joins_cons m q z : Forall isc (firstn 4 z) -> joins m q z ->
  exists d z', z = d :: z' /\
    ((n_letter d /\ ends_in x_letter q) \/ (open_n m q /\ m <> Ime /\ ascii_lower d = ch "y") \/ (open_n m q /\ m = Ime /\ n_letter d)).
Proof.
  intros F [(x1 & b & b' & y' & k & v & -> & -> & N & N' & Nn & K & I)|[(O & M & d & z' & -> & D)|(O & M & b' & z' & k & v & -> & K & I)]].
  - apply casing_low in K. subst k. assert (L : (length b' <= 4)%nat).
    { pose proof (key_len _ _ _ I) as L. rewrite low_length, app_length in L. destruct b; [congruence|]. cbn in L. lia. }
    apply firstn_prefix in F; [|exact L]. destruct (cross_cons _ _ _ _ I N N' F) as (c & d & -> & -> & D & [X|[_ X]]).
    + exists d, y'. split; [reflexivity|]. left. split; [exact D|]. now exists x1, c.
    + now destruct (Nn c eq_refl).
  - exists d, z'. split; [reflexivity|]. right; left. repeat split; [exact O|exact M|]. apply isc_y; [|exact D]. cbn in F. now inversion F.
  - apply casing_low in K. subst k. subst m. assert (L : (length b' <= 4)%nat).
    { pose proof (key_len _ _ _ I) as L. cbn in L. rewrite low_length in L. lia. }
    assert (N' : b' <> []). { intros ->. apply (ime_no_n) in I. exact I. }
    apply firstn_prefix in F; [|exact L]. change (ch "n" :: low b') with (low ([ch "n"] ++ b')) in I.
    destruct (cross_cons Ime _ _ _ I ltac:(discriminate) N' F) as (c & d & _ & -> & D & _).
    exists d, z'. split; [reflexivity|]. right; right. repeat split; [exact O|exact D].
Qed.
Lemma joins_after_n m q n z : n_letter n -> Forall isc (firstn 3 z) -> (open_n m (q ++ [n]) -> m <> Ime /\ forall d z', z = d :: z' -> ascii_lower d <> ch "y") ->
  ~ joins m (q ++ [n]) z.
Proof.
  intros Nn F Op [(x1 & b & b' & y' & k & v & Q & -> & N & N' & Nb & K & I)|[(O & M & d & z' & -> & D)|(O & M & _)]].
  - apply casing_low in K. subst k. symmetry in Q. destruct (snoc_cut _ _ _ _ Q N) as (b1 & -> & _).
    destruct b1 as [|e b1]; [now destruct (Nb n eq_refl)|]. assert (L : (length b' <= 3)%nat).
    { pose proof (key_len _ _ _ I) as L. rewrite low_length, !app_length in L. cbn in L. lia. }
    apply firstn_prefix in F; [|exact L]. destruct (cross_cons _ _ _ _ I N N' F) as (c & d & Z & _). destruct b1; discriminate.
  - destruct (Op O) as [_ H]. apply (H d z' eq_refl). apply isc_y; [|exact D]. cbn in F. now inversion F.
  - destruct (Op O) as [H _]. contradiction.
Qed.
Lemma joins_after_y m q y c d z : ascii_lower y = ch "y" -> isc c -> isc d -> ~ joins m (q ++ [y]) (c :: d :: z).
Proof.
  intros Y C D [(x1 & b & b' & y' & k & v & Q & Z & N & N' & Nb & K & I)|[(O & _)|(O & _)]].
  - apply casing_low in K. subst k. symmetry in Q. destruct (snoc_cut _ _ _ _ Q N) as (b1 & -> & _).
    destruct b' as [|c' b']; [congruence|]. injection Z as <- Z. pose proof I as I'. rewrite <- app_assoc, low_app in I'. cbn [low map app] in I'. rewrite Y in I'.
    apply key_y in I'; [|exact C]. destruct I' as [B1 B']. destruct b1; [|discriminate]. destruct b' as [|d' [|? ?]]; cbn in B'; try lia. injection Z as <- _.
    assert (F : Forall isc [c; d]) by (fcons).
    destruct (cross_cons _ _ _ _ I N N' F) as (? & ? & _ & Z & _). discriminate.
  - apply open_snoc in O. destruct O as [O _]. apply n_letter_low in O. rewrite Y in O. discriminate.
  - apply open_snoc in O. destruct O as [O _]. apply n_letter_low in O. rewrite Y in O. discriminate.
Qed.

(** ** The place for the cut *)
Lemma last_other (x : str) : Forall isc x \/ exists a c b, x = a ++ c :: b /\ ~ isc c /\ Forall isc b.
Proof.
  induction x as [|d x IH]; [left; constructor|]. destruct IH as [F|(a & c & b & -> & C & F)].
  - destruct (isc_dec d) as [D|D]; [left; now constructor|]. right. exists [], d, x. auto.
  - right. exists (d :: a), c, b. auto.
Qed.
Lemma first_other (x : str) : Forall isc x \/ exists a c b, x = a ++ c :: b /\ ~ isc c /\ Forall isc a.
Proof.
  induction x as [|d x IH]; [left; constructor|]. destruct (isc_dec d) as [D|D]; [|right; exists [], d, x; auto].
  destruct IH as [F|(a & c & b & -> & C & F)]; [left; now constructor|]. right. exists (d :: a), c, b. auto.
Qed.
Lemma four_last (x : str) : (length x <= 4)%nat \/ exists q a b c d, x = q ++ [a; b; c; d].
Proof.
  destruct (Nat.leb (length x) 4) eqn:L; [left; now apply Nat.leb_le|]. apply Nat.leb_gt in L. right. rewrite <- (firstn_skipn (length x - 4) x).
  pose proof (skipn_length (length x - 4) x) as K. destruct (skipn (length x - 4) x) as [|a [|b [|c [|d [|]]]]]; cbn in K; try lia.
  now exists (firstn (length x - 4) x), a, b, c, d.
Qed.
Lemma before m x : exists q t, x = q ++ t /\ (length t <= 4)%nat /\ forall z, ~ joins m q (t ++ z).
Proof.
  assert (J0 : forall z, ~ joins m [] z).
  { intros z [(x1 & b & b' & y' & k & v & Q & _ & N & _)|[(O & _)|(O & _)]]; [|now apply open_nil in O..].
    symmetry in Q. apply app_eq_nil in Q. destruct Q; contradiction. }
  destruct (four_last x) as [L|(q & a & b & c & d & ->)]; [exists [], x; auto|].
  destruct (last_other [a; b; c; d]) as [F|(a' & e & b' & Q & E & _)].
  2: { rewrite Q. exists (q ++ a' ++ [e]), b'. split; [now rewrite <- !app_assoc|]. split.
       - apply (f_equal (@length _)) in Q. rewrite app_length in Q. cbn in Q. lia.
       - intro z. rewrite app_assoc. now apply cut_after. }
  assert (isc a /\ isc b /\ isc c /\ isc d) as (A & B & C & D) by (do 4 (inversion F as [|? ? ? F']; subst; clear F; rename F' into F); auto).
  assert (F3 : forall z, Forall isc (firstn 3 ([b; c; d] ++ z))) by (intro z; cbn; fcons).
  assert (Cut1 : (forall z, ~ joins m (q ++ [a]) ([b; c; d] ++ z)) -> exists q0 t, q ++ [a; b; c; d] = q0 ++ t /\ (length t <= 4)%nat /\ forall z, ~ joins m q0 (t ++ z)).
  { intro H. exists (q ++ [a]), [b; c; d]. split; [now rewrite <- app_assoc|]. split; [cbn; lia|exact H]. }
  destruct (n_dec a) as [Na|Na]; [destruct (ends_dec x_letter q x_dec) as [X|X]|].
  - apply Cut1. intro z. apply joins_after_n; [exact Na|apply F3|]. intro O. apply open_snoc in O. destruct O as (_ & O & _). contradiction.
  - destruct (open_dec m q) as [O|O].
    + destruct m.
      3: { apply Cut1. intro z. apply joins_after_n; [exact Na|apply F3|]. intro O'. apply open_snoc in O'. destruct O' as (_ & _ & O'). now destruct (O' eq_refl). }
      all: exists q, [a; b; c; d]; (split; [reflexivity|]); (split; [cbn; lia|]); intros z J;
        apply joins_cons in J; [|cbn; fcons]; destruct J as (e & z' & Q & J); injection Q as <- _;
        apply n_letter_low in Na; destruct J as [[_ J]|[(_ & _ & J)|(_ & J & _)]]; [contradiction|rewrite Na in J; discriminate J|discriminate J].
    + exists q, [a; b; c; d]. split; [reflexivity|]. split; [cbn; lia|]. intros z J.
      apply joins_cons in J; [|cbn; fcons]. destruct J as (e & z' & Q & [[_ J]|[(J & _)|(J & _)]]); contradiction.
  - destruct (N.eq_dec (ascii_lower a) (ch "y")) as [Y|Y].
    + apply Cut1. intro z. now apply joins_after_y.
    + exists q, [a; b; c; d]. split; [reflexivity|]. split; [cbn; lia|]. intros z J.
      apply joins_cons in J; [|cbn; fcons]. destruct J as (e & z' & Q & J). injection Q as <- _. tauto.
Qed.
Lemma run_first (y : str) : exists run y', y = run ++ y' /\ Forall n_letter run /\ forall d z, y' = d :: z -> ~ n_letter d.
Proof.
  induction y as [|c y IH]; [exists [], []; repeat split; [constructor|discriminate]|]. destruct (n_dec c) as [C|C].
  - destruct IH as (run & y' & -> & F & H). exists (c :: run), y'. auto.
  - exists [], (c :: y). split; [reflexivity|]. split; [constructor|]. intros d z [= <- _]. exact C.
Qed.
Lemma four_first (y : str) : (length y <= 3)%nat \/ exists a b c d r, y = a :: b :: c :: d :: r.
Proof. destruct y as [|a [|b [|c [|d r]]]]; [left; cbn; lia..|]. right. now exists a, b, c, d, r. Qed.
Lemma no_end m z : ~ joins m z [].
Proof.
  intros [(x1 & b & b' & y' & k & v & _ & Q & _ & N & _)|[(_ & _ & d & y' & Q & _)|(_ & _ & b' & y' & k & v & Q & K & I)]].
  - symmetry in Q. apply app_eq_nil in Q. destruct Q; contradiction.
  - discriminate.
  - symmetry in Q. apply app_eq_nil in Q. destruct Q as [-> _]. apply casing_low in K. subst k. now apply ime_no_n in I.
Qed.
Lemma after m y : exists run p r, y = run ++ p ++ r /\ (length p <= 4)%nat /\ Forall n_letter run /\ (m <> Ime -> run = []) /\
  forall z, ~ joins m (z ++ run ++ p) r.
Proof.
  assert (exists run y', y = run ++ y' /\ Forall n_letter run /\ (m <> Ime -> run = []) /\ (m = Ime -> forall d z, y' = d :: z -> ~ n_letter d)) as (run & y' & -> & Fr & R & H).
  { destruct m.
    3: { destruct (run_first y) as (run & y' & -> & F & H). exists run, y'. repeat split; auto; congruence. }
    all: exists [], y; repeat split; [constructor|discriminate]. }
  assert (T : forall p r, y' = p ++ r -> (length p <= 4)%nat -> (forall z, ~ joins m (z ++ p) r) -> exists run0 p r, run ++ y' = run0 ++ p ++ r /\ (length p <= 4)%nat /\
    Forall n_letter run0 /\ (m <> Ime -> run0 = []) /\ forall z, ~ joins m (z ++ run0 ++ p) r).
  { intros p r -> L J. exists run, p, r. repeat split; auto. intro z. rewrite app_assoc. apply J. }
  destruct (four_first y') as [L|(a & b & c & d & r & ->)].
  { apply (T y' []); [now rewrite app_nil_r|lia|]. intro z. apply no_end. }
  destruct (first_other [a; b; c; d]) as [F|(a' & e & b' & Q & E & _)].
  2: { apply (T (a' ++ [e]) (b' ++ r)).
       - change (a :: b :: c :: d :: r) with ([a; b; c; d] ++ r). rewrite Q, <- !app_assoc. reflexivity.
       - apply (f_equal (@length _)) in Q. rewrite app_length in *. cbn in *. lia.
       - intro z. rewrite app_assoc. now apply cut_after. }
  assert (isc a /\ isc b /\ isc c /\ isc d) as (A & B & C & D) by (do 4 (inversion F as [|? ? ? F']; subst; clear F; rename F' into F); auto).
  assert (F4 : Forall isc (firstn 4 (a :: b :: c :: d :: r))) by (cbn; fcons).
  assert (Ty : ascii_lower a = ch "y" -> exists run0 p r0, run ++ a :: b :: c :: d :: r = run0 ++ p ++ r0 /\ (length p <= 4)%nat /\
    Forall n_letter run0 /\ (m <> Ime -> run0 = []) /\ forall z, ~ joins m (z ++ run0 ++ p) r0).
  { intro Y. apply (T [a] (b :: c :: d :: r)); [reflexivity|cbn; lia|]. intro z. now apply joins_after_y. }
  destruct (N.eq_dec (ascii_lower a) (ch "y")) as [Y|Y]; [now apply Ty|]. destruct (n_dec a) as [Na|Na].
  - destruct m; [| |now destruct (H eq_refl a _ eq_refl)].
    all: destruct (N.eq_dec (ascii_lower b) (ch "y")) as [Yb|Yb];
      [apply (T [a; b] (c :: d :: r)); [reflexivity|cbn; lia|]; intro z; change (z ++ [a; b]) with (z ++ [a] ++ [b]); rewrite app_assoc; now apply joins_after_y
      |apply (T [a] (b :: c :: d :: r)); [reflexivity|cbn; lia|]; intro z; apply joins_after_n; [exact Na|cbn; fcons|];
       intros _; split; [discriminate|]; intros e z' Q; injection Q as <- _; exact Yb].
  - apply (T [] (a :: b :: c :: d :: r)); [reflexivity|cbn; lia|]. intros z J. apply joins_cons in J; [|exact F4].
    destruct J as (e & z' & Q & J). injection Q as <- _. tauto.
Qed.

Theorem local_conv m x y : exists q t run p r, x = q ++ t /\ (length t <= 4)%nat /\ y = run ++ p ++ r /\ (length p <= 4)%nat /\
  Forall n_letter run /\ (m <> Ime -> run = []) /\
  forall w, conv m (x ++ w ++ y) = conv m q ++ conv m (t ++ w ++ run ++ p) ++ conv m r.
Proof.
  destruct (before m x) as (q & t & -> & Lt & Jq). destruct (after m y) as (run & p & r & -> & Lp & F & R & Jr).
  exists q, t, run, p, r. repeat split; auto. intro w. rewrite <- app_assoc, conv_cut by apply Jq. f_equal.
  rewrite <- conv_cut; [now rewrite <- !app_assoc|]. rewrite app_assoc. apply Jr.
Qed.

(** ** The bounds are the least *)
Lemma least_before m q t : u "cchy" = q ++ t -> (forall w, conv m (u "cchy" ++ w) = conv m q ++ conv m (t ++ w)) -> (4 <= length t)%nat.
Proof.
  intros Q H. specialize (H (u "a")). destruct q as [|c1 q]; [cbn [app] in Q; subst t; cbn; lia|]. exfalso.
  destruct q as [|c2 q]; [|destruct q as [|c3 q]; [|destruct q as [|c4 q]; [|destruct q as [|c5 q]; [|apply (f_equal (@length _)) in Q; discriminate Q]]]];
    vm_compute in Q; injection Q; intros; subst; destruct m; vm_compute in H; discriminate H.
Qed.
Lemma least_after m p r : u "chya" = p ++ r -> (forall w, conv m (w ++ u "chya") = conv m (w ++ p) ++ conv m r) -> (4 <= length p)%nat.
Proof.
  intros Q H. pose proof (H []) as H0. specialize (H (u "c")).
  destruct p as [|c1 p]; [cbn [app] in Q; subst r; destruct m; vm_compute in H; discriminate H|]. clear H.
  destruct p as [|c2 p]; [|destruct p as [|c3 p]; [|destruct p as [|c4 p]; [|cbn; lia]]];
    vm_compute in Q; injection Q; intros; subst; destruct m; vm_compute in H0; discriminate H0.
Qed.
Lemma open_even k : ~ open_n Ime (repeat (ch "n") (2 * k)) /\ open_n Ime (repeat (ch "n") (2 * k + 1)).
Proof.
  assert (St : forall j, open_n Ime (repeat (ch "n") (S j)) <-> ~ open_n Ime (repeat (ch "n") j)).
  { intro j. change (repeat (ch "n") (S j)) with (ch "n" :: repeat (ch "n") j). rewrite repeat_cons, open_snoc_ime.
    split; [tauto|]. intro O. split; [now left|]. split; [|exact O]. intros (x' & c & Q & X). apply (n_not_x c); [|exact X].
    assert (I : In c (repeat (ch "n") j)) by (rewrite Q; apply in_or_app; right; now left). apply repeat_spec in I. subst c. now left. }
  induction k as [|k [IH1 IH2]]; [split; [apply open_nil|apply open_one; now left]|].
  assert (A : ~ open_n Ime (repeat (ch "n") (2 * S k))).
  { replace (2 * S k)%nat with (S (2 * k + 1)) by lia. rewrite St. tauto. }
  split; [exact A|]. replace (2 * S k + 1)%nat with (S (2 * S k)) by lia. now rewrite St.
Qed.
Lemma least_ime n p r : repeat (ch "n") n ++ u "a" = p ++ r ->
  (forall w, conv Ime (w ++ repeat (ch "n") n ++ u "a") = conv Ime (w ++ p) ++ conv Ime r) -> (n <= length p)%nat.
Proof.
  intros Q H. destruct (Nat.leb n (length p)) eqn:L; [now apply Nat.leb_le|]. exfalso. apply Nat.leb_gt in L.
  symmetry in Q. destruct (app_cut p r _ _ Q) as (e & P & ->); [rewrite repeat_length; lia|].
  assert (Lp : p = repeat (ch "n") (length p)).
  { apply Forall_eq_repeat. apply Forall_forall. intros c I. symmetry. apply (repeat_spec n). rewrite P. apply in_or_app. now left. }
  destruct e as [|c e]; [rewrite app_nil_r in P; rewrite <- P, repeat_length in L; lia|].
  assert (c = ch "n") as ->. { apply (repeat_spec n). rewrite P. apply in_or_app. right. now left. }
  assert (exists w, open_n Ime (w ++ p)) as (w & O).
  { rewrite Lp. generalize (length p). intro j. destruct (Nat.Even_or_Odd j) as [[k ->]|[k ->]].
    - exists [ch "n"]. change ([ch "n"] ++ repeat (ch "n") (2 * k)) with (repeat (ch "n") (S (2 * k))).
      replace (S (2 * k)) with (2 * k + 1)%nat by lia. apply open_even.
    - exists []. apply open_even. }
  specialize (H w). rewrite P in H. cbn [app] in H. rewrite <- app_assoc in H. rewrite (app_assoc w p) in H.
  assert (F : Forall (fun t : str => t <> []) [ch "n" :: e ++ u "a"]) by (constructor; [discriminate|constructor]).
  pose proof (proj1 (parts_conv Ime (w ++ p) _ F)) as J. cbn [concat map app] in J. rewrite !app_nil_r in J.
  apply (J H [] _ [] eq_refl). cbn [concat]. rewrite app_nil_r. right; right. split; [exact O|]. split; [reflexivity|].
  exists [ch "n"], (e ++ u "a"), (u "n"), (u "ん"). split; [reflexivity|]. split; [|exact nn_key]. now apply casing_low.
Qed.
