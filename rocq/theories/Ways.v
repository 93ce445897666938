(** * Proof of C102: how many texts have the same kana *)
From Coq Require Import PeanoNat FinFun.
From Verif Require Import Base Tac Std StdInstances Chars Trees Convert KanaPure KanaSpec KanaDict KanaProofs.

(** ** The casings of the keys *)
Definition pre (c : N) : list N := if (0x61 <=? c) && (c <=? 0x7A) then [c; c - 32] else [c].
Fixpoint casings (k : str) : list str :=
  match k with
  | [] => [[]]
  | c :: k => flat_map (fun w => map (fun x => x :: w) (pre c)) (casings k)
  end.
Lemma casings_In s : In s (casings (low s)).
Proof.
  induction s as [|c s IH]; [now left|]. cbn [low map casings]. apply in_flat_map. exists s. split; [exact IH|].
  apply in_map_iff. exists c. split; [reflexivity|]. unfold pre, ascii_lower. destruct ((0x41 <=? c) && (c <=? 0x5A)) eqn:U.
  - replace ((0x61 <=? c + 32) && (c + 32 <=? 0x7A)) with true by lia. right. left. lia.
  - destruct ((0x61 <=? c) && (c <=? 0x7A)); now left.
Qed.
Definition cased (m : mode) : list (str * str) :=
  flat_map (fun e => map (fun w => (w, emit w (snd e))) (casings (fst e))) (dict m).
Lemma cased_In m s v : entry m (low s) v -> In (s, emit s v) (cased m).
Proof.
  intro I. apply in_flat_map. exists (low s, v). split; [exact I|]. apply in_map_iff. exists s. split; [reflexivity|apply casings_In].
Qed.
Lemma cased_out m s o : In (s, o) (cased m) -> exists k v, entry m k v /\ (o = v \/ o = h2k v).
Proof.
  intro I. apply in_flat_map in I. destruct I as ([k v] & I & J). apply in_map_iff in J. destruct J as (w & Q & _).
  injection Q as -> <-. exists k, v. split; [exact I|]. cbn [snd]. unfold emit. destruct (forallb is_AZ s); auto.
Qed.

(** ** How many of them give a text *)
Definition tsu : N := Eval vm_compute in ch "っ".
Definition count {A} (p : A -> bool) (l : list A) : nat := length (filter p l).
Definition most (o : str) : nat :=
  match o with
  | [a] => if a =? tsu then 44%nat else 32%nat
  | [a; b] => if (a =? tsu) && (b =? tsu) then 0%nat else 36%nat
  | [a; b; _] => if (a =? tsu) && (b =? tsu) then 0%nat else 76%nat
  | _ => 0%nat
  end.
Definition at_most (l : list (str * str)) (os : list str) : bool :=
  forallb (fun o => Nat.leb (count (fun e => str_eqb (snd e) o) l) (most o)) os.
Definition outs (m : mode) : list str := let l := nodup (list_eq_dec N.eq_dec) (map snd (dict m)) in l ++ map h2k l.
Lemma at_most_ok m : at_most (cased m) (outs m) = true.
Proof. destruct m; vm_cast_no_check (eq_refl true). Qed.
Lemma count_0 {A} (p : A -> bool) l : (forall x, In x l -> p x = false) -> count p l = 0%nat.
Proof.
  intro H. unfold count. induction l as [|a l IH]; [reflexivity|]. cbn [filter]. rewrite (H a (or_introl eq_refl)).
  apply IH. intros x I. apply H. now right.
Qed.
Lemma count_most m o : (count (fun e => str_eqb (snd e) o) (cased m) <= most o)%nat.
Proof.
  destruct (in_dec (list_eq_dec N.eq_dec) o (outs m)) as [I|I].
  - pose proof (at_most_ok m) as H. unfold at_most in H. rewrite forallb_forall in H. apply Nat.leb_le, (H o I).
  - rewrite count_0; [lia|]. intros [s v] J. cbn [snd]. destruct (str_eqb v o) eqn:Q; [|reflexivity]. exfalso. apply I.
    apply str_eqb_eq in Q. subst v. destruct (cased_out m s o J) as (k & v & K & O). unfold outs. cbv zeta. apply in_app_iff.
    assert (L : In v (nodup (list_eq_dec N.eq_dec) (map snd (dict m)))) by (apply nodup_In, in_map_iff; now exists (k, v)).
    destruct O as [->| ->]; [now left|right]. apply in_map_iff. eauto.
Qed.
Lemma cased_length m s o : In (s, o) (cased m) -> (1 <= length o <= 3)%nat.
Proof.
  intro I. pose proof (count_most m o) as H.
  assert (C : (1 <= count (fun e => str_eqb (snd e) o) (cased m))%nat).
  { unfold count. destruct (filter _ (cased m)) as [|x l] eqn:F; [|cbn; lia].
    assert (J : In (s, o) (filter (fun e => str_eqb (snd e) o) (cased m))) by (apply filter_In; split; [exact I|]; cbn [snd]; now apply str_eqb_eq).
    rewrite F in J. destruct J. }
  destruct o as [|a [|b [|c [|d o]]]]; cbn [most length] in *; lia.
Qed.

(** ** All texts that may give [r] *)
Definition starts (o r : str) : bool := str_eqb (firstn (length o) r) o.
Fixpoint cand (l : list (str * str)) (f : nat) (r : str) : list str :=
  match f, r with
  | _, [] => [[]]
  | S f, c :: r' => map (cons c) (cand l f r')
      ++ flat_map (fun e => if starts (snd e) r then map (app (fst e)) (cand l f (skipn (length (snd e)) r)) else []) l
  | O, _ => []
  end.
Lemma cand_complete m s : forall f r, conv m s = r -> (length r <= f)%nat -> In s (cand (cased m) f r).
Proof.
  revert s. apply (kconv_ind (tree_of m) (fun s => forall f r, conv m s = r -> (length r <= f)%nat -> In s (cand (cased m) f r))).
  - intros f r <- _. destruct f; now left.
  - intros c s IH f r Q L. rewrite kconv_cons in Q. unfold kstep in Q, IH.
    destruct (kw (tree_of m) (c :: s)) as [n i] eqn:K. destruct (kw_spec _ _ _ _ K) as (B1 & B2 & _).
    assert (Raw : forall r', r = c :: r' -> In s (cand (cased m) (pred f) r') -> In (c :: s) (cand (cased m) f r)).
    { intros r' -> I. destruct f as [|f]; [cbn [length] in L; lia|]. cbn [cand pred] in *. apply in_app_iff. left. now apply in_map. }
    destruct i as [|i].
    { cbn [fst snd] in *. apply (Raw (conv m s)); [now rewrite <- Q|]. apply IH; [reflexivity|].
      rewrite <- Q in L. cbn [app length] in L. lia. }
    destruct (kout n) as [o|] eqn:O.
    2:{ cbn [fst snd] in *. apply (Raw (conv m s)); [now rewrite <- Q|]. apply IH; [reflexivity|].
      rewrite <- Q in L. cbn [app length] in L. lia. }
    cbn [fst snd] in *. set (seg := firstn (S i) (c :: s)) in *. set (rest := skipn (S i) (c :: s)) in *.
    assert (Sp : c :: s = seg ++ rest) by (symmetry; apply firstn_skipn).
    assert (I : In (seg, emit seg o) (cased m)) by (apply cased_In, entry_node; eauto).
    pose proof (cased_length m _ _ I) as Lo. subst r. rewrite app_length in L.
    destruct f as [|f]; [lia|]. rewrite Sp.
    destruct (emit seg o ++ conv m rest) as [|x r'] eqn:R; [apply (f_equal (@length N)) in R; rewrite app_length in R; cbn [length] in R; lia|].
    cbn [cand]. apply in_app_iff. right. apply in_flat_map. exists (seg, emit seg o). split; [exact I|]. cbn [fst snd].
    rewrite <- R. unfold starts. rewrite firstn_app, firstn_all, Nat.sub_diag. cbn [firstn]. rewrite app_nil_r.
    assert (Z : str_eqb (emit seg o) (emit seg o) = true) by now apply str_eqb_eq. rewrite Z. apply in_map.
    rewrite skipn_app, skipn_all, Nat.sub_diag. cbn [app skipn]. apply IH; [reflexivity|lia].
Qed.

(** ** Counting them *)
Fixpoint total (l : list nat) : nat := match l with [] => 0 | x :: l => x + total l end%nat.
Definition hits (l : list (str * str)) (r : str) (k : nat) : nat := count (fun e => str_eqb (snd e) (firstn k r)) l.
Lemma flat_length {A B} (f : A -> list B) l : length (flat_map f l) = total (map (fun a => length (f a)) l).
Proof. induction l as [|a l IH]; [reflexivity|]. cbn [flat_map map total]. now rewrite app_length, IH. Qed.
Lemma starts_firstn o r : starts o r = true -> o = firstn (length o) r.
Proof. intro H. symmetry. now apply str_eqb_eq. Qed.
Lemma split_hits l r (F : nat -> nat) : Forall (fun e => (1 <= length (snd e) <= 3)%nat) l ->
  (total (map (fun e => if starts (snd e) r then F (length (snd e)) else 0%nat) l)
   <= (if Nat.leb 1 (length r) then hits l r 1 * F 1%nat else 0) + (if Nat.leb 2 (length r) then hits l r 2 * F 2%nat else 0)
      + (if Nat.leb 3 (length r) then hits l r 3 * F 3%nat else 0))%nat.
Proof.
  intro H. induction H as [|[s o] l Ho _ IH]; [cbn; destruct (length r) as [|[|[|k]]]; cbn; lia|].
  cbn [map total snd] in *. unfold hits, count in *. cbn [filter snd].
  set (h1 := length (filter (fun e => str_eqb (snd e) (firstn 1 r)) l)) in *.
  set (h2 := length (filter (fun e => str_eqb (snd e) (firstn 2 r)) l)) in *.
  set (h3 := length (filter (fun e => str_eqb (snd e) (firstn 3 r)) l)) in *.
  destruct (starts o r) eqn:S.
  - pose proof (starts_firstn o r S) as Q.
    assert (Lr : (length o <= length r)%nat) by (rewrite Q, firstn_length; lia).
    assert (X : forall k, length o = k -> str_eqb o (firstn k r) = true) by (intros k <-; now apply str_eqb_eq).
    assert (Lo : length o = 1%nat \/ length o = 2%nat \/ length o = 3%nat) by lia.
    destruct Lo as [Lo|[Lo|Lo]]; rewrite Lo in *; rewrite (X _ eq_refl).
    + replace (Nat.leb 1 (length r)) with true in * by (symmetry; apply Nat.leb_le; lia).
      destruct (str_eqb o (firstn 2 r)), (str_eqb o (firstn 3 r)); cbn [length]; fold h1 h2 h3;
        destruct (Nat.leb 2 (length r)), (Nat.leb 3 (length r)); lia.
    + replace (Nat.leb 1 (length r)) with true in * by (symmetry; apply Nat.leb_le; lia).
      replace (Nat.leb 2 (length r)) with true in * by (symmetry; apply Nat.leb_le; lia).
      destruct (str_eqb o (firstn 1 r)), (str_eqb o (firstn 3 r)); cbn [length]; fold h1 h2 h3;
        destruct (Nat.leb 3 (length r)); lia.
    + replace (Nat.leb 1 (length r)) with true in * by (symmetry; apply Nat.leb_le; lia).
      replace (Nat.leb 2 (length r)) with true in * by (symmetry; apply Nat.leb_le; lia).
      replace (Nat.leb 3 (length r)) with true in * by (symmetry; apply Nat.leb_le; lia).
      destruct (str_eqb o (firstn 1 r)), (str_eqb o (firstn 2 r)); cbn [length]; fold h1 h2 h3; lia.
  - destruct (str_eqb o (firstn 1 r)), (str_eqb o (firstn 2 r)), (str_eqb o (firstn 3 r)); cbn [length]; fold h1 h2 h3;
      destruct (Nat.leb 1 (length r)), (Nat.leb 2 (length r)), (Nat.leb 3 (length r)); lia.
Qed.
Lemma cased_lengths m : Forall (fun e => (1 <= length (snd e) <= 3)%nat) (cased m).
Proof. apply Forall_forall. intros [s o] I. exact (cased_length m s o I). Qed.

Definition ways (m : mode) (f : nat) (r : str) : nat := length (cand (cased m) f r).
Lemma ways_nil m f : ways m f [] = 1%nat.
Proof. unfold ways. destruct f; reflexivity. Qed.
Lemma ways_cons m f c r : (ways m (S f) (c :: r) <= ways m f r + most [c] * ways m f r
   + match r with d :: r2 => most [c; d] * ways m f r2 | [] => 0 end
   + match r with d :: e :: r3 => most [c; d; e] * ways m f r3 | _ => 0 end)%nat.
Proof.
  unfold ways at 1. cbn [cand]. rewrite app_length, map_length, flat_length. fold (ways m f r).
  rewrite (map_ext _ (fun e => if starts (snd e) (c :: r) then (fun k => ways m f (skipn k (c :: r))) (length (snd e)) else 0%nat)).
  2:{ intros [s o]. cbn [fst snd]. destruct (starts o (c :: r)); [|reflexivity]. now rewrite map_length. }
  pose proof (split_hits (cased m) (c :: r) (fun k => ways m f (skipn k (c :: r))) (cased_lengths m)) as H.
  pose proof (count_most m (firstn 1 (c :: r))) as H1. pose proof (count_most m (firstn 2 (c :: r))) as H2.
  pose proof (count_most m (firstn 3 (c :: r))) as H3. unfold hits in H.
  set (T := total _) in *.
  destruct r as [|d [|e r]]; cbn [length Nat.leb skipn] in H; cbn [firstn] in H, H1, H2, H3; nia.
Qed.
Lemma pow_S n : (45 ^ S n = 45 * 45 ^ n)%nat.
Proof. reflexivity. Qed.
Lemma pow_pos n : (1 <= 45 ^ n)%nat.
Proof. induction n as [|n IH]; [cbn; lia|]. rewrite pow_S. lia. Qed.
Lemma ways_bound m : forall f r,
  (ways m f r <= 45 ^ length r)%nat
  /\ (forall c r', r = c :: r' -> c <> tsu -> (ways m f r <= 44 * 45 ^ length r')%nat)
  /\ (r <> repeat tsu (length r) -> (ways m f r < 45 ^ length r)%nat).
Proof.
  induction f as [|f IH]; intros r.
  { destruct r as [|c r]; [rewrite ways_nil; cbn; split; [lia|]; split; [discriminate|easy]|].
    assert (Z : ways m 0 (c :: r) = 0%nat) by reflexivity. rewrite Z. pose proof (pow_pos (length (c :: r))). split; [lia|]. split; lia. }
  destruct r as [|c r]; [rewrite ways_nil; cbn; split; [lia|]; split; [discriminate|easy]|].
  pose proof (ways_cons m f c r) as W. cbn [length].
  assert (P1 : (most [c] <= 44)%nat) by (cbn [most]; destruct (c =? tsu); lia).
  assert (P1' : c <> tsu -> (most [c] <= 32)%nat).
  { intro Hc. cbn [most]. apply N.eqb_neq in Hc. rewrite Hc. lia. }
  destruct r as [|d r].
  { rewrite ways_nil in W. cbn [length]. change (45 ^ 1)%nat with 45%nat. change (45 ^ 0)%nat with 1%nat.
    split; [lia|]. split.
    - intros c' r' [= <- <-] Hc. cbn [length]. change (45 ^ 0)%nat with 1%nat. specialize (P1' Hc). lia.
    - intro H. assert (Hc : c <> tsu) by (intros ->; now apply H). specialize (P1' Hc). lia. }
  destruct (IH (d :: r)) as (I1 & I2 & I3). destruct (IH r) as (J1 & _ & _).
  cbn [length] in *. rewrite pow_S in I1, I3. rewrite (pow_S (S (length r))), (pow_S (length r)). set (P := (45 ^ length r)%nat) in *.
  assert (PP : (1 <= P)%nat) by apply pow_pos.
  assert (P2 : (most [c; d] <= 36)%nat) by (cbn [most]; destruct ((c =? tsu) && (d =? tsu)); lia).
  assert (T3 : exists x, (match r with e :: r3 => most [c; d; e] * ways m f r3 | [] => 0 end <= x)%nat /\ (x <= 2 * P)%nat
    /\ (c = tsu -> d = tsu -> x = 0%nat)).
  { destruct r as [|e r].
    - exists 0%nat. split; [lia|]. split; [lia|reflexivity].
    - exists (most [c; d; e] * ways m f r)%nat. split; [lia|]. destruct (IH r) as (K1 & _ & _). split.
      + assert (P3 : (most [c; d; e] <= 76)%nat) by (cbn [most]; destruct ((c =? tsu) && (d =? tsu)); lia).
        unfold P. cbn [length]. rewrite pow_S. nia.
      + intros -> ->. reflexivity. }
  destruct T3 as (x & T1 & T2 & T3).
  assert (W' : (ways m (S f) (c :: d :: r) <= ways m f (d :: r) + most [c] * ways m f (d :: r) + most [c; d] * ways m f r + x)%nat)
    by (destruct r; lia). clear W T1.
  assert (R : c <> tsu -> (ways m (S f) (c :: d :: r) <= 44 * (45 * P))%nat).
  { intro Hc. specialize (P1' Hc). nia. }
  destruct (N.eq_dec c tsu) as [->|Hc].
  - assert (M1 : most [tsu] = 44%nat) by reflexivity. rewrite M1 in W'.
    destruct (N.eq_dec d tsu) as [->|Hd].
    + assert (M2 : most [tsu; tsu] = 0%nat) by reflexivity. rewrite M2, (T3 eq_refl eq_refl) in W'.
      split; [nia|]. split; [now intros c' r' [= <- <-] H|]. intro H.
      assert (Q : tsu :: r <> repeat tsu (S (length r))).
      { intro Q. apply H. cbn [repeat] in *. now rewrite <- Q. }
      specialize (I3 Q). nia.
    + specialize (I2 d r eq_refl Hd). fold P in I2. split; [nia|]. split; [now intros c' r' [= <- <-] H|]. intros _. nia.
  - specialize (R Hc). split; [nia|]. split.
    + intros c' r' [= <- <-] _. cbn [length]. rewrite pow_S. fold P. exact R.
    + intros _. nia.
Qed.

(** ** The texts of small tsu *)
Definition codes (m : mode) : list str := [tsu] :: map fst (filter (fun e => str_eqb (snd e) [tsu]) (cased m)).
Definition code_ok (m : mode) (w : str) : bool :=
  existsb (fun e => str_eqb (fst e) (low w) && str_eqb (emit w (snd e)) [tsu]) (dict m) && unextendedb m (low w).
Definition free (l : list str) : bool := forallb (fun a => forallb (fun b => negb (prefixb a b) || str_eqb a b) l) l.
Definition codes_ok (m : mode) : bool :=
  let l := codes m in
  Nat.eqb (length l) 45 && forallb (code_ok m) (tl l) && free l && Nat.eqb (length (nodup (list_eq_dec N.eq_dec) l)) 45.
Lemma codes_fine m : codes_ok m = true.
Proof. destruct m; vm_cast_no_check (eq_refl true). Qed.
Lemma codes_parts m : length (codes m) = 45%nat /\ forallb (code_ok m) (tl (codes m)) = true /\ free (codes m) = true /\ NoDup (codes m).
Proof.
  pose proof (codes_fine m) as H. unfold codes_ok in H. cbv zeta in H. apply andb_prop in H. destruct H as [H H4].
  apply andb_prop in H. destruct H as [H H3]. apply andb_prop in H. destruct H as [H1 H2].
  apply Nat.eqb_eq in H1, H4. split; [exact H1|]. split; [exact H2|]. split; [exact H3|].
  apply (@NoDup_incl_NoDup _ (nodup (list_eq_dec N.eq_dec) (codes m)) (codes m)); [apply NoDup_nodup|lia|].
  intros x I. exact (proj1 (nodup_In _ _ _) I).
Qed.
Lemma code_conv m w rest : In w (codes m) -> conv m (w ++ rest) = tsu :: conv m rest.
Proof.
  intros [<-|I].
  - apply (conv_boundary m tsu rest) with (x := []). apply non_ascii_in_no_key; [discriminate|]. intro H. repeat (destruct H as [H|H]; [discriminate H|]). exact H.
  - destruct (codes_parts m) as (_ & H & _). rewrite forallb_forall in H. specialize (H w I). unfold code_ok in H.
    apply andb_prop in H. destruct H as [H U]. apply existsb_exists in H. destruct H as ([k v] & J & H). cbn [fst snd] in H.
    apply andb_prop in H. destruct H as [A B]. apply str_eqb_eq in A, B. subst k.
    rewrite (conv_entry m w (low w) v rest J (unextendedb_ok _ _ U)) by now apply casing_low. rewrite B. reflexivity.
Qed.
Lemma app_prefix (a x : str) : forall b y, a ++ x = b ++ y -> prefixb a b = true \/ prefixb b a = true.
Proof.
  induction a as [|c a IH]; intros b y H; [now left|]. destruct b as [|d b]; [now right|].
  cbn [app] in H. injection H as -> H. destruct (IH b y H) as [P|P]; [left|right]; cbn [prefixb]; now rewrite N.eqb_refl, P.
Qed.
Lemma code_free m a b x y : In a (codes m) -> In b (codes m) -> a ++ x = b ++ y -> a = b.
Proof.
  intros Ia Ib Q. destruct (codes_parts m) as (_ & _ & H & _). unfold free in H. rewrite forallb_forall in H.
  pose proof (H a Ia) as Ha. pose proof (H b Ib) as Hb. rewrite forallb_forall in Ha, Hb. specialize (Ha b Ib). specialize (Hb a Ia).
  destruct (app_prefix a x b y Q) as [P|P]; [rewrite P in Ha; now apply str_eqb_eq in Ha|rewrite P in Hb; now apply str_eqb_eq in Hb].
Qed.
Fixpoint words (m : mode) (n : nat) : list str :=
  match n with O => [[]] | S n => flat_map (fun w => map (app w) (words m n)) (codes m) end.
Lemma words_conv m n s : In s (words m n) -> conv m s = repeat tsu n.
Proof.
  revert s. induction n as [|n IH]; intros s I; [destruct I as [<-|[]]; reflexivity|].
  cbn [words] in I. apply in_flat_map in I. destruct I as (w & W & I). apply in_map_iff in I. destruct I as (x & <- & I).
  rewrite code_conv by exact W. cbn [repeat]. now rewrite (IH x I).
Qed.
Lemma words_length m n : length (words m n) = (45 ^ n)%nat.
Proof.
  induction n as [|n IH]; [reflexivity|]. cbn [words]. rewrite flat_length, pow_S, <- IH.
  destruct (codes_parts m) as (L & _). rewrite <- L. clear. generalize (codes m). intro l. induction l as [|a l IH]; [reflexivity|].
  cbn [map total length]. rewrite IH, map_length. lia.
Qed.
Lemma NoDup_both {A} (l k : list A) : NoDup l -> NoDup k -> (forall x, In x l -> ~ In x k) -> NoDup (l ++ k).
Proof.
  intros L K H. induction L as [|a l Ha L IH]; [exact K|]. cbn [app]. constructor.
  - rewrite in_app_iff. intros [I|I]; [easy|]. exact (H a (or_introl eq_refl) I).
  - apply IH. intros x I. apply H. now right.
Qed.
Lemma words_NoDup m n : NoDup (words m n).
Proof.
  induction n as [|n IH]; [repeat constructor; easy|]. cbn [words].
  destruct (codes_parts m) as (_ & _ & _ & D). pose proof (code_free m) as F. revert D F. generalize (codes m). intro l.
  induction l as [|a l IHl]; intros D F; [constructor|]. cbn [flat_map]. inversion D as [|? ? Na Nl]; subst. apply NoDup_both.
  - apply Injective_map_NoDup; [|exact IH]. intros x y Q. now apply app_inv_head in Q.
  - apply IHl; [exact Nl|]. intros b c x y Ib Ic. apply F; now right.
  - intros s I J. apply in_map_iff in I. destruct I as (x & <- & _). apply in_flat_map in J. destruct J as (b & B & J).
    apply in_map_iff in J. destruct J as (y & Q & _). apply Na.
    now rewrite (F a b x y (or_introl eq_refl) (or_intror B) (eq_sym Q)).
Qed.

(** ** The theorem about [to_kana] *)
Definition texts (m : mode) (r : str) : list str :=
  nodup (list_eq_dec N.eq_dec) (filter (fun s => str_eqb (conv m s) r) (cand (cased m) (length r) r)).
Lemma texts_spec m r s : In s (texts m r) <-> conv m s = r.
Proof.
  unfold texts. rewrite nodup_In, filter_In, str_eqb_eq. split; [now intros [_ H]|]. intro H. split; [|exact H].
  apply cand_complete; [exact H|lia].
Qed.
Lemma kana_ways E o r : std_ok E ->
  exists l, NoDup l /\ (forall s, In s l <-> to_kana_with_opt E s o = Ok r)
    /\ (length l <= 45 ^ length r)%nat /\ (length l = 45 ^ length r <-> r = repeat tsu (length r))%nat.
Proof.
  intro HE. exists (texts (mode_of o) r). split; [apply NoDup_nodup|]. split.
  { intro s. rewrite texts_spec, to_kana_with_opt_eq, k_tree_mode by exact HE. split; [now intros ->|now intros [= H]]. }
  set (m := mode_of o). assert (L : (length (texts m r) <= ways m (length r) r)%nat).
  { apply NoDup_incl_length; [apply NoDup_nodup|]. intros s I. apply texts_spec in I. apply cand_complete; [exact I|lia]. }
  destruct (ways_bound m (length r) r) as (B1 & _ & B3). split; [lia|]. split.
  - intro Q. destruct (list_eq_dec N.eq_dec r (repeat tsu (length r))) as [H|H]; [exact H|]. specialize (B3 H). lia.
  - intro Q. assert (W : (length (words m (length r)) <= length (texts m r))%nat).
    { apply NoDup_incl_length; [apply words_NoDup|]. intros s I. apply texts_spec. rewrite (words_conv _ _ _ I). now symmetry. }
    rewrite words_length in W. lia.
Qed.
