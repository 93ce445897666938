(** * Concrete standard libraries satisfying [std_ok]

    [std_1_52]: binary search of Rust 1.52-1.81; [std_1_82]: since 1.82; both with
    the Unicode 14 case tables.  They show that [std_ok] is satisfiable and make
    the model executable. *)
From Coq Require Import NArith List Bool Lia Arith Sorted.
From Verif Require Import Base Std Unicode14.

(** ** Case tables *)
Definition in_table (t : list (N * N)) (c : N) : bool :=
  existsb (fun r => (fst r <=? c) && (c <=? snd r)) t.
Definition entry_hits (c : N) (r : N * N * N * N * N) : bool :=
  let '(a, b, step, _, _) := r in (a <=? c) && (c <=? b) && ((c - a) mod step =? 0).
Definition map_char (t : list (N * N * N * N * N)) (m : list (N * list N)) (c : N) : str :=
  match find (fun x => fst x =? c) m with
  | Some x => snd x
  | None =>
    match find (entry_hits c) t with
    | Some (_, _, _, plus, minus) => [c + plus - minus]
    | None => [c]
    end
  end.

Definition unicode14_std (bs : list char -> char -> option nat) : std := {|
  bsearch := bs;
  is_upper := in_table uppercase_ranges;
  lower_char := map_char lower_ranges lower_multi;
  upper_char := map_char upper_ranges upper_multi;
  cased := in_table cased_ranges;
  case_ignorable := in_table case_ignorable_ranges
|}.
Definition std_1_52 : std := unicode14_std bsearch_152.
Definition std_1_82 : std := unicode14_std bsearch_182.

(** ** Finite checks *)
Definition below128 : list N := map N.of_nat (seq 0 128).
Lemma below128_spec c : c < 128 -> In c below128.
Proof.
  intro H. unfold below128. apply in_map_iff. exists (N.to_nat c).
  split; [apply N2Nat.id|]. apply in_seq. lia.
Qed.
Lemma forall_below128 (P : N -> bool) :
  forallb P below128 = true -> forall c, c < 128 -> P c = true.
Proof. intros H c Hc. rewrite forallb_forall in H. apply H, below128_spec, Hc. Qed.

Lemma map_char_cases t m c :
  (exists l, In (c, l) m /\ map_char t m c = l)
  \/ (exists a b s p q, In (a, b, s, p, q) t /\ a <= c <= b /\ map_char t m c = [c + p - q])
  \/ map_char t m c = [c].
Proof.
  unfold map_char. destruct (find _ m) as [[d l]|] eqn:F.
  - left. exists l. apply find_some in F. destruct F as [F1 F2]. cbn in F2.
    apply N.eqb_eq in F2. subst. auto.
  - right. destruct (find (entry_hits c) t) as [[[[[a b] s] p] q]|] eqn:G; [left|now right].
    apply find_some in G. destruct G as [G1 G2]. exists a, b, s, p, q.
    unfold entry_hits in G2. apply andb_prop in G2. destruct G2 as [G2 _].
    apply andb_prop in G2. destruct G2 as [G2 G3].
    apply N.leb_le in G2, G3. auto.
Qed.

(** no table entry touches the caseless blocks, neither source nor image; images
    of entries are scalar values *)
Definition disjoint_caseless (a b : N) : bool :=
  ((b <? 0x2010) || (0x2027 <? a)) && ((b <? 0x3000) || (0x9FFF <? a))
  && ((b <? 0xFF01) || (0xFF20 <? a)) && ((b <? 0xFF3B) || (0xFF40 <? a))
  && ((b <? 0xFF5B) || (0xFF65 <? a)).
Definition range_ok (r : N * N * N * N * N) : bool :=
  let '(a, b, s, p, q) := r in
  disjoint_caseless a b && disjoint_caseless (a + p - q) (b + p - q)
  && (q <=? a)
  && ((b + p - q <? 0xD800) || ((0xE000 <=? a + p - q) && (b + p - q <? 0x110000))).
Definition multi_ok (x : N * list N) : bool :=
  negb (caseless (fst x)) && forallb (fun d => negb (caseless d)) (snd x)
  && forallb is_scalar (snd x).

Lemma disjoint_caseless_spec a b c :
  disjoint_caseless a b = true -> a <= c <= b -> caseless c = false.
Proof.
  unfold disjoint_caseless, caseless. intros H Hc.
  apply not_true_is_false. intro C.
  rewrite ?orb_true_iff, ?andb_true_iff, ?orb_true_iff, ?N.ltb_lt, ?N.leb_le in *. lia.
Qed.

Lemma lower_table_ok : forallb range_ok lower_ranges = true.
Proof. vm_compute. reflexivity. Qed.
Lemma lower_multi_ok : forallb multi_ok lower_multi = true.
Proof. vm_compute. reflexivity. Qed.
Lemma upper_table_ok : forallb range_ok upper_ranges = true.
Proof. vm_compute. reflexivity. Qed.
Lemma upper_multi_ok : forallb multi_ok upper_multi = true.
Proof. vm_compute. reflexivity. Qed.

Lemma map_char_caseless t m c :
  forallb range_ok t = true -> forallb multi_ok m = true ->
  caseless c = true -> map_char t m c = [c].
Proof.
  intros Ht Hm Hc. rewrite forallb_forall in Ht, Hm.
  destruct (map_char_cases t m c) as [(l & I & _)|[(a & b & s & p & q & I & B & _)|E]]; auto.
  - apply Hm in I. unfold multi_ok in I. cbn in I. rewrite Hc in I. discriminate.
  - apply Ht in I. unfold range_ok in I. rewrite !andb_true_iff in I.
    destruct I as [[[I _] _] _].
    rewrite (disjoint_caseless_spec a b c I B) in Hc. discriminate.
Qed.

Lemma map_char_other t m c :
  forallb range_ok t = true -> forallb multi_ok m = true ->
  caseless c = false -> forallb (fun d => negb (caseless d)) (map_char t m c) = true.
Proof.
  intros Ht Hm Hc. rewrite forallb_forall in Ht, Hm.
  destruct (map_char_cases t m c) as [(l & I & E)|[(a & b & s & p & q & I & B & E)|E]];
    rewrite E.
  - apply Hm in I. unfold multi_ok in I. rewrite !andb_true_iff in I. apply I.
  - apply Ht in I. unfold range_ok in I. rewrite !andb_true_iff in I.
    destruct I as [[[_ I] Q] _]. apply N.leb_le in Q.
    cbn. rewrite (disjoint_caseless_spec _ _ (c + p - q) I) by lia. reflexivity.
  - cbn. now rewrite Hc.
Qed.

Lemma map_char_scalar t m c :
  forallb range_ok t = true -> forallb multi_ok m = true ->
  is_scalar c = true -> forallb is_scalar (map_char t m c) = true.
Proof.
  intros Ht Hm Hc. rewrite forallb_forall in Ht, Hm.
  destruct (map_char_cases t m c) as [(l & I & E)|[(a & b & s & p & q & I & B & E)|E]];
    rewrite E.
  - apply Hm in I. unfold multi_ok in I. rewrite !andb_true_iff in I. apply I.
  - apply Ht in I. unfold range_ok in I. rewrite !andb_true_iff in I.
    destruct I as [[_ Q] R]. apply N.leb_le in Q.
    cbn. rewrite andb_true_r. unfold is_scalar.
    rewrite ?orb_true_iff, ?andb_true_iff, ?N.ltb_lt, ?N.leb_le in *. lia.
  - cbn. now rewrite Hc.
Qed.

(** images of the lower-case table lie above Z *)
Definition above_Z (r : N * N * N * N * N) : bool := let '(a, b, s, p, q) := r in (q <=? a) && (0x5A <? a + p - q).
Lemma lower_above_Z : forallb above_Z lower_ranges = true.
Proof. vm_compute. reflexivity. Qed.
Lemma lower_multi_above_Z : forallb (fun x => forallb (fun d => 0x5A <? d) (snd x)) lower_multi = true.
Proof. vm_compute. reflexivity. Qed.
Lemma map_char_no_upper c :
  forallb (fun d => negb ((0x41 <=? d) && (d <=? 0x5A))) (map_char lower_ranges lower_multi c) = true.
Proof.
  destruct (N.lt_ge_cases c 128) as [L|L].
  { revert c L. apply forall_below128. vm_compute. reflexivity. }
  pose proof lower_above_Z as Ht. pose proof lower_multi_above_Z as Hm.
  rewrite forallb_forall in Ht, Hm.
  destruct (map_char_cases lower_ranges lower_multi c) as [(l & I & E)|[(a & b & s & p & q & I & B & E)|E]];
    rewrite E.
  - apply Hm in I. cbn in I. rewrite forallb_forall in I |- *. intros d J. specialize (I d J).
    apply N.ltb_lt in I. apply negb_true_iff, andb_false_iff. right. apply N.leb_gt. exact I.
  - apply Ht in I. unfold above_Z in I. apply andb_prop in I. destruct I as [Q I].
    apply N.leb_le in Q. apply N.ltb_lt in I.
    cbn. rewrite andb_true_r. apply negb_true_iff, andb_false_iff. right. apply N.leb_gt. lia.
  - cbn. rewrite andb_true_r. apply negb_true_iff, andb_false_iff. right. apply N.leb_gt. lia.
Qed.

(** ** Both binary searches meet the documented contract *)
Lemma sorted_nth keys : sorted_keys keys ->
  forall i j, (i <= j < length keys)%nat -> nth i keys 0 <= nth j keys 0.
Proof.
  intro S. apply Sorted_StronglySorted in S; [|intros x y z; lia].
  induction S as [|a l S IH F]; cbn; intros i j H; [lia|].
  destruct i as [|i], j as [|j]; try lia.
  - rewrite Forall_forall in F. apply F, nth_In. lia.
  - apply IH. lia.
Qed.

Lemma div2_bounds n : (2 <= n)%nat -> (1 <= Nat.div2 n < n)%nat.
Proof.
  intro H. split.
  - destruct n as [|[|n]]; cbn; lia.
  - apply Nat.lt_div2. lia.
Qed.

Definition search_ok (bs : list char -> char -> option nat) : Prop :=
  forall keys k, sorted_keys keys ->
  match bs keys k with
  | Some i => nth_error keys i = Some k
  | None => ~ In k keys
  end.

Lemma bsearch_152_loop_ok keys k (S : sorted_keys keys) : forall fuel left size,
  (size < fuel)%nat -> (left + size <= length keys)%nat ->
  (forall i, (i < left)%nat -> nth i keys 0 < k) ->
  (forall i, (left + size <= i < length keys)%nat -> k < nth i keys 0) ->
  match bsearch_152_loop fuel keys k left size with
  | Some i => nth_error keys i = Some k
  | None => ~ In k keys
  end.
Proof.
  induction fuel as [|fuel IH]; intros left size Hf Hl Hlt Hgt; [lia|].
  cbn [bsearch_152_loop]. destruct size as [|sz].
  - intro I. apply (In_nth _ _ 0) in I. destruct I as (i & Hi & E).
    destruct (Nat.lt_ge_cases i left) as [L|L].
    + specialize (Hlt i L). lia.
    + specialize (Hgt i). lia.
  - set (size := Datatypes.S sz) in *.
    assert (Hd : (Nat.div2 size < size)%nat) by (apply Nat.lt_div2; lia).
    set (mid := (left + Nat.div2 size)%nat) in *.
    destruct (N.compare_spec (nth mid keys 0) k) as [E|E|E].
    + rewrite <- E. apply nth_error_nth'. lia.
    + apply IH; try lia.
      * intros i Hi. pose proof (sorted_nth keys S i mid). lia.
      * intros i Hi. apply Hgt. lia.
    + apply IH; try lia.
      * intros i Hi. apply Hlt. lia.
      * intros i Hi. pose proof (sorted_nth keys S mid i). lia.
Qed.

Lemma bsearch_152_ok : search_ok bsearch_152.
Proof.
  intros keys k S. apply bsearch_152_loop_ok; auto; intros; lia.
Qed.

Lemma bsearch_182_loop_ok keys k (S : sorted_keys keys) : forall fuel base size,
  (size <= fuel)%nat -> (1 <= size)%nat -> (base + size <= length keys)%nat ->
  (base = 0%nat \/ nth base keys 0 <= k) ->
  (forall i, (base + size <= i < length keys)%nat -> k < nth i keys 0) ->
  let b := bsearch_182_loop fuel keys k base size in
  (b < length keys)%nat /\ (b = 0%nat \/ nth b keys 0 <= k) /\
  (forall i, (b < i < length keys)%nat -> k < nth i keys 0).
Proof.
  induction fuel as [|fuel IH]; intros base size Hf H1 Hl Hb Hgt; [lia|].
  cbn [bsearch_182_loop]. destruct (Nat.leb size 1) eqn:L.
  - apply Nat.leb_le in L. cbn zeta. split; [lia|]. split; [auto|].
    intros i Hi. apply Hgt. lia.
  - apply Nat.leb_gt in L. assert (D := div2_bounds size L).
    set (mid := (base + Nat.div2 size)%nat) in *.
    destruct (k <? nth mid keys 0) eqn:C.
    + apply N.ltb_lt in C. apply IH; try lia; auto.
      intros i Hi. pose proof (sorted_nth keys S mid i).
      pose proof (Nat.div2_odd size). unfold mid in *. lia.
    + apply N.ltb_ge in C. apply IH; try lia; auto.
      intros i Hi. apply Hgt. lia.
Qed.

Lemma bsearch_182_ok : search_ok bsearch_182.
Proof.
  intros keys k S. unfold bsearch_182. destruct (length keys) as [|n] eqn:L.
  - destruct keys; [intros []|discriminate].
  - destruct (bsearch_182_loop_ok keys k S (Datatypes.S n) 0 (Datatypes.S n)) as (B1 & B2 & B3);
      try lia; auto.
    set (b := bsearch_182_loop _ _ _ _ _) in *.
    destruct (nth b keys 0 =? k) eqn:E.
    + apply N.eqb_eq in E. rewrite <- E. apply nth_error_nth'. lia.
    + apply N.eqb_neq in E. intro I. apply (In_nth _ _ 0) in I. destruct I as (i & Hi & Ei).
      destruct (Nat.lt_ge_cases b i) as [Q|Q].
      * specialize (B3 i). lia.
      * pose proof (sorted_nth keys S i b). destruct B2 as [B2|B2]; [|lia].
        assert (i = b) by lia. congruence.
Qed.

(** ** The characters with a lower case of their own *)
Definition lower_sources : list N :=
  map fst lower_multi ++
  flat_map (fun r => match r with (a, b, s, _, _) =>
    map (fun i => a + s * N.of_nat i) (seq 0 (S (N.to_nat ((b - a) / s)))) end) lower_ranges.
Lemma lower_source c : In c lower_sources \/ map_char lower_ranges lower_multi c = [c].
Proof.
  unfold map_char, lower_sources. destruct (find _ lower_multi) as [[d l]|] eqn:F.
  - left. apply find_some in F. destruct F as [F1 F2]. cbn in F2. apply N.eqb_eq in F2. subst d.
    apply in_or_app. left. exact (in_map fst _ _ F1).
  - destruct (find (entry_hits c) lower_ranges) as [[[[[a b] s] p] q]|] eqn:G; [left|now right].
    apply find_some in G. destruct G as [G1 G2]. apply in_or_app. right. apply in_flat_map.
    exists (a, b, s, p, q). split; [exact G1|]. unfold entry_hits in G2.
    apply andb_prop in G2. destruct G2 as [G2 G3]. apply andb_prop in G2. destruct G2 as [G2 G4].
    apply N.leb_le in G2, G4. apply N.eqb_eq in G3.
    assert (S : s <> 0).
    { assert (X : forallb (fun r => match r with (_, _, s, _, _) => negb (s =? 0) end) lower_ranges = true)
        by (vm_compute; reflexivity).
      rewrite forallb_forall in X. apply X in G1. intros ->. discriminate G1. }
    apply in_map_iff. exists (N.to_nat ((c - a) / s)). split.
    + rewrite N2Nat.id. pose proof (N.div_mod (c - a) s S). lia.
    + apply in_seq. assert (D : (c - a) / s <= (b - a) / s) by (apply N.div_le_mono; [exact S|lia]).
      revert D. generalize ((c - a) / s), ((b - a) / s). intros x y D. lia.
Qed.
Definition lower_image_ok (c : N) : bool :=
  let l := map_char lower_ranges lower_multi c in
  match l with [] => false | _ => true end &&
  forallb (fun d => str_eqb (map_char lower_ranges lower_multi d) [d]) l &&
  ((c <? 128) || forallb (fun d => negb (d <? 128)) l || (c =? 0x130) || (c =? 0x212A)).
Lemma lower_images_ok : forallb lower_image_ok lower_sources = true.
Proof. vm_compute. reflexivity. Qed.
Lemma lower_image c : map_char lower_ranges lower_multi c = [c] \/ lower_image_ok c = true.
Proof.
  destruct (lower_source c) as [I|E]; [|now left]. right.
  pose proof lower_images_ok as H. rewrite forallb_forall in H. now apply H.
Qed.
Lemma lower_fixed c d : In d (map_char lower_ranges lower_multi c) -> map_char lower_ranges lower_multi d = [d].
Proof.
  destruct (lower_image c) as [E|H]; intro I.
  - rewrite E in I. destruct I as [<-|[]]. exact E.
  - unfold lower_image_ok in H. apply andb_prop in H. destruct H as [H _]. apply andb_prop in H. destruct H as [_ H].
    rewrite forallb_forall in H. now apply str_eqb_eq, H.
Qed.
Lemma lower_some c : map_char lower_ranges lower_multi c <> [].
Proof.
  destruct (lower_image c) as [E|H]; [rewrite E; discriminate|]. intro Z. unfold lower_image_ok in H. rewrite Z in H. discriminate H.
Qed.
Lemma lower_to_ascii c d : 128 <= c -> In d (map_char lower_ranges lower_multi c) -> d < 128 -> c = 0x130 \/ c = 0x212A.
Proof.
  intros L I D. destruct (lower_image c) as [E|H].
  - rewrite E in I. destruct I as [<-|[]]. lia.
  - unfold lower_image_ok in H. apply andb_prop in H. destruct H as [_ H].
    apply orb_prop in H. destruct H as [H|H]; [|right; now apply N.eqb_eq].
    apply orb_prop in H. destruct H as [H|H]; [|left; now apply N.eqb_eq]. exfalso.
    apply orb_prop in H. destruct H as [H|H]; [apply N.ltb_lt in H; lia|].
    rewrite forallb_forall in H. apply H in I. apply negb_true_iff, N.ltb_ge in I. lia.
Qed.

(** ** The instances conform *)
Lemma unicode14_std_ok bs : search_ok bs -> std_ok (unicode14_std bs).
Proof.
  intro H. constructor; cbn.
  - exact H.
  - intros c Hc. apply eqb_prop.
    revert c Hc. apply forall_below128. vm_compute. reflexivity.
  - intros c Hc. apply str_eqb_eq.
    revert c Hc. apply forall_below128. vm_compute. reflexivity.
  - intros c Hc. apply map_char_caseless; auto using lower_table_ok, lower_multi_ok.
  - intros c Hc. apply map_char_other; auto using lower_table_ok, lower_multi_ok.
  - intro c. apply map_char_no_upper.
  - exact lower_fixed.
  - split; vm_compute; reflexivity.
  - exact lower_some.
  - vm_compute. reflexivity.
  - vm_compute. reflexivity.
  - intros c Hc. repeat (destruct Hc as [<-|Hc]; [vm_compute; reflexivity|]). destruct Hc.
  - exact lower_to_ascii.
  - intros c Hc. apply map_char_scalar; auto using lower_table_ok, lower_multi_ok.
  - intros c Hc. apply str_eqb_eq.
    revert c Hc. apply forall_below128. vm_compute. reflexivity.
  - intros c Hc. apply map_char_caseless; auto using upper_table_ok, upper_multi_ok.
  - intros c Hc.
    assert (L : c < 128).
    { destruct (N.lt_ge_cases c 128) as [L|L]; [exact L|exfalso].
      unfold ascii_lower, ascii_upper in Hc.
      destruct ((0x41 <=? c) && (c <=? 0x5A)) eqn:A1.
      { apply andb_prop in A1. destruct A1 as [_ A1]. apply N.leb_le in A1. lia. }
      destruct ((0x61 <=? c) && (c <=? 0x7A)) eqn:A2.
      { apply andb_prop in A2. destruct A2 as [_ A2]. apply N.leb_le in A2. lia. }
      lia. }
    assert (Q : (if (ascii_lower c =? c) && (ascii_upper c =? c) then true
                 else in_table cased_ranges c && negb (in_table case_ignorable_ranges c)) = true).
    { clear Hc. revert c L. apply forall_below128. vm_compute. reflexivity. }
    destruct (ascii_lower c =? c) eqn:Q1, (ascii_upper c =? c) eqn:Q2; cbn in Q;
      try (apply andb_prop in Q; destruct Q as [Q3 Q4]; apply negb_true_iff in Q4; auto).
    apply N.eqb_eq in Q1, Q2. tauto.
Qed.

Theorem std_1_52_ok : std_ok std_1_52.
Proof. apply unicode14_std_ok, bsearch_152_ok. Qed.
Theorem std_1_82_ok : std_ok std_1_82.
Proof. apply unicode14_std_ok, bsearch_182_ok. Qed.
