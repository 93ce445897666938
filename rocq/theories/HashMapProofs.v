(** * [hashmap!] keeps the last value of every key (C99) *)
From Coq Require Import Permutation.
From Verif Require Import Tac Base Std Convert HashMap HashMapSpec.

Section Macro.
  Context {K V : Type} (H : hash_map K V) (L : lawful H) (dec : forall a b : K, a = b \/ a <> b).
  Notation ins := (fun map p => fst (insert H map (fst p) (snd p))).
  Lemma fold_get pairs : forall t k,
    (forall v, last_pair pairs k v -> get H (fold_left ins pairs t) k = Some v) /\
    ((forall v, ~ In (k, v) pairs) -> get H (fold_left ins pairs t) k = get H t k).
  Proof.
    induction pairs as [|[k0 v0] pairs IH] using rev_ind; intros t k.
    - split; [intros v (a & b & Q & _); destruct a; discriminate|reflexivity].
    - rewrite fold_left_app. cbn [fold_left fst snd]. split.
      + intros v (a & b & Q & N). destruct b as [|p b] using rev_ind.
        * apply app_inj_tail in Q. destruct Q as [_ Q]. injection Q as -> ->. apply (get_same H L).
        * clear IHb. rewrite app_comm_cons, app_assoc in Q. apply app_inj_tail in Q. destruct Q as [-> <-].
          rewrite (get_other H L); [|intros ->; apply (N v0); apply in_or_app; right; now left].
          apply (proj1 (IH t k)). exists a, b. split; [reflexivity|]. intros w I. apply (N w). apply in_or_app. now left.
      + intro N. rewrite (get_other H L); [|intros ->; apply (N v0); apply in_or_app; right; now left].
        apply (proj2 (IH t k)). intros v I. apply (N v). apply in_or_app. now left.
  Qed.
  Lemma last_or_none (pairs : list (K * V)) k : (exists v, last_pair pairs k v) \/ forall v, ~ In (k, v) pairs.
  Proof.
    induction pairs as [|[k0 v0] pairs IH]; [right; intros v []|].
    destruct IH as [(v & a & b & -> & N)|N]; [left; exists v, ((k0, v0) :: a), b; auto|].
    destruct (dec k0 k) as [->|D]; [left; exists v0, [], pairs; auto|]. right. intros v [Q|I]; [injection Q as -> _; now apply D|now apply (N v)].
  Qed.
  Lemma last_in (pairs : list (K * V)) k v : last_pair pairs k v -> In (k, v) pairs.
  Proof. intros (a & b & -> & _). apply in_or_app. right. now left. Qed.
  Theorem macro_get pairs k :
    (forall v, get H (hashmap H pairs) k = Some v <-> last_pair pairs k v) /\
    (get H (hashmap H pairs) k = None <-> forall v, ~ In (k, v) pairs).
  Proof.
    unfold hashmap. destruct (fold_get pairs (with_capacity H (count pairs)) k) as [A B]. rewrite (get_new H L) in B.
    destruct (last_or_none pairs k) as [(v & P)|N].
    - specialize (A v P). rewrite A. split; [|split; [discriminate|intro N; destruct (N v); now apply last_in]].
      intro w. split; [intros [= <-]; exact P|]. intro P'. f_equal. destruct P as (a & b & Q & N), P' as (a' & b' & Q' & N').
      clear - Q Q' N N'. revert a' Q'. subst pairs. induction a as [|p a IH]; intros a' Q.
      + destruct a' as [|p' a']; [now injection Q|]. injection Q as <- ->. exfalso. apply (N w). apply in_or_app. right. now left.
      + destruct a' as [|p' a']; [|injection Q as <- Q; now apply (IH a')]. injection Q as -> <-. exfalso. apply (N' v). apply in_or_app. right. now left.
    - specialize (B N). rewrite B. split; [|split; [intros _; exact N|reflexivity]].
      intro v. split; [discriminate|]. intro P. exfalso. apply (N v). now apply last_in.
  Qed.
  Lemma macro_room pairs ks : NoDup ks -> (forall k, In k ks -> get H (hashmap H pairs) k <> None) -> (length ks <= count pairs)%nat.
  Proof.
    intros D G. unfold count. rewrite map_length, <- (map_length fst pairs). apply NoDup_incl_length; [exact D|].
    intros k I. specialize (G k I). destruct (get H (hashmap H pairs) k) as [v|] eqn:Q; [|now destruct G].
    apply (proj1 (macro_get pairs k)) in Q. apply last_in in Q. apply in_map_iff. now exists (k, v).
  Qed.
  (** the order of pairs with different keys *)
  Lemma last_distinct (pairs : list (K * V)) k v : NoDup (map fst pairs) -> last_pair pairs k v <-> In (k, v) pairs.
  Proof.
    intro D. split; [apply last_in|]. intro I. apply in_split in I. destruct I as (a & b & ->). exists a, b. split; [reflexivity|].
    intros w I. rewrite map_app in D. apply NoDup_remove_2 in D. apply D. apply in_or_app. right. apply in_map_iff. now exists (k, w).
  Qed.
  Theorem macro_order pairs pairs' : NoDup (map fst pairs) -> Permutation pairs pairs' ->
    forall k, get H (hashmap H pairs) k = get H (hashmap H pairs') k.
  Proof.
    intros D P k. assert (D' : NoDup (map fst pairs')) by (eapply Permutation_NoDup; [apply Permutation_map; exact P|exact D]).
    destruct (macro_get pairs k) as [A _], (macro_get pairs' k) as [A' B'].
    destruct (get H (hashmap H pairs) k) as [v|] eqn:G.
    - symmetry. apply A'. apply last_distinct; [exact D'|]. eapply Permutation_in; [exact P|]. apply last_distinct; [exact D|]. now apply A.
    - symmetry. apply B'. intros v I. apply Permutation_sym in P. apply (Permutation_in _ P) in I. apply last_distinct in I; [|exact D]. apply A in I. discriminate.
  Qed.
End Macro.

(** ** LONG_VOWELS *)
Lemma N_cases (a b : N) : a = b \/ a <> b.
Proof. destruct (N.eq_dec a b); auto. Qed.
Lemma distinct_vowels : NoDup (map fst long_vowel_pairs).
Proof. repeat constructor; cbn; intuition discriminate. Qed.
Theorem long_vowels_map H : lawful H -> forall c, get H (LONG_VOWELS_map H) c = LONG_VOWELS c.
Proof.
  intros L c. destruct (macro_get H L N_cases long_vowel_pairs c) as [A B].
  unfold LONG_VOWELS_map, LONG_VOWELS.
  assert (S : forall v, In (c, v) long_vowel_pairs -> get H (hashmap H long_vowel_pairs) c = Some v).
  { intros v I. apply A. apply last_distinct; [apply distinct_vowels|exact I]. }
  repeat match goal with |- context [if ?b =? ?k then _ else _] => destruct (N.eqb_spec b k) as [->|?]; [apply S; cbn; auto 10|] end.
  apply B. intros v I. unfold long_vowel_pairs in I.
  repeat (destruct I as [Q|I]; [apply (f_equal fst) in Q; cbn [fst] in Q; subst c; match goal with D : ?x <> ?y |- _ => now apply D end|]). exact I.
Qed.

(** ** The table *)
Section Table.
  Context {V : Type} (hash : char -> N).
  Lemma find_same (l : list (char * V)) k v : find (replace l k v) k = Some v.
  Proof.
    induction l as [|[x w] l IH]; cbn; [now rewrite N.eqb_refl|]. destruct (N.eqb_spec x k) as [->|D]; cbn; [now rewrite N.eqb_refl|].
    apply N.eqb_neq in D. now rewrite D.
  Qed.
  Lemma find_other (l : list (char * V)) k v k' : k <> k' -> find (replace l k v) k' = find l k'.
  Proof.
    intro D. induction l as [|[x w] l IH]; cbn; [apply N.eqb_neq in D; now rewrite D|]. destruct (N.eqb_spec x k) as [->|D']; cbn.
    - apply N.eqb_neq in D. now rewrite D.
    - now rewrite IH.
  Qed.
  Lemma update_length (t : list (list (char * V))) : forall i k v, length (update t i k v) = length t.
  Proof. induction t as [|l t IH]; intros i k v; [reflexivity|]. destruct i; cbn; [reflexivity|]. now rewrite IH. Qed.
  Lemma update_nth (t : list (list (char * V))) : forall i k v j, (i < length t)%nat ->
    nth j (update t i k v) [] = if Nat.eqb i j then replace (nth j t []) k v else nth j t [].
  Proof.
    induction t as [|l t IH]; intros i k v j B; [cbn in B; lia|]. destruct i as [|i], j as [|j]; cbn in *; try reflexivity. apply IH. lia.
  Qed.
  Lemma put_bucket (t : rows) k v k' : bucket hash (put (V := V) hash t k v) k' = bucket hash t k'.
  Proof. unfold put. destruct (bucket hash t k); unfold bucket; cbn [snd]; [reflexivity|]. now rewrite update_length. Qed.
  Lemma bucket_bound (t : rows (V := V)) k : (bucket hash t k < S (length (snd t)))%nat.
  Proof. unfold bucket. pose proof (N.mod_upper_bound (hash k) (N.of_nat (S (length (snd t)))) ltac:(lia)). lia. Qed.
  Lemma put_nth (t : rows (V := V)) k v j :
    nth j (fst (put hash t k v) :: snd (put hash t k v)) [] =
    if Nat.eqb (bucket hash t k) j then replace (nth j (fst t :: snd t) []) k v else nth j (fst t :: snd t) [].
  Proof.
    pose proof (bucket_bound t k) as B. unfold put. destruct (bucket hash t k) as [|i]; destruct j as [|j]; cbn [fst snd nth Nat.eqb]; try reflexivity.
    apply update_nth. lia.
  Qed.
  Theorem buckets_lawful : lawful (buckets (V := V) hash).
  Proof.
    split; cbn [get insert with_capacity table buckets fst snd].
    - intros n k. unfold lookup. unfold rows. cbn [fst snd]. assert (E : forall j, nth j (repeat [] (S n)) (@nil (char * V)) = []).
      { generalize (S n). intro m. induction m as [|m IH]; intros [|j]; cbn [repeat nth]; auto. }
      change ([] :: repeat [] n) with (repeat (@nil (char * V)) (S n)). now rewrite E.
    - intros t k v. unfold lookup. rewrite put_bucket, put_nth, Nat.eqb_refl. apply find_same.
    - intros t k v k' D. unfold lookup. rewrite put_bucket, put_nth. destruct (Nat.eqb _ _); [now apply find_other|reflexivity].
    - reflexivity.
  Qed.
End Table.
