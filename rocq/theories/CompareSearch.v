(** * The comparisons of a binary search (C100) *)
From Verif Require Export Tac.
From Verif Require Import Base Std Compare.

Definition top_152 (n : nat) : nat := match n with O => 0 | _ => S (Nat.log2 n) end.
Definition top_182 (n : nat) : nat := match n with O => 0 | _ => S (Nat.log2_up n) end.

Lemma log2_half n : (2 <= n)%nat -> Nat.log2 n = S (Nat.log2 (Nat.div2 n)).
Proof.
  intro H. change (Nat.div2 n) with (Nat.shiftr n 1). rewrite Nat.log2_shiftr.
  assert (1 <= Nat.log2 n)%nat by (apply (Nat.log2_le_mono 2 n H)). lia.
Qed.
Lemma top_half n : (1 <= n)%nat -> top_152 n = S (top_152 (Nat.div2 n)).
Proof.
  intro H. destruct n as [|[|n]]; [lia|reflexivity|]. unfold top_152 at 1. rewrite log2_half by lia.
  cbn [Nat.div2]. unfold top_152. reflexivity.
Qed.
Lemma top_mono a b : (a <= b)%nat -> (top_152 a <= top_152 b)%nat.
Proof. intro H. destruct a as [|a]; [cbn; lia|]. destruct b as [|b]; [lia|]. unfold top_152. apply le_n_S, Nat.log2_le_mono, H. Qed.
Lemma half_lt n : (1 <= n)%nat -> (Nat.div2 n < n)%nat.
Proof. intro H. apply Nat.lt_div2. lia. Qed.
Lemma half_rest n : (1 <= n)%nat -> (n - S (Nat.div2 n) <= Nat.div2 n)%nat.
Proof. intro H. pose proof (Nat.div2_odd n). destruct (Nat.odd n); cbn [Nat.b2n] in *; lia. Qed.

Lemma loop_152 keys k : forall fuel left size l, (size < fuel)%nat ->
  fst (bsearch_152_loop_cmp fuel keys k left size l) = bsearch_152_loop fuel keys k left size /\
  (snd (bsearch_152_loop_cmp fuel keys k left size l) <= l + top_152 size)%nat /\
  ((1 <= size)%nat -> (S l <= snd (bsearch_152_loop_cmp fuel keys k left size l))%nat).
Proof.
  induction fuel as [|fuel IH]; intros left size l Hf; [lia|]. cbn [bsearch_152_loop_cmp bsearch_152_loop].
  destruct size as [|sz]; [split; [reflexivity|split; [cbn; lia|lia]]|]. set (size := S sz) in *.
  pose proof (half_lt size ltac:(lia)) as H1. pose proof (half_rest size ltac:(lia)) as H2. pose proof (top_half size ltac:(lia)) as H3.
  clearbody size. cbn zeta. destruct (N.compare _ k).
  - split; [reflexivity|]. cbn [snd]. split; [lia|lia].
  - specialize (IH (S (left + Nat.div2 size)) (left + size - S (left + Nat.div2 size))%nat (S l) ltac:(lia)). destruct IH as (A & B & C).
    split; [exact A|]. pose proof (top_mono (left + size - S (left + Nat.div2 size)) (Nat.div2 size) ltac:(lia)).
    split; [lia|]. intros _. destruct (left + size - S (left + Nat.div2 size))%nat; [|specialize (C ltac:(lia)); lia].
    destruct fuel; cbn; lia.
  - specialize (IH left (left + Nat.div2 size - left)%nat (S l) ltac:(lia)). destruct IH as (A & B & C).
    split; [exact A|]. replace (left + Nat.div2 size - left)%nat with (Nat.div2 size) in * by lia.
    split; [lia|]. intros _. destruct (Nat.div2 size); [|specialize (C ltac:(lia)); lia]. destruct fuel; cbn; lia.
Qed.
Theorem search_152 keys k : fst (bsearch_152_cmp keys k) = bsearch_152 keys k /\
  (snd (bsearch_152_cmp keys k) <= top_152 (length keys))%nat /\ (keys <> [] -> (1 <= snd (bsearch_152_cmp keys k))%nat).
Proof.
  unfold bsearch_152_cmp, bsearch_152. destruct (loop_152 keys k (S (length keys)) 0 (length keys) 0 ltac:(lia)) as (A & B & C).
  split; [exact A|]. split; [exact B|]. intro NE. apply C. destruct keys; [easy|cbn; lia].
Qed.
(** a key below all others takes that many *)
Lemma loop_152_low keys k : (forall i, (i < length keys)%nat -> k < nth i keys 0) -> forall fuel size l, (size < fuel)%nat -> (size <= length keys)%nat ->
  snd (bsearch_152_loop_cmp fuel keys k 0 size l) = (l + top_152 size)%nat.
Proof.
  intro H. induction fuel as [|fuel IH]; intros size l Hf Hs; [lia|]. cbn [bsearch_152_loop_cmp].
  destruct size as [|sz]; [cbn; lia|]. set (size := S sz) in *.
  pose proof (half_lt size ltac:(lia)) as H1. pose proof (top_half size ltac:(lia)) as H3. clearbody size. cbn zeta.
  cbn [Nat.add]. specialize (H (Nat.div2 size) ltac:(lia)). rewrite (proj2 (N.compare_gt_iff _ _) H), Nat.sub_0_r.
  rewrite IH; lia.
Qed.
Theorem search_152_low keys k : (forall x, In x keys -> k < x) -> bsearch_152_cmp keys k = (None, top_152 (length keys)).
Proof.
  intro H. assert (H' : forall i, (i < length keys)%nat -> k < nth i keys 0) by (intros i Hi; apply H, nth_In, Hi).
  unfold bsearch_152_cmp. rewrite (surjective_pairing (bsearch_152_loop_cmp _ _ _ _ _ _)). f_equal; [|rewrite loop_152_low; auto; lia].
  rewrite (proj1 (loop_152 keys k (S (length keys)) 0 (length keys) 0 ltac:(lia))).
  assert (G : forall fuel size, (size <= length keys)%nat -> bsearch_152_loop fuel keys k 0 size = None).
  { induction fuel as [|fuel IH]; intros size Hs; [reflexivity|]. cbn [bsearch_152_loop]. destruct size as [|sz]; [reflexivity|].
    set (size := S sz) in *. pose proof (half_lt size ltac:(lia)). clearbody size. cbn zeta. cbn [Nat.add].
    specialize (H' (Nat.div2 size) ltac:(lia)). rewrite (proj2 (N.compare_gt_iff _ _) H'). apply IH. lia. }
  now apply G.
Qed.

Lemma log2_up_half n : (2 <= n)%nat -> Nat.log2_up n = S (Nat.log2_up (n - Nat.div2 n)).
Proof.
  intro H. rewrite Nat.log2_up_eqn by lia. destruct (Nat.eq_dec n 2) as [->|D]; [reflexivity|].
  assert (G : (2 <= n - Nat.div2 n)%nat) by (pose proof (Nat.div2_odd n); destruct (Nat.odd n); cbn [Nat.b2n] in *; lia).
  rewrite Nat.log2_up_eqn by lia. f_equal. rewrite log2_half by lia. f_equal. f_equal.
  pose proof (Nat.div2_odd n). pose proof (Nat.div2_odd (Nat.pred n)). 
  assert (P : Nat.odd (Nat.pred n) = negb (Nat.odd n)) by (destruct n; [lia|]; cbn [Nat.pred]; rewrite Nat.odd_succ, <- Nat.negb_odd; now rewrite negb_involutive).
  rewrite P in *. destruct (Nat.odd n); cbn [Nat.b2n negb] in *; lia.
Qed.
Lemma loop_182 keys k : forall fuel base size l, (1 <= size)%nat -> (size <= fuel)%nat ->
  bsearch_182_loop_cmp fuel keys k base size l = (bsearch_182_loop fuel keys k base size, (l + Nat.log2_up size)%nat).
Proof.
  induction fuel as [|fuel IH]; intros base size l H1 Hf; [lia|]. cbn [bsearch_182_loop_cmp bsearch_182_loop].
  destruct (Nat.leb size 1) eqn:L.
  - apply Nat.leb_le in L. replace size with 1%nat by lia. cbn. f_equal. lia.
  - apply Nat.leb_gt in L. cbn zeta. pose proof (half_lt size ltac:(lia)). assert (1 <= Nat.div2 size)%nat.
    { pose proof (Nat.div2_odd size). destruct (Nat.odd size); cbn [Nat.b2n] in *; lia. }
    rewrite IH by lia. f_equal. rewrite (log2_up_half size) by lia. lia.
Qed.
Theorem search_182 keys k : bsearch_182_cmp keys k = (bsearch_182 keys k, top_182 (length keys)).
Proof.
  unfold bsearch_182_cmp, bsearch_182, top_182. destruct (length keys) as [|n]; [reflexivity|]. rewrite loop_182 by lia. reflexivity.
Qed.
