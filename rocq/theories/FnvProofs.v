(** * Proof of C99: no two characters have the same hash *)
From Coq Require Import FMapPositive.
From Verif Require Import Base Tac Std HashMap.

Lemma fnv_times x y : x < 2 ^ 64 -> y < 2 ^ 64 -> (x * 0x100000001b3) mod 2 ^ 64 = (y * 0x100000001b3) mod 2 ^ 64 -> x = y.
Proof.
  intros X Y H.
  assert (B : forall z, z < 2 ^ 64 -> ((z * 0x100000001b3) mod 2 ^ 64 * 0xce965057aff6957b) mod 2 ^ 64 = z).
  { intros z Z. rewrite N.mul_mod_idemp_l by discriminate. rewrite <- N.mul_assoc.
    rewrite <- N.mul_mod_idemp_r by discriminate.
    replace ((0x100000001b3 * 0xce965057aff6957b) mod 2 ^ 64) with 1 by (vm_compute; reflexivity).
    rewrite N.mul_1_r. now apply N.mod_small. }
  rewrite <- (B x X), <- (B y Y). now rewrite H.
Qed.
Lemma lxor_lt h b : h < 2 ^ 64 -> b < 2 ^ 64 -> N.lxor h b < 2 ^ 64.
Proof.
  intros H B. destruct (N.eq_0_gt_0_cases (N.lxor h b)) as [->|P]; [reflexivity|].
  apply N.log2_lt_pow2; [exact P|]. pose proof (N.log2_lxor h b) as L.
  assert (A : forall z, z < 2 ^ 64 -> N.log2 z < 64).
  { intros z Z. destruct (N.eq_0_gt_0_cases z) as [->|Q]; [reflexivity|]. now apply N.log2_lt_pow2. }
  apply A in H, B. lia.
Qed.
Lemma fnv_step_lt h b : fnv_step h b < 2 ^ 64.
Proof. apply N.mod_lt. discriminate. Qed.
Lemma fnv_step_inj h b h' b' : h < 2 ^ 64 -> h' < 2 ^ 64 -> b < 256 -> b' < 256 ->
  fnv_step h b = fnv_step h' b' -> N.lxor h b = N.lxor h' b'.
Proof.
  intros H H' B B'. assert (L : 256 < 2 ^ 64) by reflexivity.
  apply fnv_times; apply lxor_lt; lia.
Qed.
Lemma high h b h' b' : b < 256 -> b' < 256 -> N.lxor h b = N.lxor h' b' -> h / 256 = h' / 256.
Proof.
  intros B B' H. apply (f_equal (fun z => N.shiftr z 8)) in H. rewrite !N.shiftr_lxor, !N.shiftr_div_pow2 in H.
  change (2 ^ 8) with 256 in H. rewrite (N.div_small b), (N.div_small b'), !N.lxor_0_r in H by assumption. exact H.
Qed.

Definition offset : N := 0xcbf29ce484222325.
Definition two (a b : N) : N := fnv_step (fnv_step offset a) b.
Fixpoint up_to (n : nat) : list N := match n with O => [] | S n => N.of_nat n :: up_to n end.
Lemma up_to_In n a : a < N.of_nat n -> In a (up_to n).
Proof.
  induction n as [|n IH]; intro H; [lia|]. cbn [up_to]. destruct (N.eq_dec a (N.of_nat n)) as [->|Q]; [now left|right]. apply IH. lia.
Qed.
(** the same, faster to compute *)
Definition step (h b : N) : N := N.land (0x100000001b3 * N.lxor h b) 0xFFFFFFFFFFFFFFFF.
Lemma step_eq h b : step h b = fnv_step h b.
Proof. unfold step, fnv_step. change 0xFFFFFFFFFFFFFFFF with (N.ones 64). now rewrite N.land_ones, N.mul_comm. Qed.
Definition rows : list (N * N * N) :=
  flat_map (fun a => let h := step offset a in map (fun b => (a, b, N.shiftr (step h b) 8)) (up_to 256)) (up_to 256).
Lemma rows_In a b : a < 256 -> b < 256 -> In (a, b, two a b / 256) rows.
Proof.
  intros A B. unfold rows. apply in_flat_map. exists a. split; [now apply up_to_In|]. cbv zeta. apply in_map_iff. exists b.
  split; [|now apply up_to_In]. rewrite !step_eq, N.shiftr_div_pow2. reflexivity.
Qed.
(** one table of the upper 56 bits; [None]: two pairs of bytes have the same ones *)
Definition enter (m : option (PositiveMap.t (N * N))) (p : N * N * N) : option (PositiveMap.t (N * N)) :=
  match m with
  | None => None
  | Some m =>
    let k := N.succ_pos (snd p) in
    match PositiveMap.find k m with
    | Some _ => None
    | None => Some (PositiveMap.add k (fst p) m)
    end
  end.
Definition entered (l : list (N * N * N)) : bool :=
  match fold_left enter l (Some (PositiveMap.empty (N * N))) with Some _ => true | None => false end.
Lemma entered_ok : entered rows = true.
Proof. vm_cast_no_check (eq_refl true). Qed.
Lemma enter_none l : fold_left enter l None = None.
Proof. induction l as [|p l IH]; [reflexivity|exact IH]. Qed.
Lemma enter_spec l : forall m m', fold_left enter l (Some m) = Some m' ->
  (forall k p, PositiveMap.find k m = Some p -> PositiveMap.find k m' = Some p)
  /\ forall p, In p l -> PositiveMap.find (N.succ_pos (snd p)) m' = Some (fst p).
Proof.
  induction l as [|q l IH]; intros m m' H; [injection H as <-; split; [auto|easy]|].
  cbn [fold_left] in H. unfold enter at 2 in H. set (k := N.succ_pos (snd q)) in *. cbv zeta in H.
  destruct (PositiveMap.find k m) as [x|] eqn:F; [now rewrite enter_none in H|]. destruct (IH _ _ H) as (I1 & I2). split.
  - intros k' p' Q. apply I1. destruct (Pos.eq_dec k' k) as [->|N]; [congruence|]. now rewrite PositiveMap.gso.
  - intros p [<-|I]; [|now apply I2]. apply I1. fold k. apply PositiveMap.gss.
Qed.
Lemma entered_inj l a b a' b' x : entered l = true -> In (a, b, x) l -> In (a', b', x) l -> a = a' /\ b = b'.
Proof.
  intros X I J. unfold entered in X.
  destruct (fold_left enter l _) as [m|] eqn:F; [|discriminate X]. destruct (enter_spec _ _ _ F) as (_ & K).
  apply K in I, J. cbn [fst snd] in I, J. rewrite I in J. injection J as -> ->. now split.
Qed.
Lemma two_inj a b a' b' : a < 256 -> b < 256 -> a' < 256 -> b' < 256 -> two a b / 256 = two a' b' / 256 -> a = a' /\ b = b'.
Proof.
  intros A B A' B' H. apply (entered_inj rows a b a' b' (two a b / 256) entered_ok (rows_In a b A B)). rewrite H. exact (rows_In a' b' A' B').
Qed.
Lemma fnv_inj c d : c < 0x1000000 -> d < 0x1000000 -> fnv c = fnv d -> c = d.
Proof.
  intros C D H. unfold fnv in H. cbn [fold_left] in H.
  rewrite (N.div_small c 16777216), (N.div_small d 16777216) in H by assumption.
  assert (L : forall x, x mod 256 < 256) by (intro x; apply N.mod_lt; discriminate).
  apply fnv_step_inj in H; try (apply fnv_step_lt || reflexivity). rewrite !N.lxor_0_r in H.
  apply fnv_step_inj in H; try (apply fnv_step_lt || apply L). pose proof (high _ _ _ _ (L _) (L _) H) as Q.
  apply (two_inj _ _ _ _ (L _) (L _) (L _) (L _)) in Q. destruct Q as [Q1 Q2]. rewrite Q1, Q2 in H.
  assert (Q3 : (c / 65536) mod 256 = (d / 65536) mod 256).
  { set (h := fnv_step _ _) in H. apply (f_equal (N.lxor h)) in H. now rewrite <- !N.lxor_assoc, N.lxor_nilpotent, !N.lxor_0_l in H. }
  clear H. rewrite !(N.mod_small (_ / 65536)) in Q3 by (apply N.div_lt_upper_bound; [discriminate|exact C || exact D]).
  assert (S : forall x, x = x / 65536 * 65536 + (x / 256) mod 256 * 256 + x mod 256).
  { intro x. pose proof (N.div_mod x 256). pose proof (N.div_mod (x / 256) 256). rewrite N.div_div in H0 by discriminate.
    change (256 * 256) with 65536 in H0. lia. }
  rewrite (S c), (S d). now rewrite Q1, Q2, Q3.
Qed.
Lemma scalar_24 c : is_scalar c = true -> c < 0x1000000.
Proof. unfold is_scalar. lia. Qed.
