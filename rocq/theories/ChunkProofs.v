(** * Proofs about utils/get_chunk.rs (C04, C50) *)
From Verif Require Import Tac Base Chunk Utf8Proofs.

Ltac Zify.zify_post_hook ::= idtac.

(** byte offset of character [n] *)
Definition offset (s : str) (n : nat) : nat := length (encode (firstn n s)).

Lemma offset_0 s : offset s 0 = 0%nat. Proof. reflexivity. Qed.
Lemma offset_all s n : (length s <= n)%nat -> offset s n = length (encode s).
Proof. intro H. unfold offset. now rewrite firstn_all2. Qed.

Lemma char_indices_from_nth s : forall off n,
  option_map fst (nth_error (char_indices_from off s) n)
  = if Nat.ltb n (length s) then Some (off + offset s n)%nat else None.
Proof.
  induction s as [|c s IH]; intros off n; [destruct n; reflexivity|].
  destruct n as [|n]; cbn [char_indices_from nth_error length].
  - cbn [option_map fst]. rewrite offset_0, Nat.add_0_r. reflexivity.
  - rewrite IH. change (Nat.ltb (S n) (S (length s))) with (Nat.ltb n (length s)).
    destruct (Nat.ltb n (length s)); [|reflexivity]. f_equal. unfold offset. cbn [firstn].
    change (encode (c :: firstn n s)) with (encode_char c ++ encode (firstn n s)).
    rewrite app_length, encode_length. lia.
Qed.

Lemma len_pos c : (1 <= len_utf8 c)%nat.
Proof. unfold len_utf8. ifs; lia. Qed.

Lemma offset_split s a b : (a <= b)%nat ->
  offset s b = (offset s a + length (encode (firstn (b - a) (skipn a s))))%nat.
Proof.
  intro L. unfold offset. rewrite <- app_length, <- encode_app. f_equal. f_equal.
  replace b with (a + (b - a))%nat at 1 by lia.
  generalize (b - a)%nat as d. intro d. clear. revert s. induction a as [|a IH]; intro s; [reflexivity|].
  destruct s as [|c s]; cbn; [now rewrite firstn_nil|]. now rewrite IH.
Qed.
Lemma offset_mono s a b : (a <= b)%nat -> (offset s a <= offset s b)%nat.
Proof. intro L. rewrite (offset_split s a b L). lia. Qed.
Lemma offset_strict s a b : (a < b)%nat -> (a < length s)%nat -> (offset s a < offset s b)%nat.
Proof.
  intros L H. rewrite (offset_split s a b) by lia.
  destruct (skipn a s) as [|c r] eqn:E.
  { apply (f_equal (@length _)) in E. rewrite skipn_length in E. cbn in E. lia. }
  destruct (b - a)%nat eqn:D; [lia|]. cbn [firstn].
  change (encode (c :: firstn n r)) with (encode_char c ++ encode (firstn n r)).
  rewrite app_length, encode_length. pose proof (len_pos c). lia.
Qed.
Lemma offset_le s a : (offset s a <= length (encode s))%nat.
Proof. rewrite <- (offset_all s (a + length s)) by lia. apply offset_mono. lia. Qed.

(** character offsets are exactly where the code may slice *)
Lemma offset_boundary s a : is_char_boundary (encode s) (offset s a) = true.
Proof.
  unfold is_char_boundary.
  assert (E : encode s = encode (firstn a s) ++ encode (skipn a s))
    by (rewrite <- encode_app, firstn_skipn; reflexivity).
  destruct (skipn a s) as [|c r] eqn:R.
  - assert (offset s a = length (encode s)).
    { unfold offset. rewrite E at 1. cbn. now rewrite app_nil_r. }
    rewrite H, Nat.eqb_refl. now rewrite orb_true_r.
  - replace (nth_error (encode s) (offset s a)) with (hd_error (encode (skipn a s))).
    2:{ rewrite E, R. rewrite nth_error_app2 by (unfold offset; lia).
        unfold offset. rewrite Nat.sub_diag. destruct (encode (c :: r)); reflexivity. }
    rewrite R. change (encode (c :: r)) with (encode_char c ++ encode r).
    destruct (encode_char_head c) as (b & l & -> & B). cbn. rewrite B. now rewrite orb_true_r.
Qed.

(** the position the code resolves an index to *)
Definition resolve_start (s : str) (i : nat) : nat := if Nat.ltb i (length s) then i else 0%nat.

Lemma slice_chars s a b : (a <= b)%nat ->
  firstn (offset s b - offset s a) (skipn (offset s a) (encode s))
  = encode (firstn (b - a) (skipn a s)).
Proof.
  intro L.
  assert (E : encode s = encode (firstn a s) ++ encode (skipn a s))
    by (rewrite <- encode_app, firstn_skipn; reflexivity).
  rewrite E at 1. unfold offset at 3. rewrite skipn_app, skipn_all, Nat.sub_diag. cbn [app skipn].
  rewrite (offset_split s a b L).
  replace (offset s a + _ - offset s a)%nat with (length (encode (firstn (b - a) (skipn a s)))) by lia.
  set (t := skipn a s). rewrite <- (firstn_skipn (b - a) t) at 2. rewrite encode_app.
  rewrite firstn_app, firstn_all, Nat.sub_diag. cbn. now rewrite app_nil_r.
Qed.

Theorem get_chunk_eq s a b :
  get_chunk s a b =
  if Nat.ltb a (length s) && Nat.ltb b a then Panic
  else Ok (encode (firstn (b - resolve_start s a) (skipn (resolve_start s a) s))).
Proof.
  unfold get_chunk, char_indices. rewrite !char_indices_from_nth. cbn [Nat.add].
  replace (match (if Nat.ltb a (length s) then Some (offset s a) else None) with
           | Some o => o | None => 0%nat end) with (offset s (resolve_start s a))
    by (unfold resolve_start; destruct (Nat.ltb a (length s)); reflexivity).
  replace (match (if Nat.ltb b (length s) then Some (offset s b) else None) with
           | Some o => o | None => length (encode s) end) with (offset s b).
  2:{ destruct (Nat.ltb b (length s)) eqn:B; [reflexivity|]. apply offset_all. lia. }
  unfold str_slice. rewrite !offset_boundary, !andb_true_r.
  replace (Nat.leb (offset s b) (length (encode s))) with true
    by (symmetry; apply Nat.leb_le, offset_le).
  rewrite andb_true_r. unfold resolve_start.
  destruct (Nat.ltb a (length s)) eqn:A; cbn [andb].
  - destruct (Nat.ltb b a) eqn:B.
    + pose proof (offset_strict s b a) as O.
      replace (Nat.leb (offset s a) (offset s b)) with false; [reflexivity|].
      symmetry. apply Nat.leb_gt. apply O; lia.
    + replace (Nat.leb (offset s a) (offset s b)) with true
        by (symmetry; apply Nat.leb_le, offset_mono; lia).
      f_equal. apply slice_chars. lia.
  - cbn [Nat.leb offset]. rewrite offset_0. cbn [Nat.leb].
    pose proof (slice_chars s 0 b) as SC. rewrite offset_0 in SC. rewrite SC by lia. reflexivity.
Qed.

(** a position is a boundary exactly if it is the end of a prefix *)
Lemma encode_char_tail c i : (1 <= i < len_utf8 c)%nat -> exists b, nth_error (encode_char c) i = Some b /\ is_cont b = true.
Proof.
  unfold len_utf8, encode_char. intro H.
  destruct (c <? 0x80) eqn:A; [lia|]. destruct (c <? 0x800) eqn:B; [|destruct (c <? 0x10000) eqn:C];
    (destruct i as [|[|[|[|i]]]]; try lia; cbn [nth_error]; eexists; (split; [reflexivity|]); unfold is_cont; lia).
Qed.
Lemma boundary_iff s : forall i, is_char_boundary (encode s) i = true <-> exists p q, s = p ++ q /\ i = length (encode p).
Proof.
  induction s as [|c s IH]; intro i.
  - unfold is_char_boundary. cbn [encode flat_map length]. rewrite orb_diag. split.
    + intro H. exists [], []. split; [reflexivity|]. destruct i; [reflexivity|]. cbn in H. destruct i; discriminate.
    + intros (p & q & Q & ->). symmetry in Q. apply app_eq_nil in Q. destruct Q as [-> ->]. reflexivity.
  - change (encode (c :: s)) with (encode_char c ++ encode s). pose proof (encode_length c) as L. pose proof (len_pos c) as P. split.
    + intro H. destruct i as [|i]; [exists [], (c :: s); auto|]. unfold is_char_boundary in H. change (Nat.eqb (S i) 0) with false in H. rewrite orb_false_l in H.
      rewrite app_length, L in H.
      destruct (Nat.lt_ge_cases (S i) (len_utf8 c)) as [D|D].
      * exfalso. rewrite nth_error_app1 in H by lia. destruct (encode_char_tail c (S i)) as (b & Nb & Cb); [lia|].
        rewrite Nb, Cb in H. cbn [negb] in H. rewrite orb_false_r in H. apply Nat.eqb_eq in H. lia.
      * destruct (proj1 (IH (S i - len_utf8 c)%nat)) as (p & q & -> & Q).
        -- unfold is_char_boundary. rewrite nth_error_app2, L in H by lia. apply orb_prop in H. destruct H as [H|H].
           ++ apply Nat.eqb_eq in H. replace (S i - len_utf8 c)%nat with (length (encode s)) by lia.
              now rewrite Nat.eqb_refl, orb_true_r.
           ++ rewrite H. now rewrite orb_true_r.
        -- exists (c :: p), q. split; [reflexivity|]. change (encode (c :: p)) with (encode_char c ++ encode p). rewrite app_length, L. lia.
    + intros (p & q & Q & ->). change (encode_char c ++ encode s) with (encode (c :: s)).
      replace (length (encode p)) with (offset (c :: s) (length p)); [apply offset_boundary|].
      unfold offset. rewrite Q, firstn_app, firstn_all, Nat.sub_diag. cbn [firstn]. now rewrite app_nil_r.
Qed.
Lemma prefix_of_prefix (p q p' q' : str) : p ++ q = p' ++ q' -> (length (encode p) <= length (encode p'))%nat ->
  exists m, p' = p ++ m /\ q = m ++ q'.
Proof.
  revert p'. induction p as [|c p IH]; intros p' Q H.
  - exists p'. auto.
  - destruct p' as [|c' p'].
    + exfalso. change (encode (c :: p)) with (encode_char c ++ encode p) in H. rewrite app_length, encode_length in H.
      pose proof (len_pos c). cbn in H. lia.
    + injection Q as <- Q. change (encode (c :: p)) with (encode_char c ++ encode p) in H. change (encode (c :: p')) with (encode_char c ++ encode p') in H.
      rewrite !app_length in H. destruct (IH p' Q ltac:(lia)) as (m & -> & ->). exists m. auto.
Qed.
Lemma str_slice_iff s a b r : str_slice (encode s) a b = Ok r <->
  exists p m q, s = p ++ m ++ q /\ a = length (encode p) /\ b = length (encode (p ++ m)) /\ r = encode m.
Proof.
  unfold str_slice. split.
  - destruct (Nat.leb a b && _ && _ && _) eqn:C; [|discriminate]. intros [= <-].
    rewrite !andb_true_iff, !boundary_iff in C. destruct C as (((C1 & C2) & p & q & -> & ->) & p' & q' & Q & ->).
    apply Nat.leb_le in C1. destruct (prefix_of_prefix p q p' q' Q C1) as (m & -> & ->). exists p, m, q'.
    split; [reflexivity|]. split; [reflexivity|]. split; [reflexivity|].
    rewrite !encode_app, app_length. replace (length (encode p) + length (encode m) - length (encode p))%nat with (length (encode m)) by lia.
    rewrite skipn_app, skipn_all, Nat.sub_diag. cbn [app skipn]. rewrite firstn_app, firstn_all, Nat.sub_diag. cbn [firstn]. now rewrite app_nil_r.
  - intros (p & m & q & -> & -> & -> & ->).
    rewrite (proj2 (boundary_iff (p ++ m ++ q) (length (encode p)))) by eauto.
    rewrite (proj2 (boundary_iff (p ++ m ++ q) (length (encode (p ++ m))))) by (exists (p ++ m), q; split; [now rewrite <- app_assoc|reflexivity]).
    rewrite !encode_app, !app_length.
    rewrite (proj2 (Nat.leb_le _ _)) by lia. rewrite (proj2 (Nat.leb_le _ _)) by lia. cbn [andb]. f_equal.
    replace (length (encode p) + length (encode m) - length (encode p))%nat with (length (encode m)) by lia.
    rewrite skipn_app, skipn_all, Nat.sub_diag. cbn [app skipn]. rewrite firstn_app, firstn_all, Nat.sub_diag. cbn [firstn]. now rewrite app_nil_r.
Qed.
Lemma str_slice_panic s a b : str_slice (encode s) a b = Panic <-> ~ exists r, str_slice (encode s) a b = Ok r.
Proof.
  unfold str_slice. destruct (_ && _); split; intro H; try discriminate; try reflexivity.
  - exfalso. apply H. eauto.
  - intros (r & Q). discriminate.
Qed.
