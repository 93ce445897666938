(** * A change in a text changes its romaji only nearby (C95) *)
From Verif Require Import Tac Base Std Constants Chars RomajiTree Convert
  RomajiPure KanaSpec KanaDict KanaProofs Predicates ScriptSpec ScriptProofs RomajiSpec RomajiProofs MoraProofs KanaJoin
  LibraryProofs ChoiceSpec ChoiceProofs JoinSpec Joins JoinText LocalSpec.
Local Opaque rdict.

Definition M (c : N) : Prop := In c (u "ー・ヵヶ").
Lemma M_dec c : M c \/ ~ M c.
Proof. unfold M. destruct (mem c (u "ー・ヵヶ")) eqn:E; [left; now apply mem_In|right; now apply mem_not]. Qed.
Lemma M_mark : M long_mark.
Proof. now left. Qed.
Lemma others_app a b : others (a ++ b) = (others a + others b)%nat.
Proof. unfold others. now rewrite filter_app, app_length. Qed.
Lemma others_M c s : M c -> others (c :: s) = others s.
Proof. intro I. apply mem_In in I. unfold others. cbn [filter]. unfold mem in I. rewrite I. reflexivity. Qed.
Lemma others_c c s : ~ M c -> others (c :: s) = S (others s).
Proof. intro I. apply mem_not in I. unfold others. cbn [filter]. unfold mem in I. rewrite I. reflexivity. Qed.
Lemma others_run s : Forall M s -> others s = 0%nat.
Proof. induction 1 as [|c s C F IH]; [reflexivity|]. now rewrite others_M. Qed.

(** ** The last and the first of the other characters *)
Lemma last_split x : (Forall M x) \/ exists x0 c run, x = x0 ++ c :: run /\ ~ M c /\ Forall M run.
Proof.
  induction x as [|c x IH] using rev_ind; [left; constructor|]. destruct (M_dec c) as [C|C]; [|right; exists x, c, []; repeat split; auto].
  destruct IH as [F|(x0 & d & run & -> & D & F)]; [left; apply Forall_app; auto|]. right. exists x0, d, (run ++ [c]). rewrite <- app_assoc. repeat split; [exact D|].
  apply Forall_app. auto.
Qed.
Lemma first_split y : (Forall M y) \/ exists run c y0, y = run ++ c :: y0 /\ ~ M c /\ Forall M run.
Proof.
  induction y as [|c y IH]; [left; constructor|]. destruct (M_dec c) as [C|C]; [|right; exists [], c, y; auto].
  destruct IH as [F|(run & d & y0 & -> & D & F)]; [left; now constructor|]. right. exists (c :: run), d, y0. auto.
Qed.
Lemma last_unique run : forall x0 c x1 d run', x0 ++ c :: run = x1 ++ d :: run' -> ~ M c -> ~ M d -> Forall M run -> Forall M run' -> c = d.
Proof.
  induction run as [|e run IH] using rev_ind; intros x0 c x1 d run' Q C D F F'.
  - destruct run' as [|e' run' _] using rev_ind; [apply app_inj_tail in Q; apply Q|].
    change (x1 ++ d :: run' ++ [e']) with (x1 ++ (d :: run') ++ [e']) in Q. rewrite app_assoc in Q. apply app_inj_tail in Q. destruct Q as [_ ->].
    apply Forall_app in F'. destruct F' as [_ F']. inversion F'; contradiction.
  - change (x0 ++ c :: run ++ [e]) with (x0 ++ (c :: run) ++ [e]) in Q. rewrite app_assoc in Q. apply Forall_app in F. destruct F as [F Fe].
    destruct run' as [|e' run' _] using rev_ind.
    + apply app_inj_tail in Q. destruct Q as [_ ->]. inversion Fe; contradiction.
    + change (x1 ++ d :: run' ++ [e']) with (x1 ++ (d :: run') ++ [e']) in Q. rewrite app_assoc in Q. apply app_inj_tail in Q. destruct Q as [Q _].
      apply Forall_app in F'. destruct F' as [F' _]. exact (IH _ _ _ _ _ Q C D F F').
Qed.

(** ** Two characters that may belong together *)
Definition pair_b (e f : N) : bool :=
  (e =? tsu) && (mem f doublable || (f =? nn)) || (e =? nn) && mem f after_n || (mem e bases || (e =? vu)) && mem f smalls.
Definition bad (c d : N) : bool := pair_b (k2hc c) (k2hc d).
Lemma pair_tsu e f g : pair_b e f = true -> pair_b f g = true -> e = tsu.
Proof.
  intros A B. destruct (N.eqb_spec e tsu) as [->|Ne]; [reflexivity|]. exfalso. unfold pair_b in A. destruct (N.eqb_spec e tsu); [contradiction|]. cbn [andb orb] in A.
  assert (I : In f (after_n ++ smalls)).
  { apply orb_prop in A. apply in_or_app. destruct A as [A|A]; apply andb_prop in A; destruct A as [_ A]; apply mem_In in A; auto. }
  assert (T : forallb (fun f => negb ((f =? tsu) || (f =? nn) || mem f bases || (f =? vu))) (after_n ++ smalls) = true) by (vm_compute; reflexivity).
  rewrite forallb_forall in T. specialize (T f I). apply negb_true_iff in T. apply orb_false_iff in T. destruct T as [T T4]. apply orb_false_iff in T. destruct T as [T T3].
  apply orb_false_iff in T. destruct T as [T1 T2]. unfold pair_b in B. rewrite T1, T2, T3, T4 in B. discriminate.
Qed.
Lemma pair_not_tsu e : pair_b e tsu = false.
Proof.
  unfold pair_b. assert (T : (mem tsu doublable || (tsu =? nn)) = false /\ mem tsu after_n = false /\ mem tsu smalls = false) by (vm_compute; auto).
  destruct T as (-> & -> & ->). now rewrite !andb_false_r.
Qed.

(** ** Cuts *)
Lemma piece_M a c p e : M c -> hiragana_piece (u "お") a c p -> In e p -> In e (u "あいうえおー・ヵヶ").
Proof.
  intros C [(Nm & h & H & ->)|[(-> & k & _ & (row & I & _))|(-> & _ & ->)]] Ie.
  - destruct Ie as [<-|[]]. apply k2hc_spec in H. subst h. unfold M in C.
    assert (T : forallb (fun c => mem (k2hc c) (u "あいうえおー・ヵヶ")) (u "ー・ヵヶ") = true) by (vm_compute; reflexivity).
    rewrite forallb_forall in T. apply mem_In. now apply T.
  - assert (T : forallb (fun r => forallb (fun e => mem e (u "あいうえおー・ヵヶ")) (snd r)) (mark_table (u "お")) = true) by (vm_compute; reflexivity).
    rewrite forallb_forall in T. specialize (T _ I). cbn [snd] in T. rewrite forallb_forall in T. apply mem_In. now apply T.
  - destruct Ie as [<-|[]]. apply mem_In. vm_compute. reflexivity.
Qed.
Lemma last_kana q : forall h e, hiragana_text (u "お") [] q (h ++ [e]) -> ~ In e (u "あいうえおー・ヵヶ") ->
  exists q0 c run, q = q0 ++ c :: run /\ ~ M c /\ Forall M run /\ k2hc c = e.
Proof.
  induction q as [|c q IH] using rev_ind; intros h e T Ne.
  - inversion T as [? Z|]. destruct h; discriminate.
  - apply text_snoc_piece in T. destruct T as (h1 & p & Q & T & P). cbn [app] in P. destruct (M_dec c) as [C|C].
    + destruct p as [|x p1] eqn:Ep.
      * rewrite app_nil_r in Q. subst h1. destruct (IH _ _ T Ne) as (q0 & d & run & -> & D & F & K). exists q0, d, (run ++ [c]). rewrite <- app_assoc.
        repeat split; auto. apply Forall_app. auto.
      * exfalso. apply Ne. apply (piece_M q c p e C); [rewrite Ep; exact P|]. assert (N : p <> []) by (rewrite Ep; discriminate). rewrite <- Ep in Q.
        destruct (exists_last N) as (p' & e' & Ep'). rewrite Ep' in *. rewrite app_assoc in Q. apply app_inj_tail in Q. destruct Q as [_ ->]. apply in_or_app. right. now left.
    + exists q, c, []. repeat split; auto. destruct P as [(_ & h0 & H & ->)|[(-> & _)|(-> & _)]]; [|now destruct (C M_mark)..].
      apply app_inj_tail in Q. destruct Q as [_ ->]. now apply k2hc_spec.
Qed.
Lemma first_kana d z h : ~ M d -> hiragana_text (u "お") [] (d :: z) h -> exists t, h = k2hc d :: t.
Proof.
  intros D T. inversion T as [|? ? ? p t P T']; subst. destruct P as [(_ & h0 & H & ->)|[(-> & _)|(-> & _)]]; [|now destruct (D M_mark)..].
  apply k2hc_spec in H. subst h0. now exists t.
Qed.
Lemma heads_ok e : mem e (tsu :: nn :: vu :: bases) = true -> ~ In e (u "あいうえおー・ヵヶ").
Proof.
  intros I J. assert (T : forallb (fun e => negb (mem e (u "あいうえおー・ヵヶ"))) (tsu :: nn :: vu :: bases) = true) by (vm_compute; reflexivity).
  rewrite forallb_forall in T. apply mem_In in I. specialize (T _ I). apply mem_In in J. now rewrite J in T.
Qed.
Lemma cut_ok rv rtv q d z : ~ M d -> (forall q0 c run, q = q0 ++ c :: run -> ~ M c -> Forall M run -> bad c d = false) -> ~ depends rv rtv q (d :: z).
Proof.
  intros D H [(s1 & s2 & k & Q & (a' & run & Q' & K1 & K2 & F) & Nk)|(hx & hy & Tx & Ty & Fu)].
  - apply Nk. exists k. destruct s1 as [|d' s1]; [injection Q as -> _; now destruct (D M_mark)|]. injection Q as <- Q.
    destruct (Nat.leb (length q) (length a')) eqn:L.
    + apply Nat.leb_le in L. destruct (app_cut q (d :: s1) a' (k :: run) Q' L) as (e & -> & Z). exists e, run. rewrite Z. auto.
    + apply Nat.leb_gt in L. symmetry in Q'. destruct (app_cut a' (k :: run) q (d :: s1) Q') as (e & -> & Z); [lia|].
      destruct e as [|x e]; [rewrite app_length in L; cbn in L; lia|]. injection Z as -> ->. apply Forall_app in F. destruct F as [_ F]. inversion F; contradiction.
  - destruct (first_kana d z hy D Ty) as (ty & ->).
    assert (G : forall x e, hx = x ++ [e] -> pair_b e (k2hc d) = true -> mem e (tsu :: nn :: vu :: bases) = true -> False).
    { intros x e -> P I. destruct (last_kana q x e Tx (heads_ok e I)) as (q0 & c & run & Q & C & F & Kc). specialize (H q0 c run Q C F). unfold bad in H. rewrite Kc in H. congruence. }
    remember (k2hc d :: ty) as hy eqn:Ey. destruct Fu as [x b y I|x b y I|x b y _ I|x a b y A I|x b y _ _ I|x b y _ I]; injection Ey as Eb Ey.
    + apply (G x tsu eq_refl); [|vm_compute; reflexivity]. rewrite <- Eb. apply mem_In in I. unfold pair_b. now rewrite N.eqb_refl, I.
    + apply (G x tsu eq_refl); [|vm_compute; reflexivity]. rewrite <- Eb. vm_compute. reflexivity.
    + apply (G x nn eq_refl); [|vm_compute; reflexivity]. rewrite <- Eb. apply mem_In in I. unfold pair_b. rewrite (N.eqb_refl nn), I. cbn [andb orb]. rewrite ?orb_true_r. reflexivity.
    + apply (G x a eq_refl); [|apply mem_In in A; unfold mem in *; cbn [existsb]; now rewrite A, !orb_true_r]. rewrite <- Eb. apply mem_In in I, A. unfold pair_b.
      rewrite A, I. cbn [andb orb]. rewrite ?orb_true_r. reflexivity.
    + apply (G x vu eq_refl); [|vm_compute; reflexivity]. rewrite <- Eb. apply mem_In in I. unfold pair_b. rewrite (N.eqb_refl vu), I, orb_true_r. cbn [andb orb]. rewrite ?orb_true_r. reflexivity.
    + apply (G (x ++ [ch "っ"]) vu); [now rewrite <- app_assoc| |vm_compute; reflexivity]. rewrite <- Eb. apply mem_In in I. unfold pair_b. rewrite (N.eqb_refl vu), I, orb_true_r. cbn [andb orb]. rewrite ?orb_true_r. reflexivity.
Qed.
Lemma cut_nil rv rtv s : ~ depends rv rtv [] s.
Proof.
  intros [(s1 & s2 & k & _ & K & Nk)|(hx & hy & Tx & _ & Fu)]; [apply Nk; now exists k|]. inversion Tx; subst.
  inversion Fu as [x b y I Q|x b y I Q|x b y _ I Q|x a b y A I Q|x b y _ _ I Q|x b y _ I Q]; destruct x; discriminate.
Qed.

(** ** The place for the cut *)
Lemma four_others x : (others x <= 3)%nat \/ exists x0 c4 r4 c3 r3 c2 r2 c1 r1,
  x = x0 ++ c4 :: r4 ++ c3 :: r3 ++ c2 :: r2 ++ c1 :: r1 /\ (~ M c4 /\ ~ M c3 /\ ~ M c2 /\ ~ M c1) /\ Forall M r4 /\ Forall M r3 /\ Forall M r2 /\ Forall M r1.
Proof.
  destruct (last_split x) as [F|(x1 & c1 & r1 & -> & C1 & F1)]; [left; rewrite others_run by exact F; lia|].
  destruct (last_split x1) as [F|(x2 & c2 & r2 & -> & C2 & F2)]; [left; rewrite others_app, others_c, !others_run by assumption; lia|].
  destruct (last_split x2) as [F|(x3 & c3 & r3 & -> & C3 & F3)]; [left; rewrite !others_app, !others_c, !others_run by assumption; lia|].
  destruct (last_split x3) as [F|(x4 & c4 & r4 & -> & C4 & F4)]; [left; rewrite !others_app, !others_c, !others_run by assumption; lia|].
  right. exists x4, c4, r4, c3, r3, c2, r2, c1, r1. repeat (rewrite <- app_assoc; cbn [app]). repeat split; auto.
Qed.
Lemma cut_here rv rtv q0 c run d z : ~ M c -> Forall M run -> ~ M d -> bad c d = false -> ~ depends rv rtv (q0 ++ c :: run) (d :: z).
Proof.
  intros C F D B. apply cut_ok; [exact D|]. intros q1 c' run' Q C' F'. now rewrite <- (last_unique _ _ _ _ _ _ Q C C' F F').
Qed.
Lemma before_romaji rv rtv x : exists q t, x = q ++ t /\ (others t <= 3)%nat /\ forall z, ~ depends rv rtv q (t ++ z).
Proof.
  destruct (four_others x) as [L|(x0 & c4 & r4 & c3 & r3 & c2 & r2 & c1 & r1 & -> & (C4 & C3 & C2 & C1) & F4 & F3 & F2 & F1)].
  { exists [], x. repeat split; auto. intro z. apply cut_nil. }
  destruct (bad c2 c1) eqn:B1; [destruct (bad c3 c2) eqn:B2; [destruct (bad c4 c3) eqn:B3|]|].
  - exfalso. unfold bad in *. pose proof (pair_tsu _ _ _ B2 B1) as T. rewrite T in B3. now rewrite pair_not_tsu in B3.
  - exists (x0 ++ c4 :: r4), (c3 :: r3 ++ c2 :: r2 ++ c1 :: r1). split; [now rewrite <- app_assoc|].
    split; [rewrite !others_c, !others_app, !others_c, !others_app, !others_c, !others_run by assumption; lia|]. intro z. now apply cut_here.
  - exists (x0 ++ c4 :: r4 ++ c3 :: r3), (c2 :: r2 ++ c1 :: r1). split; [rewrite <- app_assoc; cbn [app]; now rewrite <- app_assoc|].
    split; [rewrite !others_c, !others_app, !others_c, !others_run by assumption; lia|]. intro z.
    change (x0 ++ c4 :: r4 ++ c3 :: r3) with (x0 ++ (c4 :: r4) ++ c3 :: r3). rewrite app_assoc. now apply cut_here.
  - exists (x0 ++ c4 :: r4 ++ c3 :: r3 ++ c2 :: r2), (c1 :: r1). split; [rewrite <- app_assoc; cbn [app]; rewrite <- app_assoc; cbn [app]; now rewrite <- app_assoc|].
    split; [rewrite others_c, others_run by assumption; lia|]. intro z.
    change (x0 ++ c4 :: r4 ++ c3 :: r3 ++ c2 :: r2) with (x0 ++ (c4 :: r4) ++ (c3 :: r3) ++ c2 :: r2). rewrite !app_assoc. now apply cut_here.
Qed.
Lemma three_others y : (others y <= 2)%nat \/ exists r0 d1 r1 d2 r2 d3 y0,
  y = r0 ++ d1 :: r1 ++ d2 :: r2 ++ d3 :: y0 /\ (~ M d1 /\ ~ M d2 /\ ~ M d3) /\ Forall M r0 /\ Forall M r1 /\ Forall M r2.
Proof.
  destruct (first_split y) as [F|(r0 & d1 & y1 & -> & D1 & F0)]; [left; rewrite others_run by exact F; lia|].
  destruct (first_split y1) as [F|(r1 & d2 & y2 & -> & D2 & F1)]; [left; rewrite others_app, others_c, !others_run by assumption; lia|].
  destruct (first_split y2) as [F|(r2 & d3 & y3 & -> & D3 & F2)]; [left; rewrite !others_app, !others_c, !others_app, !others_c, !others_run by assumption; lia|].
  right. exists r0, d1, r1, d2, r2, d3, y3. repeat split; auto.
Qed.
Lemma no_last rv rtv z : ~ depends rv rtv z [].
Proof.
  intros [(s1 & s2 & k & Q & _)|(hx & hy & _ & Ty & Fu)]; [destruct s1; discriminate|]. inversion Ty; subst. inversion Fu.
Qed.
Lemma after_romaji rv rtv y : exists p r, y = p ++ r /\ (others p <= 2)%nat /\ forall z, ~ depends rv rtv (z ++ p) r.
Proof.
  destruct (three_others y) as [L|(r0 & d1 & r1 & d2 & r2 & d3 & y0 & -> & (D1 & D2 & D3) & F0 & F1 & F2)].
  { exists y, []. rewrite app_nil_r. repeat split; auto. intro z. apply no_last. }
  destruct (bad d1 d2) eqn:B1.
  - destruct (bad d2 d3) eqn:B2.
    + exists r0, (d1 :: r1 ++ d2 :: r2 ++ d3 :: y0). split; [reflexivity|]. split; [rewrite others_run by assumption; lia|]. intro z.
      apply cut_ok; [exact D1|]. intros q0 c run _ _ _. unfold bad in *. rewrite (pair_tsu _ _ _ B1 B2). apply pair_not_tsu.
    + exists (r0 ++ d1 :: r1 ++ d2 :: r2), (d3 :: y0). split; [rewrite <- app_assoc; cbn [app]; now rewrite <- app_assoc|].
      split; [rewrite !others_app, !others_c, !others_app, !others_c, !others_run by assumption; lia|]. intro z.
      change (r0 ++ d1 :: r1 ++ d2 :: r2) with (r0 ++ (d1 :: r1) ++ d2 :: r2). rewrite !app_assoc. now apply cut_here.
  - exists (r0 ++ d1 :: r1), (d2 :: r2 ++ d3 :: y0). split; [now rewrite <- app_assoc|].
    split; [rewrite !others_app, !others_c, !others_run by assumption; lia|]. intro z. rewrite app_assoc. now apply cut_here.
Qed.

(** ** The theorems *)
Section Local.
  Context (E : std) (HE : std_ok E) (o : options) (Up : upcase_katakana o = false).
  Definition rom (s : str) : str := match to_romaji_with_opt E s o with Ok t => t | _ => [] end.
  Lemma rom_ok s : to_romaji_with_opt E s o = Ok (rom s).
  Proof. unfold rom. rewrite to_romaji_with_opt_eq by exact HE. reflexivity. Qed.
  Let rv := rom (u "ゔ").
  Let rtv := rom (u "っゔ").
  Lemma rom_nil : rom [] = [].
  Proof.
    pose proof (rom_ok []) as H. rewrite to_romaji_with_opt_eq in H by exact HE. assert (U : forall a b : str, Ok a = Ok b -> a = b) by congruence. apply U in H. rewrite <- H, Up. reflexivity.
  Qed.
  Lemma rom_cut q s : q <> [] -> s <> [] -> (rom (q ++ s) = rom q ++ rom s <-> ~ depends rv rtv q s).
  Proof.
    intros Nq Ns. destruct (parts_exact E o rv rtv [q; s] HE Up (rom_ok _) (rom_ok _)) as (r & rs & R1 & F2 & X); [constructor; [exact Nq|constructor; [exact Ns|constructor]]|].
    inversion F2 as [|? r1 ? rs1 Q1 F3]; subst. inversion F3 as [|? r2 ? rs2 Q2 F4]; subst. inversion F4; subst.
    rewrite rom_ok in R1, Q1, Q2. assert (U : forall a b : str, Ok a = Ok b -> a = b) by congruence. apply U in R1, Q1, Q2. cbn [concat] in R1, X. rewrite !app_nil_r in *. subst. rewrite X. split.
    - intro H. specialize (H [q] s [] eq_refl). cbn [concat] in H. now rewrite app_nil_r in H.
    - intros H pre y post Z. destruct pre as [|p pre].
      + apply cut_nil.
      + injection Z as <- Z. destruct pre as [|p' pre]; [|destruct pre; discriminate]. injection Z as <- _. cbn [concat]. now rewrite app_nil_r.
  Qed.
  Lemma rom_cut_to q s : ~ depends rv rtv q s -> rom (q ++ s) = rom q ++ rom s.
  Proof.
    intro H. destruct q as [|c q]; [now rewrite rom_nil|]. destruct s as [|d s]; [now rewrite rom_nil, !app_nil_r|]. apply rom_cut; [discriminate|discriminate|exact H].
  Qed.
  Theorem local_romaji x y : exists q t p r, x = q ++ t /\ (others t <= 3)%nat /\ y = p ++ r /\ (others p <= 2)%nat /\
    forall w, rom (x ++ w ++ y) = rom q ++ rom (t ++ w ++ p) ++ rom r.
  Proof.
    destruct (before_romaji rv rtv x) as (q & t & -> & Lt & Jq). destruct (after_romaji rv rtv y) as (p & r & -> & Lp & Jr).
    exists q, t, p, r. repeat split; auto. intro w. rewrite <- app_assoc, rom_cut_to by apply Jq. f_equal.
    rewrite <- rom_cut_to; [now rewrite <- !app_assoc|]. rewrite app_assoc. apply Jr.
  Qed.

  (** *** The bounds are the least *)
  Lemma no_cut q s : q <> [] -> s <> [] -> depends rv rtv q s -> rom (q ++ s) <> rom q ++ rom s.
  Proof. intros Nq Ns D H. apply rom_cut in H; auto. Qed.
  Lemma plain_text s : ~ In long_mark s -> forall a, hiragana_text (u "お") a s (map k2hc s).
  Proof.
    induction s as [|c s IH]; intros H a; [constructor|]. cbn [map]. change (k2hc c :: map k2hc s) with ([k2hc c] ++ map k2hc s). constructor.
    - left. split; [intros ->; apply H; now left|]. exists (k2hc c). split; [now apply k2hc_spec|reflexivity].
    - apply IH. intro I. apply H. now right.
  Qed.
  Lemma fuses_depends x y : ~ In long_mark x -> ~ In long_mark y -> fuses rv rtv (map k2hc x) (map k2hc y) -> depends rv rtv x y.
  Proof. intros X Y F. right. exists (map k2hc x), (map k2hc y). split; [now apply plain_text|]. split; [now apply plain_text|exact F]. Qed.
  Lemma mark_depends x s : (exists k, lengthens x k) -> depends rv rtv x (long_mark :: s).
  Proof.
    intros (k & K). left. exists [], s, k. split; [reflexivity|]. rewrite app_nil_r. split; [exact K|]. intros (k' & K'). now apply lengthens_nil in K'.
  Qed.
  Lemma least_before q t : u "ッキャ" = q ++ t -> (forall w, rom (u "ッキャ" ++ w) = rom q ++ rom (t ++ w)) -> (3 <= others t)%nat.
  Proof.
    intros Q H. destruct q as [|c1 q]; [cbn [app] in Q; subst t; vm_compute; auto|]. exfalso.
    destruct q as [|c2 q]; [|destruct q as [|c3 q]; [|destruct q as [|c4 q]; [|apply (f_equal (@length _)) in Q; discriminate Q]]].
    - injection Q as <- <-. refine (no_cut [ch "ッ"] (u "キャ") ltac:(discriminate) ltac:(discriminate) _ (H [])).
      apply fuses_depends; [vm_compute; intuition discriminate|vm_compute; intuition discriminate|].
      apply (fuses_tsu rv rtv [] (ch "き") (u "ゃ")). apply mem_In. vm_compute. reflexivity.
    - injection Q as <- <- <-. refine (no_cut (u "ッキ") (u "ャ") ltac:(discriminate) ltac:(discriminate) _ (H [])).
      apply fuses_depends; [vm_compute; intuition discriminate|vm_compute; intuition discriminate|].
      apply (fuses_small rv rtv (u "っ") (ch "き") (ch "ゃ") []); apply mem_In; vm_compute; reflexivity.
    - injection Q as <- <- <- <-. refine (no_cut (u "ッキャ") [long_mark] ltac:(discriminate) ltac:(discriminate) _ (H [long_mark])).
      apply mark_depends. exists (ch "ャ"). exists (u "ッキ"), []. split; [reflexivity|]. split; [vm_compute; split; discriminate|]. split; [vm_compute; intuition discriminate|constructor].
  Qed.
  Lemma least_after p r : u "キャ" = p ++ r -> (forall w, rom (w ++ u "キャ") = rom (w ++ p) ++ rom r) -> (2 <= others p)%nat.
  Proof.
    intros Q H. destruct p as [|c1 p]; [|destruct p as [|c2 p]; [|destruct p as [|c3 p]; [|apply (f_equal (@length _)) in Q; discriminate Q]]].
    - cbn [app] in Q. subst r. exfalso. refine (no_cut (u "っ") (u "キャ") ltac:(discriminate) ltac:(discriminate) _ (H (u "っ"))).
      apply fuses_depends; [vm_compute; intuition discriminate|vm_compute; intuition discriminate|].
      apply (fuses_tsu rv rtv [] (ch "き") (u "ゃ")). apply mem_In. vm_compute. reflexivity.
    - injection Q as <- <-. exfalso. refine (no_cut (u "キ") (u "ャ") ltac:(discriminate) ltac:(discriminate) _ (H [])).
      apply fuses_depends; [vm_compute; intuition discriminate|vm_compute; intuition discriminate|].
      apply (fuses_small rv rtv [] (ch "き") (ch "ゃ") []); apply mem_In; vm_compute; reflexivity.
    - injection Q as <- <- <-. vm_compute. auto.
  Qed.
  Lemma marks_all n : Forall (fun c => In c (u "ー・ヵヶ")) (repeat long_mark n).
  Proof. apply Forall_forall. intros c I. apply repeat_spec in I. subst c. now left. Qed.
  Lemma ka_marks i : lengthens (ch "カ" :: repeat long_mark i) (ch "カ").
  Proof. exists [], (repeat long_mark i). split; [reflexivity|]. split; [vm_compute; split; discriminate|]. split; [vm_compute; intuition discriminate|apply marks_all]. Qed.
  Lemma repeat_cut n p r : repeat long_mark n = p ++ r -> p = repeat long_mark (length p) /\ r = repeat long_mark (length r).
  Proof.
    intro Q. assert (H : forall c, In c (p ++ r) -> c = long_mark) by (rewrite <- Q; intros c I; now apply repeat_spec in I).
    split; apply Forall_eq_repeat, Forall_forall; intros c I; symmetry; apply H, in_or_app; auto.
  Qed.
  Lemma marks_before n q t : ch "カ" :: repeat long_mark n = q ++ t -> (forall w, rom ((ch "カ" :: repeat long_mark n) ++ w) = rom q ++ rom (t ++ w)) -> (n <= length t)%nat.
  Proof.
    intros Q H. destruct q as [|c q]; [cbn [app] in Q; subst t; cbn; rewrite repeat_length; lia|]. injection Q as <- Q. exfalso.
    destruct (repeat_cut _ _ _ Q) as [Eq Et]. specialize (H [long_mark]). rewrite Q in H. rewrite app_comm_cons, <- app_assoc in H.
    refine (no_cut (ch "カ" :: q) (t ++ [long_mark]) _ _ _ H); [discriminate|destruct t; discriminate|].
    assert (exists s, t ++ [long_mark] = long_mark :: s) as (s & ->).
    { rewrite Et. destruct (length t) as [|j]; cbn [repeat app]; eauto. }
    apply mark_depends. exists (ch "カ"). rewrite Eq. apply ka_marks.
  Qed.
  Lemma marks_after n p r : repeat long_mark n = p ++ r -> (forall w, rom (w ++ repeat long_mark n) = rom (w ++ p) ++ rom r) -> (n <= length p)%nat.
  Proof.
    intros Q H. destruct (repeat_cut _ _ _ Q) as [Ep Er]. destruct r as [|c r].
    - rewrite app_nil_r in Q. apply (f_equal (@length _)) in Q. rewrite repeat_length in Q. lia.
    - exfalso. specialize (H [ch "カ"]). rewrite Q, app_assoc in H. refine (no_cut ([ch "カ"] ++ p) (c :: r) _ _ _ H); [discriminate|discriminate|].
      rewrite Er. cbn [length repeat]. apply mark_depends. exists (ch "カ"). cbn [app]. rewrite Ep. apply ka_marks.
  Qed.
End Local.
