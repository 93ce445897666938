(** * Which texts are results of to_kana (C82) *)
From Coq Require Import Bool PeanoNat.
From Verif Require Import Tac Base Std Constants Chars Trees KanaTree Strings Convert
  KanaPure KanaSpec KanaDict KanaProofs MoraProofs Predicates ScriptProofs Splits TokenSpec ExactSpec Exact
  KanaJoinSpec KanaJoin Complete FixedSpec Fixed.

(** ** Every result has the form *)
Lemma conv_back m p : (forall c, In c p -> ~ in_no_key m c) -> forall s y, conv m s = p ++ y -> exists r, s = p ++ r /\ conv m r = y.
Proof.
  induction p as [|d p IH]; intros K s y Q; [exists s; auto|].
  destruct s as [|c s]; [rewrite kconv_nil in Q; discriminate Q|].
  destruct (longest_exists m (c :: s)) as (q & L). destruct (entry_dec m (low q)) as [[v I]|I].
  - exfalso. destruct (proj1 L) as (r & Q2). rewrite Q2 in L, Q. rewrite (conv_hit m q r v L I) in Q.
    destruct (emit_kana m _ v q I) as (h & t & E & _). apply (K d); [now left|]. rewrite E in Q. injection Q as -> _.
    apply (emit_inert m q v I). rewrite E. now left.
  - rewrite (conv_miss m q c s L I) in Q. injection Q as -> Q. destruct (IH (fun x J => K x (or_intror J)) s y Q) as (r & -> & R). exists r. auto.
Qed.
Definition y_keys (m : mode) : bool :=
  forallb (fun e => match fst e with
    | c :: t => negb (c =? ch "y") || existsb (fun e' => str_eqb (fst e') (ch "n" :: fst e)) (dict m)
        || forallb (fun w => existsb (fun p => prefixb p w) after_nyy) [snd e; h2k (snd e)]
    | [] => true end) (dict m).
Lemma y_keys_true m : y_keys m = true.
Proof. destruct m; vm_cast_no_check (eq_refl true). Qed.
Lemma y_key m t v q : entry m (ch "y" :: t) v -> (exists w, entry m (ch "n" :: ch "y" :: t) w) \/ exists p y', In p after_nyy /\ emit q v = p ++ y'.
Proof.
  intro I. pose proof (y_keys_true m) as F. unfold y_keys in F. rewrite forallb_forall in F. specialize (F _ I). cbn [fst snd] in F.
  rewrite N.eqb_refl in F. cbn [negb orb] in F. apply orb_prop in F. destruct F as [F|F].
  - left. apply existsb_exists in F. destruct F as ([k w] & K & F). apply str_eqb_eq in F. cbn [fst] in F. subst k. eauto.
  - right. assert (W : In (emit q v) [v; h2k v]) by (unfold emit; destruct (forallb is_AZ q); cbn; auto).
    rewrite forallb_forall in F. specialize (F _ W). apply existsb_exists in F. destruct F as (p & J & F). apply prefixb_spec in F. destruct F as [y' F]. eauto.
Qed.
Theorem conv_result m s : kana_result m (conv m s).
Proof.
  induction s as [s IH] using str_ind_len. destruct s as [|c s].
  { rewrite kconv_nil. intros x b k v y Q C I. exfalso. symmetry in Q. apply app_eq_nil in Q. destruct Q as [_ Q]. apply app_eq_nil in Q. destruct Q as [-> ->].
    inversion C; subst. now apply keys_nonempty in I. }
  destruct (longest_exists m (c :: s)) as (q & L). destruct (entry_dec m (low q)) as [[v I]|I].
  - destruct (proj1 L) as (r & Q). assert (U : kana_result m (conv m r)).
    { apply IH. rewrite Q, app_length. destruct q; [now apply keys_nonempty in I|]. cbn. lia. }
    rewrite Q in L |- *. rewrite (conv_hit m q r v L I). pose proof (emit_inert m q v I) as N. revert N. generalize (emit q v). intros em N.
    induction em as [|e em IHe]; [exact U|]. specialize (IHe (fun x J => N x (or_intror J))).
    intros x b k w y Q2 C J. destruct x as [|x0 x]; [|injection Q2 as _ Q2; exact (IHe x b k w y Q2 C J)].
    exfalso. apply casing_low in C. subst k. destruct b as [|b0 b]; [now apply keys_nonempty in J|]. injection Q2 as <- _.
    specialize (N e (or_introl eq_refl)). rewrite in_no_key_low in N. apply (N _ _ J). now left.
  - rewrite (conv_miss m q c s L I). specialize (IH s ltac:(cbn; lia)). intros x b k v y Q C J.
    destruct x as [|x0 x]; [|injection Q as _ Q; exact (IH x b k v y Q C J)]. cbn [app] in Q.
    apply casing_low in C. subst k. destruct b as [|b0 b]; [now apply keys_nonempty in J|]. cbn [app] in Q. injection Q as <- Q.
    destruct (conv_back m b (fun x X => low_in_key m (c :: b) [] v ltac:(now rewrite app_nil_r) x (or_intror X)) s y Q) as (r & -> & R).
    change (c :: b ++ r) with ((c :: b) ++ r) in L. revert L J I. generalize (c :: b). intros b' L J I.
    pose proof (proj2 (proj2 L) b' r eq_refl (entry_viable m b' v J)) as Le. destruct (proj1 L) as (r2 & Q2).
    destruct (app_cut b' r q r2 Q2 Le) as (e & -> & ->). destruct e as [|d e]; [rewrite app_nil_r in I; exfalso; exact (I v J)|].
    pose proof (proj1 (proj2 L)) as V. apply viable_entry in V. destruct V as (k & w & V). rewrite low_app, <- app_assoc in V.
    destruct (list_eq_dec N.eq_dec (low b') (u "n")) as [K|K].
    2: { apply (only_n_extended m _ v J K) in V. discriminate V. }
    split; [exact K|]. rewrite K in V. cbn [low map app] in V.
    assert (Y : ascii_lower d = ch "y").
    { destruct (n_key _ _ _ _ V) as [Y|Y]; [exact Y|]. exfalso. apply app_eq_nil in Y. destruct Y as [Y ->].
      destruct e; [|discriminate Y]. apply (I w). rewrite low_app, K. exact V. }
    cbn [app] in *. rewrite <- R. clear R Q.
    destruct (longest_exists m (d :: e ++ r2)) as (q' & L'). destruct (entry_dec m (low q')) as [[v' I']|I'].
    + destruct (proj1 L') as (r' & Q'). rewrite Q' in L' |- *. rewrite (conv_hit m q' r' v' L' I').
      destruct q' as [|d' q']; [now apply keys_nonempty in I'|]. injection Q' as <- Q'. cbn [low map] in I'. rewrite Y in I'. fold (low q') in I'.
      destruct (y_key m (low q') v' (d :: q') I') as [(w' & W)|(p & y' & P & ->)].
      * exfalso.
        assert (E : low (b' ++ d :: q') = ch "n" :: ch "y" :: low q') by (rewrite low_app, K; cbn [low map app]; now rewrite Y).
        assert (q' = e) as ->.
        { assert (Le1 : (length (b' ++ d :: q') <= length (b' ++ d :: e))%nat).
          { apply (proj2 (proj2 L) _ r'); [rewrite <- app_assoc; cbn [app]; now rewrite Q'|]. apply (entry_viable m _ w'). now rewrite E. }
          rewrite !app_length in Le1. cbn [length] in Le1.
          destruct (app_cut q' r' e r2 (eq_sym Q') ltac:(lia)) as (z & -> & ->).
          destruct z as [|z0 z]; [now rewrite app_nil_r|]. exfalso. rewrite Y in V. cbn [app] in V.
          assert (X : entry m ((ch "n" :: ch "y" :: low q') ++ (low (z0 :: z) ++ k)) w).
          { cbn [app]. rewrite app_assoc, <- low_app. exact V. }
          apply (only_n_extended m _ w' W) in X; [discriminate X|discriminate]. }
        apply (I w'). now rewrite E.
      * right. exists p, (y' ++ conv m r'). split; [exact P|now rewrite app_assoc].
    + rewrite (conv_miss m q' d _ L' I'). left. exists d, (conv m (e ++ r2)). split; [reflexivity|]. now apply y_letter_low.
Qed.

(** ** Every text of the form is a result *)
(** the spelling that yya etc. had after n *)
Definition unread (p : str) : option str :=
  if str_eqb p (u "っや") then Some (u "yya") else if str_eqb p (u "っい") then Some (u "yyi")
  else if str_eqb p (u "っゆ") then Some (u "yyu") else if str_eqb p (u "っよ") then Some (u "yyo")
  else if str_eqb p (u "ッヤ") then Some (u "YYA") else if str_eqb p (u "ッイ") then Some (u "YYI")
  else if str_eqb p (u "ッユ") then Some (u "YYU") else if str_eqb p (u "ッヨ") then Some (u "YYO") else None.
Fixpoint preimage (t : str) : str :=
  match t with
  | [] => []
  | c :: r => 
    match r with
    | a :: b :: r' => match (if ascii_lower c =? ch "n" then unread [a; b] else None) with
                      | Some w => c :: w ++ preimage r'
                      | None => c :: preimage r
                      end
    | _ => c :: preimage r
    end
  end.
Lemma unread_In p w : unread p = Some w -> In (p, w) (combine after_nyy [u "yya"; u "yyi"; u "yyu"; u "yyo"; u "YYA"; u "YYI"; u "YYU"; u "YYO"]).
Proof.
  unfold unread. repeat match goal with |- (if str_eqb p ?x then _ else _) = Some w -> _ => let B := fresh "B" in destruct (str_eqb p x) eqn:B; [apply str_eqb_eq in B; intro H; injection H as <-; subst p; vm_compute; repeat ((left; reflexivity) || right)|] end.
  intro H. discriminate H.
Qed.
Lemma unread_some p : In p after_nyy -> exists w, unread p = Some w.
Proof. intro I. repeat (destruct I as [<-|I]; [eexists; vm_compute; reflexivity|]). destruct I. Qed.
Lemma whole_key m q v r : entry m (low q) v -> low q <> u "n" -> longest m q (q ++ r).
Proof.
  intros I N. split; [eauto|]. split; [exact (entry_viable m q v I)|]. intros p' r' Q V.
  destruct (Nat.leb (length p') (length q)) eqn:Le; [now apply Nat.leb_le in Le|]. apply Nat.leb_gt in Le.
  destruct (app_cut q r p' r' Q) as (e & -> & _); [lia|]. apply viable_entry in V. destruct V as (k & x & V). rewrite low_app, <- app_assoc in V.
  apply (only_n_extended m _ v I N) in V. destruct e; [|discriminate V]. rewrite app_nil_r. lia.
Qed.
Lemma unread_spec p w : unread p = Some w -> length p = 2%nat /\ (exists v, In v (u "aiueo") /\ casing w (u "yy" ++ [v])) /\
  forall m b, conv m (w ++ b) = p ++ conv m b.
Proof.
  intro H. apply unread_In in H.
  assert (F : forall m, forallb (fun e => match e with (p, w) => Nat.eqb (length p) 2 && existsb (fun v => str_eqb (low w) (u "yy" ++ [v])) (u "aiueo")
    && existsb (fun e' => str_eqb (fst e') (low w) && str_eqb (emit w (snd e')) p) (dict m) end)
    (combine after_nyy [u "yya"; u "yyi"; u "yyu"; u "yyo"; u "YYA"; u "YYI"; u "YYU"; u "YYO"]) = true) by (intro m; destruct m; vm_compute; reflexivity).
  assert (G : forall m, length p = 2%nat /\ (exists v, In v (u "aiueo") /\ low w = u "yy" ++ [v]) /\ exists v, entry m (low w) v /\ emit w v = p).
  { intro m. specialize (F m). rewrite forallb_forall in F. specialize (F _ H). cbv beta iota in F. apply andb_prop in F. destruct F as [F F3].
    apply andb_prop in F. destruct F as [F1 F2]. apply Nat.eqb_eq in F1. split; [exact F1|].
    apply existsb_exists in F2, F3. destruct F2 as (v & V & F2), F3 as ([k x] & I & F3). apply str_eqb_eq in F2. split; [eauto|].
    cbn [fst snd] in F3. apply andb_prop in F3. destruct F3 as [F3 F4]. apply str_eqb_eq in F3, F4. subst k. eauto. }
  split; [exact (proj1 (G Default))|]. split.
  - destruct (G Default) as (_ & (v & V & Q) & _). exists v. split; [exact V|]. now apply casing_low.
  - intros m b. destruct (G m) as (_ & (v & V & Q) & x & I & Em). rewrite <- Em at 1. apply conv_hit; [|exact I]. apply (whole_key m w x); [exact I|]. rewrite Q. discriminate.
Qed.

(** reading the first letters of the preimage *)
Lemma preimage_prefix q t : (forall x b, q = x ++ b -> forall n d b', b = n :: d :: b' -> ascii_lower n <> ch "n") ->
  forall r, preimage t = q ++ r -> exists r', t = q ++ r'.
Proof.
  revert t. induction q as [|c q IH]; intros t K r Q; [exists t; auto|].
  assert (K' : forall x b, q = x ++ b -> forall n d b', b = n :: d :: b' -> ascii_lower n <> ch "n").
  { intros x b ->. exact (K (c :: x) b eq_refl). }
  destruct t as [|d t]; [discriminate Q|]. cbn [preimage] in Q. destruct t as [|a [|b t]].
  { injection Q as -> Q. destruct (IH [] K' _ Q) as (r' & R). exists r'. cbn [app]. now rewrite R. }
  { injection Q as -> Q. destruct (IH [a] K' _ Q) as (r' & R). exists r'. cbn [app]. now rewrite R. }
  destruct (ascii_lower d =? ch "n") eqn:N.
  2: { injection Q as -> Q. destruct (IH (a :: b :: t) K' _ Q) as (r' & R). exists r'. cbn [app]. now rewrite R. }
  destruct (unread [a; b]) as [w|].
  - injection Q as -> Q. destruct q as [|e q]; [now exists (a :: b :: t)|]. exfalso.
    apply N.eqb_eq in N. exact (K [] _ eq_refl c e q eq_refl N).
  - injection Q as -> Q. destruct (IH (a :: b :: t) K' _ Q) as (r' & R). exists r'. cbn [app]. now rewrite R.
Qed.
Lemma result_tail m c t : kana_result m (c :: t) -> kana_result m t.
Proof. intros H x b k v y ->. exact (H (c :: x) b k v y eq_refl). Qed.
Lemma result_skip m a t : kana_result m (a ++ t) -> kana_result m t.
Proof. induction a as [|c a IH]; [auto|]. intro H. apply IH. exact (result_tail m c _ H). Qed.
Lemma preimage_y d t : y_letter d -> preimage (d :: t) = d :: preimage t.
Proof.
  intro Y. cbn [preimage]. destruct t as [|a [|b t]]; [reflexivity..|].
  assert (ascii_lower d =? ch "n" = false) as -> by (apply y_letter_low in Y; rewrite Y; reflexivity). reflexivity.
Qed.
Lemma preimage_conv m t : m <> Ime -> kana_result m t -> conv m (preimage t) = t.
Proof.
  intro M. induction t as [t IH] using str_ind_len. intro R. destruct t as [|c t]; [apply kconv_nil|].
  assert (P : (exists a b t' w, t = a :: b :: t' /\ ascii_lower c = ch "n" /\ unread [a; b] = Some w /\ preimage (c :: t) = c :: w ++ preimage t')
    \/ (preimage (c :: t) = c :: preimage t /\ forall p t', t = p ++ t' -> ascii_lower c = ch "n" -> ~ In p after_nyy)).
  { cbn [preimage]. assert (Z : forall p t', t = p ++ t' -> In p after_nyy -> exists a b t', t = a :: b :: t' /\ p = [a; b]).
    { intros p t' -> I. repeat (destruct I as [<-|I]; [do 3 eexists; split; reflexivity|]). destruct I. }
    destruct t as [|a [|b t]].
    1,2: right; split; [reflexivity|]; intros p t' Q _ I; destruct (Z p t' Q I) as (? & ? & ? & Q' & _); discriminate Q'.
    destruct (ascii_lower c =? ch "n") eqn:N.
    - apply N.eqb_eq in N. destruct (unread [a; b]) as [w|] eqn:W; [left; do 4 eexists; eauto|]. right. split; [reflexivity|].
      intros p t' Q _ I. destruct (Z p t' Q I) as (a' & b' & t2 & Q' & ->). injection Q' as <- <- <-. destruct (unread_some _ I) as (w & X). congruence.
    - right. split; [reflexivity|]. intros p t' _ X. apply N.eqb_neq in N. contradiction. }
  destruct P as [(a & b & t' & w & -> & N & W & ->)|[-> P]].
  - destruct (unread_spec _ _ W) as (_ & (v & V & C) & S). apply n_letter_low in N.
    rewrite (proj1 (conv_nyy m c w v _ N C V)), S. rewrite IH; [reflexivity|cbn; lia|]. exact (result_skip m [c; a; b] t' R).
  - specialize (IH t ltac:(cbn; lia) (result_tail m c t R)).
    destruct (longest_exists m (c :: preimage t)) as (q & L). destruct (entry_dec m (low q)) as [[v I]|I].
    2: { rewrite (conv_miss m q c _ L I). now rewrite IH. }
    exfalso. destruct (proj1 L) as (r & Q). destruct q as [|c' q]; [now apply keys_nonempty in I|]. injection Q as <- Q.
    destruct (preimage_prefix q t) with (r := r) as (r' & ->); [|exact Q|].
    { intros x b -> n d b' -> Nn. cbn [low map] in I. rewrite map_app in I. cbn [map] in I. rewrite Nn in I. apply key_inner_n in I. discriminate I. }
    destruct (R [] (c :: q) (low (c :: q)) v r' eq_refl) as (K & F); [now apply casing_low|exact I|].
    cbn [low map] in K. injection K as Kn Kq. destruct q as [|? q]; [|discriminate Kq]. cbn [app] in *.
    destruct F as [(d & y' & -> & Y)|(p & y' & Pp & ->)]; [|exact (P p y' eq_refl Kn Pp)].
    rewrite (preimage_y d y' Y) in L. refine (longer m [c] [d] (preimage y') L ltac:(discriminate) _).
    pose proof (n_follows m d M (y_follow d Y)) as V. apply viable_entry in V. apply viable_entry. cbn [app low map] in *. rewrite Kn. exact V.
Qed.
Theorem image_exact m t : (exists s, conv m s = t) <-> kana_result m t.
Proof.
  split; [intros [s <-]; apply conv_result|]. intro R. assert (m = Ime \/ m <> Ime) as [-> |M] by (destruct m; auto; right; discriminate).
  - exists t. apply kana_fixed. intros x b k v y Q C I. destruct (R x b k v y Q C I) as [-> _]. exfalso. exact (ime_no_n _ I).
  - exists (preimage t). now apply preimage_conv.
Qed.
