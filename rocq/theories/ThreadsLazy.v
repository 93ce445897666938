(** * Threads: which statics are initialised (proofs for C107) *)
From Verif Require Import Tac Base Std Strings Tokenize Convert Threads ThreadsSpec ThreadsProofs.

Fixpoint reads {A} (p : prog A) : list static := match p with Ret _ => [] | Use i k => i :: reads (k (val i)) end.
Fixpoint ahead {B} (fs : frames B) : prog B -> list static :=
  match fs with Bottom => fun p => reads p | Push i k fs' => fun p => reads p ++ ahead fs' (k (val i)) end.
Definition to_read (th : thread) : list static := match th with Thread p fs => ahead fs p end.
Lemma ahead_read {B} (fs : frames B) i k : ahead fs (Use i k) = i :: ahead fs (k (val i)).
Proof. destruct fs; reflexivity. Qed.
Definition called (E : std) (css : list (list call)) (i : static) : Prop := exists cs, In cs css /\ In i (reads (calls_p E cs)).
Definition needed (E : std) (css : list (list call)) (i : static) : Prop :=
  called E css i \/ exists j, called E css j /\ In i (reads (init j)).
Lemma needed_more E css i j : needed E css i -> In j (reads (init i)) -> needed E css j.
Proof.
  intros [C|(k & C & I)] J; [right; eauto|]. exfalso. destruct k; cbn in I; repeat destruct I as [<-|I]; try contradiction; destruct J.
Qed.
Definition seen (st : state) (j : static) : Prop := fst st j <> Empty \/ exists t th, nth_error (snd st) t = Some th /\ In j (to_read th).
Record lazy (E : std) (css : list (list call)) (st : state) : Prop := {
  l_init : forall i, fst st i <> Empty -> needed E css i;
  l_ahead : forall t th i, nth_error (snd st) t = Some th -> In i (to_read th) -> needed E css i;
  l_calls : forall i, called E css i -> seen st i;
  l_more : forall i j, fst st i <> Empty -> In j (reads (init i)) -> seen st j
}.
Lemma lazy_start E css : lazy E css (start E css).
Proof.
  constructor; cbn [start fst snd]; try congruence.
  - intros t th i T I. rewrite nth_error_map in T. destruct (nth_error css t) as [cs|] eqn:C; [|discriminate]. injection T as <-.
    left. exists cs. split; [now apply nth_error_In with t|exact I].
  - intros i (cs & I & R). right. apply In_nth_error in I as (t & C). exists t, (Thread (calls_p E cs) Bottom). split; [|exact R].
    cbn. rewrite nth_error_map, C. reflexivity.
Qed.
(** what a step leaves to be read, if the static read is marked *)
Lemma seen_step m ths m' t th th' : nth_error ths t = Some th -> (forall i, m i <> Empty -> m' i <> Empty) ->
  (forall i, In i (to_read th) -> m' i <> Empty \/ In i (to_read th')) -> forall j, seen (m, ths) j -> seen (m', replace ths t th') j.
Proof.
  intros T M R j [X|(t' & th1 & T1 & I)]; cbn [fst snd] in *; [left; exact (M j X)|]. destruct (Nat.eq_dec t t') as [<-|D].
  - assert (th1 = th) by congruence. subst th1. destruct (R j I) as [X|X]; [now left|]. right. exists t, th'. split; [cbn; now apply replace_same with th|exact X].
  - right. exists t', th1. cbn. rewrite replace_other by exact D. auto.
Qed.
Lemma lazy_step E css st ev st' : good E css st -> lazy E css st -> step st ev st' -> lazy E css st'.
Proof.
  intros G L S. pose proof (good_step E css st ev st' G S) as (_ & _ & Keep & _). destruct st as [m ths]. destruct S as (t & th & m' & th' & T & A & ->). cbn [fst snd] in *.
  assert (Lt : (t < length css)%nat) by (pose proof (g_same _ _ _ G) as X; cbn in X; rewrite <- X; apply nth_error_Some; congruence).
  destruct (nth_some css t Lt) as (cs & C). destruct (g_threads _ _ _ G t cs C) as (th0 & T0 & F). cbn in T0. assert (th0 = th) by congruence. subst th0.
  assert (Main : (forall i, m' i <> Empty -> m i <> Empty \/ (ev = Some i /\ In i (to_read th)))
    /\ (forall i, In i (to_read th) -> m' i <> Empty \/ In i (to_read th'))
    /\ (forall i, In i (to_read th') -> In i (to_read th) \/ exists k, ev = Some k /\ In k (to_read th) /\ In i (reads (init k)))
    /\ (forall k i, ev = Some k -> In i (reads (init k)) -> In i (to_read th'))).
  { destruct th as [T1 p fs]. destruct p as [r|i k].
    - destruct fs as [|i B k fs]; [discriminate|]. cbn in F. destruct F as (-> & _ & F). cbn [advance] in A. injection A as <- <- <-. cbn [to_read ahead reads app].
      split; [|split; [auto|split; [auto|discriminate]]]. intros j H. left. destruct (static_eq_dec i j) as [<-|D].
      + rewrite (g_held _ _ _ G t _ i T (or_introl eq_refl) : m i = Busy t). discriminate.
      + now rewrite store_other in H.
    - cbn [advance] in A. destruct (m i) as [|t2|v|] eqn:Mi; [| discriminate | | destruct (g_clean _ _ _ G i Mi) ].
      + injection A as <- <- <-. cbn [to_read ahead]. rewrite ahead_read. split; [|split; [|split]].
        * intros j H. destruct (static_eq_dec i j) as [<-|D]; [right; split; [reflexivity|now left]|left; now rewrite store_other in H].
        * intros j [<-|I]; [left; rewrite store_same; discriminate|right; apply in_or_app; now right].
        * intros j I. apply in_app_or in I as [I|I]; [right; exists i; split; [reflexivity|split; [now left|exact I]]|left; now right].
        * intros j j' [= <-] I. apply in_or_app. now left.
      + injection A as <- <- <-. pose proof (g_done _ _ _ G i v Mi) as ->. cbn [to_read]. rewrite ahead_read. split; [auto|]. split; [|split; [|discriminate]].
        * intros j [<-|I]; [left; rewrite Mi; discriminate|now right].
        * intros j I. left. now right. }
  destruct Main as (M1 & M2 & M3 & M4). pose proof (seen_step m ths m' t th th' T Keep M2) as Sn.
  constructor; cbn [fst snd].
  - intros i H. destruct (M1 i H) as [X|[_ X]]; [exact (l_init _ _ _ L i X)|exact (l_ahead _ _ _ L t th i T X)].
  - intros t' th1 i T' I. destruct (Nat.eq_dec t t') as [<-|D].
    + rewrite (replace_same _ _ _ th) in T' by exact T. injection T' as <-. destruct (M3 i I) as [X|(k & _ & K & X)]; [exact (l_ahead _ _ _ L t th i T X)|].
      exact (needed_more E css k i (l_ahead _ _ _ L t th k T K) X).
    + rewrite replace_other in T' by exact D. exact (l_ahead _ _ _ L t' th1 i T' I).
  - intros i Ci. apply Sn, (l_calls _ _ _ L i Ci).
  - intros i j H I. destruct (M1 i H) as [X|[Ev X]]; [apply Sn, (l_more _ _ _ L i j X I)|].
    right. exists t, th'. split; [cbn; now apply replace_same with th|exact (M4 i j Ev I)].
Qed.
Lemma run_lazy E css evs st : run E css evs st -> lazy E css st.
Proof. induction 1 as [|evs ev st st' R IH S]; [apply lazy_start|]. exact (lazy_step E css st ev st' (proj1 (run_good _ _ _ _ R)) IH S). Qed.

(** ** Runs that have ended *)
Lemma ended_empty E css evs st : run E css evs st -> (forall ev st', ~ step st ev st') -> forall j, seen st j -> fst st j <> Empty.
Proof.
  intros R X j [H|(t & th & T & I)]; [exact H|]. exfalso. pose proof (proj1 (run_good _ _ _ _ R)) as G.
  assert (Lt : (t < length css)%nat) by (rewrite <- (g_same _ _ _ G); apply nth_error_Some; congruence).
  destruct (nth_some css t Lt) as (cs & C). destruct (stuck E css st G X t cs C) as (th' & T' & Fi). assert (th' = th) by congruence. subst th'.
  unfold finished in Fi. subst th. destruct I.
Qed.
Lemma ended_needed E css evs st : run E css evs st -> (forall ev st', ~ step st ev st') -> forall i, fst st i <> Empty <-> needed E css i.
Proof.
  intros R X i. pose proof (run_lazy _ _ _ _ R) as L. split; [apply (l_init _ _ _ L)|].
  intros [C|(j & C & I)]; apply (ended_empty E css evs st R X).
  - exact (l_calls _ _ _ L i C).
  - exact (l_more _ _ _ L j i (ended_empty E css evs st R X j (l_calls _ _ _ L j C)) I).
Qed.
Lemma ended_rest E css evs st : run E css evs st -> (forall ev st', ~ step st ev st') -> list_sum (map rest (snd st)) = 0%nat.
Proof.
  intros R X. pose proof (proj1 (run_good _ _ _ _ R)) as G.
  assert (H : forall th, In th (snd st) -> rest th = 0%nat).
  { intros th I. apply In_nth_error in I as (t & T). assert (Lt : (t < length css)%nat) by (rewrite <- (g_same _ _ _ G); apply nth_error_Some; congruence).
    destruct (nth_some css t Lt) as (cs & C). destruct (stuck E css st G X t cs C) as (th' & T' & Fi). assert (th' = th) by congruence. subst th'.
    unfold finished in Fi. subst th. reflexivity. }
  revert H. generalize (snd st). induction l as [|th l IH]; intros H; [reflexivity|]. unfold list_sum in *. cbn. rewrite (H th (or_introl eq_refl)), IH; [reflexivity|].
  intros th' I. apply H. now right.
Qed.
Lemma ended_same E css evs1 st1 evs2 st2 : run E css evs1 st1 -> (forall ev st', ~ step st1 ev st') -> run E css evs2 st2 -> (forall ev st', ~ step st2 ev st') ->
  (forall i, fst st1 i = fst st2 i) /\ length evs1 = length evs2.
Proof.
  intros R1 X1 R2 X2. pose proof (run_good _ _ _ _ R1) as (G1 & L1 & _). pose proof (run_good _ _ _ _ R2) as (G2 & L2 & _).
  assert (Q : forall i, fst st1 i = fst st2 i).
  { assert (NB : forall evs st, run E css evs st -> (forall ev st', ~ step st ev st') -> forall i t, fst st i <> Busy t).
    { intros evs st R X i t B. pose proof (proj1 (run_good _ _ _ _ R)) as G. destruct (g_busy _ _ _ G i t B) as (th & T & I).
      assert (Lt : (t < length css)%nat) by (rewrite <- (g_same _ _ _ G); apply nth_error_Some; congruence).
      destruct (nth_some css t Lt) as (cs & C). destruct (stuck E css st G X t cs C) as (th' & T' & Fi). assert (th' = th) by congruence. subst th'.
      unfold finished in Fi. subst th. destruct I. }
    intros i. pose proof (ended_needed E css evs1 st1 R1 X1 i) as N1. pose proof (ended_needed E css evs2 st2 R2 X2 i) as N2.
    pose proof (NB _ _ R1 X1 i) as B1. pose proof (NB _ _ R2 X2 i) as B2. pose proof (g_done _ _ _ G1 i) as D1. pose proof (g_done _ _ _ G2 i) as D2.
    pose proof (g_clean _ _ _ G1 i) as P1. pose proof (g_clean _ _ _ G2 i) as P2.
    destruct (fst st1 i) as [|t|v|]; destruct (fst st2 i) as [|t'|v'|]; try congruence; try (exfalso; eapply B1; reflexivity); try (exfalso; eapply B2; reflexivity);
      try (exfalso; assert (needed E css i) by (apply N1 || apply N2; discriminate); (apply N1 || apply N2); [assumption|reflexivity]).
    - exfalso. apply (proj2 N1); [apply (proj1 N2); discriminate|reflexivity].
    - exfalso. apply (proj2 N2); [apply (proj1 N1); discriminate|reflexivity].
    - now rewrite (D1 v eq_refl), (D2 v' eq_refl). }
  split; [exact Q|]. unfold total in *. rewrite (ended_rest _ _ _ _ R1 X1) in L1. rewrite (ended_rest _ _ _ _ R2 X2) in L2.
  assert (W : map (weight (fst st1)) statics = map (weight (fst st2)) statics) by (apply map_ext; intros i; unfold weight; now rewrite Q).
  rewrite W in L1. lia.
Qed.
Lemma some_end E css : exists evs st, run E css evs st /\ (forall ev st', ~ step st ev st').
Proof.
  assert (P : forall n evs st, run E css evs st -> (total st <= n)%nat -> exists evs' st', run E css evs' st' /\ (forall ev st'', ~ step st' ev st'')).
  { induction n as [|n IH]; intros evs st R L; (destruct (some_step st) as [(ev & st' & S)|X]; [|eauto]);
    pose proof (good_step E css st ev st' (proj1 (run_good _ _ _ _ R)) S) as (_ & D & _); [lia|].
    apply (IH (ev :: evs) st'); [now apply Run_step with st|lia]. }
  exact (P _ [] _ (Run_start E css) (le_n _)).
Qed.
Lemma needed_one E css i : needed E css i <-> exists cs, In cs css /\ needed E [cs] i.
Proof.
  unfold needed, called. split.
  - intros [(cs & I & R)|(j & (cs & I & R) & J)]; exists cs; (split; [exact I|]).
    + left. exists cs. split; [now left|exact R].
    + right. exists j. split; [exists cs; split; [now left|exact R]|exact J].
  - intros (cs & I & [(cs' & [<-|[]] & R)|(j & (cs' & [<-|[]] & R) & J)]); [left; eauto|right; eauto 6].
Qed.
Lemma ended_alone E css evs st : run E css evs st -> (forall ev st', ~ step st ev st') -> forall i,
  fst st i <> Empty <-> exists cs evs' st', In cs css /\ run E [cs] evs' st' /\ (forall ev st'', ~ step st' ev st'') /\ fst st' i <> Empty.
Proof.
  intros R X i. rewrite (ended_needed E css evs st R X i), needed_one. split.
  - intros (cs & I & Nd). destruct (some_end E [cs]) as (evs' & st' & R' & X'). exists cs, evs', st'. split; [exact I|]. split; [exact R'|]. split; [exact X'|].
    apply (ended_needed E [cs] evs' st' R' X'), Nd.
  - intros (cs & evs' & st' & I & R' & X' & H). exists cs. split; [exact I|]. apply (ended_needed E [cs] evs' st' R' X'), H.
Qed.
