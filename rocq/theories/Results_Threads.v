(** * Proofs of the theorems of Props_Threads.v *)
From Verif Require Import Tac Base Std StdInstances Strings Tokenize Convert Threads ThreadsSpec ThreadsProofs ThreadsLazy Results_Totality.

Lemma text_ok r : (exists t, r = Ok t) -> exists a, text r = Ok a.
Proof. intros (t & ->). now exists (Text t). Qed.
Lemma answer_ok E c : std_ok E -> exists a, answer_of E c = Ok a.
Proof.
  intros HE. destruct c; cbn [answer_of]; try (eexists; reflexivity); apply text_ok.
  - apply (C01_to_kana_total_proof E HE s).
  - apply (C02_script_conversions_total_proof E HE s).
  - apply (C02_script_conversions_total_proof E HE s).
  - apply (C03_to_romaji_total_proof E HE s).
  - apply C04_trim_and_chunk_proof.
Qed.
Lemma answers_ok E cs : std_ok E -> exists l, answers E cs = Ok l /\ length l = length cs.
Proof.
  intros HE. induction cs as [|c cs (l & Q & L)]; [now exists []|]. destruct (answer_ok E c HE) as (a & A).
  exists (a :: l). cbn [answers]. rewrite A, Q. cbn. now rewrite L.
Qed.
(** one way of running the threads: [ts] says which goes next *)
Fixpoint schedule (ts : list nat) (st : state) : option state :=
  match ts with
  | [] => Some st
  | t :: ts' =>
    match nth_error (snd st) t with
    | Some th => match advance t (fst st) th with Some (_, m', th') => schedule ts' (m', replace (snd st) t th') | None => None end
    | None => None
    end
  end.
Lemma schedule_run E css ts : forall evs st st', run E css evs st -> schedule ts st = Some st' -> exists evs', run E css evs' st'.
Proof.
  induction ts as [|t ts IH]; intros evs st st' R Q; [injection Q as <-; eauto|]. cbn in Q.
  destruct (nth_error (snd st) t) as [th|] eqn:T; [|discriminate]. destruct (advance t (fst st) th) as [[[ev m'] th']|] eqn:A; [|discriminate].
  refine (IH _ _ _ (Run_step E css evs ev st _ R _) Q). exists t, th, m', th'. auto.
Qed.
(** the answers of the threads that have finished *)
Definition result_of (th : thread) : option (res (list answer)) :=
  match th with
  | @Thread T p fs =>
    match fs in frames T return prog T -> option (res (list answer)) with
    | Bottom => fun p => match p with Ret r => Some r | Use _ _ => None end
    | Push _ _ _ => fun _ => None
    end p
  end.
Definition outcome (ts : list nat) (st : state) : option (list (option (res (list answer)))) :=
  option_map (fun st => map result_of (snd st)) (schedule ts st).
Lemma outcome_run E css ts rs : outcome ts (start E css) = Some rs ->
  exists evs st, run E css evs st /\ (forall t r, nth_error rs t = Some (Some r) -> done_with st t r).
Proof.
  unfold outcome. destruct (schedule ts (start E css)) as [st|] eqn:Q; [|discriminate]. intros [= <-].
  destruct (schedule_run E css ts [] _ st (Run_start E css) Q) as (evs & R). exists evs, st. split; [exact R|].
  intros t r H. rewrite nth_error_map in H. destruct (nth_error (snd st) t) as [th|] eqn:T; [|discriminate]. injection H as H. exists th. split; [exact T|].
  destruct th as [K p fs]. destruct fs; [|discriminate]. destruct p; [|discriminate]. cbn in H. injection H as <-. reflexivity.
Qed.

Lemma C107_results_proof :
  forall E css evs st, run E css evs st ->
    forall t cs r, nth_error css t = Some cs -> done_with st t r -> r = answers E cs.
Proof.
  intros E css evs st R t cs r C D. apply run_good in R as (G & _). exact (done_right E css st t cs r G C D).
Qed.

Lemma C107_once_proof :
  forall E css evs st, run E css evs st -> forall i, (starts i evs <= 1)%nat /\ fst st i <> Poisoned.
Proof.
  intros E css evs st R i. apply run_good in R as (G & _ & O). split; [apply O|apply (g_clean _ _ _ G)].
Qed.

Lemma C107_no_deadlock_proof :
  forall E css evs st, run E css evs st ->
    (exists ev st', step st ev st') \/ (forall t cs, nth_error css t = Some cs -> done_with st t (answers E cs)).
Proof.
  intros E css evs st R. apply run_good in R as (G & _). destruct (some_step st) as [X|X]; [now left|]. right. exact (stuck E css st G X).
Qed.

Lemma C107_ends_proof :
  forall E css,
    (exists n, forall evs st, run E css evs st -> (length evs <= n)%nat)
    /\ (std_ok E -> forall evs st, run E css evs st -> (forall ev st', ~ step st ev st') ->
          forall t cs, nth_error css t = Some cs -> exists l, done_with st t (Ok l) /\ length l = length cs).
Proof.
  intros E css. split.
  - exists (total (start E css)). intros evs st R. apply run_good in R as (_ & L & _). Lia.lia.
  - intros HE evs st R X t cs C. apply run_good in R as (G & _). destruct (answers_ok E cs HE) as (l & Q & L). exists l. split; [|exact L].
    rewrite <- Q. exact (stuck E css st G X t cs C).
Qed.

Lemma C107_lazy_proof :
  forall E css evs st, run E css evs st -> (forall ev st', ~ step st ev st') ->
    (forall evs2 st2, run E css evs2 st2 -> (forall ev st', ~ step st2 ev st') -> length evs2 = length evs /\ forall i, fst st2 i = fst st i)
    /\ (forall i, fst st i <> Empty <->
          exists cs evs' st', In cs css /\ run E [cs] evs' st' /\ (forall ev st'', ~ step st' ev st'') /\ fst st' i <> Empty).
Proof.
  intros E css evs st R X. split; [|exact (ended_alone E css evs st R X)].
  intros evs2 st2 R2 X2. destruct (ended_same E css evs st evs2 st2 R X R2 X2) as [Q L]. split; [now rewrite L|]. intros i. now rewrite Q.
Qed.
