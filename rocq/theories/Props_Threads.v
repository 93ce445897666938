(** * C107: the functions called from several threads

    [css]: the calls of each thread, one after another; no static is initialised in the beginning.  A run is any
    interleaving of the threads. *)
From Verif Require Import Base Std StdInstances Strings Tokenize Convert Threads ThreadsSpec Results_Threads.

(** C107.  In every run each thread that has finished has the answers that its calls give in one thread alone. *)
Theorem C107_results :
  forall E css evs st, run E css evs st ->
    forall t cs r, nth_error css t = Some cs -> done_with st t r -> r = answers E cs.
Proof. exact C107_results_proof. Qed.
Print Assumptions C107_results.

Example C107_results_case :
  let css := [[ToKana (u "wi") (Build_options true false false false)]; [ToKana (u "n") (Build_options false false false true); IsRomaji (u "n")]] in
  exists evs st, run std_1_82 css evs st /\ done_with st 0 (Ok [Text (u "ゐ")]) /\ done_with st 1 (Ok [Text (u "n"); Truth true]).
Proof.
  intros css. destruct (outcome_run std_1_82 css [0; 1; 0; 0; 1; 0; 1; 1; 1]%nat [Some (Ok [Text (u "ゐ")]); Some (Ok [Text (u "n"); Truth true])]) as (evs & st & R & D).
  - vm_compute. reflexivity.
  - exists evs, st. split; [exact R|]. split; apply D; reflexivity.
Qed.

(** C107.  No initialiser is started twice, and none panics. *)
Theorem C107_once :
  forall E css evs st, run E css evs st -> forall i, (starts i evs <= 1)%nat /\ fst st i <> Poisoned.
Proof. exact C107_once_proof. Qed.
Print Assumptions C107_once.

Example C107_once_case :
  let css := [[ToKana (u "a") default_options]; [ToKana (u "ka") default_options]] in
  outcome [0; 1]%nat (start std_1_82 css) = None
  /\ outcome [0; 0; 1]%nat (start std_1_82 css) = Some [Some (Ok [Text (u "あ")]); Some (Ok [Text (u "か")])]
  /\ outcome [1; 1; 0]%nat (start std_1_82 css) = Some [Some (Ok [Text (u "あ")]); Some (Ok [Text (u "か")])].
Proof. vm_compute. repeat split. Qed.

(** C107.  The threads never wait for each other in a circle: in every run some thread can go on or all have finished. *)
Theorem C107_no_deadlock :
  forall E css evs st, run E css evs st ->
    (exists ev st', step st ev st') \/ (forall t cs, nth_error css t = Some cs -> done_with st t (answers E cs)).
Proof. exact C107_no_deadlock_proof. Qed.
Print Assumptions C107_no_deadlock.

Example C107_no_deadlock_case :
  let css := [[ToKana (u "wi") (Build_options true false false false)]; [ToKana (u "a") default_options]] in
  outcome [1; 0]%nat (start std_1_82 css) = Some [None; None]
  /\ outcome [1; 0; 0]%nat (start std_1_82 css) = None
  /\ outcome [1; 0; 1]%nat (start std_1_82 css) = Some [None; Some (Ok [Text (u "あ")])]
  /\ outcome [1; 0; 1; 0; 0]%nat (start std_1_82 css) = Some [Some (Ok [Text (u "ゐ")]); Some (Ok [Text (u "あ")])].
Proof. vm_compute. repeat split. Qed.

(** C107.  No run goes on for ever: the number of steps is bounded for all schedules together.  With a library as documented every
    call returns, so in a run that has ended each thread has one answer for each of its calls. *)
Theorem C107_ends :
  forall E css,
    (exists n, forall evs st, run E css evs st -> (length evs <= n)%nat)
    /\ (std_ok E -> forall evs st, run E css evs st -> (forall ev st', ~ step st ev st') ->
          forall t cs, nth_error css t = Some cs -> exists l, done_with st t (Ok l) /\ length l = length cs).
Proof. exact C107_ends_proof. Qed.
Print Assumptions C107_ends.

Example C107_ends_case :
  let css := [[ToRomaji (u "ラー") default_options]; [ToHiragana (u "ラー") default_options; Trim (u "食べる") false None]] in
  std_ok std_1_82 /\ exists evs st, run std_1_82 css evs st /\ done_with st 0 (Ok [Text (u "raa")]) /\ done_with st 1 (Ok [Text (u "らあ"); Text (u "食")]).
Proof.
  intros css. split; [exact std_1_82_ok|].
  destruct (outcome_run std_1_82 css ([1; 0; 1; 0; 1; 0; 1; 0; 1; 0; 1; 0] ++ repeat 1 9)%nat
    [Some (Ok [Text (u "raa")]); Some (Ok [Text (u "らあ"); Text (u "食")])]) as (evs & st & R & D).
  - vm_compute. reflexivity.
  - exists evs, st. split; [exact R|]. split; apply D; reflexivity.
Qed.

(** C107.  All runs that have ended took the same number of steps and left the same statics; a static is initialised exactly if
    the calls of one of the threads alone would initialise it. *)
Theorem C107_lazy :
  forall E css evs st, run E css evs st -> (forall ev st', ~ step st ev st') ->
    (forall evs2 st2, run E css evs2 st2 -> (forall ev st', ~ step st2 ev st') -> length evs2 = length evs /\ forall i, fst st2 i = fst st i)
    /\ (forall i, fst st i <> Empty <->
          exists cs evs' st', In cs css /\ run E [cs] evs' st' /\ (forall ev st'', ~ step st' ev st'') /\ fst st' i <> Empty).
Proof. exact C107_lazy_proof. Qed.
Print Assumptions C107_lazy.

Example C107_lazy_case :
  let css := [[ToKana (u "wi") (Build_options true false false false)]; [ToKana (u "a") default_options]] in
  let left ts := option_map (fun st =>
      [match fst st ObsoleteT with Empty => false | _ => true end; match fst st KanaT with Empty => false | _ => true end;
       match fst st ImeT with Empty => false | _ => true end]) (schedule ts (start std_1_82 css)) in
  left [1; 0; 1; 0; 0]%nat = Some [true; true; false] /\ left [0; 0; 0; 0; 1]%nat = Some [true; true; false]
  /\ left [0; 0; 0; 0; 1; 1]%nat = None /\ left [0; 0; 0; 0; 1; 0]%nat = None.
Proof. vm_compute. repeat split. Qed.
