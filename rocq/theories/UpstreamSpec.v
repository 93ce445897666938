(** * What the table generators should compute (C57-C60) *)
From Verif Require Import Base Trees Json TreeSpec.

(** keys and texts are Unicode strings, as they are in Rust *)
Inductive valid_json : json -> Prop :=
| valid_JStr s : valid_str s -> valid_json (JStr s)
| valid_JObj ms : Forall (fun e => valid_str (fst e) /\ valid_json (snd e)) ms -> valid_json (JObj ms)
| valid_JArr l : Forall valid_json l -> valid_json (JArr l)
| valid_JNum n : valid_str n -> valid_json (JNum n)
| valid_JBool b : valid_json (JBool b)
| valid_JNull : valid_json JNull.

(** The member [k] of a JSON object has the value [v]: the last one written counts. *)
Definition member (j : json) (k : str) (v : json) : Prop :=
  exists before after, j = JObj (before ++ (k, v) :: after) /\ ~ In k (map fst after).

(** Following the keys [ks] from [j] leads to [v]. *)
Inductive leads : json -> list str -> json -> Prop :=
| leads_here j : leads j [] j
| leads_down j k ks v w : member j k v -> leads v ks w -> leads j (k :: ks) w.

Definition is_object (j : json) : Prop := exists ms, j = JObj ms.
(** the text of an object is its member "" *)
Definition text (j : json) (s : str) : Prop := member j [] (JStr s).
Definition without_text (j : json) : Prop := forall v, ~ member j [] v.
Definition text_is (j : json) (o : option str) : Prop :=
  match o with Some s => text j s | None => without_text j end.

(** [ks] consists of keys that are spelled with the characters [p] if only the first
    character of each is read *)
Definition first_chars (ks : list str) (p : str) : Prop :=
  Forall2 (fun k c => exists r, k = c :: r) ks p.

(** the node [n] is reached from [t] by the characters [p] *)
Inductive k_path (t : knode) : str -> knode -> Prop :=
| k_path_nil : k_path t [] t
| k_path_cons c p m n : In (c, m) (ktrans t) -> k_path m p n -> k_path t (c :: p) n.
Inductive r_path (t : rnode) : str -> rnode -> Prop :=
| r_path_nil : r_path t [] t
| r_path_cons c p m n : In (c, m) (r_edges t) -> r_path m p n -> r_path t (c :: p) n.

(** Tables the generators accept: every value under non-empty keys is an object; its text is
    optional for the kana table and required for the romaji table. *)
Definition kana_table (d : json) : Prop :=
  is_object d /\
  forall ks v, ks <> [] -> Forall (fun k => k <> []) ks -> leads d ks v ->
    is_object v /\ (without_text v \/ exists s, text v s).
Definition romaji_table (d : json) : Prop :=
  is_object d /\
  forall ks v, ks <> [] -> Forall (fun k => k <> []) ks -> leads d ks v ->
    exists s, text v s.

(** keys of one character; the member "" is exempt *)
Definition short_keys (d : json) : Prop :=
  forall ks v, leads d ks v -> Forall (fun k => (length k <= 1)%nat) ks.
