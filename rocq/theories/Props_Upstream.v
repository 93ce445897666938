(** * C57-C60, C73: the programs of upstream_conversions that generate the tables *)
From Verif Require Import Base Std StdInstances Trees KanaTree RomajiTree Convert TreeSpec Json UpstreamData Upstream UpstreamSpec
  Debug DebugSpec CliSpec UpstreamProofs Results_Upstream.

(** C57.  The kana generator accepts exactly the tables whose values are objects with at most a
    string as text, and panics on all others.  The tree it makes has a node with the text [o] at the
    characters [p] iff the table has such a value under keys that begin with these characters.
    The transitions of every node are in ascending order, strictly if all keys are
    characters. *)
Theorem C57_kana_generator :
  forall d, valid_json d ->
    ((kana_table d /\ exists t, kana_generator d = Ok t) \/ (~ kana_table d /\ kana_generator d = Panic)) /\
    forall t, kana_generator d = Ok t ->
      (forall p o, p <> [] ->
         ((exists n, k_path (KNode t None) p n /\ kout n = o) <->
          exists ks v, first_chars ks p /\ leads d ks v /\ text_is v o)) /\
      forall n, k_inside (KNode t None) n ->
        weakly_ascending (map fst (ktrans n)) /\ (short_keys d -> ascending (map fst (ktrans n))).
Proof. exact C57_kana_generator_proof. Qed.
Print Assumptions C57_kana_generator.

(** The later of two members counts, and the result is sorted. *)
Example C57_case : kana_generator (JObj [
    (u "k", JObj [(u "a", JObj [([], JStr (u "か"))])]); (u "a", JObj [([], JStr (u "い"))]);
    (u "a", JObj [([], JStr (u "あ"))])])
  = Ok [(ch "a", KNode [] (Some (u "あ"))); (ch "k", KNode [(ch "a", KNode [] (Some (u "か")))] None)]
  /\ kana_generator (JObj [(u "a", JStr (u "あ"))]) = Panic
  /\ kana_generator (JObj [(u "a", JObj [([], JObj [])])]) = Panic
  /\ kana_generator (JObj [(u "a", JObj [([], JNull)])]) = Panic
  /\ kana_generator (JObj [([], JArr [JBool true; JNum (u "1")]); (u "a", JObj [])]) = Ok [(ch "a", KNode [] None)].
Proof. vm_compute. auto. Qed.

(** C58.  The romaji generator accepts exactly the tables whose values are objects with a string as
    text, and panics on all others.  The tree it makes has a node with the text [s] at the
    characters [p] iff the table has such a value under keys that begin with these characters.
    No node has an empty list of transitions; they are in ascending order, strictly if all
    keys are characters. *)
Theorem C58_romaji_generator :
  forall d, valid_json d ->
    ((romaji_table d /\ exists t, romaji_generator d = Ok t) \/ (~ romaji_table d /\ romaji_generator d = Panic)) /\
    forall t, romaji_generator d = Ok t ->
      (forall p s, p <> [] ->
         ((exists n, r_path (RNode t []) p n /\ rout n = s) <->
          exists ks v, first_chars ks p /\ leads d ks v /\ text v s)) /\
      forall n, r_inside (RNode t []) n ->
        rtrans n <> Some [] /\
        weakly_ascending (map fst (r_edges n)) /\ (short_keys d -> ascending (map fst (r_edges n))).
Proof. exact C58_romaji_generator_proof. Qed.
Print Assumptions C58_romaji_generator.

(** Keys of two characters lose the second one: this is how ゔ came to be there repeatedly. *)
Example C58_case : romaji_generator (JObj [
    (u "ゔぁ", JObj [([], JStr (u "va"))]); (u "ゔ", JObj [([], JStr (u "vu"))]);
    (u "か", JObj [([], JStr (u "ka"))])])
  = Ok (Some [(ch "か", RNode None (u "ka")); (ch "ゔ", RNode None (u "vu")); (ch "ゔ", RNode None (u "va"))])
  /\ romaji_generator (JObj [(u "か", JObj [])]) = Panic
  /\ romaji_generator (JObj [(u "か", JArr [])]) = Panic.
Proof. vm_compute. auto. Qed.

(** C59.  The kana tree of the crate is exactly what the generator makes of its table; the romaji
    tree is what the generator makes, and two transitions added by hand, ヷ and ゎ. *)
Theorem C59_tables :
  valid_json kana_document /\ valid_json romaji_document /\
  (exists t, kana_generator kana_document = Ok t /\ TO_KANA_NODE_TREE = KNode t None) /\
  (exists t, romaji_generator romaji_document = Ok (Some t) /\ rout TO_ROMAJI_NODE_TREE = [] /\
     t = filter (fun e => negb (existsb (N.eqb (fst e)) (u "ヷゎ"))) (r_edges TO_ROMAJI_NODE_TREE)) /\
  In (ch "ヷ", RNode None (u "va")) (r_edges TO_ROMAJI_NODE_TREE) /\
  In (ch "ゎ", RNode None (u "wa")) (r_edges TO_ROMAJI_NODE_TREE).
Proof. exact C59_tables_proof. Qed.
Print Assumptions C59_tables.

Example C59_case : (exists v, leads kana_document [u "w"; u "i"] v /\ text v (u "うぃ"))
  /\ (exists v, leads romaji_document [u "ゐ"] v /\ text v (u "wi")).
Proof. split; apply lookup_text; vm_compute; reflexivity. Qed.

(** C60.  Partial: to_kana writes every spelling of the kana table as the table says, and to_romaji
    every spelling of the romaji table without ゔ; missing: the spellings with ゔ, for
    which it is false (see [C60_table_spellings_refuted]). *)
Theorem C60_table_spellings_partial :
  forall E, std_ok E ->
    (forall ks v s, leads kana_document ks v -> text v s -> to_kana E (concat ks) = Ok s) /\
    (forall ks v s, leads romaji_document ks v -> text v s ->
       ~ In (ch "ヴ") (concat ks) -> ~ In (ch "ゔ") (concat ks) -> to_romaji E (concat ks) = Ok s).
Proof. exact C60_table_spellings_partial_proof. Qed.
Print Assumptions C60_table_spellings_partial.

Example C60_case : exists v w, leads kana_document [u "s"; u "h"; u "y"; u "a"] v /\ text v (u "しゃ")
  /\ leads romaji_document [u "し"; u "ゃ"] w /\ text w (u "sha").
Proof.
  destruct (lookup_text kana_document [u "s"; u "h"; u "y"; u "a"] (u "しゃ")) as (v & A & B); [vm_compute; reflexivity|].
  destruct (lookup_text romaji_document [u "し"; u "ゃ"] (u "sha")) as (w & C & D); [vm_compute; reflexivity|].
  exists v, w. auto.
Qed.

(** C60.  Refuted: to_romaji writes none of the spellings with ゔ as the table says, with either of the
    two libraries; for example ゔ and ゔぁ. *)
Theorem C60_table_spellings_refuted :
  (forall E ks v s, E = std_1_52 \/ E = std_1_82 -> leads romaji_document ks v -> text v s ->
     In (ch "ゔ") (concat ks) -> exists t, to_romaji E (concat ks) = Ok t /\ t <> s) /\
  (exists v w, leads romaji_document [u "ゔ"] v /\ text v (u "vu") /\
     leads romaji_document [u "ゔぁ"] w /\ text w (u "va") /\
     to_romaji std_1_82 (u "ゔ") = Ok (u "vo") /\ to_romaji std_1_82 (u "ゔぁ") = Ok (u "voa")).
Proof. exact C60_table_spellings_refuted_proof. Qed.
Print Assumptions C60_table_spellings_refuted.

Example C60_witness : to_romaji std_1_52 (u "っゔぃ") = Ok (u "vvei") /\ to_romaji std_1_82 (u "っゔぃ") = Ok (u "vvoi")
  /\ exists v, leads romaji_document [u "っ"; u "ゔぃ"] v /\ text v (u "vvi").
Proof. split; [vm_compute; reflexivity|]. split; [vm_compute; reflexivity|]. apply lookup_text. vm_compute. reflexivity. Qed.

(** C73.  Each program writes its tree, as UTF-8, with one field, character or bracket on a line
    and four spaces for every level, and panics exactly on the documents it does not accept.  Characters are
    written as in Rust source text. *)
Theorem C73_printed :
  forall hidden d, valid_json d ->
    ((exists t, kana_table d /\ kana_generator d = Ok t /\
        exists out, kana_program hidden d = Ok out /\ utf8 out (kana_text (escape hidden) t)) \/
     (~ kana_table d /\ kana_program hidden d = Panic)) /\
    ((exists t, romaji_table d /\ romaji_generator d = Ok t /\
        exists out, romaji_program hidden d = Ok out /\ utf8 out (romaji_text (escape hidden) t)) \/
     (~ romaji_table d /\ romaji_program hidden d = Panic)) /\
    forall q c, q = ch "'" \/ q = quote -> is_scalar c = true -> writes hidden q c (escape hidden q c).
Proof. exact C73_printed_proof. Qed.
Print Assumptions C73_printed.

Example C73_case : valid_json (JObj [(u "n", JObj [([], JStr (u "ん")); (u "'", JObj [([], JStr (u "\" ++ [0x3099]))])])])
  /\ kana_program (N.eqb 0x3099)
       (JObj [(u "n", JObj [([], JStr (u "ん")); (u "'", JObj [([], JStr (u "\" ++ [0x3099]))])]); (u "k", JObj [])]) =
     Ok (encode (lines [
       u "[";
       u "    (";
       u "        'k',";
       u "        Node {";
       u "            transitions: [],";
       u "            output: None,";
       u "        },";
       u "    ),";
       u "    (";
       u "        'n',";
       u "        Node {";
       u "            transitions: [";
       u "                (";
       u "                    '\'',";
       u "                    Node {";
       u "                        transitions: [],";
       u "                        output: Some(";
       u "                            ""\\\u{3099}"",";
       u "                        ),";
       u "                    },";
       u "                ),";
       u "            ],";
       u "            output: Some(";
       u "                ""ん"",";
       u "            ),";
       u "        },";
       u "    ),";
       u "]"]))
  /\ romaji_program (fun _ => false) (JObj [(u "か", JObj [([], JStr (u "ka"))])]) =
     Ok (encode (lines [
       u "Some(";
       u "    [";
       u "        (";
       u "            'か',";
       u "            Node {";
       u "                transitions: None,";
       u "                output: ""ka"",";
       u "            },";
       u "        ),";
       u "    ],";
       u ")"])).
Proof.
  split; [apply validb_ok; vm_compute; reflexivity|]. split; vm_compute; reflexivity.
Qed.

(** C73.  What is printed determines the tree: two documents for which a program prints the same, even with
    libraries that differ in the characters they print as numbers, have the same tree. *)
Theorem C73_read_back :
  forall h1 h2 d1 d2 out, valid_json d1 -> valid_json d2 ->
    (kana_program h1 d1 = Ok out -> kana_program h2 d2 = Ok out ->
       exists t, kana_generator d1 = Ok t /\ kana_generator d2 = Ok t) /\
    (romaji_program h1 d1 = Ok out -> romaji_program h2 d2 = Ok out ->
       exists t, romaji_generator d1 = Ok t /\ romaji_generator d2 = Ok t).
Proof. exact C73_read_back_proof. Qed.
Print Assumptions C73_read_back.

Example C73_read_back_case :
  let d1 := JObj [(u "b", JObj [([], JStr (u "2"))]); (u "a", JObj [])] in
  let d2 := JObj [(u "ax", JObj []); (u "b", JObj [([], JStr (u "1"))]); (u "b", JObj [([], JStr (u "2"))])] in
  kana_program (fun _ => false) d1 = kana_program (N.eqb 0x3099) d2 /\ kana_program (fun _ => false) d1 <> Panic.
Proof. vm_compute. split; [reflexivity|discriminate]. Qed.
