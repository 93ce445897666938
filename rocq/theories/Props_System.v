(** * C51-C54, C85: command line, conversion trees, validity of the output, bindings *)
From Coq Require Import Sorted.
From Verif Require Import Base Std StdInstances Trees KanaTree RomajiTree Strings Convert Cli KanaSpec KanaDict CliSpec TreeSpec Bindings BindingsSpec BindingsProofs Results_System.

(** C51.  The two programs: with arguments they print the conversion of the arguments joined
    by spaces, and a newline; without (or if the joined line is empty) the conversion of
    standard input.  They fail exactly if an argument, or the input when it is read, is not
    UTF-8. *)
Theorem C51_command_line :
  forall E, std_ok E ->
    command (to_kana E) (main_to_kana E) /\ command (to_romaji E) (main_to_romaji E).
Proof. exact C51_command_line_proof. Qed.
Print Assumptions C51_command_line.

Example C51_case : main_to_kana std_1_82 [u "to_kana"; u "kana"; u "ni"] (u "x") = Ok (encode (u "かな に" ++ [10]))
  /\ main_to_romaji std_1_82 [u "to_romaji"] (encode (u "ひらがな")) = Ok (u "hiragana")
  /\ main_to_kana std_1_82 [u "to_kana"; [0xFF]] [] = Panic
  /\ main_to_kana std_1_82 [u "to_kana"] [0xE3; 0x81] = Panic.
Proof. vm_compute. auto. Qed.

(** C52.  Every node of the three kana trees has its transitions in ascending order, each key
    once, and the search returns the transition with the key.  The romaji tree is in
    ascending order everywhere, and the binary search (of any Rust release) never panics
    and finds a transition with the key iff there is one. *)
Theorem C52_trees :
  (forall m n, k_inside (tree_of m) n ->
     ascending (map fst (ktrans n)) /\
     (forall c x, k_find n c = Some x <-> In (c, x) (ktrans n))) /\
  (forall n, r_inside TO_ROMAJI_NODE_TREE n -> weakly_ascending (map fst (r_edges n))) /\
  (forall E n c, std_ok E -> r_inside TO_ROMAJI_NODE_TREE n ->
     (exists x, r_find E n c = Ok (Some x) /\ In (c, x) (r_edges n)) \/
     (r_find E n c = Ok None /\ forall x, ~ In (c, x) (r_edges n))).
Proof. exact C52_trees_proof. Qed.
Print Assumptions C52_trees.

Example C52_case : exists n m, k_inside (tree_of Ime) n /\ k_find n (ch "n") = Some m /\ kout m = Some (u "ん")
  /\ r_inside TO_ROMAJI_NODE_TREE TO_ROMAJI_NODE_TREE.
Proof.
  destruct (k_find (tree_of Ime) (ch "n")) as [n|] eqn:N; [|vm_compute in N; discriminate].
  destruct (k_find n (ch "n")) as [m|] eqn:M.
  - exists n, m. split; [|split; [exact M|split; [|constructor]]].
    + eapply k_below; [apply k_self|]. exact (proj1 (proj2 (proj1 C52_trees Ime _ (k_self _)) (ch "n") n) N).
    + vm_compute in N. inversion N; subst n. vm_compute in M. inversion M. reflexivity.
  - vm_compute in N. inversion N; subst n. vm_compute in M. discriminate.
Qed.

(** C53.  Partial: apart from the key ゔ no node of the romaji tree has two transitions for
    one character; missing: ゔ, for which it is false (see [C53_distinct_refuted]). *)
Theorem C53_distinct_partial :
  forall n c x y, r_inside TO_ROMAJI_NODE_TREE n -> c <> ch "ゔ" ->
    In (c, x) (r_edges n) -> In (c, y) (r_edges n) -> x = y.
Proof. exact C53_distinct_partial_proof. Qed.
Print Assumptions C53_distinct_partial.

Example C53_case : exists x, In (ch "き", x) (r_edges TO_ROMAJI_NODE_TREE) /\ rout x = u "ki".
Proof.
  destruct (r_find std_1_82 TO_ROMAJI_NODE_TREE (ch "き")) as [[x|]| |] eqn:F; try (vm_compute in F; discriminate).
  exists x. destruct (proj2 (proj2 C52_trees) std_1_82 _ (ch "き") std_1_82_ok (r_self _)) as [(y & A & B)|[A _]]; [|congruence].
  assert (x = y) by congruence. subst y. split; [exact B|]. vm_compute in F. inversion F. reflexivity.
Qed.

(** C53.  Refuted: the root has several transitions for ゔ, and so has the node of っ; which
    one a search finds depends on the Rust release. *)
Theorem C53_distinct_refuted :
  (exists x y z, In (ch "ゔ", x) (r_edges TO_ROMAJI_NODE_TREE) /\ In (ch "ゔ", y) (r_edges TO_ROMAJI_NODE_TREE) /\
     In (ch "ゔ", z) (r_edges TO_ROMAJI_NODE_TREE) /\ rout x = u "va" /\ rout y = u "vi" /\ rout z = u "vo") /\
  (to_romaji std_1_52 (u "っゔ") = Ok (u "vve") /\ to_romaji std_1_82 (u "っゔ") = Ok (u "vvo")).
Proof. exact C53_distinct_refuted_proof. Qed.
Print Assumptions C53_distinct_refuted.

Example C53_witness : to_romaji std_1_82 (u "ヴァイオリン") = Ok (u "voaiorin") /\ to_romaji std_1_52 (u "ヴァイオリン") = Ok (u "voaiorin").
Proof. vm_compute. auto. Qed.

(** C54.  Every conversion maps valid Unicode text to valid Unicode text. *)
Theorem C54_valid :
  forall E s o t, std_ok E -> valid_str s ->
    to_kana_with_opt E s o = Ok t \/ to_hiragana_with_opt E s o = Ok t \/
    to_katakana_with_opt E s o = Ok t \/ to_romaji_with_opt E s o = Ok t -> valid_str t.
Proof. exact C54_valid_proof. Qed.
Print Assumptions C54_valid.

Example C54_case : valid_str (u "ヷヸ𠮷a") /\ to_hiragana std_1_82 (u "ヷヸ𠮷a") = Ok (u "わゐ𠮷あ").
Proof. split; [apply Forall_forall, forallb_forall|]; vm_compute; reflexivity. Qed.

(** C85.  The functions of the two bindings return the string with the characters that the
    library returns for the characters of their argument, a surrogate without its partner counting
    as U+FFFD for wasm-bindgen; the strings returned are well formed.  For neon, any reading of strings
    that is right for the well-formed ones will do.  A call from Node without a string throws. *)
Theorem C85_bindings :
  forall E value, std_ok E -> (forall x s, well_formed x -> js_text x s -> value x = s) ->
    (forall name lib wasm node,
       In (name, lib, wasm, node)
         [(u "to_romaji", to_romaji E, wasm_to_romaji E, node_to_romaji value E);
          (u "to_kana", to_kana E, wasm_to_kana E, node_to_kana value E);
          (u "to_hiragana", to_hiragana E, wasm_to_hiragana E, node_to_hiragana value E);
          (u "to_katakana", to_katakana E, wasm_to_katakana E, node_to_katakana value E)] ->
       (forall f, In (name, f) (node_exports value E) <-> f = node) /\
       (forall x, Forall (fun c => c < 0x10000) x ->
          exists s r y, js_text x s /\ lib s = Ok r /\ js_text y r /\ well_formed y /\ wasm x = Ok y /\
            (well_formed x -> forall args, node (JsString x :: args) = Ok (Returns y)) /\
            (forall s', js_text x s' -> s' = s) /\ (forall y', js_text y' r -> well_formed y' -> y' = y)) /\
       node [] = Ok Throws /\ (forall args, node (JsOther :: args) = Ok Throws)) /\
    length (node_exports value E) = 4%nat.
Proof. exact C85_bindings_proof. Qed.
Print Assumptions C85_bindings.

Example C85_case :
  wasm_to_kana std_1_82 (0xD842 :: 0xDFB7 :: 0xDC00 :: u "ka") = Ok (0xD842 :: 0xDFB7 :: 0xFFFD :: u "か") /\
  js_text (0xD842 :: 0xDFB7 :: u "ka") (u "𠮷ka") /\
  node_to_kana from_utf16 std_1_82 [JsString (0xD842 :: 0xDFB7 :: u "ka"); JsOther] = Ok (Returns (0xD842 :: 0xDFB7 :: u "か")).
Proof.
  split; [vm_compute; reflexivity|]. split; [|vm_compute; reflexivity].
  apply JT_pair; [split; vm_compute; congruence|split; vm_compute; congruence|reflexivity|].
  apply JT_unit; [reflexivity|intros [H _]; now apply H|intros [H _]; now apply H|].
  apply JT_unit; [reflexivity|intros [H _]; now apply H|intros [H _]; now apply H|constructor].
Qed.

Example C85_value : forall x s, well_formed x -> js_text x s -> from_utf16 x = s.
Proof. exact (fun x s _ => from_utf16_value x s). Qed.

(** C85.  add of the wasm binding is the sum of two u32, if that is one; otherwise it panics
    when compiled with overflow checks and wraps around without. *)
Theorem C85_add :
  forall checks a b, a < 2 ^ 32 -> b < 2 ^ 32 ->
    (a + b < 2 ^ 32 -> wasm_add checks a b = Ok (a + b)) /\
    (2 ^ 32 <= a + b -> wasm_add true a b = Panic /\ exists c, wasm_add false a b = Ok c /\ c + 2 ^ 32 = a + b).
Proof. exact C85_add_proof. Qed.
Print Assumptions C85_add.

Example C85_add_case : wasm_add true 2 3 = Ok 5 /\ wasm_add true 0xFFFFFFFF 2 = Panic /\ wasm_add false 0xFFFFFFFF 2 = Ok 1.
Proof. vm_compute. auto. Qed.
