(** * to_kana_node_tree.rs *)
From Verif Require Import Base Std Trees KanaTreeData.

(** to_kana_node_tree.rs:27-31 *)
Definition k_find (n : knode) (c : char) : option knode :=
  option_map snd (find (fun t => fst t =? c) (ktrans n)).

(** to_kana_node_tree.rs:11-18, the loop of [get]: final node and count [i]. *)
Fixpoint k_walk (n : knode) (chars : str) (i : nat) : knode * nat :=
  match chars with
  | [] => (n, i)
  | c :: rest =>
    match k_find n (ascii_lower c) with
    | Some m => k_walk m rest (S i)
    | None => (n, i)
    end
  end.

(** to_kana_node_tree.rs:8-25 *)
Definition k_get (n : knode) (chars : str) : option str * nat :=
  let (m, i) := k_walk n chars 0 in
  match kout m with
  | Some _ => (kout m, i)
  | None => (None, 0%nat)
  end.

(** to_kana_node_tree.rs:37-42.  The code sorts a node's transitions and then
    sorts each child; here the children are sorted first (structural recursion),
    which gives the same tree because keys do not change. *)
Fixpoint k_sort (n : knode) : knode :=
  match n with
  | KNode ts o => KNode (sort_by_key (map (fun t => match t with (c, m) => (c, k_sort m) end) ts)) o
  end.

(** to_kana_node_tree.rs:33-35 followed by a mutation [f] of the transition
    found; [None] when there is none (the callers [unwrap]). *)
Fixpoint k_modify (ts : list (char * knode)) (c : char) (f : knode -> knode)
  : option (list (char * knode)) :=
  match ts with
  | [] => None
  | (k, m) :: ts' =>
    if k =? c then Some ((k, f m) :: ts')
    else option_map (cons (k, m)) (k_modify ts' c f)
  end.

(** to_kana_node_tree.rs:52-4818 *)
Definition TO_KANA_NODE_TREE : knode := Eval vm_compute in k_sort (KNode kana_literal None).

(** to_kana_node_tree.rs:4820-4838 (the initialiser may panic in [unwrap]) *)
Definition obsolete_init : res knode :=
  let tree := TO_KANA_NODE_TREE in
  ts <- unwrap (k_modify (ktrans tree) (ch "w") (fun w =>
     KNode (filter (fun x => negb (fst x =? ch "i") && negb (fst x =? ch "e")) (ktrans w)
            ++ [(ch "i", KNode [] (Some (u "ゐ")))]
            ++ [(ch "e", KNode [] (Some (u "ゑ")))])
           (kout w))) ;;
  Ok (k_sort (KNode ts (kout tree))).

(** to_kana_node_tree.rs:4841-4859 *)
Definition imemode_init : res knode :=
  let tree := TO_KANA_NODE_TREE in
  ts <- unwrap (k_modify (ktrans tree) (ch "n") (fun w =>
     KNode (ktrans w
            ++ [(ch "n", KNode [] (Some (u "ん")))]
            ++ [(ch " ", KNode [] (Some (u "ん")))])
           None)) ;;
  Ok (k_sort (KNode ts (kout tree))).

(** The values of the two statics. *)
Definition TO_KANA_NODE_TREE_OBSOLETE : knode :=
  Eval vm_compute in match obsolete_init with Ok t => t | _ => KNode [] None end.
Definition TO_KANA_NODE_TREE_IMEMODE : knode :=
  Eval vm_compute in match imemode_init with Ok t => t | _ => KNode [] None end.

Lemma obsolete_init_ok : obsolete_init = Ok TO_KANA_NODE_TREE_OBSOLETE.
Proof. vm_compute. reflexivity. Qed.
Lemma imemode_init_ok : imemode_init = Ok TO_KANA_NODE_TREE_IMEMODE.
Proof. vm_compute. reflexivity. Qed.

(** (proof engineering only: stops [cbn]/[simpl] from unfolding the trees) *)
Global Opaque TO_KANA_NODE_TREE TO_KANA_NODE_TREE_OBSOLETE TO_KANA_NODE_TREE_IMEMODE.
