(** * to_romaji_node_tree.rs *)
From Verif Require Import Base Std Trees RomajiTreeData.

(** to_romaji_node_tree.rs:22-30; [t[index]] is the only place that can panic. *)
Definition r_find (E : std) (n : rnode) (c : char) : res (option rnode) :=
  match rtrans n with
  | Some t =>
    match bsearch E (map fst t) c with
    | Some i => x <- index t i ;; Ok (Some (snd x))
    | None => Ok None
    end
  | None => Ok None
  end.

(** to_romaji_node_tree.rs:9-18, the loop of [get]. *)
Fixpoint r_walk (E : std) (n : rnode) (chars : str) (i : nat) : res (rnode * nat) :=
  match chars with
  | [] => Ok (n, i)
  | c :: rest =>
    o <- r_find E n c ;;
    match o with
    | Some m => r_walk E m rest (S i)
    | None => Ok (n, i)
    end
  end.

(** to_romaji_node_tree.rs:8-20 *)
Definition r_get (E : std) (n : rnode) (chars : str) : res (str * nat) :=
  x <- r_walk E n chars 0 ;; Ok (rout (fst x), snd x).

(** to_romaji_node_tree.rs:32-39 (children first, as in [k_sort]) *)
Fixpoint r_sort (n : rnode) : rnode :=
  match n with
  | RNode (Some ts) o =>
    RNode (Some (sort_by_key (map (fun t => match t with (c, m) => (c, r_sort m) end) ts))) o
  | RNode None o => RNode None o
  end.

(** to_romaji_node_tree.rs:43-2682 *)
Definition TO_ROMAJI_NODE_TREE : rnode :=
  Eval vm_compute in r_sort (RNode (Some romaji_literal) []).

(** (proof engineering only: stops [cbn]/[simpl] from unfolding the tree) *)
Global Opaque TO_ROMAJI_NODE_TREE.
