(** * The two node types *)
From Verif Require Import Base.

(** to_kana_node_tree.rs:1-5
<<
    pub(crate) struct Node { pub transitions: Vec<(char, Node)>, pub output: Option<&'static str> }
>> *)
Inductive knode := KNode (transitions : list (char * knode)) (output : option str).

(** to_romaji_node_tree.rs:1-5
<<
    pub(crate) struct Node { pub transitions: Option<Vec<(char, Node)>>, pub output: &'static str }
>> *)
Inductive rnode := RNode (transitions : option (list (char * rnode))) (output : str).

Definition ktrans (n : knode) : list (char * knode) := match n with KNode t _ => t end.
Definition kout (n : knode) : option str := match n with KNode _ o => o end.
Definition rtrans (n : rnode) : option (list (char * rnode)) := match n with RNode t _ => t end.
Definition rout (n : rnode) : str := match n with RNode _ o => o end.
