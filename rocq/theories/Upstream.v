(** * upstream_conversions: the two programs that print the tree literals *)
From Verif Require Import Base Trees Json UpstreamData Debug.

(** The loop over the members, the same in both programs: the member "" is skipped, of every
    other key only the first character is kept.
    to_kana_tree.rs:1911-1922, to_romaji_tree.rs:1136-1153 *)
Definition collect {A} (node : json -> res A) : list (str * json) -> res (list (char * A)) :=
  fix loop obj :=
    match obj with
    | [] => Ok []
    | (k, v) :: rest =>
      match k with
      | [] => loop rest
      | c :: _ => n <- node v ;; t <- loop rest ;; Ok ((c, n) :: t)
      end
    end.

(** to_kana_tree.rs:1907-1928; the two [unwrap]s in line 1918 *)
Fixpoint kana_transitions (val : json) : res (list (char * knode)) :=
  match val with
  | JObj obj =>
    collect (fun v =>
      ts <- kana_transitions v ;;
      m <- unwrap (as_object v) ;;
      o <- match map_get m [] with
           | Some out => s <- unwrap (as_str out) ;; Ok (Some s)
           | None => Ok None
           end ;;
      Ok (KNode ts o)) obj
  | _ => Panic
  end.

(** to_romaji_tree.rs:1132-1163; the three [unwrap]s in line 1149 *)
Fixpoint romaji_transitions (val : json) : res (option (list (char * rnode))) :=
  match val with
  | JObj obj =>
    t <- collect (fun v =>
      ts <- romaji_transitions v ;;
      m <- unwrap (as_object v) ;;
      out <- unwrap (map_get m []) ;;
      s <- unwrap (as_str out) ;;
      Ok (RNode ts s)) obj ;;
    Ok (match t with [] => None | _ => Some t end)
  | _ => Panic
  end.

(** What the programs compute from a JSON text *)
Definition kana_generator (doc : json) : res (list (char * knode)) := kana_transitions (value_of doc).
Definition romaji_generator (doc : json) : res (option (list (char * rnode))) := romaji_transitions (value_of doc).

(** [#[derive(Debug)]] of the two [Node]s: to_kana_tree.rs:7-13, to_romaji_tree.rs:7-13 *)
Fixpoint debug_knode (hidden : char -> bool) (n : knode) : str :=
  match n with KNode ts o =>
    debug_struct (u "Node")
      [(u "transitions", debug_list (map (fun t => match t with (c, m) =>
          debug_tuple [] [debug_char hidden c; debug_knode hidden m] end) ts));
       (u "output", debug_option (option_map (debug_str hidden) o))]
  end.
Fixpoint debug_rnode (hidden : char -> bool) (n : rnode) : str :=
  match n with RNode ts o =>
    debug_struct (u "Node")
      [(u "transitions", debug_option (option_map (fun l => debug_list (map (fun t => match t with (c, m) =>
          debug_tuple [] [debug_char hidden c; debug_rnode hidden m] end) l)) ts));
       (u "output", debug_str hidden o)]
  end.
Definition debug_ktransitions (hidden : char -> bool) (ts : list (char * knode)) : str :=
  debug_list (map (fun t => debug_tuple [] [debug_char hidden (fst t); debug_knode hidden (snd t)]) ts).
Definition debug_rtransitions (hidden : char -> bool) (ts : option (list (char * rnode))) : str :=
  debug_option (option_map (fun l =>
    debug_list (map (fun t => debug_tuple [] [debug_char hidden (fst t); debug_rnode hidden (snd t)]) l)) ts).

(** [main] on a JSON text, and what is written to the standard output:
    to_kana_tree.rs:1901-1903, to_romaji_tree.rs:1126-1128; the first call is for its panics only *)
Definition kana_program (hidden : char -> bool) (doc : json) : res (list N) :=
  _ <- kana_generator doc ;;
  t <- kana_generator doc ;;
  Ok (encode (debug_ktransitions hidden t ++ [10])).
Definition romaji_program (hidden : char -> bool) (doc : json) : res (list N) :=
  _ <- romaji_generator doc ;;
  t <- romaji_generator doc ;;
  Ok (encode (debug_rtransitions hidden t ++ [10])).
