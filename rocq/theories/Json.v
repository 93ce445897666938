(** * JSON values as built by [serde_json::json!]

    The part of [serde_json] that upstream_conversions uses: values with objects
    stored in a [BTreeMap] (the default of serde_json 1.0, feature [preserve_order] off):
    iteration in ascending order of the keys, a later member replaces an earlier one. *)
From Verif Require Import Base.

(** A JSON text, members in the order written; a number as it is spelled *)
Inductive json :=
| JStr (s : str)
| JObj (members : list (str * json))
| JArr (items : list json)
| JNum (spelling : str)
| JBool (b : bool)
| JNull.

(** [Ord] of [String]: by bytes *)
Fixpoint bytes_compare (a b : list N) : comparison :=
  match a, b with
  | [], [] => Eq
  | [], _ :: _ => Lt
  | _ :: _, [] => Gt
  | x :: a', y :: b' =>
    match x ?= y with Eq => bytes_compare a' b' | c => c end
  end.
Definition key_compare (a b : str) : comparison := bytes_compare (encode a) (encode b).

(** [BTreeMap::insert] on the list of the map's entries *)
Fixpoint map_insert {A} (k : str) (v : A) (m : list (str * A)) : list (str * A) :=
  match m with
  | [] => [(k, v)]
  | (k', v') :: m' =>
    match key_compare k k' with
    | Lt => (k, v) :: m
    | Eq => (k', v) :: m'
    | Gt => (k', v') :: map_insert k v m'
    end
  end.
(** inserting the members in the order written *)
Definition map_of {A} (members : list (str * A)) : list (str * A) :=
  fold_left (fun m e => map_insert (fst e) (snd e) m) members [].

(** [json!]: the value for a JSON text; its objects list the entries of the map *)
Fixpoint value_of (j : json) : json :=
  match j with
  | JStr s => JStr s
  | JObj ms => JObj (map_of (map (fun e => match e with (k, v) => (k, value_of v) end) ms))
  | JArr l => JArr (map value_of l)
  | JNum _ | JBool _ | JNull => j
  end.

(** [Value::as_object], [Value::as_str], [Map::get] *)
Definition as_object (v : json) : option (list (str * json)) :=
  match v with JObj m => Some m | _ => None end.
Definition as_str (v : json) : option str :=
  match v with JStr s => Some s | _ => None end.
Definition map_get {A} (m : list (str * A)) (k : str) : option A :=
  option_map snd (find (fun e => str_eqb (fst e) k) m).
