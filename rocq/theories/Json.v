(** A model of the JSON-compatible Python values the library writes and reads
    (results of to_json, arguments of from_json).  [N] is the type of floats.
    Dictionaries keep insertion order, as Python's do. *)
Require Import List String ZArith Bool.
Require Import Verif.Base.
Import ListNotations.
Open Scope string_scope.

Inductive json (N : Type) : Type :=
| JNull
| JBool (b : bool)
| JInt (z : Z)
| JFlt (x : N)
| JStr (s : string)
| JList (l : list (json N))
| JObj (l : list (string * json N)).
Arguments JNull {N}. Arguments JBool {N}. Arguments JInt {N}. Arguments JFlt {N}.
Arguments JStr {N}. Arguments JList {N}. Arguments JObj {N}.

Section J.
Context {N : Type}.

Fixpoint obj_get (l : list (string * json N)) (k : string) : res (json N) :=
  match l with
  | [] => Err KeyError
  | (k', v) :: l' => if String.eqb k k' then Ok v else obj_get l' k
  end.

(** [data[k]] with a string key: strings and lists reject string indices. *)
Definition jget (d : json N) (k : string) : res (json N) :=
  match d with
  | JObj l => obj_get l k
  | _ => Err TypeError
  end.

(** [data.get(k, default)] *)
Definition jget_default (d : json N) (k : string) (v : json N) : res (json N) :=
  match d with
  | JObj l => match obj_get l k with Ok x => Ok x | Err _ => Ok v end
  | _ => Err AttributeError
  end.

(** [for x in data]: a dictionary yields its keys, a string its characters. *)
Definition jiter (d : json N) : res (list (json N)) :=
  match d with
  | JList l => Ok l
  | JObj l => Ok (map (fun kv => JStr (fst kv)) l)
  | JStr s => Ok (map (fun c => JStr (String c EmptyString)) (list_ascii_of_string s))
  | _ => Err TypeError
  end.

(** Assignment into a dictionary: an existing key keeps its position. *)
Fixpoint obj_set (l : list (string * json N)) (k : string) (v : json N) : list (string * json N) :=
  match l with
  | [] => [(k, v)]
  | (k', v') :: l' => if String.eqb k k' then (k', v) :: l' else (k', v') :: obj_set l' k v
  end.

Definition as_int (d : json N) : res Z := match d with JInt z => Ok z | _ => Err TypeError end.
Definition as_flt (d : json N) : res N := match d with JFlt x => Ok x | _ => Err TypeError end.
Definition as_str (d : json N) : res string := match d with JStr x => Ok x | _ => Err TypeError end.

End J.
