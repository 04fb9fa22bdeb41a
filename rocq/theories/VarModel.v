(** Model of src/jpt/variables.py: variables, VariableMap and the assignments. *)
Require Import String List Bool Arith ZArith Lia.
Require Import Verif.Base Verif.Json.
Import ListNotations.
Open Scope string_scope.
Open Scope list_scope.

(** ** Python dictionaries with string keys, in insertion order *)
Section Dict.
Context {A : Type}.
Fixpoint dget (d : list (string * A)) (k : string) : option A :=
  match d with [] => None | (k', v) :: d' => if String.eqb k k' then Some v else dget d' k end.
(** [d[k] = v]: an existing key keeps its position. *)
Fixpoint dset (d : list (string * A)) (k : string) (v : A) : list (string * A) :=
  match d with [] => [(k, v)] | (k', v') :: d' => if String.eqb k k' then (k', v) :: d' else (k', v') :: dset d' k v end.
(** [del d[k]] *)
Fixpoint ddel (d : list (string * A)) (k : string) : list (string * A) :=
  match d with [] => [] | (k', v') :: d' => if String.eqb k k' then d' else (k', v') :: ddel d' k end.
(** [d.update(e)] *)
Definition dupdate (d e : list (string * A)) : list (string * A) := fold_left (fun d kv => dset d (fst kv) (snd kv)) e d.
Definition dkeys (d : list (string * A)) : list string := map fst d.
End Dict.

(** ** Variables *)

(** variables.py:30-108, 210-245, 345-360, 405-424.  The domain is a class object; [D] stands
    for its identity.  The settings are a dictionary with numeric values. *)
Inductive vkind := KNumeric | KSymbolic | KInteger.
Record var (D N : Type) := Var { vk : vkind; vname : string; vdom : D; vset : list (string * N) }.
Arguments Var {D N}. Arguments vk {D N}. Arguments vname {D N}. Arguments vdom {D N}. Arguments vset {D N}.

Section Var.
Context {D N : Type}.
(** The constants 0 and 0.01, and the JSON form of domains (modelled elsewhere for the
    discrete ones; here a parameter). *)
Variables (zero cent : N) (dom_json : D -> json N) (dom_parse : json N -> res D).

(** variables.py:40-42, 218-222, 412-414: the default settings of each class. *)
Definition defaults (k : vkind) : list (string * N) :=
  match k with
  | KNumeric => [("min_impurity_improvement", zero); ("blur", zero); ("max_std_lbl", zero); ("precision", cent)]
  | KSymbolic => [("min_impurity_improvement", zero); ("invert_impurity", zero)]
  | KInteger => [("min_impurity_improvement", zero)]
  end.
(** variables.py:62-87: the constructor; settings given as [None] keep the default. *)
Fixpoint apply_settings (s : list (string * N)) (args : list (string * option N)) : res (list (string * N)) :=
  match args with
  | [] => Ok s
  | (a, o) :: args' =>
      match dget s a with
      | None => Err AttributeError
      | Some _ => apply_settings (match o with None => s | Some v => dset s a v end) args'
      end
  end.
Definition mk_var (k : vkind) (name : string) (d : D) (args : list (string * option N)) : res (var D N) :=
  do s <- apply_settings (defaults k) args; Ok (Var k name d s).

(** variables.py:165-170, 247-250, 392-395, 435-438 (to_json). *)
Definition kind_name (k : vkind) : string := match k with KNumeric => "numeric" | KSymbolic => "symbolic" | KInteger => "integer" end.
Definition var_to_json (v : var D N) : json N :=
  JObj [("name", JStr (vname v)); ("domain", dom_json (vdom v));
        ("settings", JObj (map (fun kv => (fst kv, JFlt (snd kv))) (vset v))); ("type", JStr (kind_name (vk v)))].

(** [data.get(key)] where a number or nothing is expected. *)
Definition get_num (d : json N) (k : string) : res (option N) :=
  do x <- jget_default d k JNull;
  match x with JNull => Ok None | JFlt v => Ok (Some v) | _ => Err TypeError end.
(** variables.py:172-181 (Variable.from_json), 252-262, 383-390, 428-433: the settings are looked
    up in the object itself, not in its entry "settings"; symbolic variables look up none. *)
Definition var_from_json (d : json N) : res (var D N) :=
  do t <- jget d "type";
  match t with
  | JStr s =>
      if String.eqb s "numeric" then
        do j <- jget d "domain"; do dm <- dom_parse j;
        do n <- jget d "name";
        do a <- get_num d "min_impurity_improvement";
        do b <- get_num d "max_std_lbl";
        do c <- get_num d "precision";
        do e <- get_num d "blur";
        match n with
        | JStr nm => mk_var KNumeric nm dm [("min_impurity_improvement", a); ("blur", e); ("max_std_lbl", b); ("precision", c)]
        | _ => Err TypeError
        end
      else if String.eqb s "symbolic" then
        do n <- jget d "name"; do j <- jget d "domain"; do dm <- dom_parse j;
        match n with
        | JStr nm => mk_var KSymbolic nm dm [("min_impurity_improvement", None); ("invert_impurity", None)]
        | _ => Err TypeError
        end
      else if String.eqb s "integer" then
        do j <- jget d "domain"; do dm <- dom_parse j;
        do n <- jget d "name";
        do a <- get_num d "min_impurity_improvement";
        match n with
        | JStr nm => mk_var KInteger nm dm [("min_impurity_improvement", a)]
        | _ => Err TypeError
        end
      else Err TypeError
  | _ => Err TypeError
  end.
End Var.

(** ** VariableMap *)
Section Map.
Context {W V : Type}.          (* variables and values *)
Variable name_of : W -> string.

(** A key of the map: a string, a Variable or something else. *)
Inductive key := KName (s : string) | KVar (v : W) | KOther.
Record vmap := VM { vm_vars : list (string * W); vm_map : list (string * V) }.

(** variables.py:586-589 *)
Definition vm_get (m : vmap) (k : key) : res V :=
  match k with
  | KName s => match dget (vm_map m) s with Some v => Ok v | None => Err KeyError end
  | KVar w => match dget (vm_map m) (name_of w) with Some v => Ok v | None => Err KeyError end
  | KOther => Err KeyError
  end.
(** variables.py:591-604 *)
Definition vm_set_var (m : vmap) (w : W) (v : V) : vmap :=
  VM (match dget (vm_vars m) (name_of w) with Some _ => vm_vars m | None => dset (vm_vars m) (name_of w) w end)
     (dset (vm_map m) (name_of w) v).
Definition vm_set (m : vmap) (k : key) (v : V) : res vmap :=
  match k with
  | KName s => match dget (vm_vars m) s with None => Err ValueError | Some w => Ok (vm_set_var m w v) end
  | KVar w => Ok (vm_set_var m w v)
  | KOther => Err ValueError
  end.
(** variables.py:606-611.  Both entries are deleted; the first failure leaves the map as it
    was. *)
Definition vm_del_name (m : vmap) (s : string) : res vmap :=
  match dget (vm_map m) s with
  | None => Err KeyError
  | Some _ =>
      match dget (vm_vars m) s with
      | None => Err KeyError
      | Some _ => Ok (VM (ddel (vm_vars m) s) (ddel (vm_map m) s))
      end
  end.
Definition vm_del (m : vmap) (k : key) : res vmap :=
  match k with KName s => vm_del_name m s | KVar w => vm_del_name m (name_of w) | KOther => Err KeyError end.
(** variables.py:613-616 *)
Definition vm_contains (m : vmap) (k : key) : bool :=
  match k with
  | KName s => match dget (vm_map m) s with Some _ => true | None => false end
  | KVar w => match dget (vm_map m) (name_of w) with Some _ => true | None => false end
  | KOther => false
  end.
(** variables.py:618-625 *)
Definition var_named (m : vmap) (s : string) : res W := match dget (vm_vars m) s with Some w => Ok w | None => Err KeyError end.
Definition vm_keys (m : vmap) : res (list W) := mapM (var_named m) (dkeys (vm_map m)).
Definition vm_len (m : vmap) : nat := length (vm_map m).
(** variables.py:673-674 *)
Definition vm_items (m : vmap) : res (list (W * V)) :=
  mapM (fun kv : string * V => do w <- var_named m (fst kv); Ok (w, snd kv)) (vm_map m).
(** variables.py:661-664 *)
Definition vm_get_default (m : vmap) (k : key) (d : V) : res V := if vm_contains m k then vm_get m k else Ok d.

(** variables.py:558-574 *)
Fixpoint vm_fill (m : vmap) (data : list (key * V)) : res vmap :=
  match data with [] => Ok m | (k, v) :: data' => do m' <- vm_set m k v; vm_fill m' data' end.
Definition vm_declare (ws : list W) : list (string * W) := fold_left (fun d w => dset d (name_of w) w) ws [].
Definition vm_new (data : list (key * V)) (ws : list W) : res vmap := vm_fill (VM (vm_declare ws) []) data.

(** variables.py:644-651, for another map. *)
Fixpoint vm_remove_all (m : vmap) (ws : list W) : res vmap :=
  match ws with
  | [] => Ok m
  | w :: ws' => if vm_contains m (KVar w) then do m' <- vm_del m (KVar w); vm_remove_all m' ws' else vm_remove_all m ws'
  end.
Definition vm_isub (m o : vmap) : res vmap := do ws <- vm_keys o; vm_remove_all m ws.
(** ... and for the map itself: Python's dictionary iterator notices the deletion. *)
Definition vm_isub_self (m : vmap) : vmap * option exn :=
  match vm_map m with
  | [] => (m, None)
  | (s, _) :: _ => match vm_del_name m s with Ok m' => (m', Some RuntimeError) | Err e => (m, Some e) end
  end.
(** variables.py:653-659 *)
Definition vm_iadd (m o : vmap) : res vmap :=
  do its <- vm_items o; vm_fill m (map (fun wv : W * V => (KVar (fst wv), snd wv)) its).
(** variables.py:679-682 *)
Definition vm_update (m o : vmap) : vmap := VM (dupdate (vm_vars m) (vm_vars o)) (dupdate (vm_map m) (vm_map o)).
(** variables.py:684-696.  [atom] recognises numbers and strings, [coll] sets, lists, tuples and
    number sets (whose copy is the same value). *)
Definition vm_copy (m : vmap) : res vmap :=
  do its <- vm_items m; vm_new (map (fun wv : W * V => (KVar (fst wv), snd wv)) its) (map snd (vm_vars m)).
Definition vm_deepcopy (atom coll : V -> bool) (m : vmap) : res vmap :=
  do its <- vm_items m;
  vm_fill (VM (vm_declare (map snd (vm_vars m))) [])
    (map (fun wv : W * V => (KVar (fst wv), snd wv)) (filter (fun wv => atom (snd wv) || coll (snd wv)) its)).
(** variables.py:676-677, 698-712: [enc], [dec] are to_json and typ.from_json of the values. *)
Definition vm_to_json {N} (enc : V -> json N) (m : vmap) : res (list (string * json N)) :=
  do its <- vm_items m; Ok (fold_left (fun d (wv : W * V) => dset d (name_of (fst wv)) (enc (snd wv))) its []).
Fixpoint vm_load {N} (dec : json N -> res V) (vars : list (string * W)) (m : vmap) (d : list (string * json N)) : res vmap :=
  match d with
  | [] => Ok m
  | (s, j) :: d' =>
      do v <- dec j;
      match dget vars s with None => Err KeyError | Some w => vm_load dec vars (vm_set_var m w v) d' end
  end.
Definition vm_from_json {N} (dec : json N -> res V) (variables : list W) (d : list (string * json N)) : res vmap :=
  vm_load dec (vm_declare variables) (VM [] []) d.
End Map.
Arguments key W : clear implicits.
Arguments vmap W V : clear implicits.

(** ** Assignments *)

(** The values given to an assignment, as far as its checks see them: a number, a number set, a
    single hashable value that is neither (a string, say; numbers offered to symbolic variables
    are of this kind too), a Python set of such values, something unhashable. *)
Inductive aval (L : Type) := ANum | ANumSet | AOne (l : L) | ASet (ls : list L) | AUnhashable.
Arguments ANum {L}. Arguments ANumSet {L}. Arguments AOne {L}. Arguments ASet {L}. Arguments AUnhashable {L}.
Section Assign.
Context {W L : Type}.
Variables (name_of : W -> string) (kind : W -> vkind) (domain : W -> list L) (eqb : L -> L -> bool).
Definition contains (w : W) (l : L) : bool := existsb (eqb l) (domain w).

(** variables.py:774-790 (LabelAssignment.__setitem__), the checks; the domain of a symbolic
    variable is the list of its labels.  Numbers and number sets are not among the labels modelled
    here. *)
Definition label_check (w : W) (v : aval L) : res unit :=
  match kind w with
  | KNumeric => match v with ANum | ANumSet => Ok tt | _ => Err TypeError end
  | KSymbolic =>
      match v with
      | ASet ls => if forallb (contains w) ls then Ok tt else Err TypeError
      | AOne l => if contains w l then Ok tt else Err TypeError
      | _ => Err TypeError
      end
  | KInteger => Ok tt
  end.
(** variables.py:819-829 (ValueAssignment.__setitem__), the checks: [type(value) not in
    (numbers.Integral, set)] skips the check of the members for sets. *)
Definition value_check (w : W) (v : aval L) : res unit :=
  match kind w with
  | KNumeric => match v with ANum | ANumSet => Ok tt | _ => Err TypeError end
  | KSymbolic =>
      match v with
      | ASet ls => Ok tt
      | AOne l => if contains w l then Ok tt else Err TypeError
      | _ => Err TypeError
      end
  | KInteger => Ok tt
  end.
(** The checks are made for Variable objects only: neither [isinstance] holds of a string. *)
Definition assign (check : W -> aval L -> res unit) (m : vmap W (aval L)) (k : key W) (v : aval L) : res (vmap W (aval L)) :=
  match k with
  | KVar w => do _ <- check w v; vm_set name_of m k v
  | _ => vm_set name_of m k v
  end.
(** [m += o] on assignments: [self[var] = val] for the variables of [o]. *)
Fixpoint assign_all (check : W -> aval L -> res unit) (m : vmap W (aval L)) (its : list (W * aval L)) : res (vmap W (aval L)) :=
  match its with [] => Ok m | (w, v) :: its' => do m' <- assign check m (KVar w) v; assign_all check m' its' end.
Definition assign_iadd (check : W -> aval L -> res unit) (m o : vmap W (aval L)) : res (vmap W (aval L)) :=
  do its <- vm_items o; assign_all check m its.
End Assign.
