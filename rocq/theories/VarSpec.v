(** What a finite map keyed by variable names is, in terms of its history.  Nothing here
    refers to the dictionaries of the model. *)
Require Import String List Bool Arith Lia Sorted.
Require Import Verif.Base Verif.VarModel.
Import ListNotations.
Open Scope list_scope.

Section Spec.
Context {W V : Type}.
Variable name_of : W -> string.

(** What happens to a map: a name is made known, a value is written, an entry is deleted. *)
Inductive event := Knew (n : string) | Wrote (n : string) (v : V) | Erased (n : string).

(** The value under a name, whether a name is known, after a history (latest event first). *)
Fixpoint current (h : list event) (n : string) : option V :=
  match h with
  | [] => None
  | Wrote n' v :: h' => if String.eqb n n' then Some v else current h' n
  | Erased n' :: h' => if String.eqb n n' then None else current h' n
  | Knew _ :: h' => current h' n
  end.
Fixpoint known (h : list event) (n : string) : bool :=
  match h with
  | [] => false
  | Erased n' :: h' => if String.eqb n n' then false else known h' n
  | (Wrote n' _ | Knew n') :: h' => if String.eqb n n' then true else known h' n
  end.
(** The time at which the present entry of [n] came into the map. *)
Definition born (h : list event) (n : string) (t : nat) : Prop :=
  exists v newer older, h = newer ++ Wrote n v :: older /\ length older = t /\ current older n = None /\ ~ In (Erased n) newer.
(** [l] lists the names with a value in the order in which they came. *)
Definition in_order (h : list event) (l : list string) : Prop :=
  (forall n, In n l <-> current h n <> None) /\ exists ts, Forall2 (born h) l ts /\ StronglySorted lt ts.

(** The operations of a user, and the events they cause.  [items] and [vars] of the other map
    are its entries and the names it knows. *)
Inductive op :=
| OSet (k : key W) (v : V)        (* m[k] = v *)
| ODel (k : key W)                (* del m[k], m -= k *)
| OUpdate (o : vmap W V)          (* m.update(o) *)
| OAdd (o : vmap W V)             (* m += o, for another map *)
| OSub (o : vmap W V).            (* m -= o, for another map *)
Definition key_name (k : key W) : option string := match k with KName s => Some s | KVar w => Some (name_of w) | KOther => None end.
Definition present (h : list event) (n : string) : bool := match current h n with Some _ => true | None => false end.
(** (latest first) *)
Definition effect (h : list event) (o : op) : list event :=
  match o with
  | OSet (KVar w) v => [Wrote (name_of w) v]
  | OSet (KName s) v => if known h s then [Wrote s v] else []
  | OSet KOther _ => []
  | ODel k => match key_name k with Some s => if present h s then [Erased s] else [] | None => [] end
  | OUpdate o => rev (map (fun kv => Wrote (fst kv) (snd kv)) (vm_map o) ++ map (fun kv => Knew (fst kv)) (vm_vars o))
  | OAdd o => rev (map (fun kv => Wrote (fst kv) (snd kv)) (vm_map o))
  | OSub o => rev (map (fun kv => Erased (fst kv)) (filter (fun kv => present h (fst kv)) (vm_map o)))
  end.
Definition fails (h : list event) (o : op) : option exn :=
  match o with
  | OSet (KName s) _ => if known h s then None else Some ValueError
  | OSet KOther _ => Some ValueError
  | ODel k => match key_name k with Some s => if present h s then None else Some KeyError | None => Some KeyError end
  | _ => None
  end.
Fixpoint history (h : list event) (os : list op) : list event :=
  match os with [] => h | o :: os' => history (effect h o ++ h) os' end.

(** The history of a map created with some variables. *)
Definition declared (ws : list W) : list event := rev (map (fun w => Knew (name_of w)) ws).

(** The operation on the model, and a sequence of them; an exception leaves the map as it is. *)
Definition perform (m : vmap W V) (o : op) : res (vmap W V) :=
  match o with
  | OSet k v => vm_set name_of m k v
  | ODel k => vm_del name_of m k
  | OUpdate o => Ok (vm_update m o)
  | OAdd o => vm_iadd name_of m o
  | OSub o => vm_isub name_of m o
  end.
Fixpoint performs (m : vmap W V) (os : list op) : vmap W V :=
  match os with [] => m | o :: os' => performs (match perform m o with Ok m' => m' | Err _ => m end) os' end.

(** A map made by the public operations: created with some variables, then modified by
    operations whose other operands were made in the same way. *)
Definition operand (o : op) : option (vmap W V) := match o with OUpdate x | OAdd x | OSub x => Some x | _ => None end.
Inductive made : vmap W V -> Prop :=
| made_new : forall ws m, vm_new name_of [] ws = Ok m -> made m
| made_op : forall m o m', made m -> (forall x, operand o = Some x -> made x) -> perform m o = Ok m' -> made m'.

(** The entries [l] a user sees by iterating after a history: one per name with a value, in the
    order in which they came, with a variable of that name and the last value written. *)
Definition listing (h : list event) (l : list (W * V)) : Prop :=
  in_order h (map (fun wv => name_of (fst wv)) l) /\ Forall (fun wv => current h (name_of (fst wv)) = Some (snd wv)) l.
(** [__eq__] of two maps. *)
Definition equal_maps (m o : vmap W V) : Prop :=
  (forall n, vm_get name_of m (KName n) = vm_get name_of o (KName n)) /\ (forall w, In w (map snd (vm_vars m)) <-> In w (map snd (vm_vars o))).
End Spec.

(** ** Assignments *)

(** What may be assigned to a variable: numbers and number sets to a numeric one, labels (values)
    of its domain or sets of them to a symbolic one. *)
Definition fits {W L : Type} (kind : W -> vkind) (domain : W -> list L) (w : W) (v : aval L) : Prop :=
  match kind w with
  | KNumeric => v = ANum \/ v = ANumSet
  | KSymbolic => (exists l, v = AOne l /\ In l (domain w)) \/ (exists ls, v = ASet ls /\ forall l, In l ls -> In l (domain w))
  | KInteger => True
  end.
Arguments event V : clear implicits.
Arguments op W V : clear implicits.

(** Assignments made with the variables of [U] by the public operations, where entries are set by
    variable. *)
Section Assigned.
Context {W L : Type}.
Variables (name_of : W -> string) (U : W -> Prop) (check : W -> aval L -> res unit).
Inductive assigned : vmap W (aval L) -> Prop :=
| as_new : forall ws m, Forall U ws -> vm_new name_of [] ws = Ok m -> assigned m
| as_set : forall m w v m', assigned m -> U w -> assign name_of check m (KVar w) v = Ok m' -> assigned m'
| as_del : forall m k m', assigned m -> vm_del name_of m k = Ok m' -> assigned m'
| as_add : forall m o m', assigned m -> assigned o -> assign_iadd name_of check m o = Ok m' -> assigned m'
| as_update : forall m o, assigned m -> assigned o -> assigned (vm_update m o)
| as_copy : forall m m', assigned m -> vm_copy name_of m = Ok m' -> assigned m'.
End Assigned.
