(** Model of the serialisation of trees, src/jpt/trees.py: JPT.to_json, JPT.from_json,
    JPT.copy, JPT.__eq__ and the corresponding methods of the nodes. *)
Require Import String QArith ZArith Bool List Arith.
Require Import Verif.Base Verif.NumBase Verif.Json Verif.VarModel.
Require Import Verif.TreeModel Verif.LearnModel.
Import ListNotations.
Open Scope string_scope.
Open Scope list_scope.

(** The floats which occur in a serialised tree: exact rationals and infinity ([None]). *)
Definition num := option Q.
Definition num_eqb (a b : num) : bool :=
  match a, b with Some x, Some y => Qeq_bool x y | None, None => true | _, _ => false end.

(** What the serialisation of trees calls on domains, value sets and distributions.  The
    tree is serialised for every choice; TreeJsonProps.v fixes the discrete ones. *)
Record codec (F : family) (D : Type) := Codec {
  dom_json : D -> json num;                        (* the entry "domain" of Variable.to_json *)
  dom_parse : json num -> res D;
  dom_equiv : D -> D -> bool;                      (* domain.equiv *)
  whole : D -> TreeModel.vset F;                   (* the values of the domain *)
  set_json : TreeModel.vset F -> json num;         (* s.to_json() resp. list(s) *)
  set_parse : vkind -> json num -> res (TreeModel.vset F); (* Interval.from_json resp. set *)
  set_same : TreeModel.vset F -> TreeModel.vset F -> bool; (* == *)
  dist_json : dist F -> json num;
  dist_parse : D -> json num -> res (dist F);      (* domain.from_json *)
  dist_same : dist F -> dist F -> bool             (* == *)
}.
Arguments Codec {F D}. Arguments dom_json {F D}. Arguments dom_parse {F D}. Arguments dom_equiv {F D}. Arguments whole {F D}.
Arguments set_json {F D}. Arguments set_parse {F D}. Arguments set_same {F D}. Arguments dist_json {F D}. Arguments dist_parse {F D}. Arguments dist_same {F D}.

(** Hyperparameters: None, an int or a float. *)
Inductive scalar := SNone | SInt (z : Z) | SFlt (x : num).
Definition scalar_json (s : scalar) : json num := match s with SNone => JNull | SInt z => JInt z | SFlt x => JFlt x end.
Definition scalar_parse (j : json num) : res scalar :=
  match j with JNull => Ok SNone | JInt z => Ok (SInt z) | JFlt x => Ok (SFlt x) | _ => Err TypeError end.
Definition scalar_num (s : scalar) : option num :=
  match s with SNone => None | SInt z => Some (Some (inject_Z z)) | SFlt x => Some x end.
Definition scalar_eqb (a b : scalar) : bool :=
  match scalar_num a, scalar_num b with Some x, Some y => num_eqb x y | None, None => true | _, _ => false end.

Section TreeJson.
  Context {F : family} {D : Type}.
  Variable C : codec F D.
  Notation W := (VarModel.var D num).
  Notation zero := (Some 0 : num).
  Notation cent := (Some (1 # 100) : num).

  (** A JPT object, trees.py:702-776.  [m_tree] is the part used by inference (TreeModel.v). *)
  Record model := Model {
    m_vars : list W;
    m_targets : list W;
    m_features : list W;
    m_min_samples : scalar;
    m_min_impurity : scalar;
    m_max_leaves : scalar;
    m_max_depth : scalar;
    m_distances : vmap W num;
    m_deps : vmap W (list W);
    m_tree : jpt F
  }.
  Definition with_tree (M : model) (J : jpt F) : model :=
    Model (m_vars M) (m_targets M) (m_features M) (m_min_samples M) (m_min_impurity M) (m_max_leaves M) (m_max_depth M) (m_distances M) (m_deps M) J.
  Definition with_distances (M : model) (d : vmap W num) : model :=
    Model (m_vars M) (m_targets M) (m_features M) (m_min_samples M) (m_min_impurity M) (m_max_leaves M) (m_max_depth M) d (m_deps M) (m_tree M).

  (** variables.py:119-125 (Variable.__eq__). *)
  Definition settings_eqb (a b : list (string * num)) : bool :=
    Nat.eqb (length a) (length b) &&
    forallb (fun kv => match dget b (fst kv) with Some y => num_eqb (snd kv) y | None => false end) a.
  Definition kind_eqb (a b : vkind) : bool :=
    match a, b with KNumeric, KNumeric | KSymbolic, KSymbolic | KInteger, KInteger => true | _, _ => false end.
  Definition var_eqb (a b : W) : bool :=
    kind_eqb (vk a) (vk b) && String.eqb (vname a) (vname b) && dom_equiv C (vdom a) (vdom b) && settings_eqb (VarModel.vset a) (VarModel.vset b).

  (** [full] of TreeModel.v: the whole domain of the variable at a position. *)
  Definition fulls (d : TreeModel.vset F) (ws : list W) (v : nat) : TreeModel.vset F :=
    match nth_error ws v with Some w => whole C (vdom w) | None => d end.

  (** [max_depth or float('inf')], [ifnone(min_impurity_improvement, 0)] *)
  Definition or_inf (s : scalar) : scalar :=
    match scalar_num s with
    | None => SFlt None
    | Some x => if num_eqb x (Some 0) then SFlt None else s
    end.
  Definition or_zero (s : scalar) : scalar := match s with SNone => SInt 0 | s => s end.

  (** trees.py:702-776 (JPT.__init__), the variables given as objects. *)
  Definition mk_model (dflt : TreeModel.vset F) (vars targets features : list W) (samples impurity max_leaves max_depth : scalar)
      (deps : option (list (W * list W))) : res model :=
    let ts := match targets with [] => vars | _ => targets end in
    let fs := match targets, features with
              | [], [] => vars
              | _ :: _, [] => filter (fun v => negb (existsb (var_eqb v) ts)) vars
              | _, _ => features
              end in
    do dm <- match deps with
             | None => vm_new vname (map (fun v => (KVar v, ts)) fs) []
             | Some its => vm_new vname (map (fun wv => (KVar (fst wv), snd wv)) its) vars
             end;
    Ok (Model vars ts fs samples (or_zero impurity) max_leaves (or_inf max_depth) (VM (vm_declare vname vars) []) dm
              (JPT (length vars) (fulls dflt vars) [] [] None [])).

  (** ** Writing *)

  Definition jnat (n : nat) : json num := JInt (Z.of_nat n).
  Definition jopt (o : option nat) : json num := match o with None => JNull | Some n => jnat n end.
  Definition name_at (ws : list W) (v : nat) : res string :=
    match nth_error ws v with Some w => Ok (vname w) | None => Err IndexError end.
  (** [children.index(node)] *)
  Fixpoint index_of (i : nat) (cs : list (option nat)) : option nat :=
    match cs with
    | [] => None
    | c :: cs' => if match c with Some j => Nat.eqb j i | None => false end then Some 0%nat else option_map S (index_of i cs')
    end.
  Definition place_of (J : jpt F) (parent : option nat) (i : nat) : res (option nat) :=
    match parent with
    | None => Ok None
    | Some p =>
        match get_inner J p with
        | None => Err AttributeError
        | Some n => match index_of i (i_children n) with Some k => Ok (Some k) | None => Err ValueError end
        end
    end.
  Definition step_json (ws : list W) (vs : var * TreeModel.vset F) : res (json num) :=
    do s <- name_at ws (fst vs); Ok (JList [JStr s; set_json C (snd vs)]).
  Definition child_json (c : option nat) : res (json num) :=
    match c with Some i => Ok (jnat i) | None => Err AttributeError end.
  (** trees.py:221-241 (DecisionNode.to_json).  The parent is an object in the code and a
      number here. *)
  Definition inner_to_json (ws : list W) (J : jpt F) (n : inner F) : res (json num) :=
    do vn <- name_at ws (i_var n);
    do path <- mapM (step_json ws) (i_path n);
    do cs <- mapM child_json (i_children n);
    do k <- place_of J (i_parent n) (i_idx n);
    Ok (JObj [("idx", jnat (i_idx n)); ("parent", jopt (i_parent n)); ("splits", JList (map (set_json C) (i_splits n)));
              ("variable", JStr vn); ("_path", JList path); ("children", JList cs); ("samples", jnat (i_samples n));
              ("child_idx", jopt k)]).
  (** {variable.name: d.to_json()} for a map from all variables to distributions. *)
  Definition dists_json (ws : list W) (ds : list (dist F)) : json num :=
    JObj (combine (map vname ws) (map (dist_json C) ds)).
  (** trees.py:397-410 (Leaf.to_json), without the sample indices. *)
  Definition leaf_to_json (ws : list W) (J : jpt F) (l : leaf F) : res (json num) :=
    do k <- place_of J (l_parent l) (l_idx l);
    Ok (JObj [("idx", jnat (l_idx l)); ("distributions", dists_json ws (l_dists l)); ("prior", JFlt (Some (l_prior l)));
              ("samples", jnat (l_samples l)); ("parent", jopt (l_parent l));
              ("child_idx", match k with Some k => jnat k | None => JInt (-1) end)]).
  Definition names_json (ws : list W) : json num := JList (map (fun w => JStr (vname w)) ws).
  (** trees.py:838-858 (JPT.to_json). *)
  Definition to_json (M : model) : res (json num) :=
    let J := m_tree M in
    do dist <- vm_to_json vname (fun x : num => JFlt x) (m_distances M);
    do deps <- vm_to_json vname names_json (m_deps M);
    do ls <- mapM (leaf_to_json (m_vars M) J) (leaves J);
    do ns <- mapM (inner_to_json (m_vars M) J) (innernodes J);
    Ok (JObj [("variables", JList (map (var_to_json (dom_json C)) (m_vars M)));
              ("targets", names_json (m_targets M)); ("features", names_json (m_features M));
              ("min_samples_leaf", scalar_json (m_min_samples M));
              ("min_impurity_improvement", scalar_json (m_min_impurity M));
              ("max_leaves", scalar_json (m_max_leaves M)); ("max_depth", scalar_json (m_max_depth M));
              ("minimal_distances", JObj dist); ("dependencies", JObj deps);
              ("leaves", JList ls); ("innernodes", JList ns);
              ("priors", dists_json (m_vars M) (priors J)); ("root", jopt (root J))]).

  (** ** Reading *)

  Definition as_nat (j : json num) : res nat :=
    do z <- as_int j; if Z.ltb z 0 then Err KeyError else Ok (Z.to_nat z).
  (** [varnames[s]]: a name given to several variables belongs to the last. *)
  Fixpoint position (s : string) (ws : list W) : option nat :=
    match ws with
    | [] => None
    | w :: ws' => match position s ws' with Some k => Some (S k) | None => if String.eqb s (vname w) then Some 0%nat else None end
    end.
  Definition var_of (ws : list W) (s : string) : res (nat * W) :=
    match position s ws with
    | None => Err KeyError
    | Some v => match nth_error ws v with Some w => Ok (v, w) | None => Err KeyError end
    end.
  (** [tree.innernodes.get(parent)]: None if there is no such node (yet). *)
  Definition parent_parse (J : jpt F) (j : json num) : res (option nat) :=
    match j with
    | JNull => Ok None
    | _ => do p <- as_nat j; Ok (match get_inner J p with Some _ => Some p | None => None end)
    end.
  (** [parent.set_child(data['child_idx'], node)] *)
  Definition mount (J : jpt F) (parent : option nat) (k : json num) (i : nat) : res (jpt F * list (var * TreeModel.vset F)) :=
    match parent with
    | None => Ok (J, [])
    | Some p => do k <- as_nat k; link J (Some (p, k)) i
    end.
  (** [tree.innernodes[idx] = node]: an existing key keeps its place. *)
  Definition put_inner (J : jpt F) (n : inner F) : jpt F :=
    with_nodes J (match get_inner J (i_idx n) with Some _ => set_inner n (innernodes J) | None => innernodes J ++ [n] end) (leaves J).
  Definition put_leaf (J : jpt F) (l : leaf F) : jpt F :=
    with_nodes J (innernodes J) (match get_leaf J (l_idx l) with Some _ => set_leaf l (leaves J) | None => leaves J ++ [l] end).

  (** trees.py:243-266 (DecisionNode.from_json); the entries _path and children are not read. *)
  Definition inner_from_json (ws : list W) (J : jpt F) (d : json num) : res (jpt F) :=
    do i <- bind (jget d "idx") as_nat;
    do vn <- bind (jget d "variable") as_str;
    do vw <- var_of ws vn;
    do ss <- bind (jget d "splits") jiter;
    do splits <- mapM (set_parse C (vk (snd vw))) ss;
    do parent <- bind (jget d "parent") (parent_parse J);
    do m <- bind (jget d "samples") as_nat;
    do k <- jget d "child_idx";
    do Jp <- mount J parent k i;
    Ok (put_inner (fst Jp) (Inner i parent (fst vw) splits (map (fun _ => None) splits) m (snd Jp))).

  (** A map from variables to distributions; the model keeps the distributions in the order
      of the variables. *)
  Definition dists_parse (ws : list W) (d : json num) : res (list (dist F)) :=
    match d with
    | JObj es =>
        do vds <- mapM (fun e : string * json num =>
                          do vw <- var_of ws (fst e); do x <- dist_parse C (vdom (snd vw)) (snd e); Ok (fst vw, x)) es;
        mapM (fun v => match lookup vds v with Some x => Ok x | None => Err KeyError end) (seq 0 (length vds))
    | _ => Err AttributeError
    end.
  Definition as_rational (j : json num) : res Q := match j with JFlt (Some q) => Ok q | _ => Err TypeError end.
  (** trees.py:412-438 (Leaf.from_json). *)
  Definition leaf_from_json (ws : list W) (J : jpt F) (d : json num) : res (jpt F) :=
    do i <- bind (jget d "idx") as_nat;
    do prior <- bind (jget d "prior") as_rational;
    do parent <- bind (jget d "parent") (parent_parse J);
    do ds <- bind (jget d "distributions") (dists_parse ws);
    do k <- jget d "child_idx";
    do Jp <- mount J parent k i;
    do m <- bind (jget d "samples") as_nat;
    Ok (put_leaf (fst Jp) (Leaf i parent prior m ds (snd Jp))).

  Fixpoint load {A} (f : jpt F -> A -> res (jpt F)) (J : jpt F) (ds : list A) : res (jpt F) :=
    match ds with [] => Ok J | d :: ds' => do J' <- f J d; load f J' ds' end.
  Definition named (ws : list W) (s : string) : res W :=
    match dget (vm_declare vname ws) s with Some w => Ok w | None => Err KeyError end.
  Definition names_parse (ws : list W) (d : json num) : res (list W) :=
    do js <- jiter d; mapM (fun j => do s <- as_str j; named ws s) js.
  Definition deps_parse (ws : list W) (d : json num) : res (list (W * list W)) :=
    match d with
    | JObj es => mapM (fun e : string * json num => do w <- named ws (fst e); do us <- names_parse ws (snd e); Ok (w, us)) es
    | _ => Err AttributeError
    end.
  Definition obj_of (d : json num) : res (list (string * json num)) :=
    match d with JObj es => Ok es | _ => Err AttributeError end.
  Definition numeric (w : W) : bool := match vk w with KNumeric => true | _ => false end.

  (** trees.py:859-914 (JPT.from_json).  Variables of the same name are one entry of the
      dictionary of variables. *)
  Definition from_json (dflt : TreeModel.vset F) (variables : option (list W)) (d : json num) : res model :=
    do given <- match variables with
                | Some ws => Ok ws
                | None => do js <- bind (jget d "variables") jiter; mapM (var_from_json zero cent (dom_parse C)) js
                end;
    let ws := map snd (vm_declare vname given) in
    do targets <- bind (jget d "targets") (names_parse ws);
    do features <- bind (jget d "features") (names_parse ws);
    do samples <- bind (jget d "min_samples_leaf") scalar_parse;
    do impurity <- bind (jget d "min_impurity_improvement") scalar_parse;
    do max_leaves <- bind (jget d "max_leaves") scalar_parse;
    do max_depth <- bind (jget d "max_depth") scalar_parse;
    do deps <- bind (jget d "dependencies") (deps_parse ws);
    do M <- mk_model dflt ws targets features samples impurity max_leaves max_depth (Some deps);
    do des <- bind (jget d "minimal_distances") obj_of;
    do dist <- vm_from_json vname as_flt (filter numeric ws) des;
    do ns <- bind (jget d "innernodes") jiter;
    do J <- load (inner_from_json ws) (m_tree M) ns;
    do ls <- bind (jget d "leaves") jiter;
    do J <- load (leaf_from_json ws) J ls;
    do ps <- bind (jget d "priors") (dists_parse ws);
    do r <- jget d "root";
    do rt <- match r with
             | JNull => Ok None
             | _ => do i <- as_nat r; match get_node J i with Some _ => Ok (Some i) | None => Err KeyError end
             end;
    Ok (with_tree (with_distances M dist) (JPT (n_vars J) (full J) (innernodes J) (leaves J) rt ps)).

  (** trees.py:2175-2183 (copy) *)
  Definition copy (dflt : TreeModel.vset F) (M : model) : res model :=
    do d <- to_json M; from_json dflt (Some (m_vars M)) d.

  (** ** Equality *)

  Fixpoint list_eqb {A} (e : A -> A -> bool) (a b : list A) : bool :=
    match a, b with [], [] => true | x :: a', y :: b' => e x y && list_eqb e a' b' | _, _ => false end.
  Definition opt_eqb (a b : option nat) : bool :=
    match a, b with Some x, Some y => Nat.eqb x y | None, None => true | _, _ => false end.
  (** Two sets of variables (without duplicates): of the same size, one included in the other. *)
  Definition varset_eqb (a b : list W) : bool :=
    Nat.eqb (length a) (length b) && forallb (fun v => existsb (var_eqb v) b) a.
  (** The variables at two positions of two trees. *)
  Definition at_eqb (ws ws' : list W) (v v' : nat) : bool :=
    match nth_error ws v, nth_error ws' v' with Some w, Some w' => var_eqb w w' | _, _ => false end.
  (** trees.py:205-216 (DecisionNode.__eq__). *)
  Definition inner_eqb (ws ws' : list W) (n n' : inner F) : bool :=
    Nat.eqb (i_idx n) (i_idx n') && opt_eqb (i_parent n) (i_parent n') && list_eqb opt_eqb (i_children n) (i_children n') &&
    list_eqb (set_same C) (i_splits n) (i_splits n') && at_eqb ws ws' (i_var n) (i_var n') && Nat.eqb (i_samples n) (i_samples n').
  (** variables.py:626-631 (VariableMap.__eq__) for a map from all variables to distributions. *)
  Definition dists_eqb (ws ws' : list W) (a b : list (dist F)) : bool :=
    list_eqb (dist_same C) a b && (match a with [] => true | _ => list_eqb String.eqb (map vname ws) (map vname ws') && varset_eqb ws ws' end).
  (** trees.py:439-445 (Leaf.__eq__). *)
  Definition leaf_eqb (ws ws' : list W) (l l' : leaf F) : bool :=
    Nat.eqb (l_idx l) (l_idx l') &&
    list_eqb (fun a b => at_eqb ws ws' (fst a) (fst b) && set_same C (snd a) (snd b)) (l_path l) (l_path l') &&
    Nat.eqb (l_samples l) (l_samples l') && dists_eqb ws ws' (l_dists l) (l_dists l') && Qeq_bool (l_prior l) (l_prior l').
  (** variables.py:626-631 for maps from variables to lists of variables. *)
  Definition deps_eqb (a b : vmap W (list W)) : bool :=
    Nat.eqb (length (vm_map a)) (length (vm_map b)) &&
    forallb (fun kv => match dget (vm_map b) (fst kv) with Some us => list_eqb var_eqb (snd kv) us | None => false end) (vm_map a) &&
    varset_eqb (map snd (vm_vars a)) (map snd (vm_vars b)).
  (** trees.py:929-956 (JPT.__eq__). *)
  Definition model_eqb (M M' : model) : bool :=
    let J := m_tree M in let J' := m_tree M' in let ws := m_vars M in let ws' := m_vars M' in
    (Nat.eqb (length (innernodes J)) (length (innernodes J')) &&
     forallb (fun n => match get_inner J' (i_idx n) with Some n' => inner_eqb ws ws' n n' | None => false end) (innernodes J)) &&
    (Nat.eqb (length (leaves J)) (length (leaves J')) &&
     forallb (fun l => match get_leaf J' (l_idx l) with Some l' => leaf_eqb ws ws' l l' | None => false end) (leaves J)) &&
    dists_eqb ws ws' (priors J) (priors J') &&
    scalar_eqb (m_min_samples M) (m_min_samples M') && scalar_eqb (m_min_impurity M) (m_min_impurity M') &&
    list_eqb var_eqb (m_targets M) (m_targets M') && list_eqb var_eqb ws ws' &&
    scalar_eqb (m_max_depth M) (m_max_depth M') && scalar_eqb (m_max_leaves M) (m_max_leaves M') &&
    deps_eqb (m_deps M) (m_deps M').
End TreeJson.
