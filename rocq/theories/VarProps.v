(** Properties of variables, variable maps and assignments (C47, C73, C74). *)
Require Import String List Bool Arith ZArith Lia Sorted.
Require Import Verif.Base Verif.Json Verif.VarModel Verif.VarSpec Verif.VarProofs.
Import ListNotations.
Open Scope string_scope.
Open Scope list_scope.

(** ** C47: VariableMap is a finite map keyed by names *)
Section C47.
Context {W V : Type}.
Variable name_of : W -> string.

(** What a user observes on a map that agrees with a history. *)
Definition observed (m : vmap W V) (h : list (event V)) : Prop :=
  (forall n, vm_get name_of m (KName n) = match current h n with Some v => Ok v | None => Err KeyError end) /\
  (forall w, vm_get name_of m (KVar w) = vm_get name_of m (KName (name_of w))) /\
  (forall n, vm_contains name_of m (KName n) = true <-> current h n <> None) /\
  (forall w, vm_contains name_of m (KVar w) = vm_contains name_of m (KName (name_of w))) /\
  vm_contains name_of m KOther = false /\
  (forall n d, vm_get_default name_of m (KName n) d = Ok (match current h n with Some v => v | None => d end)) /\
  exists its, vm_items m = Ok its /\ vm_keys m = Ok (map fst its) /\ vm_len m = length its /\ listing name_of h its.

Lemma agrees_observed : forall m h, agrees name_of m h -> observed m h.
Proof.
  intros m h A. destruct A as (A & B & C). pose proof (am_get _ _ A) as G. unfold observed.
  split; [intro n; cbn [vm_get]; rewrite G; destruct (current h n); reflexivity|].
  split; [reflexivity|].
  split; [intro n; cbn [vm_contains]; rewrite G; destruct (current h n); split; congruence|].
  split; [reflexivity|]. split; [reflexivity|].
  split; [intros n d; unfold vm_get_default; cbn [vm_contains vm_get]; rewrite G; destruct (current h n); reflexivity|].
  destruct (items_ok name_of m h (conj A (conj B C))) as (its & E & F). exists its.
  split; [exact E|]. split; [|split].
  - unfold vm_keys. unfold vm_items in E. clear - E. revert its E. induction (vm_map m) as [|[n v] d IH]; intros its E; [injection E as <-; reflexivity|].
    cbn [mapM dkeys map fst snd] in *. destruct (var_named m n) as [w|]; [|discriminate E]. cbn [bind] in *. destruct (mapM _ d) as [i|] eqn:M in E; [|discriminate E]. cbn [bind] in E. injection E as <-.
    fold (@dkeys V d). rewrite (IH i M). reflexivity.
  - unfold vm_len. clear - F. induction F; cbn [length]; congruence.
  - assert (K : map (fun wv : W * V => name_of (fst wv)) its = dkeys (vm_map m)).
    { clear - F. induction F as [|[w v] [n x] its d (E1 & _) F IH]; [reflexivity|]. cbn [map fst dkeys] in *. fold (@dkeys V d). rewrite IH, E1. reflexivity. }
    split.
    + rewrite K. split.
      * intro n. rewrite <- G. rewrite <- (existsb_in n (dkeys (vm_map m))), dkeys_get. destruct (dget (vm_map m) n); split; congruence.
      * destruct (am_born _ _ A) as (ts & T1 & T2 & _). exists ts. split; assumption.
    + apply Forall_forall. intros [w v] I. cbn [fst snd]. rewrite <- G. assert (X : In (name_of w, v) (vm_map m)).
      { clear - F I. induction F as [|[w' v'] [n x] its d (E1 & E2 & _) F IH]; [destruct I|]. cbn [fst snd] in *. destruct I as [I|I]; [injection I as <- <-; left; congruence|right; apply IH; exact I]. }
      apply dget_nodup; [exact (am_nodup _ _ A)|exact X].
Qed.

(** After any sequence of operations on a fresh map, whichever of them raise, every look-up by
    name or by variable gives the last value written and not deleted since, and iterating gives
    the entries in the order in which they came into the map. *)
Theorem C47_history : forall ws (os : list (op W V)) m0, vm_new name_of [] ws = Ok m0 ->
  Forall (fun o => forall x, operand o = Some x -> made name_of x) os ->
  observed (performs name_of m0 os) (history name_of (declared name_of ws) os).
Proof.
  intros ws os m0 E F. injection E as <-. apply agrees_observed. apply performs_agrees; [apply new_agrees|exact F].
Qed.
(** An operation raises exactly if: a name that is not known is written, the key is neither a
    name nor a variable, or an entry that does not exist is deleted. *)
Theorem C47_errors : forall ws (os : list (op W V)) o m0, vm_new name_of [] ws = Ok m0 ->
  Forall (fun o => forall x, operand o = Some x -> made name_of x) (o :: os) ->
  match fails name_of (history name_of (declared name_of ws) os) o with
  | Some e => perform name_of (performs name_of m0 os) o = Err e
  | None => exists m', perform name_of (performs name_of m0 os) o = Ok m'
  end.
Proof.
  intros ws os o m0 E F. injection E as <-. pose proof (performs_agrees name_of os _ _ (new_agrees name_of ws) (Forall_inv_tail F)) as A.
  assert (Ho : exists ho, forall x, operand o = Some x -> agrees name_of x ho).
  { pose proof (Forall_inv F) as Fo. cbn beta in Fo. destruct (operand o) as [x|] eqn:X; [|exists []; discriminate]. destruct (made_agrees name_of x (Fo x eq_refl)) as (ho & Ao). exists ho. intros y Y. injection Y as <-. exact Ao. }
  destruct Ho as (ho & Ao). pose proof (perform_agrees name_of _ _ o ho A Ao) as P.
  destruct (fails name_of (history name_of (declared name_of ws) os) o); [apply P|]. destruct P as (m' & P & _). exists m'. exact P.
Qed.
(** The constructor with data is the fresh map with the entries set one after the other. *)
Theorem C47_constructor : forall data ws (m0 m : vmap W V), vm_new name_of [] ws = Ok m0 -> vm_new name_of data ws = Ok m ->
  m = performs name_of m0 (map (fun kv => OSet (fst kv) (snd kv)) data).
Proof.
  intros data ws m0 m E. injection E as <-. unfold vm_new. generalize (VM (vm_declare name_of ws) ([] : list (string * V))). induction data as [|[k v] data IH]; intros m1 E; [injection E as <-; reflexivity|].
  cbn [vm_fill map performs perform fst snd] in *. destruct (vm_set name_of m1 k v) as [m2|]; [|discriminate E]. cbn [bind] in E. apply IH. exact E.
Qed.
(** Every map a user can make is observed through some history. *)
Theorem C47_made : forall m, made name_of m -> exists h, observed m h.
Proof. intros m M. destruct (made_agrees name_of m M) as (h & A). exists h. apply agrees_observed. exact A. Qed.

(** [m -= m] on a map with entries raises RuntimeError and deletes one entry only. *)
Theorem C47_subtract_self : forall (m : vmap W V) s v d, made name_of m -> vm_map m = (s, v) :: d ->
  exists m', vm_isub_self m = (m', Some RuntimeError) /\ vm_contains name_of m' (KName s) = false /\
    forall n, n <> s -> vm_get name_of m' (KName n) = vm_get name_of m (KName n).
Proof.
  intros m s v d M E. destruct (made_agrees name_of m M) as (h & A). unfold vm_isub_self. rewrite E.
  assert (C : current h s <> None). { rewrite <- (am_get _ _ (proj1 A)), E. cbn [dget]. rewrite String.eqb_refl. discriminate. }
  destruct (agrees_erased name_of m h s A C) as (D & A'). rewrite D. eexists. split; [reflexivity|]. split.
  - cbn [vm_contains]. rewrite (am_get _ _ (proj1 A')). cbn [current]. rewrite String.eqb_refl. reflexivity.
  - intros n N. cbn [vm_get]. rewrite (am_get _ _ (proj1 A')), (am_get _ _ (proj1 A)). cbn [current]. destruct (String.eqb_spec n s); [contradiction|reflexivity].
Qed.

(** A shallow copy is the same map. *)
Theorem C47_copy : forall (m : vmap W V), made name_of m -> vm_copy name_of m = Ok m.
Proof. intros m M. destruct (made_agrees name_of m M) as (h & A). apply (copy_same name_of m h A). Qed.
(** A deep copy keeps the variables and the entries whose values are numbers, strings, sets, lists,
    tuples or number sets, and no others. *)
Theorem C47_deepcopy : forall atom coll (m : vmap W V), made name_of m -> exists m', vm_deepcopy name_of atom coll m = Ok m' /\ vm_vars m' = vm_vars m /\
  forall n v, vm_get name_of m' (KName n) = Ok v <-> vm_get name_of m (KName n) = Ok v /\ (atom v = true \/ coll v = true).
Proof.
  intros atom coll m M. destruct (made_agrees name_of m M) as (h & A). eexists. split; [apply (deepcopy_filters name_of atom coll m h A)|]. split; [reflexivity|].
  intros n v. cbn [vm_get vm_map]. pose proof (am_nodup _ _ (proj1 A)) as N. revert N. generalize (vm_map m). clear.
  induction l as [|[k x] l IH]; intro N; [cbn [filter dget]; split; [discriminate|intros (E & _); discriminate E]|].
  cbn [dkeys map fst] in N. apply NoDup_cons_iff in N. destruct N as (N1 & N2). specialize (IH N2). cbn [filter snd dget].
  destruct (String.eqb_spec n k) as [->|D].
  - destruct (atom x || coll x) eqn:P.
    + cbn [dget]. rewrite String.eqb_refl. apply orb_true_iff in P. split; [intro E; injection E as <-; split; [reflexivity|exact P]|intros (E & _); exact E].
    + split.
      * destruct (dget (filter (fun kv : string * V => atom (snd kv) || coll (snd kv)) l) k) eqn:G; [|discriminate]. exfalso. apply N1. apply dget_some_in in G. apply filter_In in G. apply (in_map fst l (k, v0)). apply G.
      * intros (E & H). injection E as <-. apply orb_true_iff in H. congruence.
  - destruct (atom x || coll x); [cbn [dget]; destruct (String.eqb_spec n k); [contradiction|]; exact IH|exact IH].
Qed.
(** Storing a map as JSON and loading it, given all its variables and a round trip for the values,
    gives the same entries in the same order; it is an equal map if every declared variable has a
    value. *)
Theorem C47_json : forall N (enc : V -> json N) (dec : json N -> res V) m variables, made name_of m ->
  (forall v, In v (map snd (vm_map m)) -> dec (enc v) = Ok v) ->
  (forall n w, In (n, w) (vm_vars m) -> dget (vm_declare name_of variables) n = Some w) ->
  exists j m', vm_to_json name_of enc m = Ok j /\ vm_from_json name_of dec variables j = Ok m' /\ vm_map m' = vm_map m /\
    ((forall w, In w (map snd (vm_vars m)) -> vm_contains name_of m (KVar w) = true) -> equal_maps name_of m' m).
Proof.
  intros N enc dec m variables M R Vs. destruct (made_agrees name_of m M) as (h & A). exists (map (fun kv => (fst kv, enc (snd kv))) (vm_map m)).
  destruct (load_spec name_of N enc dec (vm_declare name_of variables) (fun n w E => proj2 (declare_in name_of variables n w E)) (vm_map m) (VM [] []) R) as (m' & Em & Mm & l & Ml & Kl & Hl).
  - intros n I. unfold dkeys in I. apply in_map_iff in I. destruct I as ([k v] & E & I). cbn [fst] in E. subst k. destruct (named name_of m h n v A I) as (w & E & _). apply dget_some_in in E. rewrite (Vs n w E). discriminate.
  - exact (am_nodup _ _ (proj1 A)).
  - intros n _. cbn [vm_map vm_vars dkeys map]. split; intros [].
  - exists m'. cbn [vm_map vm_vars app] in Mm, Ml. split; [apply (to_json_ok name_of N enc m h A)|]. split; [exact Em|]. split; [exact Mm|].
    intros All. split; [intro n; cbn [vm_get]; rewrite Mm; reflexivity|]. intro w. rewrite Ml. split.
    + intro I. apply in_map_iff in I. destruct I as ([n u] & E & I). cbn [snd] in E. subst u. pose proof (Hl n w I) as G1. assert (K : In n (dkeys (vm_map m))) by (rewrite <- Kl; apply (in_map fst) in I; exact I).
      unfold dkeys in K. apply in_map_iff in K. destruct K as ([k v] & E & K). cbn [fst] in E. subst k. destruct (named name_of m h n v A K) as (w' & E & _). apply dget_some_in in E. rewrite (Vs n w' E) in G1. injection G1 as <-. apply (in_map snd) in E. exact E.
    + intro I. pose proof (All w I) as C. cbn [vm_contains] in C. apply in_map_iff in I. destruct I as ([n u] & E & I). cbn [snd] in E. subst u.
      assert (Nw : name_of w = n) by (apply (av_name _ _ _ (proj1 (proj2 A))); apply dget_nodup; [apply (av_nodup _ _ _ (proj1 (proj2 A)))|exact I]).
      rewrite Nw in C. assert (K : In n (dkeys l)). { rewrite Kl. apply existsb_in. rewrite dkeys_get. destruct (dget (vm_map m) n); [reflexivity|discriminate C]. }
      unfold dkeys in K. apply in_map_iff in K. destruct K as ([k u] & E & K). cbn [fst] in E. subst k. pose proof (Hl n u K) as G. rewrite (Vs n w I) in G. injection G as <-. apply (in_map snd) in K. exact K.
Qed.
End C47.
Print Assumptions C47_history.
Print Assumptions C47_errors.
Print Assumptions C47_constructor.
Print Assumptions C47_made.
Print Assumptions C47_subtract_self.
Print Assumptions C47_copy.
Print Assumptions C47_deepcopy.
Print Assumptions C47_json.

(** The hypotheses are met, and the statements are not empty: variables are names with a number. *)
Definition vn : string * nat -> string := fst.
Definition ex_ops : list (op (string * nat) nat) :=
  [OSet (KVar ("b", 1)) 10; OSet (KName "a") 20; OSet (KName "z") 5; OSet (KVar ("b", 2)) 11; ODel (KName "a"); OSet (KName "a") 7; OSet (KVar ("a", 9)) 8;
   OUpdate (VM [("c", ("c", 3))] [("c", 30)]); OSub (VM [("b", ("b", 1))] [("b", 0)])].
Example C47_history_instance :
  exists m, vm_new vn [] [("a", 0)] = Ok m /\ Forall (fun o => forall x, operand o = Some x -> made vn x) ex_ops /\
    vm_items (performs vn m ex_ops) = Ok [(("a", 9), 8); (("c", 3), 30)].
Proof.
  eexists. split; [reflexivity|]. split; [|reflexivity].
  assert (M : forall (w : string * nat) (v : nat), made vn (VM [(vn w, w)] [(vn w, v)])).
  { intros w v. refine (made_op vn (VM [] []) (OSet (KVar w) v) _ (made_new vn [] _ eq_refl) _ _); [discriminate|reflexivity]. }
  unfold ex_ops. repeat constructor; intros x E; try discriminate E; injection E as <-; [exact (M ("c", 3) 30)|exact (M ("b", 1) 0)].
Qed.

(** Deleting an entry makes its name unknown: a map created with the variables it may hold no
    longer accepts the name afterwards. *)
Theorem C47_delete_forgets_refuted : exists (m m' : vmap (string * nat) nat), vm_new vn [] [("a", 0)] = Ok m /\
  (exists m1, vm_set vn m (KName "a") 1 = Ok m1 /\ vm_del vn m1 (KName "a") = Ok m') /\ vm_set vn m' (KName "a") 2 = Err ValueError.
Proof. eexists. eexists. split; [reflexivity|]. split; [eexists; split; reflexivity|reflexivity]. Qed.
Print Assumptions C47_delete_forgets_refuted.
(** A map with a declared variable without a value is not equal to itself after a JSON round trip. *)
Theorem C47_json_declared_refuted : exists (m m' : vmap (string * nat) nat) j, made vn m /\
  vm_to_json vn (fun v => @JFlt nat v) m = Ok j /\ vm_from_json vn (fun x => match x with JFlt v => Ok v | _ => Err TypeError end) [("a", 0); ("b", 1)] j = Ok m' /\ ~ equal_maps vn m' m.
Proof.
  exists (VM [("a", ("a", 0)); ("b", ("b", 1))] [("a", 5)]). eexists. eexists. split; [|split; [reflexivity|split; [reflexivity|]]].
  - refine (made_op vn (VM [("a", ("a", 0)); ("b", ("b", 1))] []) (OSet (KName "a") 5) _ (made_new vn [("a", 0); ("b", 1)] _ eq_refl) _ _); [discriminate|reflexivity].
  - intros (_ & H). specialize (H ("b", 1)). cbn in H. destruct H as (_ & H). destruct (H (or_intror (or_introl eq_refl))) as [E|[]]. discriminate E.
Qed.
Print Assumptions C47_json_declared_refuted.
(** A deep copy loses values of other kinds (frozen sets, intervals of other classes, None). *)
Theorem C47_deepcopy_refuted : exists (m m' : vmap (string * nat) nat), made vn m /\ vm_deepcopy vn (Nat.eqb 0) (Nat.eqb 1) m = Ok m' /\ vm_contains vn m (KName "a") = true /\ vm_contains vn m' (KName "a") = false.
Proof.
  exists (VM [("a", ("a", 0))] [("a", 2)]). eexists. split; [|split; [reflexivity|split; reflexivity]].
  refine (made_op vn (VM [] []) (OSet (KVar ("a", 0)) 2) _ (made_new vn [] _ eq_refl) _ _); [discriminate|reflexivity].
Qed.
Print Assumptions C47_deepcopy_refuted.

(** ** C73: variables through JSON *)
Section C73.
Context {D N : Type}.
Variables (zero cent : N) (dom_json : D -> json N) (dom_parse : json N -> res D).
Hypothesis dom_round : forall d, dom_parse (dom_json d) = Ok d.
(** Reading the JSON form of a variable gives the kind, name and domain, and the default
    settings. *)
Theorem C73_variable_json_partial : forall v, exists v', var_from_json zero cent dom_parse (var_to_json dom_json v) = Ok v' /\
  vk v' = vk v /\ vname v' = vname v /\ vdom v' = vdom v /\ vset v' = defaults zero cent (vk v).
Proof.
  intros [k n d s]. exists (Var k n d (defaults zero cent k)). split; [|auto]. destruct k; cbn; rewrite dom_round; reflexivity.
Qed.
(** ... so the variable read is equal to the one written exactly if that has the default settings. *)
Theorem C73_variable_json_equal : forall v, var_from_json zero cent dom_parse (var_to_json dom_json v) = Ok v <-> vset v = defaults zero cent (vk v).
Proof.
  intro v. destruct (C73_variable_json_partial v) as (v' & E & E1 & E2 & E3 & E4). rewrite E. destruct v as [k n d s], v' as [k' n' d' s']. cbn [vk vname vdom vset] in *. subst. split; [intro X; injection X as <-; reflexivity|intros ->; reflexivity].
Qed.
(** The constructor succeeds exactly if all settings given are known to the class. *)
Theorem C73_settings : forall k n (d : D) args,
  (exists v, mk_var zero cent k n d args = Ok v) <-> forall a o, In (a, o) args -> In a (dkeys (defaults zero cent k)).
Proof.
  intros k n d args. unfold mk_var. assert (K : forall s, (exists s', apply_settings s args = Ok s') <-> forall a o, In (a, o) args -> In a (dkeys s)).
  { induction args as [|[a o] args IH]; intro s; [split; [intros _ a o []|intros _; eexists; reflexivity]|]. cbn [apply_settings].
    destruct (dget s a) as [x|] eqn:G.
    - assert (Ka : In a (dkeys s)) by (apply dget_some_in in G; apply (in_map fst) in G; exact G).
      assert (Ks : dkeys (match o with None => s | Some v => dset s a v end) = dkeys s).
      { destruct o as [v|]; [|reflexivity]. rewrite dkeys_dset. replace (existsb (String.eqb a) (dkeys s)) with true; [reflexivity|]. symmetry. apply existsb_in. exact Ka. }
      rewrite IH, Ks. split.
      + intros H b p [E|I]; [injection E as <- <-; exact Ka|apply (H b p I)].
      + intros H b p I. apply (H b p). right. exact I.
    - split; [intros (s' & E); discriminate E|]. intro H. exfalso. apply dget_in in G. apply G. apply (H a o). left. reflexivity. }
  rewrite <- K. split.
  - intros (v & E). destruct (apply_settings (defaults zero cent k) args) as [s'|]; [exists s'; reflexivity|discriminate E].
  - intros (s' & E). rewrite E. eexists. reflexivity.
Qed.
(** Every setting has the value given last, and the default value of the class if none is given. *)
Fixpoint given (args : list (string * option N)) (a : string) : option N :=
  match args with
  | [] => None
  | (b, o) :: args' => match given args' a with Some x => Some x | None => if String.eqb a b then o else None end
  end.
Theorem C73_setting_values : forall k n (d : D) args v, mk_var zero cent k n d args = Ok v ->
  vk v = k /\ vname v = n /\ vdom v = d /\ dkeys (vset v) = dkeys (defaults zero cent k) /\
  forall a, dget (vset v) a = match given args a with Some x => Some x | None => dget (defaults zero cent k) a end.
Proof.
  intros k n d args v E. unfold mk_var in E. destruct (apply_settings (defaults zero cent k) args) as [s'|] eqn:Es; [|discriminate E]. cbn [bind] in E. injection E as <-. cbn [vk vname vdom vset]. split; [reflexivity|]. split; [reflexivity|]. split; [reflexivity|].
  revert Es. generalize (defaults zero cent k). clear. induction args as [|[b o] args IH]; intros s Es; [injection Es as <-; split; [reflexivity|intro a; reflexivity]|]. cbn [apply_settings] in Es. destruct (dget s b) as [y|] eqn:G; [|discriminate Es].
  destruct (IH _ Es) as (K & H). split.
  - rewrite K. destruct o as [x|]; [|reflexivity]. rewrite dkeys_dset. replace (existsb (String.eqb b) (dkeys s)) with true; [reflexivity|]. symmetry. apply existsb_in. apply dget_some_in in G. apply (in_map fst) in G. exact G.
  - intro a. rewrite H. cbn [given]. destruct (given args a) as [x|]; [reflexivity|]. destruct o as [x|]; [rewrite dget_dset; destruct (String.eqb a b); reflexivity|]. destruct (String.eqb a b); reflexivity.
Qed.
(** Settings given beside the name (which to_json does not write) are read one by one. *)
Theorem C73_toplevel_settings : forall n d a b c e, var_from_json zero cent dom_parse (JObj [("type", JStr "numeric"); ("name", JStr n); ("domain", dom_json d);
    ("min_impurity_improvement", JFlt a); ("max_std_lbl", JFlt b); ("precision", JFlt c); ("blur", JFlt e)]) =
  mk_var zero cent KNumeric n d [("min_impurity_improvement", Some a); ("blur", Some e); ("max_std_lbl", Some b); ("precision", Some c)].
Proof. intros n d a b c e. cbn. rewrite dom_round. reflexivity. Qed.
End C73.
Print Assumptions C73_setting_values.
Print Assumptions C73_toplevel_settings.
Print Assumptions C73_variable_json_partial.
Print Assumptions C73_variable_json_equal.
Print Assumptions C73_settings.
(** A numeric variable with a blur of 3 loses it. *)
Theorem C73_settings_lost_refuted : exists v : var nat nat, mk_var 0 1 KNumeric "x" 7 [("blur", Some 3)] = Ok v /\
  exists v', var_from_json 0 1 (fun j => match j with JInt _ => Ok 7 | _ => Err TypeError end) (var_to_json (fun _ => JInt 0%Z) v) = Ok v' /\ v' <> v.
Proof. eexists. split; [reflexivity|]. eexists. split; [reflexivity|]. discriminate. Qed.
Print Assumptions C73_settings_lost_refuted.
Example C73_domain_round_trip : exists (dj : nat -> json nat) dp, forall d : nat, dp (dj d) = Ok d.
Proof. exists (fun d => JFlt d), (fun j => match j with JFlt d => Ok d | _ => Err TypeError end). reflexivity. Qed.

(** ** C74: assignments hold admissible values *)
Section C74.
Context {W L : Type}.
Variables (name_of : W -> string) (kind : W -> vkind) (domain : W -> list L) (eqb : L -> L -> bool).
Hypothesis eqb_ok : forall a b, eqb a b = true <-> a = b.
(** Setting by variable succeeds exactly with an admissible value, and raises TypeError otherwise. *)
Theorem C74_label_set : forall m w v,
  (fits kind domain w v -> assign name_of (label_check kind domain eqb) m (KVar w) v = vm_set name_of m (KVar w) v) /\
  (~ fits kind domain w v -> assign name_of (label_check kind domain eqb) m (KVar w) v = Err TypeError).
Proof.
  intros m w v. unfold assign. rewrite <- (label_check_fits kind domain eqb eqb_ok w v). split; intro H.
  - rewrite H. reflexivity.
  - destruct (label_check_only kind domain eqb w v) as [E|E]; [contradiction|]. rewrite E. reflexivity.
Qed.
(** However a label assignment came about by setting entries by variable, deleting, adding,
    updating and copying, each value fits its variable, if different variables have different
    names. *)
Theorem C74_label_assignment_partial : forall (U : W -> Prop), (forall a b, U a -> U b -> name_of a = name_of b -> a = b) ->
  forall m, assigned name_of U (label_check kind domain eqb) m -> forall w v, U w -> vm_get name_of m (KVar w) = Ok v -> fits kind domain w v.
Proof.
  intros U Inj m A w v Uw G. cbn [vm_get] in G. destruct (dget (vm_map m) (name_of w)) as [x|] eqn:E; [|discriminate G]. injection G as ->.
  destruct (proj2 (assigned_checked name_of U _ m A) (name_of w) v E) as (w' & Uw' & X & C). rewrite <- (Inj w' w Uw' Uw X). apply (label_check_fits kind domain eqb eqb_ok). exact C.
Qed.
(** The same for value assignments, except that sets are not checked. *)
Theorem C74_value_assignment_partial : forall (U : W -> Prop), (forall a b, U a -> U b -> name_of a = name_of b -> a = b) ->
  forall m, assigned name_of U (value_check kind domain eqb) m -> forall w v, U w -> vm_get name_of m (KVar w) = Ok v ->
  fits kind domain w v \/ (kind w = KSymbolic /\ exists ls, v = ASet ls).
Proof.
  intros U Inj m A w v Uw G. cbn [vm_get] in G. destruct (dget (vm_map m) (name_of w)) as [x|] eqn:E; [|discriminate G]. injection G as ->.
  destruct (proj2 (assigned_checked name_of U _ m A) (name_of w) v E) as (w' & Uw' & X & C). rewrite (Inj w' w Uw' Uw X) in C. unfold value_check in C.
  destruct (kind w) eqn:K; [left|destruct v as [| |l|ls|]; try discriminate C|left].
  - apply (label_check_fits kind domain eqb eqb_ok). unfold label_check. rewrite K. exact C.
  - left. apply (label_check_fits kind domain eqb eqb_ok). unfold label_check. rewrite K. exact C.
  - right. split; [reflexivity|]. exists ls. reflexivity.
  - unfold fits. rewrite K. exact I.
Qed.
End C74.
Print Assumptions C74_label_set.
Print Assumptions C74_label_assignment_partial.
Print Assumptions C74_value_assignment_partial.

(** Variables: a name and a kind; the labels of every symbolic domain are 1 and 2. *)
Definition an : string * vkind -> string := fst.
Definition ak : string * vkind -> vkind := snd.
Definition ad (_ : string * vkind) : list nat := [1; 2].
Example C74_instance : exists m, assigned an (fun w => w = ("c", KSymbolic) \/ w = ("x", KNumeric)) (label_check ak ad Nat.eqb) m /\
  vm_get an m (KName "c") = Ok (ASet [2; 1]) /\ vm_get an m (KName "x") = Ok ANumSet.
Proof.
  eexists. split; [|split].
  - eapply as_set with (w := ("x", KNumeric)) (v := ANumSet); [|right; reflexivity|reflexivity].
    eapply as_set with (w := ("c", KSymbolic)) (v := ASet [2; 1]); [|left; reflexivity|reflexivity].
    apply (as_new an _ _ []); [constructor|reflexivity].
  - reflexivity.
  - reflexivity.
Qed.
(** Setting by name is not checked. *)
Theorem C74_by_name_refuted : exists m m', vm_new an [] [("c", KSymbolic)] = Ok m /\ assign an (label_check ak ad Nat.eqb) m (KName "c") (AOne 17) = Ok m' /\
  vm_get an m' (KVar ("c", KSymbolic)) = Ok (AOne 17) /\ ~ fits ak ad ("c", KSymbolic) (AOne 17).
Proof.
  eexists. eexists. split; [reflexivity|]. split; [reflexivity|]. split; [reflexivity|]. intros [(l & E & I)|(ls & E & _)]; [|discriminate E]. injection E as <-. destruct I as [I|[I|[]]]; discriminate I.
Qed.
Print Assumptions C74_by_name_refuted.
(** A value assignment takes a set with a value outside the domain. *)
Theorem C74_value_set_refuted : exists m m', vm_new an [] [] = Ok m /\ assign an (value_check ak ad Nat.eqb) m (KVar ("c", KSymbolic)) (ASet [17]) = Ok m' /\ ~ fits ak ad ("c", KSymbolic) (ASet [17]).
Proof.
  eexists. eexists. split; [reflexivity|]. split; [reflexivity|]. intros [(l & E & I)|(ls & E & H)]; [discriminate E|]. injection E as <-. destruct (H 17 (or_introl eq_refl)) as [I|[I|[]]]; discriminate I.
Qed.
Print Assumptions C74_value_set_refuted.
(** Two variables of one name: the value is checked against the new one, the old one stays. *)
Theorem C74_same_name_refuted : exists m m', vm_new an [] [("c", KSymbolic)] = Ok m /\ assign an (label_check ak ad Nat.eqb) m (KVar ("c", KNumeric)) ANum = Ok m' /\
  vm_items m' = Ok [(("c", KSymbolic), ANum)] /\ ~ fits ak ad ("c", KSymbolic) ANum.
Proof.
  eexists. eexists. split; [reflexivity|]. split; [reflexivity|]. split; [reflexivity|]. intros [(l & E & _)|(ls & E & _)]; discriminate E.
Qed.
Print Assumptions C74_same_name_refuted.
