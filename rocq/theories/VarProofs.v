(** VariableMap against its history. *)
Require Import String List Bool Arith Lia Sorted.
Require Import Verif.Base Verif.Json Verif.VarModel Verif.VarSpec.
Import ListNotations.
Open Scope list_scope.

(** ** Dictionaries *)
Lemma filter_all : forall A (p : A -> bool) l, (forall x, In x l -> p x = true) -> filter p l = l.
Proof. induction l as [|a l IH]; intro H; [reflexivity|]. cbn [filter]. rewrite (H a (or_introl eq_refl)), IH; [reflexivity|]. intros x I. apply H. right. exact I. Qed.
Section Dict.
Context {A : Type}.
Implicit Types (d e : list (string * A)) (k n : string) (v : A).
Lemma dget_dset : forall d k v n, dget (dset d k v) n = if String.eqb n k then Some v else dget d n.
Proof.
  induction d as [|[k' v'] d IH]; intros k v n; cbn [dset dget]; [reflexivity|].
  destruct (String.eqb_spec k k') as [<-|E]; cbn [dget].
  - destruct (String.eqb_spec n k); reflexivity.
  - rewrite IH. destruct (String.eqb_spec n k') as [->|]; [|reflexivity]. destruct (String.eqb_spec k' k) as [->|]; [contradiction|reflexivity].
Qed.
Lemma dget_in : forall d n, dget d n = None <-> ~ In n (dkeys d).
Proof.
  induction d as [|[k v] d IH]; intro n; cbn [dget dkeys map fst In]; [tauto|]. destruct (String.eqb_spec n k) as [->|E].
  - split; [discriminate|tauto].
  - rewrite IH. unfold dkeys. split; [intros H [H'|H']; [congruence|tauto]|tauto].
Qed.
Lemma dget_none : forall d n, ~ In n (dkeys d) -> dget d n = None.
Proof. intros d n. apply dget_in. Qed.
Lemma dget_some_in : forall d n v, dget d n = Some v -> In (n, v) d.
Proof.
  induction d as [|[k v'] d IH]; intros n v H; cbn [dget] in H; [discriminate|]. destruct (String.eqb_spec n k) as [->|E]; [injection H as ->; left; reflexivity|right; apply IH; exact H].
Qed.
Lemma dget_nodup : forall d n v, NoDup (dkeys d) -> In (n, v) d -> dget d n = Some v.
Proof.
  induction d as [|[k v'] d IH]; intros n v N I; [destruct I|]. cbn [dkeys map fst] in N. inversion N as [|? ? N1 N2]; subst. cbn [dget]. destruct I as [I|I].
  - injection I as -> ->. rewrite String.eqb_refl. reflexivity.
  - destruct (String.eqb_spec n k) as [->|E]; [|apply IH; assumption]. exfalso. apply N1. apply (in_map fst d (k, v)). exact I.
Qed.
Lemma dkeys_dset : forall d k v, dkeys (dset d k v) = if existsb (String.eqb k) (dkeys d) then dkeys d else dkeys d ++ [k].
Proof.
  induction d as [|[k' v'] d IH]; intros k v; cbn [dset dkeys map fst existsb]; [reflexivity|]. destruct (String.eqb_spec k k') as [->|E]; cbn [map fst orb]; [reflexivity|].
  change (map fst (dset d k v)) with (dkeys (dset d k v)). rewrite IH. fold (dkeys d). destruct (existsb (String.eqb k) (dkeys d)); reflexivity.
Qed.
Lemma existsb_in : forall k l, existsb (String.eqb k) l = true <-> In k l.
Proof. intros k l. rewrite existsb_exists. split; [intros (x & I & E); apply String.eqb_eq in E; congruence|intro I; exists k; split; [exact I|apply String.eqb_refl]]. Qed.
Lemma dkeys_get : forall d k, existsb (String.eqb k) (dkeys d) = match dget d k with Some _ => true | None => false end.
Proof.
  intros d k. destruct (dget d k) eqn:E; [apply existsb_in; apply (in_map fst d (k, a)); apply dget_some_in; exact E|].
  apply dget_in in E. destruct (existsb (String.eqb k) (dkeys d)) eqn:X; [apply existsb_in in X; contradiction|reflexivity].
Qed.
Lemma dset_nodup : forall d k v, NoDup (dkeys d) -> NoDup (dkeys (dset d k v)).
Proof.
  intros d k v N. rewrite dkeys_dset. destruct (existsb (String.eqb k) (dkeys d)) eqn:E; [exact N|].
  assert (~ In k (dkeys d)) by (intro I; apply existsb_in in I; congruence).
  apply NoDup_rev in N. apply NoDup_rev in N. rewrite rev_involutive in N. clear E. revert N H. induction (dkeys d) as [|x l IH]; intros N H; cbn [app]; [constructor; [tauto|constructor]|].
  inversion N as [|? ? N1 N2]; subst. constructor; [intro I; apply in_app_or in I; destruct I as [I|[I|[]]]; [contradiction|subst; apply H; left; reflexivity]|].
  apply IH; [exact N2|intro I; apply H; right; exact I].
Qed.
Lemma ddel_keys : forall d k, NoDup (dkeys d) -> dkeys (ddel d k) = filter (fun n => negb (String.eqb k n)) (dkeys d).
Proof.
  induction d as [|[k' v'] d IH]; intros k N; [reflexivity|]. cbn [dkeys map fst] in N. inversion N as [|? ? N1 N2]; subst. cbn [ddel dkeys map fst filter].
  destruct (String.eqb_spec k k') as [->|E]; cbn [negb].
  - fold (dkeys d). symmetry. apply filter_all. intros n I. destruct (String.eqb_spec k' n) as [->|]; [contradiction|reflexivity].
  - cbn [map fst]. f_equal. apply IH. exact N2.
Qed.
Lemma dget_ddel : forall d k n, NoDup (dkeys d) -> dget (ddel d k) n = if String.eqb n k then None else dget d n.
Proof.
  induction d as [|[k' v'] d IH]; intros k n N; [destruct (String.eqb n k); reflexivity|]. cbn [dkeys map fst] in N. inversion N as [|? ? N1 N2]; subst. cbn [ddel dget].
  destruct (String.eqb_spec k k') as [->|E].
  - destruct (String.eqb_spec n k') as [->|]; [apply dget_none; exact N1|reflexivity].
  - cbn [dget]. destruct (String.eqb_spec n k') as [->|]; [destruct (String.eqb_spec k' k); [congruence|reflexivity]|]. apply IH. exact N2.
Qed.
Lemma ddel_nodup : forall d k, NoDup (dkeys d) -> NoDup (dkeys (ddel d k)).
Proof. intros d k N. rewrite ddel_keys by exact N. apply NoDup_filter. exact N. Qed.
End Dict.

(** ** The invariant *)
Section Inv.
Context {W V : Type}.
Variable name_of : W -> string.
Notation event := (event V).
Implicit Types (m : vmap W V) (h : list event) (n : string).

Record agm (d : list (string * V)) (h : list event) : Prop := {
  am_nodup : NoDup (dkeys d);
  am_get : forall n, dget d n = current h n;
  am_born : exists ts, Forall2 (born h) (dkeys d) ts /\ StronglySorted lt ts /\ Forall (fun t => t < length h) ts
}.
Record agv (d : list (string * W)) (h : list event) : Prop := {
  av_nodup : NoDup (dkeys d);
  av_get : forall n, known h n = match dget d n with Some _ => true | None => false end;
  av_name : forall n w, dget d n = Some w -> name_of w = n
}.
Definition agrees m h : Prop := agm (vm_map m) h /\ agv (vm_vars m) h /\ (forall n, current h n <> None -> known h n = true).

Lemma born_older : forall h n t e, born h n t -> e <> Erased n -> born (e :: h) n t.
Proof. intros h n t e (v & nw & ol & E & L & C & N) D. exists v, (e :: nw), ol. split; [rewrite E; reflexivity|]. split; [exact L|]. split; [exact C|]. intros [I|I]; [congruence|contradiction]. Qed.
Lemma Forall2_impl : forall A B (R R' : A -> B -> Prop) l l', (forall a b, In a l -> R a b -> R' a b) -> Forall2 R l l' -> Forall2 R' l l'.
Proof. intros A B R R' l l' H F. induction F; constructor; [apply H; [left; reflexivity|assumption]|]. apply IHF. intros. apply H; [right|]; assumption. Qed.
Lemma sorted_snoc : forall l t, StronglySorted lt l -> Forall (fun x => x < t) l -> StronglySorted lt (l ++ [t]).
Proof.
  induction l as [|a l IH]; intros t S F; [constructor; constructor|]. apply StronglySorted_inv in S. destruct S as (S & A). cbn [app]. constructor.
  - apply IH; [exact S|exact (Forall_inv_tail F)].
  - apply Forall_app. split; [exact A|]. constructor; [exact (Forall_inv F)|constructor].
Qed.
Lemma agm_wrote : forall d h n v, agm d h -> agm (dset d n v) (Wrote n v :: h).
Proof.
  intros d h n v [N G (ts & F & S & L)]. constructor.
  - apply dset_nodup. exact N.
  - intro k. rewrite dget_dset. cbn [current]. rewrite G. reflexivity.
  - rewrite dkeys_dset, dkeys_get, G. destruct (current h n) as [u|] eqn:C.
    + exists ts. split; [|split; [exact S|]].
      * apply (Forall2_impl _ _ (born h)); [|exact F]. intros k t _ B. apply born_older; [exact B|discriminate].
      * eapply Forall_impl; [|exact L]. cbn [length]. intros; lia.
    + exists (ts ++ [length h]). split; [|split].
      * apply Forall2_app.
        -- apply (Forall2_impl _ _ (born h)); [|exact F]. intros k t _ B. apply born_older; [exact B|discriminate].
        -- constructor; [|constructor]. exists v, [], h. repeat split; [exact C|intros []].
      * apply sorted_snoc; [exact S|exact L].
      * apply Forall_app. split; [eapply Forall_impl; [|exact L]; cbn [length]; intros; lia|]. constructor; [cbn [length]; lia|constructor].
Qed.
Lemma agm_knew : forall d h n, agm d h -> agm d (Knew n :: h).
Proof.
  intros d h n [N G (ts & F & S & L)]. constructor; [exact N|exact G|]. exists ts. split; [|split; [exact S|]].
  - apply (Forall2_impl _ _ (born h)); [|exact F]. intros k t _ B. apply born_older; [exact B|discriminate].
  - eapply Forall_impl; [|exact L]. cbn [length]. intros; lia.
Qed.
Lemma filter_born : forall h n l ts, Forall2 (born h) l ts -> StronglySorted lt ts -> Forall (fun t => t < length h) ts ->
  exists ts', Forall2 (born (Erased n :: h)) (filter (fun k => negb (String.eqb n k)) l) ts' /\ StronglySorted lt ts' /\ Forall (fun t => t < S (length h)) ts' /\ (forall t, In t ts' -> In t ts).
Proof.
  intros h n l ts F. induction F as [|k t l ts B F IH]; intros S L.
  - exists []. repeat split; try constructor. intros t [].
  - apply StronglySorted_inv in S. destruct S as (S & A). destruct (IH S (Forall_inv_tail L)) as (ts' & F' & S' & L' & I'). cbn [filter].
    destruct (String.eqb_spec n k) as [->|E]; cbn [negb].
    + exists ts'. repeat split; try assumption. intros t' I. right. apply I'. exact I.
    + exists (t :: ts'). split; [constructor; [apply born_older; [exact B|congruence]|exact F']|]. split; [|split].
      * constructor; [exact S'|]. rewrite Forall_forall in A |- *. intros x I. apply A, I', I.
      * constructor; [pose proof (Forall_inv L); cbn beta in *; lia|exact L'].
      * intros x [<-|I]; [left; reflexivity|right; apply I'; exact I].
Qed.
Lemma agm_erased : forall d h n, agm d h -> agm (ddel d n) (Erased n :: h).
Proof.
  intros d h n [N G (ts & F & S & L)]. constructor.
  - apply ddel_nodup. exact N.
  - intro k. rewrite dget_ddel by exact N. cbn [current]. rewrite G. reflexivity.
  - rewrite ddel_keys by exact N. destruct (filter_born h n _ _ F S L) as (ts' & F' & S' & L' & _). exists ts'. split; [exact F'|]. split; [exact S'|exact L'].
Qed.

Lemma agv_wrote : forall d h w v, agv d h -> agv (match dget d (name_of w) with Some _ => d | None => dset d (name_of w) w end) (Wrote (name_of w) v :: h).
Proof.
  intros d h w v [N G M]. destruct (dget d (name_of w)) as [u|] eqn:E.
  - constructor; [exact N| |exact M]. intro k. cbn [known]. destruct (String.eqb_spec k (name_of w)) as [->|]; [rewrite E; reflexivity|apply G].
  - constructor; [apply dset_nodup; exact N| |].
    + intro k. rewrite dget_dset. cbn [known]. destruct (String.eqb_spec k (name_of w)) as [->|]; [reflexivity|apply G].
    + intros k u. rewrite dget_dset. destruct (String.eqb_spec k (name_of w)) as [->|]; [intro X; injection X as <-; reflexivity|apply M].
Qed.
Lemma agv_knew : forall d h w, agv d h -> agv (dset d (name_of w) w) (Knew (name_of w) :: h).
Proof.
  intros d h w [N G M]. constructor; [apply dset_nodup; exact N| |].
  - intro k. rewrite dget_dset. cbn [known]. destruct (String.eqb_spec k (name_of w)) as [->|]; [reflexivity|apply G].
  - intros k u. rewrite dget_dset. destruct (String.eqb_spec k (name_of w)) as [->|]; [intro X; injection X as <-; reflexivity|apply M].
Qed.
Lemma agv_erased : forall d h n, agv d h -> agv (ddel d n) (Erased n :: h).
Proof.
  intros d h n [N G M]. constructor; [apply ddel_nodup; exact N| |].
  - intro k. rewrite dget_ddel by exact N. cbn [known]. destruct (String.eqb_spec k n) as [->|]; [reflexivity|apply G].
  - intros k u. rewrite dget_ddel by exact N. destruct (String.eqb_spec k n) as [->|]; [discriminate|apply M].
Qed.

Lemma agrees_wrote : forall m h w v, agrees m h -> agrees (vm_set_var name_of m w v) (Wrote (name_of w) v :: h).
Proof.
  intros m h w v (A & B & C). split; [|split].
  - apply agm_wrote. exact A.
  - apply agv_wrote. exact B.
  - intro n. cbn [current known]. destruct (String.eqb n (name_of w)); [reflexivity|apply C].
Qed.
Lemma agrees_known_var : forall m h n, agrees m h -> known h n = true -> exists w, dget (vm_vars m) n = Some w /\ name_of w = n.
Proof. intros m h n (_ & B & _) K. rewrite (av_get _ _ B n) in K. destruct (dget (vm_vars m) n) as [w|] eqn:E; [|discriminate K]. exists w. split; [reflexivity|apply (av_name _ _ B); exact E]. Qed.
Lemma agrees_erased : forall m h n, agrees m h -> current h n <> None ->
  vm_del_name m n = Ok (VM (ddel (vm_vars m) n) (ddel (vm_map m) n)) /\ agrees (VM (ddel (vm_vars m) n) (ddel (vm_map m) n)) (Erased n :: h).
Proof.
  intros m h n A P. split.
  - destruct (agrees_known_var m h n A (proj2 (proj2 A) n P)) as (w & E & _). unfold vm_del_name. rewrite E, (am_get _ _ (proj1 A) n). destruct (current h n); [reflexivity|contradiction].
  - destruct A as (A & B & C). split; [apply agm_erased; exact A|]. split; [apply agv_erased; exact B|].
    intro k. cbn [current known]. destruct (String.eqb k n); [intro X; contradiction|apply C].
Qed.

(** ** The operations *)
Lemma named : forall m h n v, agrees m h -> In (n, v) (vm_map m) -> exists w, dget (vm_vars m) n = Some w /\ name_of w = n.
Proof.
  intros m h n v A I. apply (agrees_known_var m h n A). apply (proj2 (proj2 A)). rewrite <- (am_get _ _ (proj1 A)). rewrite (dget_nodup _ _ v (am_nodup _ _ (proj1 A)) I). discriminate.
Qed.
Lemma items_ok : forall m h, agrees m h -> exists its, vm_items m = Ok its /\ Forall2 (fun wv kv => name_of (fst wv) = fst kv /\ snd wv = snd kv /\ dget (vm_vars m) (fst kv) = Some (fst wv)) its (vm_map m).
Proof.
  intros m h A. unfold vm_items. assert (K : forall n v, In (n, v) (vm_map m) -> exists w, dget (vm_vars m) n = Some w /\ name_of w = n) by (intros n v; apply (named m h n v A)).
  clear A. induction (vm_map m) as [|[n v] d IH]; [exists []; split; [reflexivity|constructor]|]. cbn [mapM fst snd].
  destruct (K n v (or_introl eq_refl)) as (w & E & Nm). unfold var_named at 1. rewrite E. cbn [bind]. destruct IH as (its & Ei & F); [intros n' v' I; apply (K n' v'); right; exact I|].
  rewrite Ei. cbn [bind]. exists ((w, v) :: its). split; [reflexivity|]. constructor; [cbn [fst snd]; auto|exact F].
Qed.
Lemma keys_ok : forall m h, agrees m h -> exists ws, vm_keys m = Ok ws /\ map name_of ws = dkeys (vm_map m).
Proof.
  intros m h A. unfold vm_keys. assert (K : forall n v, In (n, v) (vm_map m) -> exists w, dget (vm_vars m) n = Some w /\ name_of w = n) by (intros n v; apply (named m h n v A)).
  clear A. induction (vm_map m) as [|[n v] d IH]; [exists []; split; reflexivity|]. cbn [mapM dkeys map fst].
  destruct (K n v (or_introl eq_refl)) as (w & E & Nm). unfold var_named at 1. rewrite E. cbn [bind]. destruct IH as (ws & Ei & F); [intros n' v' I; apply (K n' v'); right; exact I|].
  unfold dkeys in Ei. rewrite Ei. cbn [bind]. exists (w :: ws). split; [reflexivity|]. cbn [map]. rewrite Nm, F. reflexivity.
Qed.
Lemma fill_agrees : forall l m h its, agrees m h -> Forall2 (fun (wv : W * V) kv => name_of (fst wv) = fst kv /\ snd wv = snd kv) its l ->
  exists m', vm_fill name_of m (map (fun wv : W * V => (KVar (fst wv), snd wv)) its) = Ok m' /\ agrees m' (rev (map (fun kv => Wrote (fst kv) (snd kv)) l) ++ h).
Proof.
  intros l m h its A F. revert m h A. induction F as [|[w v] [n v'] its l (E1 & E2) F IH]; intros m h A; [exists m; split; [reflexivity|exact A]|].
  cbn [fst snd] in E1, E2. subst n v'. cbn [map vm_fill vm_set bind fst snd rev]. destruct (IH _ _ (agrees_wrote m h w v A)) as (m' & E & A'). exists m'. split; [exact E|].
  rewrite <- app_assoc. exact A'.
Qed.
Lemma agm_update : forall l d h, agm d h -> agm (dupdate d l) (rev (map (fun kv => Wrote (fst kv) (snd kv)) l) ++ h).
Proof.
  unfold dupdate. induction l as [|[n v] l IH]; intros d h A; [exact A|]. cbn [fold_left map rev fst snd]. rewrite <- app_assoc. apply (IH _ _). apply agm_wrote. exact A.
Qed.
Lemma agm_knews : forall l d h, agm d h -> agm d (rev (map (fun kv : string * W => Knew (fst kv)) l) ++ h).
Proof. induction l as [|[n v] l IH]; intros d h A; [exact A|]. cbn [map rev fst]. rewrite <- app_assoc. apply IH. apply agm_knew. exact A. Qed.
Lemma current_knews : forall (l : list (string * W)) h n, current (rev (map (fun kv => Knew (fst kv)) l) ++ h) n = current h n.
Proof. induction l as [|[k v] l IH]; intros h n; [reflexivity|]. cbn [map rev fst]. rewrite <- app_assoc, IH. reflexivity. Qed.
Lemma known_knews : forall (l : list (string * W)) h n, known (rev (map (fun kv => Knew (fst kv)) l) ++ h) n = existsb (String.eqb n) (dkeys l) || known h n.
Proof.
  induction l as [|[k v] l IH]; intros h n; [reflexivity|]. cbn [map rev fst dkeys existsb]. rewrite <- app_assoc, IH. cbn [app known]. fold (dkeys l).
  destruct (String.eqb n k); [rewrite orb_true_r; reflexivity|reflexivity].
Qed.
Lemma known_wrotes : forall (l : list (string * V)) h n, known (rev (map (fun kv => Wrote (fst kv) (snd kv)) l) ++ h) n = existsb (String.eqb n) (dkeys l) || known h n.
Proof.
  induction l as [|[k v] l IH]; intros h n; [reflexivity|]. cbn [map rev fst snd dkeys existsb]. rewrite <- app_assoc, IH. cbn [app known]. fold (dkeys l).
  destruct (String.eqb n k); [rewrite orb_true_r; reflexivity|reflexivity].
Qed.
Lemma dget_update : forall (l d : list (string * W)) n, dget (dupdate d l) n = match dget (rev l) n with Some w => Some w | None => dget d n end.
Proof.
  unfold dupdate. induction l as [|[k v] l IH]; intros d n; [reflexivity|]. cbn [fold_left fst snd rev]. rewrite IH, dget_dset.
  assert (K : forall l', dget (l' ++ [(k, v)]) n = match dget l' n with Some w => Some w | None => if String.eqb n k then Some v else None end).
  { induction l' as [|[k' v'] l' IH']; [reflexivity|]. cbn [app dget]. destruct (String.eqb n k'); [reflexivity|apply IH']. }
  rewrite K. destruct (dget (rev l) n); [reflexivity|]. destruct (String.eqb n k); reflexivity.
Qed.
Lemma dupdate_nodup : forall (l d : list (string * W)), NoDup (dkeys d) -> NoDup (dkeys (dupdate d l)).
Proof. unfold dupdate. induction l as [|[k v] l IH]; intros d N; [exact N|]. cbn [fold_left]. apply IH. apply dset_nodup. exact N. Qed.
Lemma dget_rev_some : forall (l : list (string * W)) n, (match dget (rev l) n with Some _ => true | None => false end) = existsb (String.eqb n) (dkeys l).
Proof.
  intros l n. destruct (existsb (String.eqb n) (dkeys l)) eqn:E.
  - apply existsb_in in E. destruct (dget (rev l) n) eqn:D; [reflexivity|]. exfalso. apply dget_in in D. apply D. unfold dkeys. rewrite map_rev. apply -> in_rev. exact E.
  - destruct (dget (rev l) n) eqn:D; [|reflexivity]. apply dget_some_in in D. apply in_rev in D. apply (in_map fst) in D. apply existsb_in in D. cbn [fst] in D. unfold dkeys in E. congruence.
Qed.
Lemma update_agrees : forall m h (o : vmap W V) ho, agrees m h -> agrees o ho ->
  agrees (vm_update m o) (rev (map (fun kv => Wrote (fst kv) (snd kv)) (vm_map o) ++ map (fun kv => Knew (fst kv)) (vm_vars o)) ++ h).
Proof.
  intros m h o ho (A & B & C) Ao. rewrite rev_app_distr, <- app_assoc. unfold vm_update.
  assert (Inc : forall n, existsb (String.eqb n) (dkeys (vm_map o)) = true -> existsb (String.eqb n) (dkeys (vm_vars o)) = true).
  { intros n I. apply existsb_in in I. unfold dkeys in I. apply in_map_iff in I. destruct I as ([k v] & E & I). cbn [fst] in E. subst k. destruct (named o ho n v Ao I) as (w & E & _). rewrite dkeys_get, E. reflexivity. }
  split; [|split]; cbn [vm_map vm_vars].
  - apply agm_knews. apply agm_update. exact A.
  - constructor.
    + apply dupdate_nodup. apply (av_nodup _ _ B).
    + intro n. rewrite known_knews, known_wrotes, dget_update, (av_get _ _ B n). pose proof (dget_rev_some (vm_vars o) n) as R.
      destruct (dget (rev (vm_vars o)) n); [rewrite <- R; reflexivity|]. rewrite <- R. cbn [orb]. destruct (existsb (String.eqb n) (dkeys (vm_map o))) eqn:X; [apply Inc in X; congruence|reflexivity].
    + intros n w. rewrite dget_update. destruct (dget (rev (vm_vars o)) n) as [u|] eqn:E; [|apply (av_name _ _ B)]. intro X. injection X as <-.
      apply dget_some_in in E. apply in_rev in E. destruct Ao as (_ & Bo & _). apply (av_name _ _ Bo). apply dget_nodup; [apply (av_nodup _ _ Bo)|exact E].
  - intros n. rewrite current_knews, known_knews, known_wrotes. intro P. apply orb_true_iff. right. apply orb_true_iff.
    destruct (existsb (String.eqb n) (dkeys (vm_map o))) eqn:X; [left; reflexivity|right]. apply C. intro Z. apply P. clear - X Z.
    assert (K : forall (l : list (string * V)) h, existsb (String.eqb n) (dkeys l) = false -> current (rev (map (fun kv => Wrote (fst kv) (snd kv)) l) ++ h) n = current h n).
    { induction l as [|[k v] l IH]; intros h' E; [reflexivity|]. cbn [dkeys map fst existsb] in E. apply orb_false_iff in E. destruct E as (E1 & E2).
      cbn [map rev fst snd]. rewrite <- app_assoc, IH by exact E2. cbn [app current]. rewrite E1. reflexivity. }
    rewrite K by exact X. exact Z.
Qed.

Lemma remove_agrees : forall l m h ws, agrees m h -> map name_of ws = dkeys l -> NoDup (dkeys l) ->
  exists m', vm_remove_all name_of m ws = Ok m' /\ agrees m' (rev (map (fun kv : string * V => Erased (fst kv)) (filter (fun kv => present h (fst kv)) l)) ++ h).
Proof.
  induction l as [|[n v] l IH]; intros m h ws A E N; cbn [dkeys map fst] in E, N.
  - destruct ws; [|discriminate E]. exists m. split; [reflexivity|exact A].
  - destruct ws as [|w ws]; [discriminate E|]. cbn [map] in E. injection E as E1 E2. apply NoDup_cons_iff in N; destruct N as (N1 & N2); subst n. cbn [vm_remove_all vm_contains filter fst].
    assert (P : present h (name_of w) = match dget (vm_map m) (name_of w) with Some _ => true | None => false end) by (unfold present; rewrite (am_get _ _ (proj1 A)); reflexivity).
    rewrite <- P. destruct (present h (name_of w)) eqn:Q.
    + assert (C : current h (name_of w) <> None) by (unfold present in Q; destruct (current h (name_of w)); [discriminate|discriminate Q]).
      destruct (agrees_erased m h (name_of w) A C) as (D & A'). cbn [vm_del]. rewrite D. cbn [bind].
      destruct (IH _ _ ws A' E2 N2) as (m' & Em & Am). exists m'. split; [exact Em|]. cbn [map rev fst]. rewrite <- app_assoc. cbn [app].
      replace (filter (fun kv : string * V => present h (fst kv)) l) with (filter (fun kv : string * V => present (Erased (name_of w) :: h) (fst kv)) l); [exact Am|].
      apply filter_ext_in. intros [k x] I. cbn [fst]. unfold present. cbn [current]. destruct (String.eqb_spec k (name_of w)) as [->|]; [|reflexivity].
      exfalso. apply N1. apply (in_map fst l (name_of w, x)). exact I.
    + destruct (IH m h ws A E2 N2) as (m' & Em & Am). exists m'. split; [exact Em|exact Am].
Qed.

Lemma declare_agrees : forall ws d h, agv d h -> (forall n, current h n = None) ->
  exists h', agv (fold_left (fun d w => dset d (name_of w) w) ws d) h' /\ (forall n, current h' n = None).
Proof.
  induction ws as [|w ws IH]; intros d h A C; [exists h; split; assumption|]. cbn [fold_left]. apply (IH _ (Knew (name_of w) :: h)); [apply agv_knew; exact A|exact C].
Qed.
Lemma new_agrees : forall ws, agrees (VM (vm_declare name_of ws) []) (declared name_of ws).
Proof.
  intro ws. unfold vm_declare, declared. assert (C : forall n, current (rev (map (fun w => Knew (name_of w)) ws)) n = @None V).
  { intro n. assert (K : forall (l : list event), Forall (fun e => exists k, e = Knew k) l -> current l n = None).
    { induction l as [|e l IHl]; intro F; [reflexivity|]. destruct (Forall_inv F) as (k & ->). cbn [current]. apply IHl. exact (Forall_inv_tail F). }
    apply K. apply Forall_rev. apply Forall_forall. intros e I. apply in_map_iff in I. destruct I as (w & <- & _). eexists. reflexivity. }
  split; [|split]; cbn [vm_map vm_vars].
  - constructor; [constructor|intro n; rewrite C; reflexivity|exists []; split; [constructor|split; constructor]].
  - assert (K : forall l d h, agv d h -> agv (fold_left (fun d w => dset d (name_of w) w) l d) (rev (map (fun w => Knew (name_of w)) l) ++ h)).
    { induction l as [|w l IH]; intros d h A; [exact A|]. cbn [fold_left map rev]. rewrite <- app_assoc. apply IH. apply agv_knew. exact A. }
    specialize (K ws [] []). rewrite app_nil_r in K. apply K. constructor; [constructor|reflexivity|discriminate].
  - intros n H. rewrite C in H. contradiction.
Qed.

Lemma perform_agrees : forall m h o ho, agrees m h -> (forall x, operand o = Some x -> agrees x ho) ->
  match fails name_of h o with
  | Some e => perform name_of m o = Err e /\ effect name_of h o = []
  | None => exists m', perform name_of m o = Ok m' /\ agrees m' (effect name_of h o ++ h)
  end.
Proof.
  intros m h o ho A Ao. destruct o as [k v|k|o|o|o]; cbn [fails perform effect operand] in *.
  - destruct k as [s|w|]; cbn [vm_set].
    + destruct (known h s) eqn:K.
      * destruct (agrees_known_var m h s A K) as (w & E & Nm). rewrite E. eexists. split; [reflexivity|]. rewrite <- Nm. apply agrees_wrote. exact A.
      * rewrite (av_get _ _ (proj1 (proj2 A)) s) in K. destruct (dget (vm_vars m) s); [discriminate K|]. split; reflexivity.
    + eexists. split; [reflexivity|]. apply agrees_wrote. exact A.
    + split; reflexivity.
  - assert (D : forall s, match (if present h s then None else Some KeyError) with
      | Some e => vm_del_name m s = Err e /\ (if present h s then [Erased s] else []) = @nil event
      | None => exists m', vm_del_name m s = Ok m' /\ agrees m' ((if present h s then [Erased s] else []) ++ h) end).
    { intro s. unfold present. destruct (current h s) eqn:C.
      - destruct (agrees_erased m h s A) as (E & A'); [rewrite C; discriminate|]. eexists. split; [exact E|exact A'].
      - unfold vm_del_name. rewrite (am_get _ _ (proj1 A)), C. split; reflexivity. }
    destruct k as [s|w|]; cbn [key_name vm_del]; [apply D|apply D|split; reflexivity].
  - eexists. split; [reflexivity|]. apply (update_agrees m h o ho A). apply Ao. reflexivity.
  - unfold vm_iadd. destruct (items_ok o ho (Ao o eq_refl)) as (its & E & F). rewrite E. cbn [bind]. apply fill_agrees; [exact A|].
    eapply Forall2_impl; [|exact F]. cbn beta. intros; tauto.
  - unfold vm_isub. destruct (keys_ok o ho (Ao o eq_refl)) as (ws & E & K). rewrite E. cbn [bind]. apply remove_agrees; [exact A|exact K|]. apply (am_nodup _ _ (proj1 (Ao o eq_refl))).
Qed.

Lemma made_agrees : forall m, made name_of m -> exists h, agrees m h.
Proof.
  intros m M. induction M as [ws m E|m o m' M IH Mo IHo E].
  - injection E as <-. eexists. apply new_agrees.
  - destruct IH as (h & A). assert (Ho : exists ho, forall x, operand o = Some x -> agrees x ho).
    { destruct (operand o) as [x|] eqn:X; [|exists []; discriminate]. destruct (IHo x eq_refl) as (ho & Ao). exists ho. intros y Y. injection Y as <-. exact Ao. }
    destruct Ho as (ho & Ao). pose proof (perform_agrees m h o ho A Ao) as P. destruct (fails name_of h o); [destruct P as (P & _); congruence|].
    destruct P as (m'' & P & A'). rewrite E in P. injection P as <-. eexists. exact A'.
Qed.

Lemma performs_agrees : forall os m h, agrees m h -> Forall (fun o => forall x, operand o = Some x -> made name_of x) os ->
  agrees (performs name_of m os) (history name_of h os).
Proof.
  induction os as [|o os IH]; intros m h A F; [exact A|]. cbn [performs history]. apply IH; [|exact (Forall_inv_tail F)].
  pose proof (Forall_inv F) as Fo. cbn beta in Fo. assert (Ho : exists ho, forall x, operand o = Some x -> agrees x ho).
  { destruct (operand o) as [x|] eqn:X; [|exists []; discriminate]. destruct (made_agrees x (Fo x eq_refl)) as (ho & Ao). exists ho. intros y Y. injection Y as <-. exact Ao. }
  destruct Ho as (ho & Ao). pose proof (perform_agrees m h o ho A Ao) as P. destruct (fails name_of h o).
  - destruct P as (-> & ->). exact A.
  - destruct P as (m' & -> & A'). exact A'.
Qed.
End Inv.

(** ** Copies and JSON *)
Section Copy.
Context {W V : Type}.
Variable name_of : W -> string.
Lemma dset_fresh : forall A (d : list (string * A)) k v, ~ In k (dkeys d) -> dset d k v = d ++ [(k, v)].
Proof.
  induction d as [|[k' v'] d IH]; intros k v N; [reflexivity|]. cbn [dkeys map fst] in N. cbn [dset app]. destruct (String.eqb_spec k k') as [->|]; [exfalso; apply N; left; reflexivity|].
  rewrite IH; [reflexivity|]. intro I. apply N. right. exact I.
Qed.
Lemma rebuild : forall A B (f : B -> string * A) l acc, NoDup (dkeys (acc ++ map f l)) -> fold_left (fun d x => dset d (fst (f x)) (snd (f x))) l acc = acc ++ map f l.
Proof.
  intros A B f. induction l as [|x l IH]; intros acc N; [rewrite app_nil_r; reflexivity|]. cbn [fold_left map].
  rewrite dset_fresh.
  - rewrite <- surjective_pairing, IH; [rewrite <- app_assoc; reflexivity|]. rewrite <- app_assoc. exact N.
  - cbn [map] in N. unfold dkeys in N. rewrite map_app in N. cbn [map] in N. apply NoDup_remove_2 in N. intro I. apply N. apply in_or_app. left. exact I.
Qed.
Lemma declare_same : forall (d : list (string * W)), NoDup (dkeys d) -> (forall n w, dget d n = Some w -> name_of w = n) -> vm_declare name_of (map snd d) = d.
Proof.
  intros d N H. unfold vm_declare. assert (E : map (fun w => (name_of w, w)) (map snd d) = d).
  { rewrite map_map. transitivity (map (fun x => x) d); [|apply map_id]. apply map_ext_in. intros [n w] I. cbn [snd]. rewrite (H n w); [reflexivity|]. apply dget_nodup; assumption. }
  change (fold_left (fun d0 w => dset d0 (fst (name_of w, w)) (snd (name_of w, w))) (map snd d) [] = d).
  rewrite (rebuild W W (fun w => (name_of w, w)) (map snd d) []); cbn [app]; rewrite E; [reflexivity|exact N].
Qed.
Definition fill_map (vars : list (string * W)) (acc : list (string * V)) (its : list (W * V)) := fold_left (fun d (wv : W * V) => dset d (name_of (fst wv)) (snd wv)) its acc.
Lemma fill_known : forall its vars acc, (forall wv, In wv its -> dget vars (name_of (fst wv)) <> None) ->
  vm_fill name_of (VM vars acc) (map (fun wv : W * V => (KVar (fst wv), snd wv)) its) = Ok (VM vars (fill_map vars acc its)).
Proof.
  induction its as [|[w v] its IH]; intros vars acc K; [reflexivity|]. cbn [map vm_fill vm_set bind fst snd]. unfold vm_set_var. cbn [vm_vars vm_map].
  pose proof (K (w, v) (or_introl eq_refl)) as K1. cbn [fst] in K1. destruct (dget vars (name_of w)); [|contradiction]. rewrite IH; [reflexivity|]. intros wv I. apply K. right. exact I.
Qed.
Lemma map_pairs : forall (R : W * V -> string * V -> Prop) its d, Forall2 (fun (wv : W * V) kv => name_of (fst wv) = fst kv /\ snd wv = snd kv /\ R wv kv) its d -> map (fun wv => (name_of (fst wv), snd wv)) its = d.
Proof. intros R its d F. induction F as [|[w v] [n x] its d (E1 & E2 & _) F IH]; [reflexivity|]. cbn [fst snd map] in *. subst n x. rewrite IH. reflexivity. Qed.

Lemma copy_same : forall (m : vmap W V) h, agrees name_of m h -> vm_copy name_of m = Ok m.
Proof.
  intros m h A. destruct (items_ok name_of m h A) as (its & E & F). unfold vm_copy, vm_new. rewrite E. cbn [bind].
  destruct A as (A & B & C). rewrite (declare_same (vm_vars m) (av_nodup _ _ _ B) (av_name _ _ _ B)). rewrite fill_known.
  - f_equal. pose proof (map_pairs _ _ _ F) as M. unfold fill_map. pose proof (rebuild V (W * V) (fun wv => (name_of (fst wv), snd wv)) its []) as RB. cbn [fst snd app] in RB.
    rewrite RB; rewrite M; [destruct m; reflexivity|exact (am_nodup _ _ A)].
  - intros wv I. assert (K : exists kv, In kv (vm_map m) /\ name_of (fst wv) = fst kv /\ dget (vm_vars m) (fst kv) = Some (fst wv)).
    { clear - F I. induction F as [|a b its d (E1 & E2 & E3) F IH]; [destruct I|]. destruct I as [<-|I]; [exists b; split; [left; reflexivity|split; assumption]|]. destruct (IH I) as (kv & I' & H). exists kv. split; [right; exact I'|exact H]. }
    destruct K as (kv & _ & E1 & E2). rewrite E1, E2. discriminate.
Qed.
Lemma deepcopy_filters : forall atom coll (m : vmap W V) h, agrees name_of m h ->
  vm_deepcopy name_of atom coll m = Ok (VM (vm_vars m) (filter (fun kv => atom (snd kv) || coll (snd kv)) (vm_map m))).
Proof.
  intros atom coll m h A. destruct (items_ok name_of m h A) as (its & E & F). unfold vm_deepcopy. rewrite E. cbn [bind].
  destruct A as (A & B & C). rewrite (declare_same (vm_vars m) (av_nodup _ _ _ B) (av_name _ _ _ B)). rewrite fill_known.
  - f_equal. f_equal. unfold fill_map. pose proof (rebuild V (W * V) (fun wv => (name_of (fst wv), snd wv)) (filter (fun wv => atom (snd wv) || coll (snd wv)) its) []) as RB. cbn [fst snd app] in RB.
    assert (M : map (fun wv => (name_of (fst wv), snd wv)) (filter (fun wv => atom (snd wv) || coll (snd wv)) its) = filter (fun kv => atom (snd kv) || coll (snd kv)) (vm_map m)).
    { clear - F. induction F as [|[w v] [n x] its d (E1 & E2 & _) F IH]; [reflexivity|]. cbn [filter fst snd] in *. subst x. destruct (atom v || coll v); [|exact IH]. cbn [map fst snd]. rewrite IH, E1. reflexivity. }
    rewrite RB; rewrite M; [reflexivity|]. pose proof (am_nodup _ _ A) as N. revert N. generalize (vm_map m). clear.
    induction l as [|[k v] l IH]; intro N; [constructor|]. cbn [dkeys map fst] in N. apply NoDup_cons_iff in N. destruct N as (N1 & N2). cbn [filter snd]. destruct (atom v || coll v); [|exact (IH N2)].
    cbn [dkeys map fst]. constructor; [|exact (IH N2)]. intro I. apply N1. unfold dkeys in I. apply in_map_iff in I. destruct I as (kv & <- & I). apply filter_In in I. apply in_map. apply I.
  - intros wv I. apply filter_In in I. destruct I as (I & _). assert (K : exists kv : string * V, name_of (fst wv) = fst kv /\ dget (vm_vars m) (fst kv) = Some (fst wv)).
    { clear - F I. induction F as [|a b its d (E1 & E2 & E3) F IH]; [destruct I|]. destruct I as [<-|I]; [exists b; split; assumption|]. apply (IH I). }
    destruct K as (kv & E1 & E2). rewrite E1, E2. discriminate.
Qed.

Lemma load_spec : forall N (enc : V -> json N) (dec : json N -> res V) vars,
  (forall n w, dget vars n = Some w -> name_of w = n) ->
  forall d m, (forall v, In v (map snd d) -> dec (enc v) = Ok v) -> (forall n, In n (dkeys d) -> dget vars n <> None) ->
  NoDup (dkeys d) -> (forall n, In n (dkeys d) -> ~ In n (dkeys (vm_map m)) /\ ~ In n (dkeys (vm_vars m))) ->
  exists m', vm_load name_of dec vars m (map (fun kv => (fst kv, enc (snd kv))) d) = Ok m' /\ vm_map m' = vm_map m ++ d /\
    exists l, vm_vars m' = vm_vars m ++ l /\ dkeys l = dkeys d /\ (forall n w, In (n, w) l -> dget vars n = Some w).
Proof.
  intros N enc dec vars Nm. induction d as [|[n v] d IH]; intros m R K ND Fr.
  - exists m. split; [reflexivity|]. split; [rewrite app_nil_r; reflexivity|]. exists []. split; [rewrite app_nil_r; reflexivity|]. split; [reflexivity|intros n w []].
  - cbn [map fst snd vm_load]. rewrite (R v (or_introl eq_refl)). cbn [bind]. cbn [dkeys map fst] in K, ND, Fr. apply NoDup_cons_iff in ND. destruct ND as (N1 & N2).
    pose proof (K n (or_introl eq_refl)) as Kn. destruct (dget vars n) as [w|] eqn:E; [|contradiction]. pose proof (Nm n w E) as Nw.
    destruct (Fr n (or_introl eq_refl)) as (F1 & F2).
    assert (S1 : vm_set_var name_of m w v = VM (vm_vars m ++ [(n, w)]) (vm_map m ++ [(n, v)])).
    { unfold vm_set_var. rewrite Nw. destruct (dget (vm_vars m) n) eqn:G; [exfalso; apply F2; apply dget_some_in in G; apply (in_map fst) in G; exact G|]. rewrite !dset_fresh by assumption. reflexivity. }
    rewrite S1. destruct (IH (VM (vm_vars m ++ [(n, w)]) (vm_map m ++ [(n, v)]))) as (m' & Em & Mm & l & Ml & Kl & Hl).
    + intros x I. apply R. right. exact I.
    + intros k I. apply K. right. exact I.
    + exact N2.
    + intros k I. destruct (Fr k (or_intror I)) as (G1 & G2). cbn [vm_map vm_vars]. unfold dkeys. rewrite !map_app. cbn [map fst]. split; intro J; apply in_app_or in J; destruct J as [J|[J|[]]]; [apply G1; exact J|subst k; contradiction|apply G2; exact J|subst k; contradiction].
    + exists m'. split; [exact Em|]. split; [rewrite Mm; cbn [vm_map]; rewrite <- app_assoc; reflexivity|]. exists ((n, w) :: l). cbn [vm_vars] in Ml. split; [rewrite Ml, <- app_assoc; reflexivity|].
      split; [cbn [dkeys map fst]; unfold dkeys in Kl; rewrite Kl; reflexivity|]. intros k u [I|I]; [injection I as <- <-; exact E|apply Hl; exact I].
Qed.
Lemma to_json_ok : forall N (enc : V -> json N) (m : vmap W V) h, agrees name_of m h -> vm_to_json name_of enc m = Ok (map (fun kv => (fst kv, enc (snd kv))) (vm_map m)).
Proof.
  intros N enc m h A. destruct (items_ok name_of m h A) as (its & E & F). unfold vm_to_json. rewrite E. cbn [bind]. f_equal.
  pose proof (rebuild (json N) (W * V) (fun wv => (name_of (fst wv), enc (snd wv))) its []) as RB. cbn [fst snd app] in RB.
  assert (M : map (fun wv => (name_of (fst wv), enc (snd wv))) its = map (fun kv => (fst kv, enc (snd kv))) (vm_map m)).
  { clear - F. induction F as [|[w v] [n x] its d (E1 & E2 & _) F IH]; [reflexivity|]. cbn [fst snd map] in *. subst. rewrite IH. reflexivity. }
  rewrite RB; rewrite M; [reflexivity|]. pose proof (am_nodup _ _ (proj1 A)) as ND. unfold dkeys in *. rewrite map_map. exact ND.
Qed.
Lemma in_dget_map : forall A (d : list (string * A)) w, NoDup (dkeys d) -> (In w (map snd d) <-> exists n, dget d n = Some w).
Proof.
  intros A d w N. split.
  - intro I. apply in_map_iff in I. destruct I as ([n x] & E & I). cbn [snd] in E. subst x. exists n. apply dget_nodup; assumption.
  - intros (n & E). apply dget_some_in in E. apply (in_map snd) in E. exact E.
Qed.
End Copy.

(** ** Assignments *)
Section Assign.
Context {W L : Type}.
Variables (name_of : W -> string) (kind : W -> vkind) (domain : W -> list L) (eqb : L -> L -> bool).
Hypothesis eqb_ok : forall a b, eqb a b = true <-> a = b.
Lemma contains_in : forall w l, contains domain eqb w l = true <-> In l (domain w).
Proof.
  intros w l. unfold contains. rewrite existsb_exists. split.
  - intros (x & I & E). apply eqb_ok in E. subst x. exact I.
  - intro I. exists l. split; [exact I|]. apply eqb_ok. reflexivity.
Qed.
Lemma label_check_fits : forall w v, label_check kind domain eqb w v = Ok tt <-> fits kind domain w v.
Proof.
  intros w v. unfold label_check, fits. destruct (kind w).
  - destruct v; split; intro H; try reflexivity; try discriminate H; try (left; reflexivity); try (right; reflexivity); destruct H; discriminate.
  - destruct v as [| |l|ls|]; split; intro H; try discriminate H;
      try (destruct H as [(l' & E & _)|(l' & E & _)]; discriminate E).
    + left. exists l. split; [reflexivity|]. apply contains_in. destruct (contains domain eqb w l); [reflexivity|discriminate H].
    + destruct H as [(l' & E & I)|(l' & E & _)]; [|discriminate E]. injection E as <-. apply contains_in in I. rewrite I. reflexivity.
    + right. exists ls. split; [reflexivity|]. destruct (forallb (contains domain eqb w) ls) eqn:F; [|discriminate H]. rewrite forallb_forall in F. intros l I. apply contains_in. apply F. exact I.
    + destruct H as [(l' & E & _)|(l' & E & I)]; [discriminate E|]. injection E as <-. replace (forallb (contains domain eqb w) ls) with true; [reflexivity|]. symmetry. apply forallb_forall. intros l J. apply contains_in. apply I. exact J.
  - destruct v; split; intro H; reflexivity || exact I.
Qed.
Lemma label_check_only : forall w v, label_check kind domain eqb w v = Ok tt \/ label_check kind domain eqb w v = Err TypeError.
Proof.
  intros w v. unfold label_check. destruct (kind w); destruct v; auto.
  - destruct (contains domain eqb w l); auto.
  - destruct (forallb (contains domain eqb w) ls); auto.
Qed.
End Assign.

Section Assigned.
Context {W L : Type}.
Variables (name_of : W -> string) (U : W -> Prop) (check : W -> aval L -> res unit).
Definition entries_checked (m : vmap W (aval L)) : Prop :=
  (forall n w, dget (vm_vars m) n = Some w -> U w /\ name_of w = n) /\
  (forall n v, dget (vm_map m) n = Some v -> exists w, U w /\ name_of w = n /\ check w v = Ok tt).
Lemma dget_update_cases : forall A (l d : list (string * A)) n w, dget (dupdate d l) n = Some w -> In (n, w) l \/ dget d n = Some w.
Proof.
  intro A. unfold dupdate. induction l as [|[k v] l IH]; intros d n w E; [right; exact E|]. cbn [fold_left] in E. destruct (IH _ _ _ E) as [I|G]; [left; right; exact I|].
  cbn [fst snd] in G. rewrite dget_dset in G. destruct (String.eqb_spec n k) as [->|]; [injection G as <-; left; left; reflexivity|right; exact G].
Qed.
Lemma set_checked : forall m w v m', entries_checked m -> U w -> assign name_of check m (KVar w) v = Ok m' -> entries_checked m'.
Proof.
  intros m w v m' (A & B) Uw E. unfold assign in E. destruct (check w v) as [[]|] eqn:C; [|discriminate E]. cbn [bind vm_set] in E. injection E as <-. unfold vm_set_var. split; cbn [vm_vars vm_map].
  - intros n u. destruct (dget (vm_vars m) (name_of w)) eqn:G; [apply A|]. rewrite dget_dset. destruct (String.eqb_spec n (name_of w)) as [->|]; [intro X; injection X as <-; split; [exact Uw|reflexivity]|apply A].
  - intros n u. rewrite dget_dset. destruct (String.eqb_spec n (name_of w)) as [->|]; [intro X; injection X as <-; exists w; repeat split; assumption|apply B].
Qed.
Lemma ddel_some : forall A (d : list (string * A)) k n w, dget (ddel d k) n = Some w -> NoDup (dkeys d) -> dget d n = Some w.
Proof. intros A d k n w E N. rewrite dget_ddel in E by exact N. destruct (String.eqb n k); [discriminate E|exact E]. Qed.
Lemma declare_in : forall ws n w, dget (vm_declare name_of ws) n = Some w -> In w ws /\ name_of w = n.
Proof.
  intros ws n w. unfold vm_declare. assert (K : forall l d, dget (fold_left (fun d w => dset d (name_of w) w) l d) n = Some w -> (In w l /\ name_of w = n) \/ dget d n = Some w).
  { induction l as [|x l IH]; intros d E; [right; exact E|]. cbn [fold_left] in E. destruct (IH _ E) as [(I & X)|G]; [left; split; [right; exact I|exact X]|].
    rewrite dget_dset in G. destruct (String.eqb_spec n (name_of x)) as [->|]; [injection G as <-; left; split; [left; reflexivity|reflexivity]|right; exact G]. }
  intro E. destruct (K ws [] E) as [H|H]; [exact H|discriminate H].
Qed.
Lemma assign_all_checked : forall its m m', entries_checked m -> Forall (fun wv => U (fst wv)) its -> assign_all name_of check m its = Ok m' -> entries_checked m'.
Proof.
  induction its as [|[w v] its IH]; intros m m' C F E; [injection E as <-; exact C|]. cbn [assign_all] in E. destruct (assign name_of check m (KVar w) v) as [m1|] eqn:A; [|discriminate E]. cbn [bind] in E.
  apply (IH m1 m'); [apply (set_checked m w v m1 C (Forall_inv F) A)|exact (Forall_inv_tail F)|exact E].
Qed.
Lemma items_in : forall m its, vm_items m = Ok its -> Forall (fun wv : W * aval L => exists n, dget (vm_vars m) n = Some (fst wv)) its.
Proof.
  intros m its. unfold vm_items. revert its. induction (vm_map m) as [|[n v] d IH]; intros its E; [injection E as <-; constructor|].
  cbn [mapM fst snd] in E. unfold var_named in E at 1. destruct (dget (vm_vars m) n) as [w|] eqn:G; [|discriminate E]. cbn [bind] in E.
  destruct (mapM _ d) as [its'|] eqn:M in E; [|discriminate E]. cbn [bind] in E. injection E as <-. constructor; [exists n; exact G|]. apply IH. exact M.
Qed.
Lemma assign_all_nodup : forall its m m', NoDup (dkeys (vm_vars m)) /\ NoDup (dkeys (vm_map m)) -> assign_all name_of check m its = Ok m' -> NoDup (dkeys (vm_vars m')) /\ NoDup (dkeys (vm_map m')).
Proof.
  induction its as [|[w v] its IH]; intros m m' N E; [injection E as <-; exact N|]. cbn [assign_all] in E. unfold assign in E. destruct (check w v) as [[]|]; [|discriminate E]. cbn [bind vm_set] in E.
  apply (IH _ _) in E; [exact E|]. unfold vm_set_var. cbn [vm_vars vm_map]. destruct N as (N1 & N2). split; [|apply dset_nodup; exact N2]. destruct (dget (vm_vars m) (name_of w)); [exact N1|apply dset_nodup; exact N1].
Qed.
Lemma fill_nodup : forall data (m m' : vmap W (aval L)), NoDup (dkeys (vm_vars m)) /\ NoDup (dkeys (vm_map m)) -> vm_fill name_of m data = Ok m' -> NoDup (dkeys (vm_vars m')) /\ NoDup (dkeys (vm_map m')).
Proof.
  induction data as [|[k v] data IH]; intros m m' N E; [injection E as <-; exact N|]. cbn [vm_fill] in E. destruct (vm_set name_of m k v) as [m1|] eqn:G; [|discriminate E]. cbn [bind] in E. apply (IH m1 m'); [|exact E].
  assert (S : exists w, m1 = vm_set_var name_of m w v).
  { destruct k as [s|w|]; cbn [vm_set] in G; [destruct (dget (vm_vars m) s) as [w|]; [|discriminate G]; exists w|exists w|discriminate G]; injection G as <-; reflexivity. }
  destruct S as (w & ->). unfold vm_set_var. cbn [vm_vars vm_map]. destruct N as (N1 & N2). split; [|apply dset_nodup; exact N2]. destruct (dget (vm_vars m) (name_of w)); [exact N1|apply dset_nodup; exact N1].
Qed.
Lemma declare_nodup : forall ws, NoDup (dkeys (vm_declare name_of ws)).
Proof.
  intro ws. unfold vm_declare. assert (K : forall l d, NoDup (dkeys d) -> NoDup (dkeys (fold_left (fun d w => dset d (name_of w) w) l d))).
  { induction l as [|x l IH]; intros d N; [exact N|]. cbn [fold_left]. apply IH. apply dset_nodup. exact N. }
  apply K. constructor.
Qed.
Lemma dupdate_nodup' : forall A (l d : list (string * A)), NoDup (dkeys d) -> NoDup (dkeys (dupdate d l)).
Proof. intro A. unfold dupdate. induction l as [|[k v] l IH]; intros d N; [exact N|]. cbn [fold_left]. apply IH. apply dset_nodup. exact N. Qed.

Lemma assigned_nodup : forall m, assigned name_of U check m -> NoDup (dkeys (vm_vars m)) /\ NoDup (dkeys (vm_map m)).
Proof.
  intros m A. induction A as [ws m F E|m w v m' A IH Uw E|m k m' A IH E|m o m' A IH Ao IHo E|m o A IH Ao IHo|m m' A IH E].
  - injection E as <-. split; [apply declare_nodup|constructor].
  - apply (assign_all_nodup [(w, v)] m m'); [exact IH|]. cbn [assign_all]. rewrite E. reflexivity.
  - assert (D : forall s, vm_del_name m s = Ok m' -> NoDup (dkeys (vm_vars m')) /\ NoDup (dkeys (vm_map m'))).
    { intros s X. unfold vm_del_name in X. destruct (dget (vm_map m) s); [|discriminate X]. destruct (dget (vm_vars m) s); [|discriminate X]. injection X as <-. cbn [vm_vars vm_map]. destruct IH. split; apply ddel_nodup; assumption. }
    destruct k as [s|w|]; cbn [vm_del] in E; [exact (D s E)|exact (D _ E)|discriminate E].
  - unfold assign_iadd in E. destruct (vm_items o) as [its|]; [|discriminate E]. exact (assign_all_nodup its m m' IH E).
  - unfold vm_update. cbn [vm_vars vm_map]. destruct IH. split; apply dupdate_nodup'; assumption.
  - unfold vm_copy in E. destruct (vm_items m) as [its|]; [|discriminate E]. cbn [bind] in E. unfold vm_new in E. apply fill_nodup in E; [exact E|]. cbn [vm_vars vm_map]. split; [apply declare_nodup|constructor].
Qed.
Lemma copy_fill_entries : forall its vars acc m', (forall wv : W * aval L, In wv its -> dget vars (name_of (fst wv)) <> None) ->
  vm_fill name_of (VM vars acc) (map (fun wv : W * aval L => (KVar (fst wv), snd wv)) its) = Ok m' ->
  vm_vars m' = vars /\ forall n v, dget (vm_map m') n = Some v -> (exists w, In (w, v) its /\ name_of w = n) \/ dget acc n = Some v.
Proof.
  intros its vars acc m' K E. rewrite (fill_known name_of its vars acc K) in E. injection E as <-. cbn [vm_vars vm_map]. split; [reflexivity|]. unfold fill_map. clear K. revert acc.
  induction its as [|[w v] its IH]; intros acc n x E; [right; exact E|]. cbn [fold_left] in E. destruct (IH _ _ _ E) as [(u & I & X)|G]; [left; exists u; split; [right; exact I|exact X]|].
  cbn [fst snd] in G. rewrite dget_dset in G. destruct (String.eqb_spec n (name_of w)) as [->|]; [injection G as <-; left; exists w; split; [left; reflexivity|reflexivity]|right; exact G].
Qed.
Lemma items_entries : forall (m : vmap W (aval L)) its, NoDup (dkeys (vm_map m)) -> vm_items m = Ok its -> forall w v, In (w, v) its -> exists n, dget (vm_vars m) n = Some w /\ dget (vm_map m) n = Some v.
Proof.
  intros m its N. unfold vm_items. assert (K : forall d its, (forall n v, In (n, v) d -> dget (vm_map m) n = Some v) -> mapM (fun kv : string * aval L => do w <- var_named m (fst kv); Ok (w, snd kv)) d = Ok its -> forall w v, In (w, v) its -> exists n, dget (vm_vars m) n = Some w /\ dget (vm_map m) n = Some v).
  { induction d as [|[n v] d IH]; intros its' G E w x I; [injection E as <-; destruct I|]. cbn [mapM fst snd] in E. unfold var_named in E at 1. destruct (dget (vm_vars m) n) as [u|] eqn:H; [|discriminate E]. cbn [bind] in E.
    destruct (mapM _ d) as [i|] eqn:M in E; [|discriminate E]. cbn [bind] in E. injection E as <-. destruct I as [I|I].
    - injection I as <- <-. exists n. split; [exact H|apply G; left; reflexivity].
    - apply (IH i (fun n0 v0 J => G n0 v0 (or_intror J)) M w x I). }
  intros E. apply (K (vm_map m) its); [|exact E]. intros n v I. apply dget_nodup; assumption.
Qed.
Lemma assigned_checked : forall m, assigned name_of U check m -> entries_checked m.
Proof.
  intros m A. induction A as [ws m F E|m w v m' A IH Uw E|m k m' A IH E|m o m' A IH Ao IHo E|m o A IH Ao IHo|m m' A IH E].
  - injection E as <-. split; cbn [vm_vars vm_map]; [|discriminate]. intros n w E. apply declare_in in E. destruct E as (I & X). split; [|exact X]. rewrite Forall_forall in F. apply F. exact I.
  - exact (set_checked m w v m' IH Uw E).
  - destruct (assigned_nodup m A) as (N1 & N2). destruct IH as (B1 & B2). assert (D : forall s, vm_del_name m s = Ok m' -> entries_checked m').
    { intros s X. unfold vm_del_name in X. destruct (dget (vm_map m) s); [|discriminate X]. destruct (dget (vm_vars m) s); [|discriminate X]. injection X as <-. split; cbn [vm_vars vm_map]; intros n x Y; apply ddel_some in Y; auto. }
    destruct k as [s|w|]; cbn [vm_del] in E; [exact (D s E)|exact (D _ E)|discriminate E].
  - unfold assign_iadd in E. destruct (vm_items o) as [its|] eqn:Io; [|discriminate E]. apply (assign_all_checked its m m' IH); [|exact E].
    pose proof (items_in o its Io) as I. eapply Forall_impl; [|exact I]. intros wv (n & G). exact (proj1 (proj1 IHo n _ G)).
  - destruct (assigned_nodup o Ao) as (N1 & N2). destruct IH as (B1 & B2), IHo as (C1 & C2). unfold vm_update. split; cbn [vm_vars vm_map]; intros n x Y; apply dget_update_cases in Y; destruct Y as [I|G]; auto.
    + apply C1. apply dget_nodup; assumption.
    + apply C2. apply dget_nodup; assumption.
  - destruct (assigned_nodup m A) as (N1 & N2). destruct IH as (B1 & B2). unfold vm_copy in E. destruct (vm_items m) as [its|] eqn:Im; [|discriminate E]. cbn [bind] in E. unfold vm_new in E.
    rewrite (declare_same name_of (vm_vars m) N1 (fun n w G => proj2 (B1 n w G))) in E. apply copy_fill_entries in E.
    + destruct E as (Ev & Em). split.
      * rewrite Ev. exact B1.
      * intros n v G. destruct (Em n v G) as [(w & I & X)|G']; [|discriminate G']. destruct (items_entries m its N2 Im w v I) as (n' & G1 & G2). destruct (B1 n' w G1) as (_ & X'). rewrite <- X, X'. apply B2. exact G2.
    + intros [w v] I. destruct (items_entries m its N2 Im w v I) as (n' & G1 & _). destruct (B1 n' w G1) as (_ & X'). cbn [fst]. rewrite X', G1. discriminate.
Qed.
End Assigned.
