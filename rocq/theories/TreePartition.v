(** encode: if the splits of every decision node partition the domain of its
    variable, every world satisfies the path of exactly one leaf. *)
Require Import Bool List Arith Lia.
Require Import Verif.Base Verif.TreeModel Verif.TreeSpec Verif.TreeApply Verif.TreeInfer.
Import ListNotations.

Section Partition.
  Context {F : family}.
  Variable J : jpt F.
  Variable row : list (value F).
  Hypothesis T : tree_ok J.

  (** The row satisfies one constraint / all constraints of a path. *)
  Definition holds (vs : var * vset F) : Prop := exists x, nth_error row (fst vs) = Some x /\ v_in F (snd vs) x = true.
  Definition on (p : list (var * vset F)) : Prop := Forall holds p.

  (** Exactly one split of every decision node contains the row's value. *)
  Definition splits_partition : Prop := forall n, In n (innernodes J) -> exists k s,
    nth_error (i_splits n) k = Some s /\ holds (i_var n, s) /\ forall k' s', nth_error (i_splits n) k' = Some s' -> holds (i_var n, s') -> k' = k.
  Hypothesis Sp : splits_partition.

  Lemma node_path : forall i m, get_node J i = Some m ->
    (n_path m = [] /\ root J = Some i) \/
    exists n k s, In n (innernodes J) /\ get_node J (i_idx n) = Some (NInner n) /\ nth_error (i_children n) k = Some (Some i) /\ nth_error (i_splits n) k = Some s /\ n_path m = i_path n ++ [(i_var n, s)].
  Proof.
    intros i m G. pose proof (parent_ok J T i m G) as Po. destruct (n_parent m) as [p|] eqn:Ep.
    - right. destruct Po as (n & Gn & Ic). assert (In n (innernodes J)) as In0 by (apply (get_inner_some J p n Gn)). pose proof (proj2 (get_inner_some J p n Gn)) as Ei.
      apply In_nth_error in Ic. destruct Ic as [k Ek]. assert (exists s, nth_error (i_splits n) k = Some s) as [s Es].
      { destruct (nth_error (i_splits n) k) eqn:E; [eauto|]. exfalso. apply nth_error_None in E. rewrite <- (lengths J T n In0) in E. apply nth_error_None in E. congruence. }
      destruct (child_ok J T n k _ s In0 Ek Es) as (i' & m' & E1 & G' & _ & Pt). inversion E1; subst i'. rewrite G in G'. inversion G'; subst m'.
      exists n, k, s. repeat split; try assumption. unfold get_node. rewrite Ei, Gn. reflexivity.
    - left. split; [|exact Po]. destruct (root_ok J T) as (r & m' & Er & Gr & _ & Pt). rewrite Po in Er. inversion Er; subst r. rewrite G in Gr. inversion Gr; subst. exact Pt.
  Qed.

  (** Two satisfied nodes at the same depth are the same node. *)
  Lemma same_depth : forall len i j m m', get_node J i = Some m -> get_node J j = Some m' -> on (n_path m) -> on (n_path m') -> length (n_path m) = len -> length (n_path m') = len -> i = j.
  Proof.
    induction len as [|len IH]; intros i j m m' Gi Gj Om Om' Li Lj.
    - destruct (node_path i m Gi) as [[_ R]|(n & k & s & _ & _ & _ & _ & Pt)]; [|rewrite Pt, app_length in Li; cbn in Li; lia].
      destruct (node_path j m' Gj) as [[_ R']|(n & k & s & _ & _ & _ & _ & Pt)]; [congruence|rewrite Pt, app_length in Lj; cbn in Lj; lia].
    - destruct (node_path i m Gi) as [[Pt _]|(n & k & s & In1 & Gn & Ek & Es & Pt)]; [rewrite Pt in Li; discriminate|].
      destruct (node_path j m' Gj) as [[Pt' _]|(n' & k' & s' & In1' & Gn' & Ek' & Es' & Pt')]; [rewrite Pt' in Lj; discriminate|].
      rewrite Pt in Om, Li. rewrite Pt' in Om', Lj. rewrite app_length in Li, Lj. cbn in Li, Lj. unfold on in Om, Om'. rewrite Forall_app in Om, Om'. destruct Om as [O1 O2], Om' as [O1' O2'].
      assert (E : i_idx n = i_idx n') by (apply (IH (i_idx n) (i_idx n') (NInner n) (NInner n')); try assumption; cbn; lia).
      rewrite E in Gn. rewrite Gn in Gn'. inversion Gn'; subst n'. destruct (Sp n In1) as (k0 & s0 & _ & _ & U).
      rewrite (U k s Es (Forall_inv O2)) in Ek. rewrite (U k' s' Es' (Forall_inv O2')) in Ek'. congruence.
  Qed.

  (** Every satisfied node has a satisfied inner ancestor at every smaller depth. *)
  Lemma ancestor : forall len i m, get_node J i = Some m -> on (n_path m) -> length (n_path m) = len -> forall d, d < len ->
    exists n, get_node J (i_idx n) = Some (NInner n) /\ on (i_path n) /\ length (i_path n) = d.
  Proof.
    induction len as [|len IH]; intros i m G Om L d D; [lia|].
    destruct (node_path i m G) as [[Pt _]|(n & k & s & In1 & Gn & Ek & Es & Pt)]; [rewrite Pt in L; discriminate|].
    rewrite Pt in Om, L. rewrite app_length in L. cbn in L. unfold on in Om. rewrite Forall_app in Om. destruct Om as [O1 _].
    destruct (Nat.eq_dec d len) as [->|Ne]; [exists n; repeat split; try assumption; lia|]. apply (IH (i_idx n) (NInner n) Gn O1); cbn; lia.
  Qed.

  Lemma one_leaf : forall l l', In l (leaves J) -> In l' (leaves J) -> on (l_path l) -> on (l_path l') -> l = l'.
  Proof.
    intros l l' I I' O O'. pose proof (in_node_leaf J (ids J T) l I) as G. pose proof (in_node_leaf J (ids J T) l' I') as G'.
    assert (NoAnc : forall l l', In l (leaves J) -> In l' (leaves J) -> on (l_path l) -> on (l_path l') -> length (l_path l) < length (l_path l') -> False).
    { clear l l' I I' O O' G G'. intros l l' I I' O O' Lt. pose proof (in_node_leaf J (ids J T) l I) as G. pose proof (in_node_leaf J (ids J T) l' I') as G'.
      destruct (ancestor _ _ _ G' O' eq_refl (length (l_path l)) Lt) as (n & Gn & On & Ln).
      pose proof (same_depth _ _ _ _ _ Gn G On O Ln eq_refl) as E. rewrite E in Gn. rewrite G in Gn. discriminate. }
    destruct (Nat.lt_trichotomy (length (l_path l)) (length (l_path l'))) as [Lt|[Eq|Lt]].
    - exfalso. exact (NoAnc l l' I I' O O' Lt).
    - pose proof (same_depth _ _ _ _ _ G G' O O' eq_refl (eq_sym Eq)) as E. rewrite E in G. rewrite G in G'. inversion G'. reflexivity.
    - exfalso. exact (NoAnc l' l I' I O' O Lt).
  Qed.

  Lemma holds_dec : forall vs, {holds vs} + {~ holds vs}.
  Proof.
    intros [v s]. unfold holds. cbn. destruct (nth_error row v) as [x|] eqn:E.
    - destruct (v_in F s x) eqn:B; [left; exists x; auto|right; intros (y & Ey & By); inversion Ey; subst; congruence].
    - right. intros (y & Ey & _). discriminate.
  Qed.
  Lemma on_dec : forall p, {on p} + {~ on p}.
  Proof. intro p. unfold on. apply Forall_dec, holds_dec. Qed.

  (** The deepest satisfied node is a leaf. *)
  Lemma some_leaf : exists l, In l (leaves J) /\ on (l_path l).
  Proof.
    set (inn := filter (fun n => if on_dec (i_path n) then true else false) (innernodes J)).
    assert (Deep : inn = [] \/ exists n, In n inn /\ forall n', In n' inn -> length (i_path n') <= length (i_path n)).
    { clearbody inn. induction inn as [|a inn IH]; [left; reflexivity|]. right. destruct IH as [->|(n & I & M)]; [exists a; split; [left; reflexivity|intros n' [<-|[]]; lia]|].
      destruct (le_lt_dec (length (i_path n)) (length (i_path a))) as [Le|Lt].
      - exists a. split; [left; reflexivity|]. intros n' [<-|I']; [lia|]. specialize (M n' I'). lia.
      - exists n. split; [right; exact I|]. intros n' [<-|I']; [lia|]. apply M, I'. }
    assert (Inn : forall n, In n inn <-> In n (innernodes J) /\ on (i_path n)).
    { intro n. unfold inn. rewrite filter_In. destruct (on_dec (i_path n)); split; intros [A B]; split; try assumption; try reflexivity; try discriminate; contradiction. }
    destruct Deep as [E|(n & I & M)].
    - destruct (root_ok J T) as (r & m & Er & Gr & _ & Pt). destruct m as [n|l].
      + exfalso. assert (In n inn) as X; [|rewrite E in X; contradiction]. apply Inn. split; [apply (node_inner_in J r n Gr)|]. cbn in Pt. rewrite Pt. constructor.
      + exists l. split; [apply (node_leaf_in J r l Gr)|]. cbn in Pt. rewrite Pt. constructor.
    - apply Inn in I. destruct I as [I O]. destruct (Sp n I) as (k & s & Es & H & _).
      assert (exists c, nth_error (i_children n) k = Some c) as [c Ec].
      { destruct (nth_error (i_children n) k) eqn:E; [eauto|]. exfalso. apply nth_error_None in E. rewrite (lengths J T n I) in E. apply nth_error_None in E. congruence. }
      destruct (child_ok J T n k c s I Ec Es) as (i & m & _ & G & _ & Pt).
      assert (Om : on (n_path m)). { rewrite Pt. unfold on. apply Forall_app. split; [exact O|]. constructor; [exact H|constructor]. }
      destruct m as [n'|l].
      + exfalso. cbn in Pt, Om. assert (In n' inn) as X by (apply Inn; split; [apply (node_inner_in J i n' G)|exact Om]). specialize (M n' X). rewrite Pt, app_length in M. cbn in M. lia.
      + exists l. split; [apply (node_leaf_in J i l G)|exact Om].
  Qed.

  Theorem partition_unique : exists l, In l (leaves J) /\ on (l_path l) /\ forall l', In l' (leaves J) -> on (l_path l') -> l' = l.
  Proof. destruct some_leaf as (l & I & O). exists l. repeat split; try assumption. intros l' I' O'. apply one_leaf; assumption. Qed.

  (** ** encode *)

  (** Intersections of the sets which occur contain what both contain. *)
  Variable good : var -> vset F -> Prop.
  Hypothesis Good_full : forall v, good v (full J v).
  Hypothesis Good_cap : forall v a b, good v a -> good v b -> good v (inter F a b).
  Hypothesis Cap : forall v a b x, nth_error row v = Some x -> good v a -> good v b -> v_in F (inter F a b) x = v_in F a x && v_in F b x.
  Hypothesis Row : forall v x, nth_error row v = Some x -> v_in F (full J v) x = true.

  Lemma path_get_holds : forall p v x, (forall v s, In (v, s) p -> good v s) -> nth_error row v = Some x ->
    match path_get (full J) p v with Some s => v_in F s x = true | None => True end <-> forall s, In (v, s) p -> holds (v, s).
  Proof.
    intros p v x Gp E. rewrite path_get_fold.
    assert (G : forall p acc, (forall v s, In (v, s) p -> good v s) -> (match acc with Some a => good v a | None => True end) ->
       (match fold_left (path_step (full J) v) p acc with Some s => v_in F s x = true | None => True end <->
        match acc with Some a => v_in F a x = true | None => True end /\ forall s, In (v, s) p -> holds (v, s))).
    { clear p Gp. induction p as [|[v' s'] p IH]; intros acc Gp Ga; cbn [fold_left].
      - split; [intro H; split; [exact H|intros s []]|intros [H _]; exact H].
      - assert (Gs : match path_step (full J) v acc (v', s') with Some a => good v a | None => True end).
        { unfold path_step. cbn [fst snd]. destruct (Nat.eqb_spec v' v) as [->|Ne]; [|exact Ga]. apply Good_cap; [|apply Gp; left; reflexivity]. destruct acc; [exact Ga|apply Good_full]. }
        rewrite IH by (first [exact Gs|intros; apply Gp; right; assumption]). clear Gs. unfold path_step at 1. cbn [fst snd]. destruct (Nat.eqb_spec v' v) as [->|Ne].
        + rewrite (Cap v) by (first [exact E|apply Gp; left; reflexivity|destruct acc; [exact Ga|apply Good_full]]). rewrite andb_true_iff. split.
          * intros [[A B] C]. split; [destruct acc; [exact A|exact I]|]. intros s [Es|Is]; [inversion Es; subst; exists x; auto|auto].
          * intros [A C]. split; [split|intros; apply C; right; assumption].
            -- destruct acc; [exact A|apply Row; exact E].
            -- destruct (C s' (or_introl eq_refl)) as (y & Ey & B). cbn in Ey, B. rewrite E in Ey. inversion Ey; subst. exact B.
        + split; intros [A C]; (split; [exact A|]); intros s Is; [|apply C; right; exact Is]. destruct Is as [Es|Is]; [inversion Es; contradiction|auto]. }
    rewrite G by (first [exact I|exact Gp]). tauto.
  Qed.

  Lemma contains_ok : forall p, (forall v s, In (v, s) p -> good v s) -> (forall v s, In (v, s) p -> exists x, nth_error row v = Some x) -> exists b, contains J p row = Ok b /\ (b = true <-> on p).
  Proof.
    intros p Gp V. unfold contains.
    assert (G : forall ks, (forall v, In v ks -> In v (keys p)) -> exists b, fold_right (fun v acc => do b <- acc; match path_get (full J) p v, nth_error row v with
        | Some q, Some x => Ok (v_in F q x && b) | None, _ => Ok b | Some _, None => Err IndexError end) (Ok true) ks = Ok b /\ (b = true <-> forall v s, In v ks -> In (v, s) p -> holds (v, s))).
    { induction ks as [|v ks IH]; intro H; [exists true; split; [reflexivity|split; [intros _ v s []|reflexivity]]|].
      destruct IH as (b & Eb & B); [intros; apply H; right; assumption|]. cbn [fold_right]. rewrite Eb. cbn [bind].
      pose proof (H v (or_introl eq_refl)) as Ik. unfold keys in Ik. apply in_map_iff in Ik. destruct Ik as ([v0 s0] & E0 & I0). cbn in E0. subst v0.
      destruct (V v s0 I0) as (x & Ex). rewrite Ex. pose proof (path_get_holds p v x Gp Ex) as Ph. destruct (path_get (full J) p v) as [q|].
      - exists (v_in F q x && b). split; [reflexivity|]. rewrite andb_true_iff, Ph, B. split.
        + intros [A C] v1 s1 [->|I1] I2; auto.
        + intro A. split; intros; apply A; try assumption; [left; reflexivity|right; assumption].
      - exists b. split; [reflexivity|]. rewrite B. split; intros A v1 s1 I1 I2; [|apply A; [right; exact I1|exact I2]]. destruct I1 as [<-|I1]; [apply Ph; [exact I|exact I2]|auto]. }
    destruct (G (nodup Nat.eq_dec (keys p))) as (b & Eb & B); [intros v I; apply nodup_In in I; exact I|]. exists b. split; [exact Eb|]. rewrite B. unfold on. rewrite Forall_forall. split.
    - intros H [v s] I. apply H; [apply nodup_In; apply (in_map fst) in I; exact I|exact I].
    - intros H v s _ I. apply (H (v, s) I).
  Qed.

  Theorem encode_good : (forall l v s, In l (leaves J) -> In (v, s) (l_path l) -> good v s) -> (forall l v s, In l (leaves J) -> In (v, s) (l_path l) -> v < length row) ->
    exists l, In l (leaves J) /\ encode J row = Ok (l_idx l) /\ on (l_path l) /\ forall l', In l' (leaves J) -> on (l_path l') -> l' = l.
  Proof.
    intros Gp V. destruct partition_unique as (l & I & O & U). exists l. split; [exact I|]. split; [|split; assumption]. unfold encode.
    assert (G : forall ls acc, incl ls (leaves J) -> encode_loop J row ls acc = Ok (if existsb (fun l' => Nat.eqb (l_idx l') (l_idx l)) ls then l_idx l else acc)).
    { induction ls as [|l' ls IH]; intros acc Inc; [reflexivity|]. cbn [encode_loop]. assert (I' : In l' (leaves J)) by (apply Inc; left; reflexivity).
      destruct (contains_ok (l_path l') (fun v s => Gp l' v s I')) as (b & Eb & B). { intros v s Is. destruct (nth_error row v) as [x|] eqn:E; [eauto|]. exfalso. apply nth_error_None in E. specialize (V l' v s I' Is). lia. }
      rewrite Eb. cbn [bind]. rewrite IH by (intros z Iz; apply Inc; right; exact Iz). f_equal. cbn [existsb]. destruct b.
      - rewrite (U l' I' (proj1 B eq_refl)), Nat.eqb_refl. cbn. destruct (existsb _ ls); reflexivity.
      - destruct (Nat.eqb_spec (l_idx l') (l_idx l)) as [E|N]; [|reflexivity]. exfalso. pose proof (in_get_leaf J (ids J T) l' I') as [G1 _]. pose proof (in_get_leaf J (ids J T) l I) as [G2 _]. rewrite E in G1. rewrite G1 in G2. inversion G2; subst l'.
        discriminate (proj2 B O). }
    rewrite G by apply incl_refl. assert (existsb (fun l' => Nat.eqb (l_idx l') (l_idx l)) (leaves J) = true) as ->; [|reflexivity]. apply existsb_exists. exists l. split; [exact I|apply Nat.eqb_refl].
  Qed.
End Partition.

Theorem encode_spec : forall {F : family} (J : jpt F) (row : list (value F)), tree_ok J -> splits_partition J row ->
  (forall a b x, v_in F (inter F a b) x = v_in F a x && v_in F b x) ->
  (forall v x, nth_error row v = Some x -> v_in F (full J v) x = true) ->
  (forall l v s, In l (leaves J) -> In (v, s) (l_path l) -> v < length row) ->
  exists l, In l (leaves J) /\ encode J row = Ok (l_idx l) /\ on row (l_path l) /\ forall l', In l' (leaves J) -> on row (l_path l') -> l' = l.
Proof. intros F J row T Sp Cap Row V. apply (encode_good J row T Sp (fun _ _ => True)); auto. Qed.
