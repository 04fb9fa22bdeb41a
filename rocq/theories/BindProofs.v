(** Proofs about binding queries. *)
Require Import String ZArith QArith Bool List Arith Lia.
Require Import Verif.Base Verif.FloatLine Verif.NumBase Verif.VarModel Verif.VarProofs Verif.IntervalModel Verif.IntervalSpec Verif.DiscreteModel Verif.DiscreteProofs
  Verif.TreeModel Verif.TreeDiscrete Verif.NumericTree Verif.MixedTree Verif.MixedProps Verif.BindModel Verif.BindSpec.
Import ListNotations.
Open Scope Z_scope.

Lemma atom_eqb_eq : forall a b, atom_eqb a b = true <-> a = b.
Proof.
  intros [x|x|x] [y|y|y]; cbn [atom_eqb]; (split; intro H; try discriminate).
  1,3: apply Z.eqb_eq in H; subst; reflexivity. 3: apply String.eqb_eq in H; subst; reflexivity.
  1,2: injection H as ->; apply Z.eqb_refl. injection H as ->. apply String.eqb_refl.
Qed.
Lemma is_label_in : forall labels o, is_label labels o = true <-> exists b, o = Some b /\ In b labels.
Proof.
  intros labels [a|]; cbn [is_label]; [|split; [discriminate|intros (b & E & _); discriminate]]. rewrite existsb_exists. split.
  - intros (x & I & E). apply atom_eqb_eq in E. subst. eauto.
  - intros (b & E & I). injection E as <-. exists a. split; [exact I|]. apply atom_eqb_eq. reflexivity.
Qed.

Section Proofs.
Variable float : Z -> Z.
Lemma number_is : forall n x, number float n = Some x <-> is_number float n x.
Proof.
  intros [z|y|s] x; cbn [number]; unfold is_number; (split; [intro H; try discriminate H; injection H as <-; eauto|intros [(w & E & ->)|E]; try discriminate; injection E as ->; reflexivity]).
Qed.
Lemma bound_is : forall inf o x, bound_of float inf o = Ok x <-> limit float inf o x.
Proof.
  intros inf [n|] x; cbn [bound_of limit]; [|split; [intro H; injection H as <-; reflexivity|intros ->; reflexivity]].
  rewrite <- number_is. destruct (number float n); (split; intro H; [try discriminate H; injection H as <-; reflexivity|try discriminate H; injection H as <-; reflexivity]).
Qed.
Lemma range_in : forall i j z, In z (Zrange_to i j) <-> i <= z <= j.
Proof.
  intros i j z. unfold Zrange_to. rewrite in_map_iff. split.
  - intros (k & <- & I). apply in_seq in I. lia.
  - intro H. exists (Z.to_nat (z - i)). split; [lia|]. apply in_seq. lia.
Qed.
Lemma range_nth : forall i j n, nth_error (Zrange_to i j) n = if i + Z.of_nat n <=? j then Some (i + Z.of_nat n) else None.
Proof.
  intros i j n. unfold Zrange_to. destruct (Z.leb_spec (i + Z.of_nat n) j).
  - rewrite nth_error_map, nth_error_nth' with (d := 0%nat) by (rewrite seq_length; lia). rewrite seq_nth by lia. reflexivity.
  - apply nth_error_None. rewrite map_length, seq_length. lia.
Qed.
Lemma range_nodup : forall i j, NoDup (Zrange_to i j).
Proof. intros i j. unfold Zrange_to. apply FinFun.Injective_map_NoDup; [intros a b; lia|apply seq_NoDup]. Qed.

(** ** One argument *)
Definition arg_set (v : uvar) (a : arg) : res mset :=
  do x <- preprocess_arg float false v a; do _ <- label_ok v x; do y <- to_value v x; match y with VSet s => Ok s | VNum _ => Err AttributeError end.

Lemma label_values : forall labels l s, NoDup labels -> mapM (label_value labels) l = Ok s ->
  (forall e, In e l -> exists b, e = Some b /\ In b labels) /\ forall b, (In (Some b) l <-> exists n, In n s /\ nth_error labels n = Some b).
Proof.
  intros labels l s N M. apply mapM_Forall2 in M. induction M as [|e n l s E M IH]; [split; [intros e []|intro b; split; [intros []|intros (n & [] & _)]]|].
  destruct e as [a|]; [|discriminate E]. cbn [label_value] in E. apply (l2v1_spec atom atom_eqb atom_eqb_eq) in E; [|exact N].
  destruct IH as [A B]. split.
  - intros e [<-|I]; [exists a; split; [reflexivity|apply nth_error_In in E; exact E]|auto].
  - intro b. split.
    + intros [H|H]; [injection H as ->; exists n; split; [left; reflexivity|exact E]|]. apply B in H. destruct H as (m & I & E'). exists m. split; [right; exact I|exact E'].
    + intros (m & [<-|I] & E'); [left; congruence|right; apply B; eauto].
Qed.
Lemma label_values_ok : forall labels l, (forall e, In e l -> exists b, e = Some b /\ In b labels) -> exists s, mapM (label_value labels) l = Ok s.
Proof.
  intros labels l. induction l as [|e l IH]; intro H; [exists []; reflexivity|]. destruct (IH (fun e I => H e (or_intror I))) as [s E].
  destruct (H e (or_introl eq_refl)) as (b & -> & I). cbn [mapM label_value].
  destruct (label2value1 atom atom_eqb labels b) as [n|er] eqn:K; [cbn [bind]; rewrite E; cbn [bind]; eauto|].
  apply (l2v1_err atom atom_eqb atom_eqb_eq) in K. destruct K as [_ K]. contradiction.
Qed.

Lemma scaled_mem : forall scale c c' x, scale_ok scale -> scale_interval scale c = Ok c' -> finite x ->
  (forall b, b = lower c \/ b = upper c -> scale b = scale x -> b = x) -> (cs_mem (scale x) c' <-> cs_mem x c).
Proof.
  intros scale c c' x S E Fx T. unfold scale_interval, mk_cs in E. destruct (Z.ltb_spec (scale (upper c)) (scale (lower c))); [discriminate|]. injection E as <-.
  pose proof (sc_fin _ S x Fx) as Fs. pose proof (sc_mono _ S) as M. pose proof (T _ (or_introl eq_refl)) as T1. pose proof (T _ (or_intror eq_refl)) as T2.
  unfold cs_mem. cbn [lower upper left right].
  assert (L : scale (lower c) <= scale x <-> lower c <= x).
  { split; [|apply M]. intro H1. destruct (Z.le_gt_cases (lower c) x) as [K|K]; [exact K|]. specialize (M x (lower c) ltac:(lia)). specialize (T1 ltac:(lia)). lia. }
  assert (L' : scale (lower c) < scale x <-> lower c < x).
  { split; intro H1; [destruct (Z.le_gt_cases x (lower c)) as [K|K]; [specialize (M _ _ K); lia|exact K]|]. specialize (M (lower c) x ltac:(lia)). destruct (Z.eq_dec (scale (lower c)) (scale x)) as [K|K]; [specialize (T1 K); lia|lia]. }
  assert (U : scale x <= scale (upper c) <-> x <= upper c).
  { split; [|apply M]. intro H1. destruct (Z.le_gt_cases x (upper c)) as [K|K]; [exact K|]. specialize (M (upper c) x ltac:(lia)). specialize (T2 ltac:(lia)). lia. }
  assert (U' : scale x < scale (upper c) <-> x < upper c).
  { split; intro H1; [destruct (Z.le_gt_cases (upper c) x) as [K|K]; [specialize (M _ _ K); lia|exact K]|]. specialize (M x (upper c) ltac:(lia)). destruct (Z.eq_dec (scale (upper c)) (scale x)) as [K|K]; [specialize (T2 K); lia|lia]. }
  destruct (left c), (right c); tauto.
Qed.
Lemma scaled_ok : forall scale c, scale_ok scale -> lower c <= upper c -> scale_interval scale c = Ok (CS (scale (lower c)) (scale (upper c)) (left c) (right c)).
Proof.
  intros scale c S L. unfold scale_interval, mk_cs. destruct (Z.ltb_spec (scale (upper c)) (scale (lower c))) as [K|K]; [|reflexivity].
  pose proof (sc_mono _ S _ _ L). lia.
Qed.
Lemma mapM_pieces : forall scale l r, mapM (scale_interval scale) l = Ok r -> Forall2 (fun c c' => scale_interval scale c = Ok c') l r.
Proof. intros scale l r H. apply mapM_Forall2, H. Qed.
Lemma mapM_id : forall l, (forall c, In c l -> lower c <= upper c) -> mapM (fun c => mk_cs (lower c) (upper c) (left c) (right c)) l = Ok l.
Proof.
  induction l as [|c l IH]; intro H; [reflexivity|]. cbn [mapM]. rewrite IH by (intros; apply H; right; assumption).
  unfold mk_cs. pose proof (H c (or_introl eq_refl)). destruct (Z.ltb_spec (upper c) (lower c)); [lia|]. destruct c; reflexivity.
Qed.

Definition built (a : arg) : Prop :=
  match a with GInterval c => lower c <= upper c | GUnion l => forall c, In c l -> lower c <= upper c | _ => True end.

Lemma numeric_arg_set : forall v scale a s, u_kind v = UNum scale None -> scale_ok scale -> built a -> arg_set v a = Ok s ->
  sayable float v a /\ (exists n, s = inl n) /\ forall l, told_apart float v a l -> (holds v s l <-> describes float v a l).
Proof.
  intros v scale a s K S B E. unfold arg_set, preprocess_arg, label_ok, to_value in E. unfold sayable, told_apart, holds, describes. rewrite K in *.
  destruct a as [|n|l| |l|c|l|b]; cbn [numeric_arg] in E; try discriminate E.
  - destruct (number float n) as [x|] eqn:N; [|discriminate]. apply number_is in N. unfold mk_cs in E. rewrite Z.ltb_irrefl in E. cbn [bind] in E.
    split; [eauto|]. unfold scale_interval, mk_cs in E. cbn [lower upper left right] in E. rewrite Z.ltb_irrefl in E. cbn [bind] in E. injection E as <-. split; [eauto|].
    intros l T. split.
    + intros (y & m & -> & Fy & Em & M). injection Em as <-. exists y. split; [reflexivity|]. split; [exact Fy|]. cbn [describes_number].
      assert (x = y); [|subst; exact N]. apply T; [reflexivity|exact N|]. destruct M as (_ & M1 & M2). cbn [left right lower upper] in M1, M2. lia.
    + intros (y & -> & Fy & D). cbn [describes_number] in D. exists y. eexists. split; [reflexivity|]. split; [exact Fy|]. split; [reflexivity|].
      assert (x = y) as ->. { apply number_is in N, D. congruence. }
      cbn [ns_mem]. unfold cs_mem. cbn [left right lower upper]. split; [exact (sc_fin _ S y Fy)|lia].
  - destruct l as [|lo [|hi [|? ?]]]; cbn [list2interval] in E; try discriminate E.
    destruct (bound_of float (- ORD_INF) lo) as [x|] eqn:Bl; [|discriminate]. destruct (bound_of float ORD_INF hi) as [y|] eqn:Bh; [|discriminate].
    cbn [bind] in E. unfold mk_cs in E at 1. destruct (Z.ltb_spec y x); [discriminate|]. cbn [bind] in E.
    destruct (scale_interval scale (CS x y INC INC)) as [c'|] eqn:Sc; [|discriminate]. cbn [bind] in E. injection E as <-.
    apply bound_is in Bl, Bh. split; [exists lo, hi, x, y; repeat split; assumption|]. split; [eauto|]. intros l T.
    assert (T' : forall z, l = PFlt z -> finite z -> forall b, b = lower (CS x y INC INC) \/ b = upper (CS x y INC INC) -> scale b = scale z -> b = z).
    { intros z -> Fz b Hb Q. cbn [lower upper] in Hb. pose proof (sc_fin _ S z Fz) as Fs. destruct (sc_inf _ S) as [I1 I2]. unfold finite in Fs. destruct Hb as [->| ->].
      - destruct lo as [n|]; cbn [limit] in Bl; [apply T; [reflexivity|exists n; split; [left; reflexivity|exact Bl]|exact Q]|subst x; lia].
      - destruct hi as [n|]; cbn [limit] in Bh; [apply T; [reflexivity|exists n; split; [right; left; reflexivity|exact Bh]|exact Q]|subst y; lia]. }
    assert (Dm : forall z, finite z -> (cs_mem z (CS x y INC INC) <-> describes_number float (GList [lo; hi]) z)).
    { intros z Fz. cbn [describes_number]. unfold cs_mem. cbn [lower upper left right]. unfold finite in *. split.
      - intros (_ & A1 & A2). split; intros n ->; cbn [limit] in Bl, Bh; eauto.
      - intros [A1 A2]. split; [exact Fz|]. split.
        + destruct lo as [n|]; cbn [limit] in Bl; [|lia]. destruct (A1 n eq_refl) as (w & W & L). apply number_is in W, Bl. assert (w = x) by congruence. lia.
        + destruct hi as [n|]; cbn [limit] in Bh; [|lia]. destruct (A2 n eq_refl) as (w & W & L). apply number_is in W, Bh. assert (w = y) by congruence. lia. }
    split.
    + intros (z & m & -> & Fz & Em & M). injection Em as <-. exists z. split; [reflexivity|]. split; [exact Fz|]. apply (Dm z Fz). apply (scaled_mem scale _ _ z S Sc Fz (T' z eq_refl Fz)). exact M.
    + intros (z & -> & Fz & D). exists z. eexists. split; [reflexivity|]. split; [exact Fz|]. split; [reflexivity|]. cbn [ns_mem]. apply (scaled_mem scale _ _ z S Sc Fz (T' z eq_refl Fz)). apply (Dm z Fz). exact D.
  - cbn [bind] in E. destruct (scale_interval scale c) as [c'|] eqn:Sc; [|discriminate]. cbn [bind] in E. injection E as <-. split; [exact I|]. split; [eauto|]. intros l T. cbn [mentions describes_number] in *. split.
    + intros (z & m & -> & Fz & Em & M). injection Em as <-. exists z. split; [reflexivity|]. split; [exact Fz|]. apply (scaled_mem scale _ _ z S Sc Fz); [|exact M]. intros b Hb. apply (T z b eq_refl Hb).
    + intros (z & -> & Fz & D). exists z. eexists. split; [reflexivity|]. split; [exact Fz|]. split; [reflexivity|]. cbn [ns_mem]. apply (scaled_mem scale _ _ z S Sc Fz); [|exact D]. intros b Hb. apply (T z b eq_refl Hb).
  - cbn [built] in B. rewrite (mapM_id l B) in E. cbn [bind] in E. destruct (mapM (scale_interval scale) l) as [r|] eqn:M; [|discriminate]. cbn [bind] in E. injection E as <-. apply mapM_pieces in M.
    split; [exact I|]. split; [eauto|]. intros a T. cbn [mentions describes_number] in *.
    assert (Mm : forall z, a = PFlt z -> finite z -> (rs_mem (scale z) r <-> rs_mem z l)).
    { intros z -> Fz. clear - float M T S Fz. unfold rs_mem. induction M as [|c c' l r Sc M IH]; [split; intros (s & [] & _)|].
      assert (T' : forall b, b = lower c \/ b = upper c -> scale b = scale z -> b = z) by (intros b Hb Q; apply (T z b eq_refl); [exists c; split; [left; reflexivity|exact Hb]|exact Q]).
      pose proof (scaled_mem scale c c' z S Sc Fz T') as H1.
      assert (H2 : (exists s, In s r /\ cs_mem (scale z) s) <-> (exists s, In s l /\ cs_mem z s)). { apply IH. intros x b Ex (c2 & I2 & Hb). apply (T x b Ex). exists c2. split; [right; exact I2|exact Hb]. }
      split; intros (s & [<-|I] & Hm).
      - exists c. split; [left; reflexivity|]. apply H1, Hm.
      - destruct (proj1 H2 (ex_intro _ s (conj I Hm))) as (s' & I' & Hm'). exists s'. split; [right; exact I'|exact Hm'].
      - exists c'. split; [left; reflexivity|]. apply H1, Hm.
      - destruct (proj2 H2 (ex_intro _ s (conj I Hm))) as (s' & I' & Hm'). exists s'. split; [right; exact I'|exact Hm']. }
    split.
    + intros (z & m & -> & Fz & Em & H). injection Em as <-. exists z. split; [reflexivity|]. split; [exact Fz|]. apply (Mm z eq_refl Fz). exact H.
    + intros (z & -> & Fz & D). exists z. eexists. split; [reflexivity|]. split; [exact Fz|]. split; [reflexivity|]. cbn [ns_mem]. apply (Mm z eq_refl Fz). exact D.
Qed.

Lemma discrete_arg_set : forall v a s, is_num v = false -> (forall labels, u_kind v = USym labels -> NoDup labels) -> arg_set v a = Ok s ->
  sayable float v a /\ (exists n, s = inr n) /\ forall l, (holds v s l <-> describes float v a l).
Proof.
  intros v a s K N E. unfold arg_set, preprocess_arg, label_ok, to_value in E. unfold is_num in K. unfold sayable, holds, describes.
  destruct (u_kind v) as [sc bl|labels|lo hi] eqn:U; [discriminate| |].
  - assert (Gen : forall l, discrete_arg false a = Ok (LSet l) -> (forall e, In e l -> exists b, e = Some b /\ In b labels) /\ exists is, s = inr is /\ forall b, (In (Some b) l <-> exists n, In n is /\ nth_error labels n = Some b)).
    { intros l D. rewrite D in E. cbn [bind] in E. destruct (forallb (is_label labels) l); [|discriminate]. cbn [bind] in E. destruct (mapM (label_value (label_list (USym labels))) l) as [is|] eqn:M; [|discriminate]. cbn [bind] in E. injection E as <-.
      cbn [label_list] in M. destruct (label_values labels l is (N labels eq_refl) M) as [A B]. split; [exact A|]. eauto. }
    destruct a as [|b|es| |es|c|es|[]]; cbn [discrete_arg] in E, Gen; try discriminate E;
      match goal with Gen : forall l, Ok (LSet ?x) = _ -> _ |- _ => destruct (Gen x eq_refl) as [A (is & -> & B)] end; cbn [describes_label].
    + split; [destruct (A (Some b) (or_introl eq_refl)) as (b' & Eb & I); injection Eb as <-; exact I|]. split; [eauto|]. intro l. split.
      * intros (is' & n & Ei & I & H). injection Ei as <-. cbn [labels_of] in H. assert (X : In (Some l) [Some b]) by (apply B; eauto). destruct X as [X|[]]. congruence.
      * intros ->. destruct (proj1 (B b) (or_introl eq_refl)) as (n & I & H). exists is, n. auto.
    + split; [exact A|]. split; [eauto|]. intro l. split.
      * intros (is' & n & Ei & I & H). injection Ei as <-. apply B. eauto.
      * intro I. apply B in I. destruct I as (n & I & H). exists is, n. auto.
    + split; [intros b I; destruct (A (Some b) (in_map Some _ _ I)) as (b' & Eb & I'); injection Eb as <-; exact I'|]. split; [eauto|]. intro l. split.
      * intros (is' & n & Ei & I & H). injection Ei as <-. assert (X : In (Some l) (map Some es)) by (apply B; eauto). apply in_map_iff in X. destruct X as (x & Ex & Ix). injection Ex as ->. exact Ix.
      * intro I. apply (in_map Some) in I. apply B in I. destruct I as (n & I & H). exists is, n. auto.
  - assert (Gen : forall l, discrete_arg true a = Ok (LSet l) -> (forall e, In e l -> exists b, e = Some b /\ int_label lo hi b) /\ exists is, s = inr is /\ forall b, (In (Some b) l <-> exists n, In n is /\ b = PInt (lo + Z.of_nat n) /\ lo + Z.of_nat n <= hi)).
    { intros l D. rewrite D in E. cbn [bind] in E. destruct (mapM (label_value (label_list (UInt lo hi))) l) as [is|] eqn:M; [|discriminate]. cbn [bind] in E. injection E as <-.
      cbn [label_list] in M. destruct (label_values _ l is (FinFun.Injective_map_NoDup (f := PInt) (fun a b (H : PInt a = PInt b) => match H in _ = y return match y with PInt z => a = z | _ => True end with eq_refl => eq_refl end) (range_nodup lo hi)) M) as [A B]. split.
      - intros e I. destruct (A e I) as (b & -> & Ib). exists b. split; [reflexivity|]. apply in_map_iff in Ib. destruct Ib as (z & <- & Iz). exists z. split; [reflexivity|]. apply range_in, Iz.
      - exists is. split; [reflexivity|]. intro b. rewrite (B b). split; intros (n & I & H); exists n; (split; [exact I|]); rewrite nth_error_map, range_nth in *; destruct (Z.leb_spec (lo + Z.of_nat n) hi); cbn [option_map] in *; try discriminate; try (injection H as <-; split; [reflexivity|lia]); destruct H as [-> H]; [reflexivity|lia]. }
    assert (Hl : forall is l, (exists is' n, inr is = inr is' :> nset + list nat /\ In n is' /\ labels_of (UInt lo hi) n l) <-> (exists n, In n is /\ l = PInt (lo + Z.of_nat n) /\ lo + Z.of_nat n <= hi)).
    { intros is l. split; [intros (is' & n & Ei & I & H); injection Ei as <-; exists n; split; assumption|intros (n & I & H); exists is, n; split; [reflexivity|]; split; assumption]. }
    destruct a as [|b|es| |es|c|es|[]]; cbn [discrete_arg] in E, Gen; try discriminate E; cbn [describes_label].
    + destruct (Gen _ eq_refl) as [A (is & -> & B)]. split; [destruct (A (Some b) (or_introl eq_refl)) as (b' & Eb & I); injection Eb as <-; exact I|]. split; [eauto|]. intro l. etransitivity; [apply Hl|]. rewrite <- B. cbn [In]. split; [intros [H|[]]; congruence|intros ->; left; reflexivity].
    + destruct es as [|[[i| |]|] [|[[j| |]|] [|? ?]]]; cbn [list2intset] in E; try discriminate E. cbn [list2intset bind] in Gen. destruct (Gen _ eq_refl) as [A (is & -> & B)].
      split; [exists i, j; split; [reflexivity|]; intros z Hz; destruct (A (Some (PInt z))) as (b' & Eb & (z' & Ez & I)); [apply in_map, in_map, range_in, Hz|]; injection Eb as <-; injection Ez as <-; exact I|]. split; [eauto|]. intro l. etransitivity; [apply Hl|]. rewrite <- B. rewrite map_map, in_map_iff. split.
      * intros (z & Ez & I). apply range_in in I. injection Ez as <-. exists i, j, z. auto.
      * intros (i' & j' & z & Ee & -> & Hz). injection Ee as <- <-. exists z. split; [reflexivity|]. apply range_in, Hz.
    + destruct (Gen _ eq_refl) as [A (is & -> & B)]. split; [intros b I; destruct (A (Some b) (in_map Some _ _ I)) as (b' & Eb & I'); injection Eb as <-; exact I'|]. split; [eauto|]. intro l. etransitivity; [apply Hl|]. rewrite <- B. rewrite in_map_iff. split; [intros (x & Ex & I); injection Ex as <-; exact I|intro I; exists l; auto].
Qed.

Lemma sayable_set : forall v a, (forall scale bl, u_kind v = UNum scale bl -> scale_ok scale /\ bl = None) -> built a -> sayable float v a -> exists s, arg_set v a = Ok s.
Proof.
  intros v a N B Y. unfold sayable in Y. unfold arg_set, preprocess_arg, label_ok, to_value. destruct (u_kind v) as [scale bl|labels|lo hi] eqn:U.
  - destruct (N scale bl eq_refl) as [S ->]. destruct a as [|n|l| |l|c|l|b]; try contradiction; cbn [numeric_arg].
    + destruct Y as [x Y]. apply number_is in Y. rewrite Y. unfold mk_cs. rewrite Z.ltb_irrefl. cbn [bind]. rewrite scaled_ok by (assumption || cbn [lower upper]; lia). cbn [bind]. eauto.
    + destruct Y as (lo & hi & x & y & -> & A & C & L). apply bound_is in A, C. cbn [list2interval]. rewrite A, C. cbn [bind]. unfold mk_cs. destruct (Z.ltb_spec y x); [lia|]. cbn [bind]. rewrite scaled_ok by assumption. cbn [bind]. eauto.
    + cbn [bind]. rewrite scaled_ok by assumption. cbn [bind]. eauto.
    + cbn [built] in B. rewrite (mapM_id l B). cbn [bind].
      assert (X : exists r, mapM (scale_interval scale) l = Ok r). { clear - float B S. induction l as [|c l IH]; [exists []; reflexivity|]. destruct (IH (fun c I => B c (or_intror I))) as [r E]. cbn [mapM]. rewrite scaled_ok by (try assumption; apply B; left; reflexivity). cbn [bind]. rewrite E. cbn [bind]. eauto. }
      destruct X as [r ->]. cbn [bind]. eauto.
  - assert (Gen : forall l, (forall e, In e l -> exists b, e = Some b /\ In b labels) -> exists s, (do _ <- (if forallb (is_label labels) l then Ok tt else Err TypeError); do y <- (do s <- mapM (label_value (label_list (USym labels))) l; Ok (VSet (inr s))); match y with VNum _ => Err AttributeError | VSet s => Ok s end) = Ok s :> res mset).
    { intros l H. destruct (label_values_ok labels l H) as [s E]. cbn [label_list]. rewrite E. replace (forallb (is_label labels) l) with true; [cbn [bind]; eauto|]. symmetry. apply forallb_forall. intros e I. apply is_label_in, H, I. }
    destruct a as [|b|es| |es|c|es|b]; try contradiction; cbn [discrete_arg bind]; apply Gen.
    + intros e [<-|[]]. eauto.
    + exact Y.
    + intros e I. apply in_map_iff in I. destruct I as (b & <- & I). eauto.
  - assert (Gen : forall l, (forall e, In e l -> exists b, e = Some b /\ int_label lo hi b) -> exists s, (do _ <- Ok tt; do y <- (do s <- mapM (label_value (label_list (UInt lo hi))) l; Ok (VSet (inr s))); match y with VNum _ => Err AttributeError | VSet s => Ok s end) = Ok s :> res mset).
    { intros l H. destruct (label_values_ok (map PInt (Zrange_to lo hi)) l) as [s E]; [|cbn [label_list]; rewrite E; cbn [bind]; eauto].
      intros e I. destruct (H e I) as (b & -> & (z & -> & L)). exists (PInt z). split; [reflexivity|]. apply in_map, range_in, L. }
    destruct a as [|b|es| |es|c|es|b]; try contradiction; cbn [discrete_arg].
    + cbn [bind]. apply Gen. intros e [<-|[]]. eauto.
    + destruct Y as (i & j & -> & Y). cbn [list2intset bind]. apply Gen. intros e I. rewrite map_map in I. apply in_map_iff in I. destruct I as (z & <- & I). apply range_in in I. exists (PInt z). split; [reflexivity|]. exists z. auto.
    + cbn [bind]. apply Gen. intros e I. apply in_map_iff in I. destruct I as (b & <- & I). eauto.
Qed.
End Proofs.

(** ** Whole dictionaries *)
Lemma mapM_two : forall A B C (f : A -> res B) (g : B -> res C) l r, (exists m, mapM f l = Ok m /\ mapM g m = Ok r) <-> Forall2 (fun a c => exists b, f a = Ok b /\ g b = Ok c) l r.
Proof.
  intros A B C f g. induction l as [|a l IH]; intro r.
  - split; [intros (m & E & M); injection E as <-; injection M as <-; constructor|intro H; inversion H; exists []; split; reflexivity].
  - split.
    + intros (m & E & M). cbn [mapM] in E. destruct (f a) as [b|] eqn:Fa; [|discriminate]. cbn [bind] in E. destruct (mapM f l) as [m'|] eqn:Fl; [|discriminate]. injection E as <-. cbn [mapM] in M.
      destruct (g b) as [c|] eqn:Gb; [|discriminate]. cbn [bind] in M. destruct (mapM g m') as [r'|] eqn:Gm; [|discriminate]. injection M as <-. constructor; [eauto|]. apply IH. eauto.
    + intro H. inversion H as [|? c ? r' (b & Fa & Gb) Hr]; subst. apply IH in Hr. destruct Hr as (m & Fl & Gm). exists (b :: m). cbn [mapM]. rewrite Fa, Fl, Gb, Gm. split; reflexivity.
Qed.

Definition key_name (k : key uvar) : option string := match k with KName s => Some s | KVar v => Some (u_name v) | KOther => None end.
Fixpoint last_said (d : list (key uvar * arg)) (n : string) : option arg :=
  match d with
  | [] => None
  | (k, a) :: d =>
      match last_said d n with
      | Some b => Some b
      | None => match a, key_name k with GNone, _ => None | _, Some s => if String.eqb s n then Some a else None | _, None => None end
      end
  end.

Section Dict.
Variables (float : Z -> Z) (vars : list uvar).
Hypothesis VN : NoDup (map u_name vars).
Let V0 := vm_declare u_name vars.

Lemma V0_map : V0 = map (fun v => (u_name v, v)) vars.
Proof.
  unfold V0. rewrite <- (declare_same u_name (map (fun v => (u_name v, v)) vars)).
  - rewrite map_map. cbn [snd]. rewrite map_id. reflexivity.
  - unfold dkeys. rewrite map_map. exact VN.
  - intros n w H. apply dget_some_in in H. apply in_map_iff in H. destruct H as (v & E & _). injection E as <- <-. reflexivity.
Qed.
Lemma V0_get : forall v, In v vars -> dget V0 (u_name v) = Some v.
Proof.
  intros v I. rewrite V0_map. apply dget_nodup; [unfold dkeys; rewrite map_map; exact VN|]. apply in_map_iff. eauto.
Qed.
Lemma V0_some : forall n v, dget V0 n = Some v -> In v vars /\ u_name v = n.
Proof. intros n v H. rewrite V0_map in H. apply dget_some_in, in_map_iff in H. destruct H as (w & E & I). injection E as <- <-. auto. Qed.
Lemma same_name : forall v w, In v vars -> In w vars -> u_name v = u_name w -> v = w.
Proof. intros v w A B E. pose proof (V0_get v A). pose proof (V0_get w B). congruence. Qed.

Definition own (d : list (key uvar * arg)) : Prop := forall v a, In (KVar v, a) d -> In v vars.
Lemma own_tail : forall x d, own (x :: d) -> own d.
Proof. intros x d H v a I. apply (H v a). right. exact I. Qed.

Lemma key_var_own : forall k a d v, own ((k, a) :: d) -> (key_var vars k = Some v <-> In v vars /\ names k v).
Proof.
  intros k a d v O. unfold names. destruct k as [s|w|]; cbn [key_var].
  - split; [intro H; apply V0_some in H; destruct H as [A <-]; auto|]. intros [A [E|E]]; [injection E as ->; apply V0_get, A|discriminate].
  - split; [intro H; injection H as <-; split; [apply (O w a); left; reflexivity|auto]|]. intros [A [E|E]]; [discriminate|injection E as ->; reflexivity].
  - split; [discriminate|intros [_ [E|E]]; discriminate].
Qed.
Lemma names_key : forall k a d v, own ((k, a) :: d) -> In v vars -> (names k v <-> key_name k = Some (u_name v)).
Proof.
  intros k a d v O I. unfold names. destruct k as [s|w|]; cbn [key_name].
  - split; [intros [E|E]; [injection E as ->; reflexivity|discriminate]|]. intro E. injection E as ->. auto.
  - split; [intros [E|E]; [discriminate|injection E as ->; reflexivity]|]. intro E. injection E as E. right. f_equal. apply same_name; [apply (O w a); left; reflexivity|exact I|exact E].
  - split; [intros [E|E]; discriminate|discriminate].
Qed.

Lemma last_none : forall d v, own d -> In v vars -> (last_said d (u_name v) = None <-> forall k a, In (k, a) d -> names k v -> a = GNone).
Proof.
  induction d as [|[k a] d IH]; intros v O I; cbn [last_said]; [split; [intros _ k a []|reflexivity]|].
  specialize (IH v (own_tail _ _ O) I). pose proof (names_key k a d v O I) as NK.
  destruct (last_said d (u_name v)) as [b|] eqn:L.
  - split; [discriminate|]. intro H. apply IH. intros k' a' I'. apply H. right. exact I'.
  - assert (T : forall k' a', In (k', a') d -> names k' v -> a' = GNone) by (apply IH; reflexivity).
    split.
    + intros H k' a' [E|I'] Nk; [|eapply T; eassumption]. injection E as <- <-. apply NK in Nk. destruct a; [reflexivity|..]; rewrite Nk, String.eqb_refl in H; discriminate H.
    + intro H. destruct a; [reflexivity|..]; (destruct (key_name k) as [s|] eqn:Ks; [|reflexivity]; destruct (String.eqb_spec s (u_name v)) as [->|]; [|reflexivity]; exfalso; specialize (H k _ (or_introl eq_refl) (proj2 NK eq_refl)); discriminate H).
Qed.
Lemma said_last : forall d v a, own d -> In v vars -> (said d v a <-> last_said d (u_name v) = Some a).
Proof.
  induction d as [|[k b] d IH]; intros v a O I.
  - split; [intros (d1 & k & d2 & E & _); destruct d1; discriminate E|discriminate].
  - specialize (IH v a (own_tail _ _ O) I). pose proof (names_key k b d v O I) as NK. pose proof (last_none d v (own_tail _ _ O) I) as LN. cbn [last_said].
    split.
    + intros (d1 & k' & d2 & E & Nk & Na & T). destruct d1 as [|x d1]; cbn [app] in E.
      * injection E as -> -> ->. rewrite (proj2 LN T). apply NK in Nk. rewrite Nk, String.eqb_refl. destruct a; [contradiction|reflexivity..].
      * injection E as <- E2. assert (S : said d v a) by (exists d1, k', d2; auto). apply IH in S. rewrite S. reflexivity.
    + destruct (last_said d (u_name v)) as [c|] eqn:L.
      * intro E. injection E as ->. destruct (proj2 IH eq_refl) as (d1 & k' & d2 & -> & H). exists ((k, b) :: d1), k', d2. split; [reflexivity|exact H].
      * intro E. assert (X : key_name k = Some (u_name v) /\ b = a /\ a <> GNone).
        { destruct b; try discriminate E; (destruct (key_name k) as [s|]; [|discriminate E]; destruct (String.eqb_spec s (u_name v)) as [->|]; [|discriminate E]; injection E as <-; split; [reflexivity|]; split; [reflexivity|discriminate]). }
        destruct X as (X & -> & Na). exists [], k, d. split; [reflexivity|]. split; [apply NK, X|]. split; [exact Na|]. apply LN. reflexivity.
Qed.

Lemma pre_spec : forall d m m', own d -> vm_vars m = V0 -> NoDup (dkeys (vm_map m)) -> (forall n, In n (dkeys (vm_map m)) -> exists v, In v vars /\ u_name v = n) ->
  preprocess float vars false false m d = Ok m' ->
  vm_vars m' = V0 /\ NoDup (dkeys (vm_map m')) /\ (forall n, In n (dkeys (vm_map m')) -> exists v, In v vars /\ u_name v = n) /\
  (forall k a, In (k, a) d -> a <> GNone -> exists v, In v vars /\ names k v) /\
  (forall v, In v vars -> match last_said d (u_name v) with
     | Some a => exists x, preprocess_arg float false v a = Ok x /\ label_ok v x = Ok tt /\ dget (vm_map m') (u_name v) = Some x
     | None => dget (vm_map m') (u_name v) = dget (vm_map m) (u_name v) end).
Proof.
  induction d as [|[k a] d IH]; intros m m' O Hv Hn Hk E.
  - cbn [preprocess] in E. injection E as <-. split; [exact Hv|]. split; [exact Hn|]. split; [exact Hk|]. split; [intros k a []|]. intros v I. reflexivity.
  - assert (C : a = GNone /\ preprocess float vars false false m d = Ok m' \/ a <> GNone /\ exists v x, key_var vars k = Some v /\ preprocess_arg float false v a = Ok x /\ label_ok v x = Ok tt /\ preprocess float vars false false (vm_set_var u_name m v x) d = Ok m').
    { clear - E. destruct a; [left; split; [reflexivity|exact E]|..]; (right; split; [discriminate|]; cbn [preprocess] in E; destruct (key_var vars k) as [v|]; [|discriminate]; exists v; match type of E with bind (preprocess_arg _ _ _ ?a) _ = _ => destruct (preprocess_arg float false v a) as [x|] end; [|discriminate]; cbn [bind] in E; destruct (label_ok v x) as [[]|] eqn:L; [|discriminate]; cbn [bind] in E; exists x; auto). }
    destruct C as [[-> E']|(Na & v & x & Kv & Px & Lx & E')].
    + destruct (IH m m' (own_tail _ _ O) Hv Hn Hk E') as (A & B & C & D & F). split; [exact A|]. split; [exact B|]. split; [exact C|]. split.
      * intros k' a' [Q|I] N; [injection Q as <- <-; contradiction|eauto].
      * intros v I. specialize (F v I). cbn [last_said]. destruct (last_said d (u_name v)); exact F.
    + apply (key_var_own k a d v O) in Kv. destruct Kv as [Iv Nk].
      assert (Vs : vm_vars (vm_set_var u_name m v x) = V0) by (unfold vm_set_var; cbn [vm_vars]; rewrite Hv, (V0_get v Iv); reflexivity).
      destruct (IH (vm_set_var u_name m v x) m' (own_tail _ _ O) Vs) as (A & B & C & D & F); [apply dset_nodup, Hn| |exact E'|].
      { cbn [vm_set_var vm_map]. intros n I. rewrite dkeys_dset in I. destruct (existsb _ _); [auto|]. apply in_app_iff in I. destruct I as [I|[<-|[]]]; eauto. }
      split; [exact A|]. split; [exact B|]. split; [exact C|]. split.
      * intros k' a' [Q|I] N; [injection Q as <- <-; eauto|eauto].
      * intros w I. specialize (F w I). cbn [last_said]. destruct (last_said d (u_name w)) as [b|]; [exact F|]. pose proof (names_key k a d w O I) as NK. pose proof (names_key k a d v O Iv) as NK'. apply NK' in Nk. rewrite Nk.
        cbn [vm_set_var vm_map] in F. rewrite dget_dset in F. destruct (String.eqb_spec (u_name v) (u_name w)) as [Q|Q].
        -- apply same_name in Q; [|exact Iv|exact I]. subst w. rewrite String.eqb_refl in F. destruct a; [contradiction|..]; exists x; auto.
        -- destruct (String.eqb_spec (u_name w) (u_name v)) as [Q'|_]; [congruence|]. destruct a; exact F.
Qed.
Lemma pre_ok : forall d m, own d -> (forall k a, In (k, a) d -> a = GNone \/ exists v x, In v vars /\ names k v /\ preprocess_arg float false v a = Ok x /\ label_ok v x = Ok tt) ->
  exists m', preprocess float vars false false m d = Ok m'.
Proof.
  induction d as [|[k a] d IH]; intros m O H; [cbn; eauto|]. destruct (H k a (or_introl eq_refl)) as [->|(v & x & I & N & Px & Lx)].
  - cbn [preprocess]. apply IH; [exact (own_tail _ _ O)|]. intros; apply H; right; assumption.
  - assert (Kv : key_var vars k = Some v) by (apply (key_var_own k a d v O); auto).
    assert (X : forall m', preprocess float vars false false m ((k, a) :: d) = (match a with GNone => preprocess float vars false false m d | _ => preprocess float vars false false (vm_set_var u_name m v x) d end) /\ m' = m' :> vmap uvar lval).
    { intro m'. split; [|reflexivity]. destruct a; [reflexivity|..]; cbn [preprocess]; rewrite Kv, Px; cbn [bind]; rewrite Lx; reflexivity. }
    rewrite (proj1 (X m)). assert (Hd : forall k a, In (k, a) d -> a = GNone \/ exists v x, In v vars /\ names k v /\ preprocess_arg float false v a = Ok x /\ label_ok v x = Ok tt) by (intros; apply H; right; assumption).
    destruct a; apply IH; try exact Hd; exact (own_tail _ _ O).
Qed.

Lemma position_nth : forall vs i n v, NoDup (map u_name vs) -> nth_error vs i = Some v -> position n vs v = Some (n + i)%nat.
Proof.
  induction vs as [|w vs IH]; intros i n v N E; [destruct i; discriminate|]. cbn [position]. destruct i as [|i]; cbn [nth_error] in E.
  - injection E as ->. rewrite String.eqb_refl, Nat.eqb_refl. f_equal. lia.
  - cbn [map] in N. inversion N as [|? ? Nw Nv]; subst. destruct (String.eqb_spec (u_name w) (u_name v)) as [Q|_].
    + exfalso. apply Nw. rewrite Q. apply in_map. apply nth_error_In in E. exact E.
    + rewrite (IH i (S n) v Nv E). f_equal. lia.
Qed.

Definition turned (kv : string * lval) (is : nat * mset) : Prop :=
  exists v, nth_error vars (fst is) = Some v /\ u_name v = fst kv /\ to_value v (snd kv) = Ok (VSet (snd is)).
Lemma finish_spec : forall m q, vm_vars m = V0 -> (forall n, In n (dkeys (vm_map m)) -> exists v, In v vars /\ u_name v = n) ->
  (bind (value_assignment m) (in_tree vars) = Ok q <-> Forall2 turned (vm_map m) q).
Proof.
  intros [vs l] q Hv Hk. cbn [vm_vars vm_map] in *. subst vs. unfold value_assignment, vm_items, in_tree. cbn [vm_map].
  set (f1 := fun kv : string * lval => do w <- var_named (VM V0 l) (fst kv); Ok (w, snd kv)).
  set (f2 := fun wv : uvar * lval => do y <- to_value (fst wv) (snd wv); Ok (fst wv, y)).
  assert (X : forall l', (forall n, In n (dkeys l') -> exists v, In v vars /\ u_name v = n) ->
    Forall2 (fun a c => exists b, f1 a = Ok b /\ (exists y, f2 b = Ok y /\ (match position 0 vars (fst y) with None => Err ValueError | Some i => match snd y with VSet s => Ok (i, s) | VNum _ => Err AttributeError end end) = Ok c)) l' q <-> Forall2 turned l' q).
  { intros l' Hl'. split; intro H.
    - revert Hl'. induction H as [|kv is l' q (b & F1 & y & F2 & F3) H IH]; intro Hl'; constructor; [|apply IH; intros; apply Hl'; right; assumption].
      unfold f1, var_named in F1. cbn [vm_vars] in F1. destruct (dget V0 (fst kv)) as [v|] eqn:G; [|discriminate]. cbn [bind] in F1. injection F1 as <-. apply V0_some in G. destruct G as [Iv Nv].
      unfold f2 in F2. cbn [fst snd] in F2. destruct (to_value v (snd kv)) as [z|] eqn:T; [|discriminate]. cbn [bind] in F2. injection F2 as <-. cbn [fst snd] in F3.
      apply In_nth_error in Iv. destruct Iv as [i Ei]. rewrite (position_nth vars i 0 v VN Ei) in F3. destruct z as [z|s]; [discriminate|]. injection F3 as <-. exists v. cbn [fst snd plus]. auto.
    - revert Hl'. induction H as [|kv is l' q (v & Ei & Nv & T) H IH]; intro Hl'; constructor; [|apply IH; intros; apply Hl'; right; assumption].
      exists (v, snd kv). split; [unfold f1, var_named; cbn [vm_vars]; rewrite <- Nv, (V0_get v (nth_error_In _ _ Ei)); reflexivity|]. exists (v, VSet (snd is)). split; [unfold f2; cbn [fst snd]; rewrite T; reflexivity|].
      cbn [fst snd]. rewrite (position_nth vars (fst is) 0 v VN Ei). cbn [plus]. destruct is; reflexivity. }
  rewrite <- (X l Hk). clear X Hk. clearbody f1 f2. split.
  - intro E. destruct (mapM f1 l) as [r1|] eqn:M1; [|discriminate]. cbn [bind] in E. destruct (mapM f2 r1) as [r2|] eqn:M2; [|discriminate]. cbn [bind] in E.
    pose proof (proj1 (mapM_two _ _ _ f2 _ r1 q) (ex_intro _ r2 (conj M2 E))) as H2.
    apply mapM_Forall2 in M1. clear - M1 H2. revert q H2. induction M1 as [|a b l r1 F M IH]; intros q H2; inversion H2; subst; constructor; eauto.
  - intro H. assert (Y : exists r1, mapM f1 l = Ok r1 /\ Forall2 (fun b c => exists y, f2 b = Ok y /\ (match position 0 vars (fst y) with None => Err ValueError | Some i => match snd y with VSet s => Ok (i, s) | VNum _ => Err AttributeError end end) = Ok c) r1 q).
    { clear - H. induction H as [|kv is l' q (b & F1 & Y) H (r1 & M & IH)]; [exists []; split; [reflexivity|constructor]|]. exists (b :: r1). cbn [mapM]. rewrite F1. cbn [bind]. rewrite M. split; [reflexivity|]. constructor; assumption. }
    destruct Y as (r1 & M1 & H2). rewrite M1. cbn [bind]. apply mapM_two in H2. destruct H2 as (r2 & M2 & E). rewrite M2. cbn [bind]. exact E.
Qed.
End Dict.
