(** The split search, part 1: sorting, the boundaries found by the loop and the
    shape of the rearranged rows. *)
Require Import QArith Qround Lqa ZArith Bool List Arith Lia Permutation.
Require Import Verif.Base Verif.NumBase Verif.SortModel Verif.SortProofs Verif.ImpurityModel.
Import ListNotations.
Open Scope nat_scope.

Lemma nin_in : forall x l, nin x l = true <-> In x l.
Proof.
  intros x l. unfold nin. rewrite existsb_exists. split; [intros (y & I & E); apply Nat.eqb_eq in E; subst; exact I|intro I; exists x; split; [exact I|apply Nat.eqb_refl]].
Qed.

Lemma map_nth_seq : forall A (l : list A) d, map (fun i => nth i l d) (seq 0 (length l)) = l.
Proof.
  intros A l d. induction l as [|x l IH]; [reflexivity|]. cbn [length seq map nth]. f_equal.
  rewrite <- seq_shift, map_map. rewrite <- IH at 2. apply map_ext. intro i. reflexivity.
Qed.

(** Ascending keys. *)
Definition by_key (key : nat -> Z) (rows : list nat) : Prop :=
  forall i j r r', i <= j -> nth_error rows i = Some r -> nth_error rows j = Some r' -> (key r <= key r')%Z.

Lemma nth_error_map_seq : forall A (f : nat -> A) n i x, nth_error (map f (seq 0 n)) i = Some x -> i < n /\ x = f i.
Proof.
  intros A f n i x H. assert (L : i < n). { assert (i < length (map f (seq 0 n))) by (apply nth_error_Some; congruence). rewrite map_length, seq_length in H0. exact H0. }
  split; [exact L|]. rewrite nth_error_map, nth_error_nth' with (d := 0) in H by (rewrite seq_length; exact L). rewrite seq_nth in H by exact L. cbn in H. congruence.
Qed.

Lemma sort_rows_spec : forall key rows, exists rows', sort_rows key rows = Ok rows' /\ Permutation rows rows' /\ by_key key rows'.
Proof.
  intros key rows. unfold sort_rows. set (n := length rows). set (a := Arr (fun i => key (nth i rows 0)) (fun i => nth i rows 0)).
  destruct (sort_spec (2 * Nat.log2 n) a n) as (a' & E & So & Pm & _). rewrite E. cbn [bind]. exists (map (samples a') (seq 0 n)). split; [reflexivity|].
  assert (Hs : map snd (view a 0 n) = rows) by (unfold view; rewrite map_map; apply map_nth_seq).
  assert (Hs' : map snd (view a' 0 n) = map (samples a') (seq 0 n)) by (unfold view; rewrite map_map; reflexivity).
  split; [rewrite <- Hs, <- Hs'; apply Permutation_map; exact Pm|].
  assert (K : forall i, i < n -> Xf a' i = key (samples a' i)).
  { intros i L. assert (I : In (entry a' i) (view a' 0 n)) by (unfold view; apply in_map; apply in_seq; lia).
    apply (Permutation_in _ (Permutation_sym Pm)) in I. unfold view in I. apply in_map_iff in I. destruct I as (j & Ej & _). unfold entry, a in Ej. cbn [Xf samples] in Ej. inversion Ej as [[E1 E2]]. rewrite E2 in *. congruence. }
  intros i j r r' L Ei Ej. apply nth_error_map_seq in Ei. apply nth_error_map_seq in Ej. destruct Ei as [Li ->], Ej as [Lj ->]. rewrite <- !K by assumption. apply So; lia.
Qed.

Lemma by_key_tail : forall key r rows, by_key key (r :: rows) -> by_key key rows.
Proof. intros key r rows B i j a b L Ei Ej. apply (B (S i) (S j)); cbn; try assumption; lia. Qed.
Lemma by_key_head : forall key r rows r', by_key key (r :: rows) -> In r' rows -> (key r <= key r')%Z.
Proof. intros key r rows r' B I. apply In_nth_error in I. destruct I as [j Ej]. apply (B 0 (S j)); cbn; try reflexivity; try assumption; lia. Qed.

(** A downward closed set of keys forms a prefix of the sorted rows. *)
Lemma sorted_split : forall (P : nat -> bool) key rows, by_key key rows ->
  (forall r r', In r rows -> In r' rows -> P r = true -> P r' = false -> (key r < key r')%Z) ->
  rows = filter P rows ++ filter (fun r => negb (P r)) rows.
Proof.
  intros P key rows B H. induction rows as [|r rows IH]; [reflexivity|]. cbn [filter]. destruct (P r) eqn:E; cbn [negb app].
  - f_equal. apply IH; [eapply by_key_tail; exact B|]. intros a b Ia Ib. apply H; right; assumption.
  - assert (No : forall r', In r' rows -> P r' = false).
    { intros r' I. destruct (P r') eqn:E'; [|reflexivity]. exfalso. pose proof (by_key_head _ _ _ _ B I). specialize (H r' r (or_intror I) (or_introl eq_refl) E' E). lia. }
    clear -No. assert (filter P rows = [] /\ filter (fun r => negb (P r)) rows = rows) as [-> ->]; [|reflexivity].
    induction rows as [|a rows IH]; [split; reflexivity|]. cbn [filter]. rewrite (No a (or_introl eq_refl)). cbn [negb]. destruct IH as [-> ->]; [intros; apply No; right; assumption|]. split; reflexivity.
Qed.

Lemma filter_perm : forall A (f : A -> bool) l l', Permutation l l' -> Permutation (filter f l) (filter f l').
Proof.
  intros A f l l' H. induction H as [|x l l' H IH|x y l|l l' l'' H1 IH1 H2 IH2]; cbn [filter].
  - constructor.
  - destruct (f x); [constructor|]; exact IH.
  - destruct (f x), (f y); try reflexivity. constructor.
  - etransitivity; eassumption.
Qed.

Lemma sorted_split_nth : forall (P : nat -> bool) key rows, by_key key rows ->
  (forall r r', In r rows -> In r' rows -> P r = true -> P r' = false -> (key r < key r')%Z) ->
  forall i r, nth_error rows i = Some r -> (i < length (filter P rows) <-> P r = true).
Proof.
  intros P key rows B H i r E. pose proof (sorted_split P key rows B H) as Sp. rewrite Sp in E. split.
  - intro L. rewrite nth_error_app1 in E by exact L. apply nth_error_In in E. apply filter_In in E. apply E.
  - intro Pr. destruct (le_lt_dec (length (filter P rows)) i) as [L|L]; [|exact L]. rewrite nth_error_app2 in E by exact L. apply nth_error_In, filter_In in E. destruct E as [_ E]. rewrite Pr in E. discriminate.
Qed.

Section Shape.
  Variable val : Z -> Q.
  Variable inf : Z -> bool.
  Variable neg1 : Z.
  Variable D : nat -> nat -> Z.
  Variable imp : impurity.

  (** [p] is a position after which the sorted column [var] changes its value, or
      the last position if the feature is symbolic. *)
  Definition boundary (symbolic : bool) (var : nat) (buf : list nat) (p : nat) : Prop :=
    exists r, nth_error buf p = Some r /\
      ((symbolic = true /\ S p = length buf) \/
       exists r', nth_error buf (S p) = Some r' /\ D r var <> D r' var).

  Lemma eval_struct : forall t var symbolic buf, n_samples t = length buf -> 2 <= length buf ->
    forall rest pos st best bp, skipn pos buf = rest -> pos + length rest = length buf -> (symbolic = true \/ S pos < length buf) ->
    forall b q, eval_loop val D imp t var symbolic rest pos st best bp = (b, q) ->
    (b = best /\ q = bp) \/ (exists p g, b = Some g /\ q = Some p /\ pos <= p /\ boundary symbolic var buf p).
  Proof.
    intros t var symbolic buf N Two rest. induction rest as [|r rest IH]; intros pos st best bp Sk Len Hp b q E.
    - cbn in E. inversion E. auto.
    - cbn [length] in Len. assert (Hr : nth_error buf pos = Some r).
      { replace pos with (pos + 0) by lia. rewrite <- (firstn_skipn pos buf), nth_error_app2; rewrite firstn_length, Nat.min_l by lia; [|lia]. replace (pos + 0 - pos) with 0 by lia. rewrite Sk. reflexivity. }
      assert (Sk' : skipn (S pos) buf = rest). { clear -Sk. revert buf Sk. induction pos as [|pos IHp]; intros buf Sk; destruct buf as [|x buf]; try discriminate; [inversion Sk; reflexivity|]. cbn [skipn] in *. apply IHp. exact Sk. }
      assert (Hr' : forall r', nth_error rest 0 = Some r' -> nth_error buf (S pos) = Some r').
      { intros r' H0. rewrite <- (firstn_skipn (S pos) buf), nth_error_app2; rewrite firstn_length, Nat.min_l by lia; [|lia]. rewrite Nat.sub_diag, Sk'. exact H0. }
      cbn [eval_loop] in E. rewrite N in E.
      set (last := if symbolic then Nat.eqb (S pos) (length buf) else Nat.eqb (S (S pos)) (length buf)) in E.
      set (st1 := take val D imp t var r st) in E.
      assert (Step : forall st best' bp' , last = false -> eval_loop val D imp t var symbolic rest (S pos) st best' bp' = (b, q) -> (b = best' /\ q = bp') \/ (exists p g, b = Some g /\ q = Some p /\ pos <= p /\ boundary symbolic var buf p)).
      { intros st' best' bp' La E'. assert (Hp' : symbolic = true \/ S (S pos) < length buf) by (unfold last in La; destruct symbolic; [left; reflexivity|right; apply Nat.eqb_neq in La; destruct Hp; [discriminate|lia]]).
        destruct (IH (S pos) st' best' bp' Sk' ltac:(lia) Hp' b q E') as [H|(p & g & A & B & C & H)]; [left; exact H|right; exists p, g; repeat split; try assumption; lia]. }
      assert (Bd : (negb symbolic || negb last) && match rest with r' :: _ => Z.eqb (D r var) (D r' var) | [] => false end = false -> (rest = [] -> symbolic = true) -> boundary symbolic var buf pos).
      { intros F0 Em. exists r. split; [exact Hr|]. destruct rest as [|r' rest']; [left; split; [apply Em; reflexivity|cbn in Len; lia]|].
        assert (D r var =? D r' var = false)%Z as Ne. { destruct symbolic; unfold last in F0; cbn [negb orb andb] in F0; [|exact F0]. cbn in Len. destruct (Nat.eqb_spec (S pos) (length buf)); [lia|exact F0]. }
        right. exists r'. split; [apply Hr'; reflexivity|]. apply Z.eqb_neq. exact Ne. }
      destruct ((negb symbolic || negb last) && match rest with r' :: _ => Z.eqb (D r var) (D r' var) | [] => false end) eqn:F0.
      + destruct last eqn:La; [inversion E; auto|]. apply (Step st1 best bp eq_refl E).
      + set (g := if Qltb _ _ || Qltb _ _ then None else Some _) in E. cbn zeta in E. fold g in E.
        set (st2 := if symbolic then _ else _) in E. clearbody st2. clearbody g.
        assert (Here : better g best = true -> (rest = [] -> symbolic = true) -> exists p g', g = Some g' /\ (if better g best then Some pos else bp) = Some p /\ pos <= p /\ boundary symbolic var buf p).
        { intros Be Em. rewrite Be. destruct g as [g'|]; [|discriminate]. exists pos, g'. repeat split; auto. }
        destruct (better g best) eqn:Be.
        * destruct last eqn:La.
          -- injection E as <- <-. right. destruct (Here eq_refl) as (p & g' & H1 & H2 & H3 & H4).
             { intros ->. destruct symbolic; [reflexivity|]. unfold last in La. cbn in Len. apply Nat.eqb_eq in La. lia. }
             exists p, g'. auto.
          -- destruct (Step st2 g (Some pos) eq_refl E) as [[-> ->]|H]; [|right; exact H]. right.
             destruct (Here eq_refl) as (p & g' & H1 & H2 & H3 & H4); [|exists p, g'; auto].
             intros ->. cbn in Len. destruct Hp; [assumption|lia].
        * destruct last eqn:La; [inversion E; auto|apply (Step st2 best bp eq_refl E)].
  Qed.

  Lemma constant_loop_not : forall col rows prev, constant_loop inf D col rows prev = NotConstant ->
    match prev with
    | Some w => exists r, In r rows /\ D r col <> w
    | None => exists r r', In r rows /\ In r' rows /\ D r col <> D r' col
    end.
  Proof.
    intros col rows. induction rows as [|r rows IH]; intros prev H; [discriminate|]. cbn [constant_loop] in H. destruct (inf (D r col)); [discriminate|]. destruct prev as [w|].
    - destruct (Z.eqb_spec w (D r col)) as [E|N].
      + apply IH in H. destruct H as (x & I & Nx). exists x. split; [right; exact I|exact Nx].
      + exists r. split; [left; reflexivity|congruence].
    - apply IH in H. destruct H as (x & I & Nx). exists x, r. split; [right; exact I|]. split; [left; reflexivity|exact Nx].
  Qed.
  Lemma not_constant : forall col rows, col_is_constant inf D col rows = NotConstant ->
    2 <= length rows /\ exists r r', In r rows /\ In r' rows /\ D r col <> D r' col.
  Proof.
    intros col rows. unfold col_is_constant. destruct (Nat.leb_spec (length rows) 1); [discriminate|]. intro H0. split; [lia|]. apply (constant_loop_not _ _ None). exact H0.
  Qed.
  Lemma constant_loop_const : forall col rows prev, (forall r, In r rows -> inf (D r col) = false) -> constant_loop inf D col rows prev <> NotConstant ->
    (forall r, In r rows -> match prev with Some w => D r col = w | None => True end) /\ forall r r', In r rows -> In r' rows -> D r col = D r' col.
  Proof.
    intros col rows. induction rows as [|r rows IH]; intros prev Fi H; [split; [intros r []|intros r r' []]|]. cbn [constant_loop] in H. rewrite (Fi r (or_introl eq_refl)) in H.
    assert (Fi' : forall r, In r rows -> inf (D r col) = false) by (intros; apply Fi; right; assumption). destruct prev as [w|].
    - destruct (Z.eqb_spec w (D r col)) as [E|N]; [|contradiction]. destruct (IH (Some w) Fi' H) as [A B]. split.
      + intros x [<-|I]; [congruence|apply A; exact I].
      + intros x y [<-|I] [<-|I']; try reflexivity; [specialize (A y I')|specialize (A x I)|apply B; assumption]; congruence.
    - destruct (IH (Some (D r col)) Fi' H) as [A B]. split; [intros; exact I|]. intros x y [<-|Ix] [<-|Iy]; try reflexivity; [symmetry; apply A; exact Iy|apply A; exact Ix|apply B; assumption].
  Qed.
  Lemma constant_same : forall col rows, (forall r, In r rows -> inf (D r col) = false) -> col_is_constant inf D col rows <> NotConstant ->
    forall r r', In r rows -> In r' rows -> D r col = D r' col.
  Proof.
    intros col rows Fi. unfold col_is_constant. destruct (Nat.leb_spec (length rows) 1) as [L|L]; [|intro H0; apply (constant_loop_const col rows None Fi H0)].
    intros _ r r' I I'. destruct rows as [|a [|b rows]]; cbn in L; [contradiction| |lia]. destruct I as [<-|[]], I' as [<-|[]]. reflexivity.
  Qed.

  (** What one feature contributes. *)
  Lemma evaluate_shape : forall t var symbolic rows buffer, Permutation rows buffer -> n_samples t = length rows ->
    exists g q buf, evaluate_variable val inf D imp t var symbolic rows buffer = Ok (g, q, buf) /\ Permutation rows buf /\ by_key (fun r => D r var) buf /\
      (g = None \/ exists p x, g = Some x /\ q = Some p /\ boundary symbolic var buf p /\ col_is_constant inf D var rows = NotConstant).
  Proof.
    intros t var symbolic rows buffer Pm N. unfold evaluate_variable. destruct (sort_rows_spec (fun r => D r var) buffer) as (buf & -> & Pb & B). cbn [bind].
    assert (Pr : Permutation rows buf) by (etransitivity; eassumption). pose proof (Permutation_length Pr) as Ln.
    destruct (col_is_constant inf D var rows) eqn:C; [exists None, None, buf; auto|exists None, None, buf; auto|].
    destruct (not_constant _ _ C) as [Two _]. destruct (eval_loop val D imp t var symbolic buf 0 (initial t) None None) as [g q] eqn:E. exists g, q, buf. repeat split; try assumption.
    destruct (eval_struct t var symbolic buf ltac:(lia) ltac:(lia) buf 0 (initial t) None None eq_refl eq_refl ltac:(right; lia) g q E) as [[-> ->]|(p & x & -> & -> & _ & Bd)]; [left; reflexivity|].
    right. exists p, x. auto.
  Qed.

  Definition features : list nat := numeric_features imp ++ symbolic_features imp.

  (** The state of the search: nothing found, or a boundary in the column of the
      best variable, by which the slice is sorted. *)
  Definition found (rows : list nat) (s : split) : Prop :=
    Permutation rows (slice s) /\
    (gain s = None /\ slice s = rows \/ exists g var p, gain s = Some g /\ best_var s = Some var /\ best_split_pos s = Some p /\ In var features /\
      by_key (fun r => D r var) (slice s) /\ boundary (nin var (symbolic_features imp)) var (slice s) p /\ exists r r', In r rows /\ In r' rows /\ D r var <> D r' var).

  Lemma features_shape : forall t rows vars buffer s, n_samples t = length rows -> incl vars features -> Permutation rows buffer -> found rows s ->
    exists s', features_loop val inf D imp t vars buffer s = Ok s' /\ found rows s'.
  Proof.
    intros t rows vars. induction vars as [|var vars IH]; intros buffer s N Inc Pb Fs; [exists s; split; [reflexivity|exact Fs]|].
    cbn [features_loop]. pose proof Fs as [Ps Cs].
    destruct (evaluate_shape t var (nin var (symbolic_features imp)) (slice s) buffer) as (g & q & buf & E & Pf & Bf & H).
    { rewrite <- Ps. exact Pb. } { rewrite <- (Permutation_length Ps). exact N. }
    rewrite E. cbn [bind fst snd]. assert (Pr : Permutation rows buf) by (etransitivity; eassumption).
    apply IH; [exact N|intros x I; apply Inc; right; exact I|exact Pr|].
    destruct (better g (gain s)) eqn:Be; [|exact Fs]. destruct H as [->|(p & x & -> & -> & Bd & C)]; [discriminate|].
    split; [exact Pr|]. right. exists x, var, p. cbn [gain best_var best_split_pos slice]. repeat split; try assumption; [apply Inc; left; reflexivity|].
    destruct (not_constant _ _ C) as (_ & r & r' & I & I' & Nr). exists r, r'. split; [apply (Permutation_in r (Permutation_sym Ps) I)|]. split; [apply (Permutation_in r' (Permutation_sym Ps) I')|exact Nr].
  Qed.

  (** Contract of the split search used by the learning algorithm. *)
  Definition splits_rows (var p : nat) (rows : list nat) : Prop :=
    S p < length rows /\
    if nin var (symbolic_features imp)
    then exists r0, nth_error rows p = Some r0 /\ forall i r, nth_error rows i = Some r -> (i <= p <-> D r var = D r0 var)
    else exists a b, nth_error rows p = Some a /\ nth_error rows (S p) = Some b /\ (D a var < D b var)%Z /\
         forall i r, nth_error rows i = Some r -> (i <= p -> (D r var <= D a var)%Z) /\ (p < i -> (D b var <= D r var)%Z).

  Theorem best_split_shape : forall rows, (forall r v, In r rows -> In v (symbolic_features imp) -> (neg1 < D r v)%Z) ->
    exists s, compute_best_split val inf neg1 D imp rows = Ok s /\ Permutation rows (slice s) /\
      forall g, gain s = Some g -> exists var p, best_var s = Some var /\ best_split_pos s = Some p /\ In var features /\ splits_rows var p (slice s).
  Proof.
    intros rows Neg. unfold compute_best_split.
    destruct (features_shape (block_totals val D imp rows) rows features rows (Split None None None rows) eq_refl (incl_refl _) (Permutation_refl _)) as (s & E & Ps & Cs).
    { split; [reflexivity|]. left. split; reflexivity. }
    unfold features in E. rewrite E. cbn [bind]. destruct Cs as [[G Sl]|(g & var & p & G & V & Po & Iv & B & Bd & Diff)].
    - rewrite G. exists s. split; [reflexivity|]. split; [exact Ps|]. intros g Eg. congruence.
    - rewrite G, V, Po. destruct Bd as (r & Er & Bd). pose proof (Permutation_length Ps) as Ln. destruct (nin var (symbolic_features imp)) eqn:Sy.
      + rewrite Er. unfold move_best_values_to_front. set (key := fun r0 : nat => if (D r0 var =? D r var)%Z then neg1 else D r0 var).
        destruct (sort_rows_spec key (slice s)) as (rows' & E' & P' & B'). rewrite E'. cbn [bind fst snd].
        set (Pv := fun r0 : nat => (D r0 var =? D r var)%Z). assert (Ls : length (filter Pv (slice s)) = length (filter Pv rows')) by (apply Permutation_length, filter_perm, P').
        assert (Ir : In r (slice s)) by (eapply nth_error_In; exact Er).
        assert (Pos : length (filter Pv (slice s)) <> 0). { intro Z0. apply length_zero_iff_nil in Z0. assert (In r []) as []. rewrite <- Z0. apply filter_In. split; [exact Ir|apply Z.eqb_refl]. }
        fold Pv. destruct (length (filter Pv (slice s))) as [|k] eqn:Hk; [contradiction|].
        eexists. split; [reflexivity|]. cbn [slice gain best_var best_split_pos]. split; [etransitivity; [exact Ps|exact P']|]. intros g' _. exists var, k. split; [reflexivity|]. split; [reflexivity|]. split; [exact Iv|].
        assert (Nth : forall i r0, nth_error rows' i = Some r0 -> (i < S k <-> Pv r0 = true)).
        { rewrite Ls. apply sorted_split_nth with (key := key); [exact B'|]. intros a b Ia Ib Pa Pb. unfold key, Pv in *. rewrite Pa, Pb. apply Neg; [|apply nin_in; exact Sy].
          apply (Permutation_in b (Permutation_sym Ps)). apply (Permutation_in b (Permutation_sym P')). exact Ib. }
        assert (Lt : S k < length rows').
        { rewrite <- (Permutation_length P'). destruct Diff as (x & y & Ix & Iy & Nxy).
          assert (exists z, In z (slice s) /\ Pv z = false) as (z & Iz & Fz).
          { destruct (Pv x) eqn:Px; [|exists x; split; [apply (Permutation_in x Ps Ix)|exact Px]]. exists y. split; [apply (Permutation_in y Ps Iy)|]. unfold Pv in *. apply Z.eqb_neq. apply Z.eqb_eq in Px. congruence. }
          rewrite <- Hk. clear -Iz Fz. induction (slice s) as [|a l IH]; [contradiction|]. cbn [filter length]. destruct Iz as [->|Iz].
          - rewrite Fz. clear. induction l as [|b l IH]; cbn [filter length]; [lia|]. destruct (Pv b); cbn [length]; lia.
          - specialize (IH Iz). destruct (Pv a); cbn [length]; lia. }
        split; [exact Lt|]. cbn [slice]. assert (exists r0, nth_error rows' k = Some r0) as [r0 E0]. { destruct (nth_error rows' k) eqn:E0; [eauto|]. apply nth_error_None in E0. lia. }
        rewrite Sy. exists r0. split; [exact E0|]. pose proof (proj1 (Nth k r0 E0) ltac:(lia)) as P0. unfold Pv in *. apply Z.eqb_eq in P0. rewrite P0.
        intros i r1 E1. rewrite <- Z.eqb_eq, <- (Nth i r1 E1). lia.
      + exists s. split; [reflexivity|]. split; [exact Ps|]. intros g' _. exists var, p. split; [exact V|]. split; [exact Po|]. split; [exact Iv|].
        destruct Bd as [[Bad _]|(r' & Er' & Nr)]; [discriminate|]. split; [apply nth_error_Some; congruence|]. rewrite Sy. exists r, r'. split; [exact Er|]. split; [exact Er'|].
        assert (D r var < D r' var)%Z. { pose proof (B p (S p) r r' ltac:(lia) Er Er') as Le. cbv beta in Le. lia. } split; [assumption|].
        intros i x Ex. split; intro Li; [apply (B i p x r); try assumption|apply (B (S p) i r' x); try assumption; lia].
  Qed.
End Shape.
