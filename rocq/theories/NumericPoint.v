(** Restricting the distribution of a single point. *)
Require Import ZArith QArith Lqa Bool List Arith Lia.
Require Import Verif.Base Verif.FloatLine Verif.FloatVal Verif.NumBase Verif.IntervalModel Verif.IntervalSpec Verif.IntervalProofs Verif.IntervalExact Verif.IntervalDec
  Verif.FunctionModel Verif.FunctionSpec Verif.FunctionInt Verif.NumericModel Verif.NumericSpec Verif.NumericProb Verif.NumericCut Verif.NumericCrop.
Import ListNotations.
Open Scope Z_scope.

Lemma point_crop : forall x c, Z.abs x < ORD_53 -> wf c -> cs_mem x c -> lowermost c < x -> crop_cdf (dirac x) c = Ok (dirac x).
Proof.
  intros x c M W I Lx. pose proof ord_facts as O. assert (Fx : finite x) by (unfold finite; lia).
  assert (Ne : cs_isempty c = false) by (destruct (cs_isempty c) eqn:E; [exfalso; exact (isempty_sound c E x I)|reflexivity]).
  destruct (ends_of c W Ne) as (AB & HA & HB & HU).
  assert (Bx : x < beyond c /\ x <= uppermost c).
  { destruct I as (_ & _ & I). destruct HB as [(E & EB)|(E & L & EB)]; rewrite E in I; (split; [lia|]); destruct HU as [(_ & ->)|(_ & _ & ->)]; lia. }
  destruct Bx as [Bx Ux].
  assert (LA : - ORD_INF <= lowermost c). { destruct HA as [(_ & L & ->)|[(_ & _ & ->)|(_ & L & ->)]]; lia. }
  assert (UB : beyond c <= ORD_INF). { destruct W as (_ & _ & Mh & _ & Hu & _). destruct HB as [(_ & ->)|(_ & L & ->)]; lia. }
  unfold crop_cdf, dirac at 1 2. cbn [rev app upper lower].
  destruct (Z.ltb_spec (uppermost c) x); [lia|]. destruct (Z.ltb_spec x (lowermost c)); [lia|]. cbn [orb].
  assert (Ep : plf_crop (dirac x) c = Ok [(CS (lowermost c) x INC EXC, FConst 0); (CS x (beyond c) INC EXC, FConst 1)]).
  { assert (K : left c = EXC -> lower c = - ORD_INF \/ lower c + 1 < x) by (intro E; destruct HA as [(E' & _)|[(_ & L & _)|(_ & L & EA)]]; [congruence|left; exact L|right; lia]).
    destruct (inter_piece (- ORD_INF) x c ltac:(lia) ltac:(lia) W Ne) as [X1 Y1]; [intro E; destruct (K E); [left; assumption|right; lia]|].
    destruct (inter_piece x ORD_INF c ltac:(lia) ltac:(lia) W Ne) as [X2 Y2]; [intro E; destruct (K E); [left; assumption|right]|].
    { clear - M O I. destruct I as (_ & I & _). destruct (left c); lia. }
    cbv zeta in X1, Y1, X2, Y2. rewrite Z.eqb_refl in X1, Y1. rewrite (proj2 (Z.eqb_neq x (- ORD_INF))) in X2, Y2 by lia.
    rewrite Z.max_r, Z.min_l in X1, Y1 by lia. rewrite Z.max_l, Z.min_r in X2, Y2 by lia.
    rewrite (proj2 (Z.ltb_lt _ _)) in X1 by lia. rewrite (proj2 (Z.ltb_lt _ _)) in X2 by lia.
    unfold dirac. cbn [plf_crop]. rewrite X1, X2, (Y1 X1), (Y2 X2). reflexivity. }
  unfold dirac in Ep. rewrite Ep. cbn [bind].
  assert (En : cdf_num [(CS (lowermost c) x INC EXC, FConst 0); (CS x (beyond c) INC EXC, FConst 1)] (lowermost (CS (lowermost c) x INC EXC)) = Ok 0%Q).
  { unfold lowermost at 2. cbn [left lower]. unfold cdf_num. cbn [plf_at].
    replace (piece_has (CS (lowermost c) x INC EXC) (lowermost c)) with true; [reflexivity|]. symmetry. unfold piece_has. cbn [lower].
    destruct (Z.eq_dec (lowermost c) (- ORD_INF)) as [E|N]; [rewrite E, Z.eqb_refl; cbn [andb]; rewrite orb_true_r; reflexivity|].
    rewrite (proj2 (piece_mem (lowermost c) x (lowermost c) ltac:(unfold finite; lia))) by lia. reflexivity. }
  rewrite En. cbn [bind].
  assert (Ea : plf_add_fn [(CS (lowermost c) x INC EXC, FConst 0); (CS x (beyond c) INC EXC, FConst 1)] (FConst (- 0)) = Ok [(CS (lowermost c) x INC EXC, FConst 0); (CS x (beyond c) INC EXC, FConst 1)]) by reflexivity.
  rewrite Ea. cbn [bind].
  assert (Es : plf_simplify [(CS (lowermost c) x INC EXC, FConst 0); (CS x (beyond c) INC EXC, FConst 1)] = Ok [(CS (lowermost c) x INC EXC, FConst 0); (CS x (beyond c) INC EXC, FConst 1)]).
  { unfold plf_simplify. rewrite (cmp_sort_run _ (lowermost c) (beyond c)).
    - cbn [bind simp_loop]. rewrite !half_not_empty by lia. destruct (cs_contiguous _ _); reflexivity.
    - cbn [run upper]. repeat split; lia.
    - intros k f [E|[E|[]]] L; injection E as <- <-; cbn [upper] in *; [|lia]. destruct (minus_eps_mod x (or_introl M)) as [[_ ->]|[E _]]; lia. }
  rewrite Es. cbn [bind rev app lower]. unfold mk_cs. destruct (Z.ltb_spec (lowermost c) (- ORD_INF)); [lia|]. cbn [bind].
  replace (eval_num (FConst 1) (dval (uppermost c))) with (Ok 1%Q) by reflexivity. cbn [bind].
  assert (Ec : crop_pieces 1 [(CS (lowermost c) x INC EXC, FConst 0); (CS x (beyond c) INC EXC, FConst 1)] (FConst 0) [(CS (- ORD_INF) (lowermost c) EXC EXC, FConst 0)] =
    Ok [(CS x (beyond c) INC EXC, FConst 1); (CS (- ORD_INF) x EXC EXC, FConst 0)]).
  { cbn [crop_pieces fn_eq bind]. change (Qz (0 - 0) && true) with true. unfold set_upper. cbn [lower upper left right bind eval_num]. 
    unfold mk_cs. destruct (Z.ltb_spec (beyond c) x); [lia|]. reflexivity. }
  rewrite Ec. cbn [bind]. unfold crop_close. replace (fn_eq (FConst 1) (FConst 1)) with (Ok true) by reflexivity. cbn [bind lower upper left right set_lower rev app filter fst].
  unfold set_lower. cbn [upper left right]. rewrite half_not_empty by lia. cbn [negb].
  assert (E1 : cs_isempty (CS (- ORD_INF) x EXC EXC) = false).
  { destruct (cs_isempty (CS (- ORD_INF) x EXC EXC)) eqn:E; [|reflexivity]. exfalso. apply (isempty_sound _ E (x - 1)). unfold cs_mem, finite. cbn [lower upper left right]. lia. }
  rewrite E1. reflexivity.
Qed.
(** A closed interval which begins at the point. *)
Lemma start_crop : forall x c, Z.abs x < ORD_53 -> wf c -> left c = INC -> lower c = x -> cs_mem x c -> plf_crop (dirac x) c = Ok [(CS x (beyond c) INC EXC, FConst 1)].
Proof.
  intros x c M W El Lx I. pose proof ord_facts as O.
  assert (Ne : cs_isempty c = false) by (destruct (cs_isempty c) eqn:E; [exfalso; exact (isempty_sound c E x I)|reflexivity]).
  destruct (ends_of c W Ne) as (AB & HA & HB & HU). assert (EA : lowermost c = x) by (destruct HA as [(_ & _ & E)|[(E & _)|(E & _)]]; congruence).
  assert (UB : beyond c <= ORD_INF). { destruct W as (_ & _ & Mh & _ & Hu & _). destruct HB as [(_ & ->)|(_ & L & ->)]; lia. }
  destruct (inter_piece x ORD_INF c ltac:(lia) ltac:(lia) W Ne) as [X2 Y2]; [congruence|].
  destruct (inter_piece (- ORD_INF) x c ltac:(lia) ltac:(lia) W Ne) as [X1 _]; [congruence|].
  cbv zeta in X1, X2, Y2. rewrite Z.eqb_refl in X1. rewrite (proj2 (Z.eqb_neq x (- ORD_INF))) in X2, Y2 by lia.
  rewrite Z.max_l, Z.min_r in X2, Y2 by lia. rewrite (proj2 (Z.ltb_lt _ _)) in X2 by lia. rewrite Z.max_r, Z.min_l, EA, Z.ltb_irrefl in X1 by lia.
  unfold dirac. cbn [plf_crop]. rewrite X1, X2, (Y2 X2). reflexivity.
Qed.
Lemma point_pieces : forall x b, Z.abs x < ORD_53 -> x < b <= ORD_INF ->
  let p := [(CS x b INC EXC, FConst 1)] in
  cdf_num p (lowermost (CS x b INC EXC)) = Ok 1%Q /\ plf_add_fn p (FConst (- (1))) = Ok [(CS x b INC EXC, FConst 0)] /\
  plf_simplify [(CS x b INC EXC, FConst 0)] = Ok [(CS x b INC EXC, FConst 0)] /\
  crop_pieces 0 [(CS x b INC EXC, FConst 0)] (FConst 0) [(CS (- ORD_INF) x EXC EXC, FConst 0)] = Ok [(CS (- ORD_INF) b EXC EXC, FConst 0)].
Proof.
  intros x b M B p. pose proof ord_facts as O. split; [|split; [reflexivity|split; [|reflexivity]]].
  - unfold lowermost. cbn [left lower]. unfold p, cdf_num. cbn [plf_at]. unfold piece_has. rewrite (proj2 (piece_mem x b x ltac:(unfold finite; lia))) by lia. reflexivity.
  - unfold plf_simplify. cbn [cmp_sort bind cmp_insert simp_loop]. rewrite half_not_empty by lia. reflexivity.
Qed.
Lemma point_moved : forall x c, Z.abs x < ORD_53 -> wf c -> left c = INC -> lower c = x -> cs_mem x c -> upper c < ORD_INF -> crop_cdf (dirac x) c = Ok (dirac (uppermost c)).
Proof.
  intros x c M W El Lx I Fu. pose proof ord_facts as O. pose proof (start_crop x c M W El Lx I) as Ep.
  assert (Ne : cs_isempty c = false) by (destruct (cs_isempty c) eqn:E; [exfalso; exact (isempty_sound c E x I)|reflexivity]).
  destruct (ends_of c W Ne) as (AB & HA & HB & HU). assert (EA : lowermost c = x) by (destruct HA as [(_ & _ & E)|[(E & _)|(E & _)]]; congruence).
  destruct HU as [(_ & EU)|(E & _)]; [|lia].
  assert (UB : beyond c < ORD_INF /\ minus_eps (beyond c) = beyond c - 1).
  { pose proof W as (Hle & Ml & Mh & Hli & Hui & Hfl & Hfr). unfold moderate in Mh. destruct HB as [(_ & EB)|(_ & L & EB)]; rewrite EB.
    - destruct (minus_eps_mod (upper c) Mh) as [(_ & E)|(E & _)]; lia.
    - rewrite minus_plus by lia. lia. }
  destruct UB as (UB & Me). unfold crop_cdf, dirac at 1 2. cbn [rev app upper lower].
  destruct (Z.ltb_spec (uppermost c) x); [lia|]. destruct (Z.ltb_spec x (lowermost c)); [lia|]. cbn [orb].
  unfold dirac in Ep. rewrite Ep. cbn [bind]. destruct (point_pieces x (beyond c) M ltac:(lia)) as (E1 & E2 & E3 & E4). rewrite E1. cbn [bind]. rewrite E2. cbn [bind]. rewrite E3. cbn [bind rev app lower].
  unfold mk_cs at 1. destruct (Z.ltb_spec x (- ORD_INF)); [lia|]. cbn [bind]. replace (eval_num (FConst 0) (dval (uppermost c))) with (Ok 0%Q) by reflexivity. cbn [bind]. rewrite E4. cbn [bind].
  unfold crop_close. replace (fn_eq (FConst 0) (FConst 1)) with (Ok false) by reflexivity. cbn [bind]. rewrite EU.
  assert (F1 : finite (beyond c - 1)) by (unfold finite; lia).
  assert (Ec : cs_contains_value (CS (- ORD_INF) (beyond c) EXC EXC) (beyond c - 1) = true) by (apply contains_value_spec; [exact F1|]; unfold cs_mem; cbn [lower upper left right]; unfold finite in *; lia).
  rewrite Ec. unfold set_upper. cbn [lower upper left right]. rewrite Me. unfold mk_cs. destruct (Z.ltb_spec ORD_INF (beyond c - 1)); [lia|]. cbn [bind rev app filter fst].
  rewrite half_not_empty by lia.
  assert (E0 : cs_isempty (CS (- ORD_INF) (beyond c - 1) EXC EXC) = false).
  { destruct (cs_isempty (CS (- ORD_INF) (beyond c - 1) EXC EXC)) eqn:E; [|reflexivity]. exfalso. apply (isempty_sound _ E (x - 1)). unfold cs_mem, finite. cbn [lower upper left right]. lia. }
  rewrite E0. reflexivity.
Qed.
Lemma point_refused : forall x c, Z.abs x < ORD_53 -> wf c -> left c = INC -> lower c = x -> upper c = ORD_INF -> crop_cdf (dirac x) c = Err AssertionError.
Proof.
  intros x c M W El Lx Fu. pose proof ord_facts as O. pose proof W as (Hle & Ml & Mh & Hli & Hui & Hfl & Hfr).
  assert (I : cs_mem x c) by (unfold cs_mem, finite; rewrite El, Lx, Fu; destruct (right c) eqn:Er; [specialize (Hfr Fu); congruence|]; lia).
  pose proof (start_crop x c M W El Lx I) as Ep.
  assert (Ne : cs_isempty c = false) by (destruct (cs_isempty c) eqn:E; [exfalso; exact (isempty_sound c E x I)|reflexivity]).
  destruct (ends_of c W Ne) as (AB & HA & HB & HU). assert (EA : lowermost c = x) by (destruct HA as [(_ & _ & E)|[(E & _)|(E & _)]]; congruence).
  destruct HU as [(L & _)|(_ & EB & EU)]; [lia|]. rewrite EB in Ep.
  unfold crop_cdf, dirac at 1 2. cbn [rev app upper lower].
  destruct (Z.ltb_spec (uppermost c) x); [lia|]. destruct (Z.ltb_spec x (lowermost c)); [lia|]. cbn [orb].
  unfold dirac in Ep. rewrite Ep. cbn [bind]. destruct (point_pieces x ORD_INF M ltac:(lia)) as (E1 & E2 & E3 & E4). rewrite E1. cbn [bind]. rewrite E2. cbn [bind]. rewrite E3. cbn [bind rev app lower].
  unfold mk_cs at 1. destruct (Z.ltb_spec x (- ORD_INF)); [lia|]. cbn [bind]. replace (eval_num (FConst 0) (dval (uppermost c))) with (Ok 0%Q) by reflexivity. cbn [bind]. rewrite E4. cbn [bind].
  unfold crop_close. replace (fn_eq (FConst 0) (FConst 1)) with (Ok false) by reflexivity. cbn [bind]. rewrite EU. reflexivity.
Qed.

