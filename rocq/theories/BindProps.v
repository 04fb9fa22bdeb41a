(** C85: queries written by a user mean what they say. *)
Require Import String ZArith QArith Lqa Bool List Arith Lia.
Require Import Verif.Base Verif.FloatLine Verif.NumBase Verif.VarModel Verif.VarProofs Verif.IntervalModel Verif.IntervalSpec Verif.IntervalProofs Verif.DiscreteModel Verif.DiscreteProofs
  Verif.TreeModel Verif.TreeSpec Verif.TreeInfer Verif.TreeDiscrete Verif.NumericTree Verif.MixedTree Verif.MixedProps Verif.InfBounds Verif.BindModel Verif.BindSpec Verif.BindProofs.
Import ListNotations.
Open Scope Z_scope.

Section Dicts.
Variables (float : Z -> Z) (vars : list uvar) (d : list (key uvar * arg)).
Hypothesis VO : vars_ok vars.
Hypothesis DO : dict_ok vars d.
Let VN := vs_names _ VO.
Let OD : own vars d := dk_own _ _ DO.

Lemma said_in : forall v a, said d v a -> exists k, In (k, a) d.
Proof. clear. intros v a (d1 & k & d2 & -> & _). exists k. apply in_app_iff. right. left. reflexivity. Qed.
Lemma entry_built : forall k a, In (k, a) d -> built a.
Proof. intros k a I. destruct a; cbn [built]; try exact Logic.I; [exact (dk_cs _ _ DO k c I)|intros c; exact (dk_rs _ _ DO k l c I)]. Qed.
Lemma said_built : forall v a, said d v a -> built a.
Proof. intros v a S. destruct (said_in v a S) as [k I]. exact (entry_built k a I). Qed.

Definition described (v : uvar) (a : arg) (s : mset) : Prop :=
  sayable float v a /\ (if is_num v then exists n, s = inl n else exists is, s = inr is) /\ forall l, told_apart float v a l -> (holds v s l <-> describes float v a l).
Lemma arg_described : forall v a s, In v vars -> built a -> arg_set float v a = Ok s -> described v a s.
Proof.
  intros v a s Iv B E. unfold described. destruct (is_num v) eqn:K.
  - unfold is_num in K. destruct (u_kind v) as [sc bl| |] eqn:U; try discriminate. destruct (vs_num _ VO v sc bl Iv U) as [S ->]. exact (numeric_arg_set float v sc a s U S B E).
  - destruct (discrete_arg_set float v a s K (fun ls U => vs_sym _ VO v ls Iv U) E) as (A & C & D). split; [exact A|]. split; [exact C|]. intros l _. apply D.
Qed.

(** The sets of an accepted query, as [arg_set] of what has been said. *)
Lemma accepted : forall q, query_of float vars d = Ok q ->
  NoDup (map fst q) /\ (forall k a, In (k, a) d -> a <> GNone -> exists v, In v vars /\ names k v) /\
  (forall i s, In (i, s) q -> exists v a, nth_error vars i = Some v /\ said d v a /\ arg_set float v a = Ok s) /\
  (forall i v a, nth_error vars i = Some v -> said d v a -> exists s, In (i, s) q).
Proof.
  intros q E. unfold query_of in E. destruct (bind_query float vars false d) as [m|] eqn:B; [|discriminate]. cbn [bind] in E.
  unfold bind_query in B. destruct (pre_spec float vars VN d (VM (vm_declare u_name vars) []) m OD eq_refl (NoDup_nil _) (fun n (I : In n []) => match I with end) B) as (Mv & Mn & Mk & Known & Last).
  apply (finish_spec vars VN m q Mv Mk) in E.
  assert (Each : forall kv is, In (kv, is) (combine (vm_map m) q) -> turned vars kv is).
  { clear - E. induction E; cbn [combine]; [intros kv is []|]. intros kv is [Q|I]; [injection Q as <- <-; assumption|auto]. }
  split; [|split; [exact Known|split]].
  - clear - E Mn VN. induction E as [|kv is l q (v & Ei & Nv & _) E IH]; [constructor|]. cbn [dkeys map] in *. inversion Mn as [|? ? Hn Hm]; subst. constructor; [|auto].
    intro I. apply Hn. apply in_map_iff in I. destruct I as ([i s] & Qi & Is). cbn [fst] in Qi. subst i. clear - E Is Ei Nv VN.
    induction E as [|kv' is' l q (w & Ew & Nw & _) E IH]; [destruct Is|]. destruct Is as [->|Is]; [|right; auto]. left. cbn [fst] in Ew. congruence.
  - intros i s I. assert (X : exists kv, In kv (vm_map m) /\ turned vars kv (i, s)).
    { clear - E I. induction E as [|kv is l q T E IH]; [destruct I|]. destruct I as [->|I]; [exists kv; split; [left; reflexivity|exact T]|]. destruct (IH I) as (kv' & I' & T'). exists kv'. split; [right; exact I'|exact T']. }
    destruct X as (kv & Ikv & (v & Ev & Nv & T)). cbn [fst snd] in *. pose proof (nth_error_In _ _ Ev) as Iv. specialize (Last v Iv).
    assert (G : dget (vm_map m) (u_name v) = Some (snd kv)) by (rewrite Nv; apply dget_nodup; [exact Mn|destruct kv; exact Ikv]).
    destruct (last_said d (u_name v)) as [a|] eqn:L; [|cbn [vm_map dget] in Last; congruence].
    destruct Last as (x & Px & Lx & Gx). assert (x = snd kv) as -> by congruence. exists v, a. split; [exact Ev|]. split; [apply (said_last vars VN d v a OD Iv), L|].
    unfold arg_set. rewrite Px. cbn [bind]. rewrite Lx. cbn [bind]. rewrite T. reflexivity.
  - intros i v a Ev S. pose proof (nth_error_In _ _ Ev) as Iv. apply (said_last vars VN d v a OD Iv) in S. specialize (Last v Iv). rewrite S in Last. destruct Last as (x & _ & _ & G).
    apply dget_some_in in G. clear - E G Ev VN. induction E as [|kv is l q (w & Ew & Nw & _) E IH]; [destruct G|]. destruct G as [->|G]; [|destruct (IH G) as [s I]; exists s; right; exact I].
    destruct is as [j s]. cbn [fst] in *. exists s. left. f_equal. assert (Q : nth_error (map u_name vars) j = nth_error (map u_name vars) i) by (rewrite !nth_error_map, Ew, Ev; cbn; congruence).
    apply (proj1 (NoDup_nth_error _) VN); [apply nth_error_Some; rewrite nth_error_map, Ew; discriminate|exact Q].
Qed.
End Dicts.

(** An accepted query means what it says. *)
Theorem C85_meaning : forall float vars d q, vars_ok vars -> dict_ok vars d -> query_of float vars d = Ok q -> meaning float vars d q.
Proof.
  intros float vars d q VO DO E. destruct (accepted float vars d VO DO q E) as (N & _ & A & B). split; [exact N|]. split.
  - intros i s I. destruct (A i s I) as (v & a & Ev & _). apply nth_error_Some. congruence.
  - intros i v Ev. split.
    + split; [intros [s I]; destruct (A i s I) as (w & a & Ew & S & _); exists a; congruence|intros [a S]; exact (B i v a Ev S)].
    + intros s a I S. destruct (A i s I) as (w & b & Ew & Sb & Es). assert (w = v) as -> by congruence.
      assert (b = a) as ->. { pose proof (nth_error_In _ _ Ev) as Iv. apply (said_last vars (vs_names _ VO) d v _ (dk_own _ _ DO) Iv) in S, Sb. congruence. }
      apply (arg_described float vars VO v a s (nth_error_In _ _ Ev) (said_built vars d DO v a S) Es).
Qed.
Print Assumptions C85_meaning.

(** Whatever can be said of the variables of the tree is accepted ... *)
Theorem C85_accepted : forall float vars d, vars_ok vars -> dict_ok vars d ->
  (forall k a, In (k, a) d -> a = GNone \/ exists v, In v vars /\ names k v /\ sayable float v a) -> exists q, query_of float vars d = Ok q.
Proof.
  intros float vars d VO DO H. pose proof (vs_names _ VO) as VN. pose proof (dk_own _ _ DO) as OD.
  assert (Set_of : forall k a v, In (k, a) d -> In v vars -> sayable float v a -> exists x s, preprocess_arg float false v a = Ok x /\ label_ok v x = Ok tt /\ to_value v x = Ok (VSet s)).
  { intros k a v I Iv S. destruct (sayable_set float v a (fun sc bl U => vs_num _ VO v sc bl Iv U) (entry_built vars d DO k a I) S) as [s E]. unfold arg_set in E.
    destruct (preprocess_arg float false v a) as [x|]; [|discriminate]. cbn [bind] in E. destruct (label_ok v x) as [[]|] eqn:L; [|discriminate]. cbn [bind] in E. destruct (to_value v x) as [[y|y]|] eqn:T; cbn [bind] in E; try discriminate. exists x, y. auto. }
  destruct (pre_ok float vars VN d (VM (vm_declare u_name vars) []) OD) as [m B].
  { intros k a I. destruct (H k a I) as [->|(v & Iv & Nk & S)]; [left; reflexivity|right]. destruct (Set_of k a v I Iv S) as (x & s & Px & Lx & _). exists v, x. auto. }
  destruct (pre_spec float vars VN d (VM (vm_declare u_name vars) []) m OD eq_refl (NoDup_nil _) (fun n (I : In n []) => match I with end) B) as (Mv & Mn & Mk & _ & Last).
  unfold query_of, bind_query. rewrite B. cbn [bind].
  assert (T : forall kv, In kv (vm_map m) -> exists is, turned vars kv is).
  { intros [n x] I. destruct (Mk n) as (v & Iv & Nv); [apply in_map_iff; exists (n, x); auto|]. specialize (Last v Iv).
    assert (G : dget (vm_map m) (u_name v) = Some x) by (rewrite Nv; apply dget_nodup; assumption).
    destruct (last_said d (u_name v)) as [a|] eqn:L; [|cbn [vm_map dget] in Last; congruence]. destruct Last as (y & Px & Lx & Gx). assert (y = x) as -> by congruence.
    apply (said_last vars VN d v a OD Iv) in L. destruct (said_in d v a L) as [k Ik].
    assert (S : sayable float v a).
    { destruct L as (d1 & k1 & d2 & -> & Nk & Na & _). destruct (H k1 a) as [->|(w & Iw & Nw & S)]; [apply in_app_iff; right; left; reflexivity|contradiction|].
      assert (w = v); [|subst; exact S]. apply (same_name vars VN); [assumption..|]. destruct Nk as [->| ->], Nw as [Q|Q]; congruence. }
    destruct (Set_of k a v Ik Iv S) as (y & s & Py & _ & T). assert (y = x) as -> by congruence. apply In_nth_error in Iv. destruct Iv as [i Ei]. exists (i, s), v. cbn [fst snd]. auto. }
  assert (Q : exists q, Forall2 (turned vars) (vm_map m) q).
  { clear - T. induction (vm_map m) as [|kv l IH]; [exists []; constructor|]. destruct (T kv (or_introl eq_refl)) as [is Ti]. destruct IH as [q Hq]; [intros; apply T; right; assumption|]. exists (is :: q). constructor; assumption. }
  destruct Q as [q Hq]. exists q. apply (finish_spec vars VN m q Mv Mk), Hq.
Qed.
Print Assumptions C85_accepted.

(** ... and nothing else: the keys must be known and what is said in the end must be
    sayable. *)
Theorem C85_rejected : forall float vars d q, vars_ok vars -> dict_ok vars d -> query_of float vars d = Ok q ->
  (forall k a, In (k, a) d -> a <> GNone -> exists v, In v vars /\ names k v) /\ forall v a, In v vars -> said d v a -> sayable float v a.
Proof.
  intros float vars d q VO DO E. destruct (accepted float vars d VO DO q E) as (_ & K & A & B). split; [exact K|]. intros v a Iv S. pose proof Iv as Iv'. apply In_nth_error in Iv. destruct Iv as [i Ei].
  destruct (B i v a Ei S) as [s I]. destruct (A i s I) as (w & b & Ew & Sb & Es). assert (w = v) as -> by congruence.
  assert (b = a) as ->. { apply (said_last vars (vs_names _ VO) d v _ (dk_own _ _ DO) Iv') in S, Sb. congruence. }
  apply (arg_described float vars VO v a s Iv' (said_built vars d DO v a S) Es).
Qed.
Print Assumptions C85_rejected.

(** ** Inference *)

(** The domain of a variable of the tree. *)
Definition of_kind (v : uvar) (k : kind) : Prop :=
  match u_kind v, k with
  | UNum _ _, None => True
  | USym labels, Some D => length labels = n_values D
  | UInt lo hi, Some D => Z.to_nat (hi + 1 - lo) = n_values D
  | _, _ => False
  end.
(** Numbers, lists and intervals with bounds in the grid; no unions of intervals. *)
Definition on_line (float : Z -> Z) (G : grid) (v : uvar) (a : arg) : Prop :=
  match u_kind v with
  | UNum scale _ => (forall b, mentions float a b -> G (scale b) /\ moderate (scale b)) /\
      match a with GUnion _ => False | GInterval c => lower c < ORD_INF /\ - ORD_INF < upper c | _ => forall b, mentions float a b -> finite b end
  | _ => True
  end.

Lemma labels_lt : forall labels l s, NoDup labels -> mapM (label_value labels) l = Ok s -> forall n, In n s -> (n < length labels)%nat.
Proof.
  intros labels l s N M. apply mapM_Forall2 in M. induction M as [|e n l s E M IH]; [intros n []|]. destruct e as [a|]; [|discriminate E]. cbn [label_value] in E. apply (l2v1_spec atom atom_eqb atom_eqb_eq) in E; [|exact N].
  intros m [<-|I]; [apply nth_error_Some; congruence|auto].
Qed.
Lemma arg_suits : forall float vars G v k a s, vars_ok vars -> gridded G -> In v vars -> of_kind v k -> built a -> on_line float G v a -> arg_set float v a = Ok s -> suits G k (mopn s).
Proof.
  intros float vars G v k a s VO GG Iv K B O E. pose proof (vs_num _ VO v) as Hn. pose proof (vs_sym _ VO v) as Hs. unfold of_kind in K. unfold on_line in O. unfold arg_set, preprocess_arg, label_ok, to_value in E.
  destruct (u_kind v) as [sc bl|labels|lo hi] eqn:U; destruct k as [D|]; try contradiction.
  - destruct (Hn sc bl Iv eq_refl) as [S ->]. destruct O as [O1 O2]. destruct (g_inf G GG) as [G1 G2]. destruct (sc_inf _ S) as [S1 S2].
    assert (Near : forall x y l r c', (forall b, b = x \/ b = y -> G (sc b) /\ moderate (sc b)) -> x <= y -> x < ORD_INF -> - ORD_INF < y -> scale_interval sc (CS x y l r) = Ok c' -> suits G None (mopn (inl (NC c')))).
    { clear - S S1 S2. intros x y l r c' H L X Y E. rewrite scaled_ok in E by assumption. injection E as <-. cbn [lower upper left right mopn suits].
      destruct (H x (or_introl eq_refl)) as [Gx Mx]. destruct (H y (or_intror eq_refl)) as [Gy My]. pose proof (sc_mono _ S x y L).
      assert (sc x < ORD_INF) by (destruct (Z.le_gt_cases x (- ORD_INF)) as [K|K]; [pose proof (sc_mono _ S _ _ K); pose proof ord_facts; lia|apply (sc_fin _ S x); split; assumption]).
      assert (- ORD_INF < sc y) by (destruct (Z.le_gt_cases ORD_INF y) as [K|K]; [pose proof (sc_mono _ S _ _ K); pose proof ord_facts; lia|apply (sc_fin _ S y); split; assumption]).
      unfold on_grid, opn, wf. cbn [lower upper left right]. split; [|right; split; assumption].
      split; [assumption|]. split; [assumption|]. split; [assumption|]. split; [assumption|]. split; [assumption|]. split; intro Q; rewrite Q; rewrite Z.eqb_refl; reflexivity. }
    destruct a as [|n|l| |l|c|l|b]; cbn [numeric_arg] in E; try discriminate E; [| | |contradiction].
    + destruct (number float n) as [x|] eqn:N; [|discriminate]. apply number_is in N. unfold mk_cs in E at 1. rewrite Z.ltb_irrefl in E. cbn [bind] in E. destruct (scale_interval sc (CS x x INC INC)) as [c'|] eqn:Sc; [|discriminate]. cbn [bind] in E. injection E as <-.
      cbn [mentions] in *. destruct (O2 x N). apply (Near x x INC INC c'); [|lia|assumption|assumption|exact Sc]. intros b [->| ->]; apply O1; exact N.
    + destruct l as [|lo [|hi [|? ?]]]; cbn [list2interval] in E; try discriminate E.
      destruct (bound_of float (- ORD_INF) lo) as [x|] eqn:Bl; [|discriminate]. destruct (bound_of float ORD_INF hi) as [y|] eqn:Bh; [|discriminate].
      cbn [bind] in E. unfold mk_cs in E at 1. destruct (Z.ltb_spec y x) as [|L]; [discriminate|]. cbn [bind] in E. destruct (scale_interval sc (CS x y INC INC)) as [c'|] eqn:Sc; [|discriminate]. cbn [bind] in E. injection E as <-.
      apply bound_is in Bl, Bh. cbn [mentions] in *.
      assert (Mi : moderate (- ORD_INF) /\ moderate ORD_INF) by (unfold moderate; pose proof ord_facts; split; right; lia).
      assert (X : (G (sc x) /\ moderate (sc x)) /\ x < ORD_INF). { destruct lo as [n|]; cbn [limit] in Bl; [assert (Mx : exists m, In (Some m) [Some n; hi] /\ is_number float m x) by (exists n; split; [left; reflexivity|exact Bl]); split; [exact (O1 x Mx)|apply (O2 x Mx)]|]. subst x. rewrite S1. pose proof ord_facts. split; [split; [exact G1|apply Mi]|lia]. }
      assert (Y : (G (sc y) /\ moderate (sc y)) /\ - ORD_INF < y). { destruct hi as [n|]; cbn [limit] in Bh; [assert (My : exists m, In (Some m) [lo; Some n] /\ is_number float m y) by (exists n; split; [right; left; reflexivity|exact Bh]); split; [exact (O1 y My)|apply (O2 y My)]|]. subst y. rewrite S2. pose proof ord_facts. split; [split; [exact G2|apply Mi]|lia]. }
      eapply Near; [|exact L|apply X|apply Y|exact Sc]. intros b [->| ->]; [apply X|apply Y].
    + cbn [bind] in E. destruct (scale_interval sc c) as [c'|] eqn:Sc; [|discriminate]. cbn [bind] in E. injection E as <-. cbn [built] in B. cbn [mentions] in O1. destruct c as [x y l r]. cbn [lower upper] in *. eapply Near; [exact O1|exact B|apply O2|apply O2|exact Sc].
  - destruct (discrete_arg false a) as [[x|x|l]|]; try discriminate E. cbn [bind] in E. destruct (forallb (is_label labels) l); [|discriminate]. cbn [bind] in E. destruct (mapM (label_value (label_list (USym labels))) l) as [is|] eqn:M; [|discriminate]. cbn [bind] in E. injection E as <-.
    cbn [mopn suits]. intros n I. rewrite <- K. exact (labels_lt labels l is (Hs labels Iv eq_refl) M n I).
  - destruct (discrete_arg true a) as [[x|x|l]|]; try discriminate E. cbn [bind] in E. destruct (mapM (label_value (label_list (UInt lo hi))) l) as [is|] eqn:M; [|discriminate]. cbn [bind] in E. injection E as <-.
    cbn [mopn suits]. intros n I. rewrite <- K. cbn [label_list] in M. assert (Q : (n < length (map PInt (Zrange_to lo hi)))%nat); [|rewrite map_length in Q; unfold Zrange_to in Q; rewrite map_length, seq_length in Q; exact Q].
    refine (labels_lt _ l is _ M n I). apply FinFun.Injective_map_NoDup; [intros x y H; injection H as <-; reflexivity|apply range_nodup].
Qed.

Lemma holds_mopn : forall v s l, holds v (mopn s) l <-> holds v s l.
Proof.
  intros v s l. unfold holds. destruct (u_kind v); [|destruct s as [[c|r]|is]; cbn [mopn]; (split; [intros (i & n & Q & H)|intros (i & n & Q & H)]; try discriminate Q; exists i, n; auto)..].
  split; intros (x & n & -> & Fx & Q & M).
  - destruct s as [[c|r]|is]; cbn [mopn] in Q; [injection Q as <-; exists x, (NC c)|exists x, n|discriminate]; (split; [reflexivity|]; split; [exact Fx|]; split; [assumption || reflexivity|]); [apply (proj1 (opn_mem c (scale x))); exact M|exact M].
  - subst s. destruct n as [c|r]; cbn [mopn]; [exists x, (NC (opn c))|exists x, (NR r)]; (split; [reflexivity|]; split; [exact Fx|]; split; [reflexivity|]); [apply opn_mem; exact M|exact M].
Qed.

(** The probability of a query given evidence, both written with labels, is the weight of
    sets meaning what has been written.  Missing: unions of intervals, blurred numbers,
    bounds closer to each other than two doubles. *)
Theorem C85_infer_partial : forall kinds G (J : mtree) float vars, wf_mixed kinds G J -> vars_ok vars -> Forall2 of_kind vars kinds ->
  exists pr : mdist -> mset -> Q,
    (forall v d s, fits (G v) (nth v kinds None) d -> suits (G v) (nth v kinds None) s -> mass d s (pr d s)) /\
    forall query evidence fail, dict_ok vars query -> dict_ok vars evidence ->
      (forall k a, In (k, a) (query ++ evidence) -> a = GNone \/ exists v, In v vars /\ names k v /\ sayable float v a) ->
      (forall i v a, nth_error vars i = Some v -> said query v a \/ said evidence v a -> on_line float (G i) v a) ->
      exists q e, meaning float vars query q /\ meaning float vars evidence e /\
        (forall i s, In (i, s) (q ++ e) -> suits (G i) (nth i kinds None) s) /\
        (weight pr J e == 0 -> infer_dict float vars J query evidence fail = if fail then Err ValueError else Ok None)%Q /\
        (~ weight pr J e == 0 -> exists r, infer_dict float vars J query evidence fail = Ok (Some r) /\ r == weight pr J (q ++ e) / weight pr J e /\ 0 <= r <= 1)%Q.
Proof.
  intros kinds G J float vars W VO FK. destruct (wide_infer kinds G J W) as (pr & A & B). exists pr. split; [exact A|]. intros query evidence fail Dq De Say Line.
  destruct (C85_accepted float vars query VO Dq) as [q Eq]; [intros k a I; apply Say, in_app_iff; auto|].
  destruct (C85_accepted float vars evidence VO De) as [e Ee]; [intros k a I; apply Say, in_app_iff; auto|].
  assert (Len : length vars = length kinds) by (clear - FK; induction FK; cbn; congruence).
  assert (Kv : forall i v, nth_error vars i = Some v -> of_kind v (nth i kinds None)).
  { clear - FK. induction FK as [|v k vars kinds H FK IH]; intros i w E; [destruct i; discriminate|]. destruct i as [|i]; cbn [nth_error nth] in *; [injection E as <-; exact H|exact (IH i w E)]. }
  assert (Good : forall d x, dict_ok vars d -> query_of float vars d = Ok x -> (forall i v a, nth_error vars i = Some v -> said d v a -> on_line float (G i) v a) ->
     wide_mquery kinds G x /\ meaning float vars d (map (fun vs : var * mset => (fst vs, mopn (snd vs))) x)).
  { intros d x Dd E L. destruct (accepted float vars d VO Dd x E) as (N & _ & C & _). pose proof (C85_meaning float vars d x VO Dd E) as (_ & M2 & M3). split; [split; [exact N|]|split; [rewrite map_map; cbn [fst]; exact N|split]].
    - intros i s I. destruct (C i s I) as (v & a & Ev & S & Es). split; [rewrite <- Len; apply nth_error_Some; congruence|].
      apply (arg_suits float vars (G i) v (nth i kinds None) a s VO (mx_grid _ _ _ W i) (nth_error_In _ _ Ev) (Kv i v Ev) (said_built vars d Dd v a S) (L i v a Ev S) Es).
    - intros i s I. apply in_map_iff in I. destruct I as ([j s'] & Q & I). cbn [fst snd] in Q. injection Q as <- <-. exact (M2 j s' I).
    - intros i v Ev. destruct (M3 i v Ev) as [X Y]. split.
      + rewrite <- X. split; intros [s I]; [apply in_map_iff in I; destruct I as ([j s'] & Q & I); cbn [fst snd] in Q; injection Q as <- <-; eauto|].
        exists (mopn s). apply in_map_iff. exists (i, s). auto.
      + intros s a I S l T. apply in_map_iff in I. destruct I as ([j s'] & Q & I). cbn [fst snd] in Q. injection Q as <- <-. rewrite holds_mopn. exact (Y s' a I S l T). }
  destruct (Good query q Dq Eq) as [Wq Mq]; [intros; eapply Line; eauto|]. destruct (Good evidence e De Ee) as [We Me]; [intros; eapply Line; eauto|].
  exists (map (fun vs : var * mset => (fst vs, mopn (snd vs))) q), (map (fun vs : var * mset => (fst vs, mopn (snd vs))) e). split; [exact Mq|]. split; [exact Me|]. split.
  - intros i s I. rewrite <- map_app in I. apply in_map_iff in I. destruct I as ([j s'] & Q & I). cbn [fst snd] in Q. injection Q as <- <-. apply in_app_iff in I. destruct I as [I|I]; [apply (proj2 Wq j s' I)|apply (proj2 We j s' I)].
  - unfold infer_dict. rewrite Eq, Ee. cbn [bind]. exact (B q e fail Wq We).
Qed.
Print Assumptions C85_infer_partial.

(** ** What is not rejected *)

(** A variable of another tree with the name of a variable of this one is taken for it: the
    check that both are the same object comes after the names have been resolved. *)
Theorem C85_foreign_refuted : exists float vars d v a q, vars_ok vars /\ d = [(KVar v, a)] /\ a <> GNone /\ (forall w, In w vars -> u_id w <> u_id v /\ u_kind w <> u_kind v) /\ query_of float vars d = Ok q.
Proof.
  set (w := UVar 0 "x" (USym [PStr "a"; PStr "b"])). set (v := UVar 1 "x" (USym [PStr "b"; PStr "c"])).
  exists (fun z => z), [w], [(KVar v, GAtom (PStr "b"))], v, (GAtom (PStr "b")). eexists. split.
  - constructor; [repeat constructor; intros []|intros u sc bl [<-|[]]; discriminate|intros u ls [<-|[]] E; injection E as <-; repeat constructor; cbn; intuition discriminate].
  - split; [reflexivity|]. split; [discriminate|]. split; [intros u [<-|[]]; split; discriminate|]. vm_compute. reflexivity.
Qed.
Print Assumptions C85_foreign_refuted.

(** [bind] rejects labels which a symbolic variable does not have, but not integers outside
    the domain of an integer variable: those raise an error of inference only. *)
Theorem C85_bind_labels_partial : forall float vars v labels a m, vars_ok vars -> In v vars -> u_kind v = USym labels ->
  bind_query float vars false [(KVar v, a)] = Ok m -> a = GNone \/ sayable float v a.
Proof.
  intros float vars v labels a m VO Iv U E. unfold bind_query in E. cbn [preprocess key_var] in E.
  assert (X : a = GNone \/ exists x, preprocess_arg float false v a = Ok x /\ label_ok v x = Ok tt).
  { destruct a; [left; reflexivity|..]; (right; match type of E with bind (preprocess_arg _ _ _ ?a) _ = _ => destruct (preprocess_arg float false v a) as [x|] end; [|discriminate]; cbn [bind] in E; exists x; split; [reflexivity|]; destruct (label_ok v x) as [[]|]; [reflexivity|discriminate]). }
  destruct X as [->|(x & P & L)]; [left; reflexivity|right]. unfold preprocess_arg in P. unfold label_ok in L. unfold sayable. rewrite U in *.
  assert (Gen : forall l, x = LSet l -> forall e, In e l -> exists b, e = Some b /\ In b labels).
  { intros l -> e I. destruct (forallb (is_label labels) l) eqn:F; [|discriminate]. apply is_label_in. rewrite forallb_forall in F. apply F, I. }
  destruct a as [|b|es| |es|c|es|[]]; cbn [discrete_arg] in P; try discriminate P; injection P as <-; specialize (Gen _ eq_refl); try (destruct (Gen None (or_introl eq_refl)) as (b & Q & _); discriminate Q).
  - destruct (Gen (Some b) (or_introl eq_refl)) as (b' & Q & I). injection Q as <-. exact I.
  - exact Gen.
  - intros b I. destruct (Gen (Some b) (in_map Some _ _ I)) as (b' & Q & I'). injection Q as <-. exact I'.
Qed.
Print Assumptions C85_bind_labels_partial.
Theorem C85_bind_integers_refuted : exists float vars v a m, vars_ok vars /\ In v vars /\ bind_query float vars false [(KVar v, a)] = Ok m /\ ~ sayable float v a /\ query_of float vars [(KVar v, a)] = Err ValueError.
Proof.
  set (v := UVar 0 "n" (UInt 1 6)). exists (fun z => z), [v], v, (GAtom (PInt 7)). eexists. split.
  - constructor; [repeat constructor; intros []|intros u sc bl [<-|[]]; discriminate|intros u ls [<-|[]]; discriminate].
  - split; [left; reflexivity|]. split; [reflexivity|]. split; [|vm_compute; reflexivity]. intros (z & E & L). injection E as <-. lia.
Qed.
Print Assumptions C85_bind_integers_refuted.

(** ** Examples *)
Definition ex_x : uvar := UVar 0 "x" (UNum (fun x => x) None).
Definition ex_s : uvar := UVar 1 "s" (USym [PStr "a"; PStr "b"]).
Definition ex_query : list (key uvar * arg) := [(KName "s", GNone); (KName "x", GAtom (PFlt 3)); (KVar ex_x, GList [Some (PFlt (1022 * 2 ^ 52)); None])].
Definition ex_evidence : list (key uvar * arg) := [(KName "s", GAtom (PStr "a"))].
Lemma ex_vars_ok : vars_ok [ex_x; ex_s].
Proof.
  constructor.
  - cbn. repeat constructor; cbn; intuition discriminate.
  - intros v sc bl [<-|[<-|[]]] E; [|discriminate]. injection E as <- <-. split; [|reflexivity]. constructor; auto.
  - intros v ls [<-|[<-|[]]] E; [discriminate|]. injection E as <-. repeat constructor; cbn; intuition discriminate.
Qed.
Example C85_example : vars_ok [ex_x; ex_s] /\ dict_ok [ex_x; ex_s] ex_query /\ dict_ok [ex_x; ex_s] ex_evidence /\ Forall2 of_kind [ex_x; ex_s] mx_kinds /\ wf_mixed mx_kinds mx_G mx /\
  (forall k a, In (k, a) (ex_query ++ ex_evidence) -> a = GNone \/ exists v, In v [ex_x; ex_s] /\ names k v /\ sayable (fun z => z) v a) /\
  said ex_query ex_x (GList [Some (PFlt (1022 * 2 ^ 52)); None]) /\ on_line (fun z => z) (mx_G 0%nat) ex_x (GList [Some (PFlt (1022 * 2 ^ 52)); None]) /\
  exists r, infer_dict (fun z => z) [ex_x; ex_s] mx ex_query ex_evidence true = Ok (Some r) /\ (r == 5 # 8)%Q.
Proof.
  split; [exact ex_vars_ok|]. split; [|split; [|split; [|split; [|split; [|split; [|split]]]]]].
  - constructor; [intros v a [E|[E|[E|[]]]]; try discriminate; injection E as <- <-; left; reflexivity|intros k c [E|[E|[E|[]]]]; discriminate|intros k l c [E|[E|[E|[]]]]; discriminate].
  - constructor; [intros v a [E|[]]; discriminate|intros k c [E|[]]; discriminate|intros k l c [E|[]]; discriminate].
  - repeat constructor.
  - exact (fitted_mixed _ _ _ _ _ (proj1 C39_mixed_example)).
  - intros k a [E|[E|[E|[E|[]]]]]; injection E as <- <-; [left; reflexivity|right; exists ex_x; split; [left; reflexivity|]; split; [left; reflexivity|exists 3; right; reflexivity]|right; exists ex_x; split; [left; reflexivity|]; split; [right; reflexivity|]|right; exists ex_s; split; [right; left; reflexivity|]; split; [left; reflexivity|left; reflexivity]].
    exists (Some (PFlt (1022 * 2 ^ 52))), None, (1022 * 2 ^ 52), ORD_INF. split; [reflexivity|]. split; [right; reflexivity|]. split; [reflexivity|]. unfold ORD_INF. lia.
  - exists [(KName "s", GNone); (KName "x", GAtom (PFlt 3))], (KVar ex_x), []. split; [reflexivity|]. split; [right; reflexivity|]. split; [discriminate|intros k a []].
  - split; intros b (n & [E|[E|[]]] & [(z & Q & _)|Q]); try discriminate E; injection E as <-; try discriminate Q; injection Q as <-; unfold mx_G, moderate, finite, ORD_53, ORD_INF; [split; [tauto|left; lia]|lia].
  - eexists. split; [vm_compute; reflexivity|]. vm_compute. reflexivity.
Qed.
