(** Proofs about RealSet.  Statements for readers are in RealSetProps. *)
Require Import ZArith Bool List Lia Permutation.
Require Import Verif.Base Verif.FloatLine Verif.IntervalModel Verif.IntervalSpec.
Require Import Verif.IntervalProofs Verif.IntervalDiff.
Import ListNotations.
Open Scope Z_scope.

(** Pieces that occur while a RealSet over the bounds [B] is processed. *)
Definition good (B : list Z) (s : cs) : Prop := wf s /\ (s = EMPTY \/ incl (bounds s) B).

Lemma EMPTY_wf : wf EMPTY.
Proof.
  unfold wf, EMPTY, moderate. cbn [lower upper left right]. pose proof ord_facts.
  repeat match goal with |- _ /\ _ => split end; lia || (intro; reflexivity).
Qed.

Lemma RR_wf : wf RR.
Proof.
  unfold wf, RR, moderate. cbn [lower upper left right]. pose proof ord_facts.
  repeat match goal with |- _ /\ _ => split end; lia || (intro; reflexivity).
Qed.

Lemma EMPTY_empty : cs_isempty EMPTY = true.
Proof. reflexivity. Qed.

Lemma good_EMPTY : forall B, good B EMPTY.
Proof. intro B. split; [exact EMPTY_wf|left; reflexivity]. Qed.

Lemma nonempty_mem : forall s, wf s -> cs_isempty s = false <-> exists x, cs_mem x s.
Proof.
  intros s W. split; [apply nonempty_ex; exact W|].
  intros [x Hx]. destruct (cs_isempty s) eqn:E; [|reflexivity].
  destruct (proj1 (isempty_spec s W) E x Hx).
Qed.

Lemma good_bounds : forall B s x, good B s -> cs_mem x s -> In (lower s) B /\ In (upper s) B.
Proof.
  intros B s x [W [->|I]] M; [destruct (EMPTY_mem x M)|].
  split; apply I; cbn; tauto.
Qed.

Lemma diff_good : forall B a b, spaced B -> good B a -> good B b ->
  exists r, cs_difference a b = Ok r /\ diff_shape a b r /\ Forall (good B) (as_list r).
Proof.
  intros B a b Sp Ga Gb. destruct (Ga) as [Wa _]. destruct (Gb) as [Wb _].
  destruct (difference_cases a b Wa Wb) as [(r & Hr & D)|[_ ((x & Xb) & Sub & (y & Ya & _) & O & _)]].
  - exists r. split; [exact Hr|]. split; [exact D|].
    assert (NE : forall P : Prop, (cs_isempty a = false -> P) -> (cs_isempty a = true -> P) -> P)
      by (destruct (cs_isempty a); auto).
    destruct D as [D|D|c ? ? ? ? ? ? ? ? ?|c ? ? ? ? ? ? ? ? ?|c d ? ? ? ? ? ? ? ? ? ? ? ? ? ? ?]; cbn [as_list].
    + constructor; [assumption|constructor].
    + constructor; [apply good_EMPTY|constructor].
    + pose proof (wf_lo1 a Wa). pose proof (wf_lo1 b Wb).
      assert (Ma : cs_mem (lo1 a) a) by (apply mem_lo1; zl).
      assert (Mb : cs_mem (hi1 b) b) by (apply mem_lo1; zl).
      destruct (good_bounds _ _ _ Ga Ma), (good_bounds _ _ _ Gb Mb).
      constructor; [|constructor]. split; [assumption|]. right. unfold bounds.
      intros z [<-|[<-|[]]]; congruence.
    + pose proof (wf_lo1 a Wa). pose proof (wf_lo1 b Wb).
      assert (Ma : cs_mem (lo1 a) a) by (apply mem_lo1; zl).
      assert (Mb : cs_mem (lo1 b) b) by (apply mem_lo1; zl).
      destruct (good_bounds _ _ _ Ga Ma), (good_bounds _ _ _ Gb Mb).
      constructor; [|constructor]. split; [assumption|]. right. unfold bounds.
      intros z [<-|[<-|[]]]; congruence.
    + pose proof (wf_lo1 a Wa). pose proof (wf_lo1 b Wb).
      assert (Ma : cs_mem (lo1 b) a) by (apply mem_lo1; zl).
      assert (Mb : cs_mem (lo1 b) b) by (apply mem_lo1; zl).
      destruct (good_bounds _ _ _ Ga Ma), (good_bounds _ _ _ Gb Mb).
      constructor; [|constructor; [|constructor]];
        (split; [assumption|]; right; unfold bounds; intros z [<-|[<-|[]]]; congruence).
  - exfalso.
    assert (Eb : cs_isempty b = false) by (apply nonempty_mem; eauto).
    destruct (proj1 (sub_lo1 a b Wa Wb Eb) Sub) as [S1 S2].
    destruct (good_bounds _ _ _ Ga Ya), (good_bounds _ _ _ Gb Xb).
    pose proof (Sp (lower a) (lower b)). pose proof (Sp (upper a) (upper b)).
    unfold lo1, hi1 in *. destruct (left a), (left b), (right a), (right b); intuition lia.
Qed.

(** ** Subtracting one interval from a list *)

Definition subset_cs (a b : cs) : Prop := forall x, cs_mem x a -> cs_mem x b.
Definition pd (l : list cs) : Prop := ForallOrdPairs disjoint l.

Lemma diff_shape_sub : forall a b r p, diff_shape a b r -> In p (as_list r) -> subset_cs p a.
Proof.
  intros a b r p D I x Hx. apply (diff_shape_mem a b r D x).
  destruct r as [c|l]; cbn in *.
  - destruct I as [<-|[]]. exact Hx.
  - exists p. auto.
Qed.

Lemma subtract_all_app : forall h l1 l2,
  subtract_all h (l1 ++ l2) =
  do a <- subtract_all h l1; do b <- subtract_all h l2; Ok (a ++ b).
Proof.
  intros h l1 l2. induction l1 as [|s l1 IH]; cbn.
  - destruct (subtract_all h l2); reflexivity.
  - destruct (cs_difference s h); cbn; [|reflexivity]. rewrite IH.
    destruct (subtract_all h l1); cbn; [|reflexivity].
    destruct (subtract_all h l2); cbn; [|reflexivity]. rewrite app_assoc. reflexivity.
Qed.

Lemma rs_mem_app : forall x l1 l2, rs_mem x (l1 ++ l2) <-> rs_mem x l1 \/ rs_mem x l2.
Proof.
  intros. unfold rs_mem. split.
  - intros (s & I & M). apply in_app_or in I. destruct I; [left|right]; exists s; auto.
  - intros [(s & I & M)|(s & I & M)]; exists s; (split; [apply in_or_app; auto|exact M]).
Qed.

Lemma rs_mem_cons : forall x s l, rs_mem x (s :: l) <-> cs_mem x s \/ rs_mem x l.
Proof.
  intros. unfold rs_mem. cbn. split.
  - intros (t & [<-|I] & M); [left; exact M|right; exists t; auto].
  - intros [M|(t & I & M)]; [exists s; auto|exists t; auto].
Qed.

Lemma rs_mem_nil : forall x, ~ rs_mem x [].
Proof. intros x (s & [] & _). Qed.

Lemma as_list_mem : forall x r, rs_mem x (as_list r) <-> ns_mem x r.
Proof.
  intros x [c|l]; cbn; [|reflexivity].
  rewrite rs_mem_cons. split; [intros [H|H]; [exact H|destruct (rs_mem_nil _ H)]|tauto].
Qed.

Lemma subtract_all_spec : forall B h t, spaced B -> good B h -> Forall (good B) t ->
  exists t', subtract_all h t = Ok t' /\ Forall (good B) t'
    /\ (forall x, rs_mem x t' <-> rs_mem x t /\ ~ cs_mem x h)
    /\ Forall (fun p' => exists p r, In p t /\ cs_difference p h = Ok r /\ diff_shape p h r /\ In p' (as_list r)) t'.
Proof.
  intros B h t Sp Gh. induction 1 as [|p t Gp Gt (t' & E & G' & M & P)].
  - exists []. cbn. split; [reflexivity|]. split; [constructor|]. split; [|constructor].
    intro x. split; [intro H; destruct (rs_mem_nil _ H)|intros [H _]; destruct (rs_mem_nil _ H)].
  - destruct (diff_good B p h Sp Gp Gh) as (r & Er & D & Gr).
    exists (as_list r ++ t'). cbn. rewrite Er. cbn. rewrite E. cbn.
    split; [reflexivity|]. split; [apply Forall_app; auto|]. split.
    + intro x. rewrite rs_mem_app, rs_mem_cons, M, as_list_mem, (diff_shape_mem p h r D). tauto.
    + apply Forall_app. split.
      * apply Forall_forall. intros p' I. exists p, r. cbn. auto.
      * eapply Forall_impl; [|exact P]. intros q (p0 & r0 & I & ?). exists p0, r0. split; [right; exact I|assumption].
Qed.

Lemma diff_shape_pd : forall a b r, diff_shape a b r -> pd (as_list r).
Proof.
  intros a b r [D|D|c ? ? ? ? ? ? ? ? ?|c ? ? ? ? ? ? ? ? ?|c d ? ? ? ? ? ? ? ? ? ? ? ? ? ? ?]; cbn;
    try (apply FOP_cons; [apply Forall_nil|apply FOP_nil]).
  apply FOP_cons; [apply Forall_cons; [|apply Forall_nil]|apply FOP_cons; [apply Forall_nil|apply FOP_nil]].
  intros x Hc Hd. rewrite mem_lo1 in Hc, Hd. lia.
Qed.

Lemma pd_app : forall l1 l2, pd l1 -> pd l2 ->
  (forall a b, In a l1 -> In b l2 -> disjoint a b) -> pd (l1 ++ l2).
Proof.
  intros l1 l2 P1 P2 H. induction P1 as [|a l1 F P1 IH]; cbn; [exact P2|].
  constructor.
  - apply Forall_app. split; [exact F|]. apply Forall_forall. intros b I. apply H; [left; reflexivity|exact I].
  - apply IH. intros; apply H; [right|]; assumption.
Qed.

Lemma subtract_group : forall B h g g', spaced B -> good B h -> Forall (good B) g -> pd g ->
  subtract_all h g = Ok g' ->
  pd g' /\ (length g' <= S (length g))%nat /\
  ((forall p, In p g -> disjoint p h) -> length g' = length g).
Proof.
  intros B h g g' Sp Gh Gg. revert g'. induction Gg as [|p g Gp Gg IH]; intros g' Pd E.
  - injection E as <-. cbn. repeat split; [constructor|lia].
  - cbn in E. inversion Pd as [|? ? Fp Pg]; subst.
    destruct (diff_good B p h Sp Gp Gh) as (r & Er & D & Gr). rewrite Er in E. cbn in E.
    destruct (subtract_all_spec B h g Sp Gh Gg) as (t & Et & Gt & Mt & Pt).
    rewrite Et in E. cbn in E. injection E as <-.
    destruct (IH t Pg Et) as (Pd' & L1 & L2).
    split; [|split].
    + apply pd_app; [eapply diff_shape_pd; eassumption|exact Pd'|].
      intros a b Ia Ib x Xa Xb.
      pose proof (diff_shape_sub _ _ _ _ D Ia x Xa) as Xp.
      rewrite Forall_forall in Pt. destruct (Pt b Ib) as (q & rq & Iq & _ & Dq & Ibq).
      pose proof (diff_shape_sub _ _ _ _ Dq Ibq x Xb) as Xq.
      rewrite Forall_forall in Fp. exact (Fp q Iq x Xp Xq).
    + rewrite app_length. cbn.
      destruct r as [c|lr]; cbn; [lia|]. inversion D; subst.
      assert (length t = length g); [|cbn; lia].
      apply L2. intros q Iq x Xq Xh.
      rewrite Forall_forall in Fp. apply (Fp q Iq x); [|exact Xq].
      rewrite mem_lo1 in Xh |- *. destruct Xh as [F Xh]. split; [exact F|lia].
    + intro Dis. rewrite app_length. cbn.
      rewrite L2 by (intros; apply Dis; right; assumption).
      destruct r as [c|lr]; cbn; [lia|]. inversion D; subst. exfalso.
      destruct Gh as [Wh _]. pose proof (wf_lo1 h Wh).
      apply (Dis p (or_introl eq_refl) (lo1 h)); apply mem_lo1; zl.
Qed.

(** ** The [while tail] loop *)

Fixpoint potential (gs : list (list cs)) : nat :=
  match gs with
  | [] => 0
  | g :: gs' => length g * Nat.pow 2 (length gs') + potential gs'
  end.

Lemma subtract_groups : forall B h gs, spaced B -> good B h ->
  Forall (Forall (good B)) gs -> Forall pd gs ->
  exists gs', subtract_all h (concat gs) = Ok (concat gs')
    /\ Forall (Forall (good B)) gs' /\ Forall pd gs' /\ length gs' = length gs
    /\ (S (potential gs') <= potential gs + Nat.pow 2 (length gs))%nat.
Proof.
  intros B h gs Sp Gh Gg Pg. induction gs as [|g gs IH].
  - exists []. cbn. repeat split; constructor.
  - inversion Gg; subst. inversion Pg; subst.
    destruct IH as (gs' & E & G' & P' & L & Pot); [assumption..|].
    destruct (subtract_all_spec B h g Sp Gh) as (t & Et & Gt & _); [assumption|].
    destruct (subtract_group B h g t Sp Gh) as (Pd & Lt & _); [assumption..|].
    exists (t :: gs'). cbn [concat]. rewrite subtract_all_app, Et, E. cbn [bind].
    split; [reflexivity|]. split; [constructor; assumption|]. split; [constructor; assumption|].
    split; [cbn; congruence|]. cbn [potential length Nat.pow]. rewrite L.
    assert (length t * 2 ^ length gs <= S (length g) * 2 ^ length gs)%nat by (apply Nat.mul_le_mono_r; exact Lt).
    cbn in H. lia.
Qed.

Lemma disjoin_terminates : forall B fuel gs, spaced B ->
  Forall (Forall (good B)) gs -> Forall pd gs -> (potential gs <= fuel)%nat ->
  exists r, disjoin_loop fuel (concat gs) = Ok r.
Proof.
  intros B fuel gs Sp. revert gs. induction fuel as [|n IH]; intros gs G P L.
  - induction gs as [|g gs IHg]; [exists []; reflexivity|].
    inversion G; subst. inversion P; subst. cbn in L. destruct g as [|h g].
    + apply IHg; [assumption..|lia].
    + exfalso. cbn in L. pose proof (Nat.pow_nonzero 2 (length gs) ltac:(lia)). lia.
  - induction gs as [|g gs IHg]; [exists []; reflexivity|].
    inversion G as [|? ? Gg Ggs]; subst. inversion P as [|? ? Pg Pgs]; subst. destruct g as [|h g].
    + apply IHg; [assumption..|]. cbn in L. lia.
    + cbn [concat app disjoin_loop].
      inversion Gg as [|? ? Gh Gg']; subst. inversion Pg as [|? ? Fh Pg']; subst.
      destruct (subtract_all_spec B h g Sp Gh Gg') as (t & Et & Gt & _).
      destruct (subtract_group B h g t Sp Gh Gg' Pg' Et) as (Pt & _ & Lt).
      destruct (subtract_groups B h gs Sp Gh Ggs Pgs) as (gs' & E & G' & P' & L' & Pot).
      rewrite subtract_all_app, Et, E. cbn [bind].
      destruct (IH (t :: gs')) as [r Hr].
      * constructor; assumption.
      * constructor; assumption.
      * cbn [potential]. rewrite L', Lt.
        -- cbn [potential length] in L. cbn in L. lia.
        -- intros p Ip x Xp Xh. rewrite Forall_forall in Fh. exact (Fh p Ip x Xh Xp).
      * cbn [concat] in Hr. rewrite Hr. eexists; reflexivity.
Qed.

Lemma disjoin_spec : forall B fuel l r, spaced B -> Forall (good B) l ->
  disjoin_loop fuel l = Ok r ->
  Forall (good B) r /\ Forall (fun s => cs_isempty s = false) r /\ pd r
  /\ (forall x, rs_mem x r <-> rs_mem x l).
Proof.
  intros B fuel. induction fuel as [|n IH]; intros l r Sp G E.
  - destruct l; cbn in E; [|discriminate]. injection E as <-. repeat split; try constructor; auto.
  - destruct l as [|h t]; cbn in E.
    + injection E as <-. repeat split; try constructor; auto.
    + inversion G as [|? ? Gh Gt]; subst.
      destruct (subtract_all_spec B h t Sp Gh Gt) as (t' & Et & Gt' & Mt & _).
      rewrite Et in E. cbn in E.
      destruct (disjoin_loop n t') as [rest|] eqn:Er; cbn in E; [|discriminate]. injection E as <-.
      destruct (IH t' rest Sp Gt' Er) as (Gr & Nr & Pr & Mr).
      destruct (cs_isempty h) eqn:Eh; cbn [negb].
      * repeat split; try assumption; intro H.
        -- apply rs_mem_cons. right. apply Mr, Mt in H. tauto.
        -- destruct Gh as [Wh _]. pose proof (proj1 (isempty_spec h Wh) Eh x).
           apply Mr, Mt. apply rs_mem_cons in H. tauto.
      * split; [constructor; assumption|]. split; [constructor; assumption|]. split.
        -- constructor; [|exact Pr]. apply Forall_forall. intros p Ip x Xh Xp.
           assert (rs_mem x rest) by (exists p; auto). apply Mr, Mt in H. tauto.
        -- intro x. rewrite !rs_mem_cons, Mr, Mt.
           destruct (cs_contains_value h x) eqn:C.
           ++ assert (finite x -> cs_mem x h) by (intro F; apply contains_value_spec; assumption).
              split; [tauto|]. intros [Hh|Ht]; [tauto|]. left. apply H. destruct Ht as (s & _ & [F _]). exact F.
           ++ assert (~ cs_mem x h) by (intro Hh; pose proof Hh as [F _]; apply contains_value_spec in Hh; [congruence|exact F]).
              tauto.
Qed.

(** ** Stable sorting *)

Section Sort.
  Context {A : Type} (key : A -> Z) (D R : A -> A -> Prop).
  Hypothesis Dsym : forall a b, D a b -> D b a.

  Definition sle (a b : A) : Prop := key a <= key b /\ D a b /\ (key a = key b -> R a b).

  Lemma insert_perm : forall x l, Permutation (x :: l) (insert_by key x l).
  Proof.
    intros x l. induction l as [|y l IH]; cbn; [reflexivity|].
    destruct (key x <=? key y); [reflexivity|].
    rewrite perm_swap. constructor. exact IH.
  Qed.

  Lemma sort_perm : forall l, Permutation l (sort_by key l).
  Proof.
    induction l as [|x l IH]; cbn; [reflexivity|].
    rewrite <- insert_perm. constructor. exact IH.
  Qed.

  Lemma insert_FOP : forall x l, ForallOrdPairs sle l -> Forall (D x) l -> Forall (R x) l ->
    ForallOrdPairs sle (insert_by key x l).
  Proof.
    intros x l P Dx Rx. induction P as [|y l F P IH]; cbn.
    - constructor; constructor.
    - inversion Dx; subst. inversion Rx; subst.
      destruct (Z.leb_spec (key x) (key y)).
      + constructor; [|constructor; assumption]. constructor.
        * repeat split; auto.
        * rewrite Forall_forall in *. intros z Iz. destruct (F z Iz) as (Le & _ & _).
          repeat split; [lia|auto..].
      + constructor; [|apply IH; assumption].
        eapply Permutation_Forall; [apply insert_perm|]. constructor; [|assumption].
        repeat split; [lia|auto|lia].
  Qed.

  Lemma sort_FOP : forall l, ForallOrdPairs D l -> ForallOrdPairs R l ->
    ForallOrdPairs sle (sort_by key l).
  Proof.
    induction l as [|x l IH]; intros PD PR; cbn; [constructor|].
    inversion PD; subst. inversion PR; subst.
    apply insert_FOP; [apply IH; assumption|..];
      (eapply Permutation_Forall; [apply sort_perm|assumption]).
  Qed.
End Sort.

Lemma FOP_impl : forall {A} (P Q : A -> A -> Prop) l, ForallOrdPairs P l ->
  (forall a b, In a l -> In b l -> P a b -> Q a b) -> ForallOrdPairs Q l.
Proof.
  intros A P Q l F. induction F as [|a l Fa F IH]; intro H; constructor.
  - rewrite Forall_forall in *. intros b Ib. apply H; cbn; auto.
  - apply IH. intros; apply H; cbn; auto.
Qed.

(** A degenerate interval [[u,u]] standing before an interval that ends in [u]. *)
Definition degenerate_first (a b : cs) : Prop := lower a = upper a /\ upper a = upper b.


Lemma good_spaced : forall B a b, spaced B -> good B a -> good B b ->
  cs_isempty a = false -> cs_isempty b = false -> spaced (bounds a ++ bounds b).
Proof.
  intros B a b Sp Ga Gb Ea Eb x y Ix Iy. destruct (Ga) as [Wa [->|Ia]]; [discriminate|].
  destruct (Gb) as [Wb [->|Ib]]; [discriminate|].
  apply in_app_or in Ix, Iy. apply Sp; destruct Ix, Iy; auto.
Qed.

Lemma order_before : forall B a b, spaced B -> good B a -> good B b ->
  cs_isempty a = false -> cs_isempty b = false ->
  sle upper disjoint (fun a b => ~ degenerate_first a b) a b -> hi1 a < lo1 b.
Proof.
  intros B a b Sp Ga Gb Ea Eb (Le & Dis & Deg).
  pose proof (spaced_bounds a b (good_spaced B a b Sp Ga Gb Ea Eb)) as (_ & _ & _ & _ & S5 & _).
  destruct Ga as [Wa _], Gb as [Wb _].
  apply isempty_lo1_f in Ea; [|assumption]. apply isempty_lo1_f in Eb; [|assumption].
  pose proof (wf_lo1 a Wa). pose proof (wf_lo1 b Wb).
  destruct (Z.lt_ge_cases (hi1 a) (lo1 b)); [assumption|exfalso].
  assert (hi1 b < lo1 a).
  { destruct (Z.lt_ge_cases (hi1 b) (lo1 a)); [assumption|exfalso].
    clear S5 Le Deg. apply (Dis (Z.max (lo1 a) (lo1 b))); apply mem_lo1; zl. }
  clear Dis.
  destruct (Z.eq_dec (upper a) (upper b)) as [E|E].
  - assert (ND : lower a <> upper a) by (intro; apply (Deg E); split; assumption). clear Deg.
    unfold lo1, hi1 in *. destruct (left a), (right a), (right b); lia.
  - clear Deg. unfold hi1 in *. destruct (right a), (right b); lia.
Qed.

Lemma contiguous_before : forall a b, wf a -> wf b -> lo1 a <= hi1 a -> hi1 a < lo1 b -> lo1 b <= hi1 b ->
  cs_contiguous a b = true -> upper a = lower b /\ lo1 b = hi1 a + 1.
Proof.
  intros a b Wa Wb Na Lt Nb. unfold cs_contiguous.
  destruct Wa as (La & _), Wb as (Lb & _).
  unf2 a b. unfold lo1, hi1 in *. cbn [lower upper left right] in *.
  destruct l, r, l0, r0; cbn -[ORD_INF] in *; zb; cbn; intros; try discriminate; lia.
Qed.

Lemma not_contiguous_gap : forall a b, spaced (bounds a ++ bounds b) -> hi1 a < lo1 b ->
  cs_contiguous a b = false -> hi1 a + 1 < lo1 b.
Proof.
  intros a b Sp Lt. pose proof (spaced_bounds a b Sp) as (S1 & S2 & S3 & S4 & S5 & S6). clear Sp.
  unfold cs_contiguous. unf2 a b. unfold lo1, hi1 in *. cbn [lower upper left right] in *.
  clear S1 S2 S4 S5 S6.
  destruct l, r, l0, r0; cbn -[ORD_INF] in *; zb; cbn; intros; try discriminate; lia.
Qed.

Definition lo1_sorted (l : list cs) : Prop := ForallOrdPairs (fun a b => hi1 a < lo1 b) l.
Definition lo1_sep (l : list cs) : Prop := ForallOrdPairs (fun a b => hi1 a + 1 < lo1 b) l.
Definition ne (s : cs) : Prop := cs_isempty s = false.

Lemma merge_spec : forall B l cur, spaced B -> good B cur -> Forall (good B) l ->
  ne cur -> Forall ne l -> lo1_sorted (cur :: l) ->
  let r := merge_loop cur l in
  Forall (good B) r /\ Forall ne r /\ lo1_sep r
  /\ (forall x, rs_mem x r <-> cs_mem x cur \/ rs_mem x l)
  /\ Forall (fun s => lo1 cur <= lo1 s) r
  /\ r <> [].
Proof.
  intros B l. induction l as [|s l IH]; intros cur Sp Gc Gl Nc Nl Srt; cbn zeta.
  - cbn. split; [auto|]. split; [auto|]. split; [constructor; constructor|].
    split; [intro x; rewrite rs_mem_cons; tauto|]. split; [constructor; [lia|constructor]|discriminate].
  - inversion Gl as [|? ? Gs Gl']; subst. inversion Nl as [|? ? Ns Nl']; subst.
    inversion Srt as [|? ? Fc Srt']; subst. inversion Fc as [|? ? Fs Fl]; subst.
    inversion Srt' as [|? ? Fs' Srt'']; subst.
    assert (Sp' := good_spaced B cur s Sp Gc Gs Nc Ns).
    destruct (Gc) as [Wc Oc]. destruct (Gs) as [Ws Os].
    assert (Nc1 := proj1 (isempty_lo1_f cur Wc) Nc). assert (Ns1 := proj1 (isempty_lo1_f s Ws) Ns).
    cbn [merge_loop]. destruct (cs_contiguous cur s) eqn:C.
    + destruct (contiguous_before cur s Wc Ws Nc1 Fs Ns1 C) as [Eb Adj].
      set (m := CS (lower cur) (upper s) (left cur) (right s)).
      assert (Lm : lo1 m = lo1 cur) by reflexivity.
      assert (Hm : hi1 m = hi1 s) by reflexivity.
      assert (Wm : wf m).
      { destruct Wc as (? & ? & ? & ? & ? & ? & ?), Ws as (? & ? & ? & ? & ? & ? & ?).
        unfold wf, m. cbn [lower upper left right].
        refine (conj _ (conj _ (conj _ (conj _ (conj _ (conj _ _)))))); try assumption. lia. }
      assert (Nm : ne m) by (apply isempty_lo1_f; [exact Wm|lia]).
      assert (Gm : good B m).
      { split; [exact Wm|]. right.
        destruct Oc as [->|Ic]; [discriminate Nc|]. destruct Os as [->|Is]; [discriminate Ns|].
        intros z [<-|[<-|[]]]; cbn; [apply Ic|apply Is]; cbn; tauto. }
      destruct (IH m Sp Gm Gl' Nm Nl') as (R1 & R2 & R3 & R4 & R5 & R6).
      { constructor; [rewrite Hm; exact Fs'|exact Srt'']. }
      split; [exact R1|]. split; [exact R2|]. split; [exact R3|]. split; [|split; [|exact R6]].
      * intro x. rewrite R4, rs_mem_cons, !mem_lo1, Lm, Hm.
        split.
        -- intros [[F I]|I]; [|tauto]. destruct (Z.le_gt_cases x (hi1 cur)); [left|right; left]; (split; [exact F|lia]).
        -- intros [[F I]|[[F I]|I]]; [left; split; [exact F|lia]..|tauto].
      * rewrite <- Lm. exact R5.
    + destruct (IH s Sp Gs Gl' Ns Nl' Srt') as (R1 & R2 & R3 & R4 & R5 & R6).
      assert (Gap := not_contiguous_gap cur s Sp' Fs C).
      split; [constructor; assumption|]. split; [constructor; assumption|]. split; [|split; [|split]].
      * constructor; [|exact R3]. eapply Forall_impl; [|exact R5]. cbn. intros; lia.
      * intro x. rewrite !rs_mem_cons, R4. tauto.
      * constructor; [lia|]. eapply Forall_impl; [|exact R5]. cbn. intros; lia.
      * discriminate.
Qed.


Lemma sep_separated : forall l, Forall wf l -> Forall ne l -> lo1_sep l -> ForallOrdPairs separated l.
Proof.
  intros l W N S. eapply FOP_impl; [exact S|]. cbn. intros a b Ia Ib H.
  rewrite Forall_forall in *. pose proof (proj1 (isempty_lo1_f a (W a Ia)) (N a Ia)).
  pose proof (proj1 (isempty_lo1_f b (W b Ib)) (N b Ib)).
  pose proof (wf_lo1 a (W a Ia)). pose proof (wf_lo1 b (W b Ib)).
  exists (hi1 a + 1). split; [zl|]. split; intros x Hx; apply mem_lo1 in Hx; lia.
Qed.

Lemma disjoin_ok : forall B l, spaced B -> Forall (good B) l ->
  exists r, disjoin_loop (Nat.pow 2 (length l)) l = Ok r.
Proof.
  intros B l Sp G.
  set (gs := map (fun s => [s]) l).
  assert (Ec : concat gs = l).
  { unfold gs. clear G. induction l; cbn; congruence. }
  assert (Pot : (S (potential gs) = Nat.pow 2 (length l))%nat).
  { unfold gs. clear G Ec. induction l as [|s l IH]; cbn; [reflexivity|]. rewrite map_length. cbn in IH. lia. }
  assert (H : exists r, disjoin_loop (Nat.pow 2 (length l)) (concat gs) = Ok r);
    [|rewrite Ec in H; exact H].
  apply (disjoin_terminates B); [exact Sp|..].
  - unfold gs. clear Ec Pot. induction G; cbn; constructor; auto.
  - unfold gs. clear. induction l; cbn; constructor; auto. constructor; constructor.
  - lia.
Qed.

(** [pieces_safe l]: in the disjoint pieces computed from [l], no degenerate
    interval stands before an interval with the same upper bound. *)
Definition pieces_safe (l : list cs) : Prop :=
  forall ps, disjoin_loop (Nat.pow 2 (length l)) l = Ok ps ->
  ForallOrdPairs (fun a b => ~ degenerate_first a b) ps.

Lemma simplify_core : forall B l, spaced B -> Forall (good B) l -> pieces_safe l ->
  exists r, rs_simplify l = Ok r /\ (forall x, ns_mem x r <-> rs_mem x l)
    /\ (r = NC EMPTY \/
        (Forall (good B) (as_list r) /\ Forall ne (as_list r) /\ lo1_sep (as_list r)))
    /\ (forall m, r = NR m -> (2 <= length m)%nat).
Proof.
  intros B l Sp G Safe. destruct (disjoin_ok B l Sp G) as [ps Eps].
  destruct (disjoin_spec B _ l ps Sp G Eps) as (Gp & Np & Pd & Mp).
  specialize (Safe ps Eps). unfold rs_simplify. rewrite Eps. cbn [bind].
  assert (Perm := sort_perm upper ps).
  assert (Gs : Forall (good B) (sort_by upper ps)) by (eapply Permutation_Forall; eassumption).
  assert (Ns : Forall ne (sort_by upper ps)) by (eapply Permutation_Forall; eassumption).
  assert (Ms : forall x, rs_mem x (sort_by upper ps) <-> rs_mem x ps).
  { intro x. unfold rs_mem. split; intros (s & I & M); exists s; (split; [|exact M]).
    - eapply Permutation_in; [symmetry; exact Perm|exact I].
    - eapply Permutation_in; [exact Perm|exact I]. }
  assert (Srt : lo1_sorted (sort_by upper ps)).
  { assert (Dsym : forall a b, disjoint a b -> disjoint b a) by (unfold disjoint; eauto).
    eapply FOP_impl; [exact (sort_FOP upper disjoint _ Dsym ps Pd Safe)|].
    cbn. intros a b Ia Ib S. rewrite Forall_forall in Gs, Ns.
    eapply order_before; eauto; apply Ns; assumption. }
  destruct (sort_by upper ps) as [|h tl].
  - eexists. split; [reflexivity|]. split; [|split; [left; reflexivity|discriminate]].
    intro x. cbn. split; [intro H; destruct (EMPTY_mem _ H)|].
    intro H. apply Mp, Ms in H. destruct (rs_mem_nil _ H).
  - inversion Gs; subst. inversion Ns; subst.
    destruct (merge_spec B tl h Sp) as (R1 & R2 & R3 & R4 & R5 & R6); [assumption..|].
    assert (MM : forall x, rs_mem x (merge_loop h tl) <-> rs_mem x l).
    { intro x. rewrite R4, <- rs_mem_cons, Ms, Mp. reflexivity. }
    destruct (merge_loop h tl) as [|c [|d m]]; [congruence|..].
    + eexists; split; [reflexivity|]. split; [|split; [right; auto|discriminate]].
      intro x. rewrite <- MM, rs_mem_cons. cbn. split; [tauto|].
      intros [?|H']; [assumption|destruct (rs_mem_nil _ H')].
    + eexists; split; [reflexivity|]. split; [exact MM|]. split; [right; auto|].
      intros m0 E. injection E as <-. cbn. lia.
Qed.

Lemma good_all : forall l, Forall wf l -> Forall (good (all_bounds l)) l.
Proof.
  intros l W. rewrite Forall_forall in *. intros s I. split; [auto|]. right.
  intros z Iz. unfold all_bounds. apply in_flat_map. exists s. auto.
Qed.

Lemma simplify_main : forall l, Forall wf l -> spaced (all_bounds l) -> pieces_safe l ->
  exists r, rs_simplify l = Ok r /\ (forall x, ns_mem x r <-> rs_mem x l)
    /\ (r = NC EMPTY \/ canonical (as_list r)).
Proof.
  intros l W Sp Safe.
  destruct (simplify_core (all_bounds l) l Sp (good_all l W) Safe) as (r & E & M & [->|(G & N & S)] & _).
  - eexists; eauto.
  - exists r. split; [exact E|]. split; [exact M|]. right.
    assert (Wr : Forall wf (as_list r)) by (eapply Forall_impl; [|exact G]; intros ? []; assumption).
    split; [exact Wr|]. split; [|apply sep_separated; assumption].
    rewrite Forall_forall in *. intros s I. apply nonempty_mem; auto. apply N; assumption.
Qed.
