(** Proofs: simplify() keeps the members of its receiver. *)
Require Import ZArith Bool List Lia Permutation.
Require Import Verif.Base Verif.FloatLine Verif.IntervalModel Verif.IntervalSpec.
Require Import Verif.IntervalProofs Verif.IntervalDiff Verif.RealSetProofs Verif.RealSetOps.
Import ListNotations.
Open Scope Z_scope.

Lemma merge_t_map : forall l cur, map snd (merge_loop_t cur l) = merge_loop (snd cur) (map snd l).
Proof.
  induction l as [|s l IH]; intro cur; cbn; [reflexivity|].
  destruct (cs_contiguous (snd cur) (snd s)); cbn; rewrite IH; reflexivity.
Qed.

Lemma sort_map : forall {A B} (f : A -> B) (k : B -> Z) l, map f (sort_by (fun a => k (f a)) l) = sort_by k (map f l).
Proof.
  intros A B f k. assert (I : forall x l, map f (insert_by (fun a => k (f a)) x l) = insert_by k (f x) (map f l)).
  { intros x l. induction l as [|y l IH]; cbn; [reflexivity|]. destruct (k (f x) <=? k (f y)); cbn; [reflexivity|].
    rewrite IH. reflexivity. }
  induction l as [|x l IH]; cbn; [reflexivity|]. rewrite I, IH. reflexivity.
Qed.

Lemma sort_t_perm : forall {A} (k : A -> Z) l, Permutation l (sort_by k l).
Proof. intros. apply sort_perm. Qed.

(** A tagged result extends the tagged input it grew from. *)
Lemma merge_t_grows : forall l cur, lo1_sorted (snd cur :: map snd l) ->
  Forall ne (snd cur :: map snd l) -> Forall wf (snd cur :: map snd l) ->
  forall c', In (true, c') (merge_loop_t cur l) ->
  exists c, In (true, c) (cur :: l) /\ lo1 c' = lo1 c /\ hi1 c <= hi1 c'.
Proof.
  induction l as [|s l IH]; intros cur S N W c' I; cbn in *.
  - destruct I as [I|[]]. exists c'. split; [auto|]. lia.
  - inversion S as [|? ? F S']; subst. inversion S' as [|? ? F' S'']; subst.
    inversion F as [|? ? Fs Fl]; subst. inversion N as [|? ? Nc N']; subst. inversion N' as [|? ? Ns N'']; subst.
    inversion W as [|? ? Wc W']; subst. inversion W' as [|? ? Ws W'']; subst.
    pose proof (proj1 (isempty_lo1_f (snd s) Ws) Ns) as Ls. pose proof (proj1 (isempty_lo1_f (snd cur) Wc) Nc) as Lc.
    destruct (cs_contiguous (snd cur) (snd s)).
    + set (m := CS (lower (snd cur)) (upper (snd s)) (left (snd cur)) (right (snd s))) in *.
      assert (Lm : lo1 m = lo1 (snd cur)) by reflexivity.
      assert (Hm : hi1 m = hi1 (snd s)) by reflexivity.
      assert (Wm : wf m).
      { destruct Wc as (C1 & C2 & C3 & C4 & C5 & C6 & C7), Ws as (D1 & D2 & D3 & D4 & D5 & D6 & D7).
        unfold wf, m. cbn [lower upper left right].
        assert (lower (snd cur) <= upper (snd s)).
        { clear - Ls Lc Fs. unfold lo1, hi1 in *. destruct (left (snd cur)), (right (snd cur)), (left (snd s)), (right (snd s)); lia. }
        tauto. }
      destruct (IH (fst cur, m)) with (c' := c') as (c & Ic & E1 & E2); try exact I.
      * cbn. constructor; [|exact S'']. rewrite Hm. exact F'.
      * cbn. constructor; [|exact N'']. apply isempty_lo1_f; [exact Wm|]. lia.
      * cbn. constructor; assumption.
      * destruct Ic as [Ic|Ic].
        -- injection Ic as Ef <-. exists (snd cur). split; [left; destruct cur; cbn in *; congruence|]. lia.
        -- exists c. auto.
    + destruct I as [I|I].
      * subst cur. exists c'. split; [auto|]. lia.
      * destruct (IH s S' N' W' c' I) as (c & Ic & E1 & E2). exists c. split; [|auto]. tauto.
Qed.

Lemma tagged_in : forall l c, tagged l = Some c -> In (true, c) l.
Proof.
  induction l as [|[[] c0] l IH]; cbn; intros c H; [discriminate| |auto]. injection H as <-. auto.
Qed.

Lemma disjoin_first : forall fuel first l r, disjoin_loop fuel (first :: l) = Ok r -> cs_isempty first = false ->
  exists ps, r = first :: ps.
Proof.
  intros [|n] first l r E N; cbn in E; [discriminate|].
  destruct (subtract_all first l) as [l0|]; cbn in E; [|discriminate].
  destruct (disjoin_loop n l0) as [rest|]; cbn in E; [|discriminate]. rewrite N in E. cbn in E.
  injection E as <-. eauto.
Qed.

Lemma simplify_receiver : forall l, Forall wf l -> spaced (all_bounds l) -> pieces_safe l ->
  exists l', rs_simplify_receiver l = Ok l' /\ (forall x, rs_mem x l' <-> rs_mem x l)
    /\ length l' = length l /\ tl l' = tl l.
Proof.
  intros l W Sp Safe. destruct l as [|first others]; [exists []; cbn; auto using iff_refl|].
  set (l := first :: others) in *. unfold rs_simplify_receiver. unfold l at 1. fold l.
  pose proof (good_all l W) as G. set (B := all_bounds l) in *.
  destruct (disjoin_ok B l Sp G) as [pieces Ep]. rewrite Ep. cbn [bind].
  destruct (cs_isempty first) eqn:Ef; [exists l; auto using iff_refl|].
  destruct (disjoin_spec B _ l pieces Sp G Ep) as (Gp & Np & Pd & Mp).
  destruct (disjoin_first _ _ _ _ Ep Ef) as [ps ->].
  specialize (Safe _ Ep).
  set (tg := (true, first) :: map (fun c => (false, c)) ps).
  assert (Hs : map snd (sort_by (fun tc : bool * cs => upper (snd tc)) tg) = sort_by upper (first :: ps)).
  { rewrite (sort_map snd upper). f_equal. unfold tg. cbn. f_equal. rewrite map_map. cbn. apply map_id. }
  destruct (sort_by (fun tc : bool * cs => upper (snd tc)) tg) as [|h tl] eqn:Es; [exists l; auto using iff_refl|].
  destruct (tagged (merge_loop_t h tl)) as [c|] eqn:Et; [|exists l; auto using iff_refl].
  exists (c :: others). split; [reflexivity|]. split; [|split; reflexivity].
  assert (Perm := sort_perm upper (first :: ps)). rewrite <- Hs in Perm. cbn [map] in Perm.
  assert (Gs : Forall (good B) (snd h :: map snd tl)) by (eapply Permutation_Forall; eassumption).
  assert (Ns : Forall ne (snd h :: map snd tl)) by (eapply Permutation_Forall; eassumption).
  assert (Ws : Forall wf (snd h :: map snd tl)) by (eapply Forall_impl; [|exact Gs]; intros ? []; assumption).
  assert (Srt : lo1_sorted (snd h :: map snd tl)).
  { change (snd h :: map snd tl) with (map snd (h :: tl)). rewrite Hs.
    change (snd h :: map snd tl) with (map snd (h :: tl)) in Gs, Ns. rewrite Hs in Gs, Ns.
    assert (Dsym : forall a b, disjoint a b -> disjoint b a) by (unfold disjoint; eauto).
    eapply FOP_impl; [exact (sort_FOP upper disjoint _ Dsym (first :: ps) Pd Safe)|].
    cbn -[sort_by]. intros a b Ia Ib S. rewrite Forall_forall in Gs, Ns.
    eapply order_before; eauto; apply Ns; assumption. }
  apply tagged_in in Et.
  destruct (merge_t_grows tl h Srt Ns Ws c Et) as (c0 & I0 & L1 & L2).
  assert (c0 = first) as ->.
  { assert (In (true, c0) tg) as Q.
    { eapply Permutation_in; [symmetry; apply sort_t_perm|]. rewrite Es. exact I0. }
    destruct Q as [Q|Q]; [injection Q as <-; reflexivity|]. apply in_map_iff in Q. destruct Q as (z & Q & _). discriminate. }
  inversion Gs as [|? ? Gh Gt]; subst. inversion Ns as [|? ? Nh Nt]; subst.
  destruct (merge_spec B (map snd tl) (snd h) Sp Gh Gt Nh Nt Srt) as (_ & _ & _ & Mm & _).
  intro x. split.
  - intro Hx. apply rs_mem_cons in Hx. destruct Hx as [Hx|Hx]; [|apply rs_mem_cons; auto].
    apply Mp. assert (rs_mem x (merge_loop (snd h) (map snd tl))) as Q.
    { rewrite <- merge_t_map. exists c. split; [|exact Hx]. change c with (snd (true, c)). apply in_map. exact Et. }
    apply Mm in Q. apply (proj2 (rs_mem_cons x (snd h) (map snd tl))) in Q. destruct Q as (s & Is & X).
    exists s. split; [|exact X]. eapply Permutation_in; [symmetry; exact Perm|exact Is].
  - intro Hx. apply rs_mem_cons in Hx. apply rs_mem_cons. destruct Hx as [Hx|Hx]; [left|right; exact Hx].
    apply mem_lo1 in Hx. apply mem_lo1. zl.
Qed.
