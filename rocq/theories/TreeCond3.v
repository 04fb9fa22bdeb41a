(** [conditional_jpt]: the exploration phase and the conditional measure. *)
Require Import QArith Qabs Lqa Bool List Arith Lia Permutation.
Require Import Verif.Base Verif.NumBase Verif.UtilModel Verif.TreeModel Verif.TreeSpec Verif.TreeApply Verif.TreeInfer Verif.TreePosterior Verif.TreeCond Verif.TreeCond2.
Import ListNotations.
Open Scope Q_scope.

Lemma all_some_map : forall A (l : list A), all_some (map Some l) = Some l.
Proof. intros A l. induction l as [|x l IH]; [reflexivity|]. cbn. rewrite IH. reflexivity. Qed.

Lemma map_flat_map : forall A B C (f : B -> C) (g : A -> list B) l, map f (flat_map g l) = flat_map (fun x => map f (g x)) l.
Proof. intros. induction l as [|x l IH]; [reflexivity|]. cbn. rewrite map_app, IH. reflexivity. Qed.
Lemma filter_flat_map : forall A B (f : B -> bool) (g : A -> list B) l, filter f (flat_map g l) = flat_map (fun x => filter f (g x)) l.
Proof. intros. induction l as [|x l IH]; [reflexivity|]. cbn. rewrite filter_app, IH. reflexivity. Qed.
Lemma flat_map_ext_in : forall A B (f g : A -> list B) l, (forall x, In x l -> f x = g x) -> flat_map f l = flat_map g l.
Proof. intros A B f g l H. induction l as [|x l IH]; [reflexivity|]. cbn. rewrite (H x (or_introl eq_refl)), IH; [reflexivity|]. intros; apply H; right; assumption. Qed.

Section Explore.
  Context {F : family}.
  Variable J0 : jpt F.
  Hypothesis T0 : tree_ok J0.
  Hypothesis Bin : forall n, In n (innernodes J0) -> length (i_children n) = 2%nat.
  Variable e : assignment F.
  Hypothesis Lp : forall l, In l (leaves J0) -> exists x, leaf_probability l e 1 = Ok x.

  Definition lp (l : leaf F) : Q := match leaf_probability l e 1 with Ok x => x | Err _ => 0 end.
  (** What becomes of a leaf once visited. *)
  Definition survive (l : leaf F) : list (leaf F) := if Qltb 0 (lp l) then [with_prior l (l_prior l * lp l)] else [].
  Definition proc (V : list nat) (l : leaf F) : list (leaf F) := if in_dec Nat.eq_dec (l_idx l) V then survive l else [l].

  Lemma survive_idx : forall l l', In l' (survive l) -> l_idx l' = l_idx l.
  Proof. intros l l' I. unfold survive in I. destruct (Qltb 0 (lp l)); [|destruct I]. destruct I as [<-|[]]. reflexivity. Qed.
  Lemma proc_idx : forall V l l', In l' (proc V l) -> l_idx l' = l_idx l.
  Proof. intros V l l' I. unfold proc in I. destruct (in_dec _ _ _); [apply (survive_idx _ _ I)|]. destruct I as [<-|[]]. reflexivity. Qed.

  Lemma leaf_unique : forall l l', In l (leaves J0) -> In l' (leaves J0) -> l_idx l = l_idx l' -> l = l'.
  Proof.
    intros l l' I I' E. pose proof (in_node_leaf J0 (ids J0 T0) l I) as A. pose proof (in_node_leaf J0 (ids J0 T0) l' I') as B. rewrite E, B in A. congruence.
  Qed.

  Lemma proc_step : forall (V : list nat) i l l0, In l (leaves J0) -> In l0 (leaves J0) -> l_idx l = i -> ~ In i V ->
    proc (V ++ [i]) l0 = if Nat.eqb (l_idx l0) i then survive l else proc V l0.
  Proof.
    intros V i l l0 I I0 E N. unfold proc. destruct (Nat.eqb_spec (l_idx l0) i) as [E0|E0].
    - rewrite (leaf_unique l0 l I0 I) by congruence. destruct (in_dec _ _ _) as [_|H]; [reflexivity|]. exfalso. apply H. rewrite E. apply in_or_app. right; left; reflexivity.
    - destruct (in_dec _ (l_idx l0) (V ++ [i])) as [H|H]; destruct (in_dec _ (l_idx l0) V) as [H'|H']; try reflexivity; exfalso.
      + apply in_app_or in H. destruct H as [H|[H|[]]]; [exact (H' H)|congruence].
      + apply H, in_or_app. left; exact H'.
  Qed.

  Record exploring (V A B : list nat) (J : jpt F) : Prop := Exploring {
    ex_li : loop_inv J0 [] V A;
    ex_clean : cleaning B J;
    ex_leaves : leaves J = flat_map (proc V) (leaves J0);
    ex_unv : forall i, ~ In i V -> get_node J i = get_node J0 i;
    ex_frame : same_frame J0 J;
    ex_queue : (length B + length (leaves J) <= length (leaves J0))%nat;
    ex_inner : length (innernodes J) = length (innernodes J0)
  }.

  Lemma explore_loop : forall fuel V A B J, exploring V A B J -> (2 * n_nodes J0 <= fuel + length V)%nat -> (exists r, root J0 = Some r /\ In r (V ++ A)) ->
    exists J', cond_loop fuel e J (A ++ B) = Ok J' /\ leaves J' = flat_map survive (leaves J0) /\ same_frame J0 J' /\ (emptied J' \/ tree_ok J' /\ childful J').
  Proof.
    induction fuel as [|fuel IH]; intros V A B J H Bd Hr; pose proof (loop_inv_bound J0 [] _ _ (ex_li _ _ _ _ H)) as Lb.
    { assert (n_nodes J0 <> 0)%nat; [|lia]. destruct (root_ok J0 T0) as (r & m & _ & G & _). unfold n_nodes. apply (node_in_ids J0) in G.
      rewrite <- (map_length i_idx), <- (map_length l_idx), <- app_length. intro Z. apply length_zero_iff_nil in Z. rewrite Z in G. destruct G. }
    destruct A as [|i A].
    - cbn [app].
      destruct (clean_loop e (S fuel) B J (ex_clean _ _ _ _ H)) as (J' & R & Lv & Fr & K).
      { rewrite (ex_inner _ _ _ _ H). pose proof (ex_queue _ _ _ _ H). unfold n_nodes in *. cbn in Lb. lia. }
      exists J'. split; [exact R|]. rewrite Lv, (ex_leaves _ _ _ _ H). split; [|split; [|exact K]].
      2:{ destruct (ex_frame _ _ _ _ H) as (ns & ls & r & ->). destruct Fr as (ns' & ls' & r' & ->). eexists _, _, _. reflexivity. }
      apply flat_map_ext_in. intros l I. unfold proc. destruct (in_dec _ _ _) as [_|N]; [reflexivity|]. exfalso. apply N.
      apply (loop_complete J0 [] T0 V (ex_li _ _ _ _ H)) with (len := length (l_path l)) (m := NLeaf l).
      + rewrite app_nil_r in Hr. exact Hr.
      + reflexivity.
      + apply in_node_leaf; [apply (ids J0 T0)|exact I].
      + unfold compatb. apply forallb_forall. intros [v s] _. reflexivity.
    - assert (Ni : ~ In i V). { intro I. apply (proj2 (proj2 (NoDup_app_parts _ _ _ (li_nodup _ _ _ _ (ex_li _ _ _ _ H)))) i I). left; reflexivity. }
      destruct (li_node _ _ _ _ (ex_li _ _ _ _ H) i) as (m & G0 & _); [apply in_or_app; right; left; reflexivity|].
      pose proof (ex_unv _ _ _ _ H i Ni) as G. rewrite G0 in G.
      cbn [app cond_loop]. rewrite G. destruct m as [n|l].
      + destruct (node_inner_in J0 i n G0) as [In_ En]. pose proof (loop_inv_inner J0 [] T0 V i A n (ex_li _ _ _ _ H) G0) as L'.
        assert (Sel : i_children n = map Some (sel_ids [] n)).
        { rewrite (sel_ids_map J0 [] T0 n In_). unfold selected. rewrite filter_none by reflexivity. pose proof (lengths J0 T0 n In_) as Len. revert Len.
          generalize (i_splits n). induction (i_children n) as [|c cs IHc]; intros [|s ss] Len; cbn in *; try discriminate; [reflexivity|]. f_equal. apply IHc. lia. }
        rewrite Sel, all_some_map. pose proof (Bin n In_) as B2. rewrite Sel, map_length in B2. destruct (sel_ids [] n) as [|c1 [|c2 [|c3 cs]]] eqn:Es; cbn in B2; try lia.
        cbn [map]. rewrite app_assoc. apply IH with (V := V ++ [i]).
        * constructor; [exact L'|apply (ex_clean _ _ _ _ H)| | |apply (ex_frame _ _ _ _ H)|apply (ex_queue _ _ _ _ H)|apply (ex_inner _ _ _ _ H)].
          -- rewrite (ex_leaves _ _ _ _ H). apply flat_map_ext_in. intros l I. unfold proc.
             destruct (in_dec _ (l_idx l) V) as [D|D]; destruct (in_dec _ (l_idx l) (V ++ [i])) as [D'|D']; try reflexivity; exfalso.
             ++ apply D', in_or_app. left; exact D.
             ++ apply in_app_or in D'. destruct D' as [D'|[D'|[]]]; [exact (D D')|]. pose proof (in_node_leaf J0 (ids J0 T0) l I) as X. rewrite <- D' in X. congruence.
          -- intros j Nj. apply (ex_unv _ _ _ _ H). intro D. apply Nj, in_or_app. left; exact D.
        * rewrite app_length. cbn. lia.
        * destruct Hr as (r & Er & Ir). exists r. split; [exact Er|]. rewrite !in_app_iff in *. cbn [In] in *. tauto.
      + destruct (node_leaf_in J0 i l G0) as [Il Ei]. destruct (node_leaf_in J i l G) as [Il' _]. destruct (Lp l Il) as [x Ex]. rewrite Ex. cbn [bind].
        assert (Lx : lp l = x) by (unfold lp; rewrite Ex; reflexivity).
        pose proof (loop_inv_leaf J0 [] T0 V i A l (ex_li _ _ _ _ H) G0) as L'.
        pose proof (cl_tree _ _ (ex_clean _ _ _ _ H)) as T.
        assert (Hr' : exists r, root J0 = Some r /\ In r ((V ++ [i]) ++ A)).
        { destruct Hr as (r & Er & Ir). exists r. split; [exact Er|]. rewrite !in_app_iff in *. cbn [In] in *. tauto. }
        destruct (Qltb 0 x) eqn:Q.
        * set (f := fun m : leaf F => if Nat.eqb (l_idx m) i then with_prior m (l_prior m * x) else m).
          assert (Ef : set_leaf (with_prior l (l_prior l * x)) (leaves J) = map f (leaves J)).
          { unfold set_leaf. apply map_ext_in. intros m I. cbn [l_idx with_prior]. rewrite Ei. unfold f. destruct (Nat.eqb_spec (l_idx m) i) as [Em|Em]; [|reflexivity].
            pose proof (in_node_leaf J (ids J T) m I) as X. rewrite Em, G in X. inversion X; subst. reflexivity. }
          rewrite Ef.
          assert (Pf : forall m, l_idx (f m) = l_idx m /\ l_parent (f m) = l_parent m /\ l_path (f m) = l_path m).
          { intro m. unfold f. destruct (Nat.eqb (l_idx m) i); cbn; auto. }
          assert (Gf : forall j, get_node (with_nodes J (innernodes J) (map f (leaves J))) j = option_map (node_map f) (get_node J j)).
          { intro j. unfold get_node. change (get_inner (with_nodes J (innernodes J) (map f (leaves J))) j) with (get_inner J j). destruct (get_inner J j); [reflexivity|].
            unfold get_leaf. cbn [leaves with_nodes]. rewrite (find_map_key f (leaves J) j) by (intro; apply Pf). destruct (find _ (leaves J)); reflexivity. }
          apply IH with (V := V ++ [i]); [|rewrite app_length; cbn; lia|exact Hr'].
          constructor; [exact L'| | | | | |apply (ex_inner _ _ _ _ H)].
          -- pose proof (ex_clean _ _ _ _ H) as C. constructor; [apply leaf_map_ok; assumption|apply (cl_two _ _ C)|apply (cl_empty _ _ C)|apply (cl_one _ _ C)|].
             intros b l' Ib Gb. rewrite Gf in Gb. destruct (get_node J b) as [[n|l'']|] eqn:Gb'; try discriminate. exact (cl_leaf _ _ C b l'' Ib Gb').
          -- cbn [leaves with_nodes]. rewrite (ex_leaves _ _ _ _ H), map_flat_map. apply flat_map_ext_in. intros l0 I0. rewrite (proc_step V i l l0 Il I0 Ei Ni).
             destruct (Nat.eqb_spec (l_idx l0) i) as [E0|E0].
             ++ rewrite (leaf_unique l0 l I0 Il) by congruence. unfold proc. destruct (in_dec _ _ _) as [D|_]; [rewrite Ei in D; contradiction|].
                cbn [map]. unfold f. rewrite Ei, Nat.eqb_refl. unfold survive. rewrite Lx, Q. reflexivity.
             ++ rewrite <- (map_id (proc V l0)) at 2. apply map_ext_in. intros l' I'. unfold f. rewrite (proc_idx _ _ _ I'). destruct (Nat.eqb_spec (l_idx l0) i); [contradiction|reflexivity].
          -- intros j Nj. rewrite Gf, (ex_unv _ _ _ _ H j) by (intro D; apply Nj, in_or_app; left; exact D).
             destruct (get_node J0 j) as [[n|l']|] eqn:Gj; [reflexivity| |reflexivity]. cbn. f_equal. f_equal. unfold f.
             destruct (node_leaf_in J0 j l' Gj) as [_ Ej]. rewrite Ej. destruct (Nat.eqb_spec j i) as [->|]; [|reflexivity]. exfalso. apply Nj, in_or_app. right; left; reflexivity.
          -- destruct (ex_frame _ _ _ _ H) as (ns & ls & r & ->). eexists _, _, _. reflexivity.
          -- cbn [leaves with_nodes]. rewrite map_length. apply (ex_queue _ _ _ _ H).
        * pose proof (parent_ok J T i _ G) as Pa. cbn [n_parent] in Pa. destruct (l_parent l) as [p|] eqn:Ep.
          -- destruct (unlink_spec J i (NLeaf l) p (A ++ B) T G Ep I) as (k & np & Gp & Ck & U). rewrite (del_inner_leaf J i l T G) in U. rewrite U. cbn [bind fst snd].
             rewrite <- app_assoc. apply IH with (V := V ++ [i]); [|rewrite app_length; cbn; lia|exact Hr'].
             constructor; [exact L'| | | | | |].
             ++ apply (removed_cleaning J i (NLeaf l) p k np B); try assumption; [|exact I]. right. split; [apply (ex_clean _ _ _ _ H)|eauto].
             ++ unfold removed. cbn [leaves with_nodes]. unfold del_leaf. rewrite (ex_leaves _ _ _ _ H), filter_flat_map. apply flat_map_ext_in. intros l0 I0.
                rewrite (proc_step V i l l0 Il I0 Ei Ni). destruct (Nat.eqb_spec (l_idx l0) i) as [E0|E0].
                ** unfold survive. rewrite Lx, Q. apply incl_l_nil. intros l' I'. apply filter_In in I'. destruct I' as [I' Bl]. rewrite (proc_idx _ _ _ I'), E0, Nat.eqb_refl in Bl. discriminate.
                ** apply filter_none. intros l' I'. rewrite (proc_idx _ _ _ I'). destruct (Nat.eqb_spec (l_idx l0) i); [contradiction|reflexivity].
             ++ intros j Nj. rewrite (removed_node J i p k np Gp). destruct (Nat.eqb_spec j i) as [->|Nji]; [exfalso; apply Nj, in_or_app; right; left; reflexivity|].
                assert (~ In j V) as NjV by (intro D; apply Nj, in_or_app; left; exact D). rewrite (ex_unv _ _ _ _ H j NjV).
                destruct (get_node J0 j) as [[n|l']|] eqn:Gj; [|reflexivity|reflexivity]. cbn. f_equal. f_equal. unfold cut_if. destruct (node_inner_in J0 j n Gj) as [_ Ej]. rewrite Ej.
                destruct (Nat.eqb_spec j p) as [->|]; [|reflexivity]. exfalso. apply NjV.
                destruct (li_parent _ _ _ _ (ex_li _ _ _ _ H) i (NLeaf l)) as [D|(p' & D & Ip)]; [apply in_or_app; right; left; reflexivity|exact G0| |]; cbn [n_parent] in D; rewrite Ep in D; [discriminate|].
                inversion D; subst. exact Ip.
             ++ destruct (ex_frame _ _ _ _ H) as (ns & ls & r & ->). eexists _, _, _. reflexivity.
             ++ unfold removed. cbn [leaves with_nodes]. rewrite app_length. cbn [length].
                assert (S (length (del_leaf i (leaves J))) <= length (leaves J))%nat; [|pose proof (ex_queue _ _ _ _ H); lia].
                unfold del_leaf. clear -Il' Ei. induction (leaves J) as [|y ls IHl]; [destruct Il'|]. cbn. destruct Il' as [->|I].
                ** rewrite Ei, Nat.eqb_refl. cbn. assert (length (filter (fun y => negb (Nat.eqb (l_idx y) i)) ls) <= length ls)%nat; [|lia].
                   clear. induction ls as [|y ls IH]; cbn; [lia|]. destruct (negb _); cbn; lia.
                ** specialize (IHl I). destruct (negb _); cbn; lia.
             ++ unfold removed. cbn [innernodes with_nodes]. rewrite map_length, (del_inner_leaf J i l T G). apply (ex_inner _ _ _ _ H).
          -- rename Pa into Er. pose proof (unlink_root J i (NLeaf l) (A ++ B) T Er G I) as U. cbn [n_parent] in U. rewrite Ep in U.
             rewrite (del_inner_leaf J i l T G) in U. rewrite U. cbn [bind fst snd].
             rewrite emptied_loop; [|repeat split|].
             2:{ rewrite app_length. pose proof (ex_queue _ _ _ _ H). unfold n_nodes in *. cbn [length] in Lb. lia. }
             eexists. split; [reflexivity|]. cbn [leaves with_root with_nodes]. split; [|split; [|left; repeat split]].
             ++ assert (Er0 : root J0 = Some i). { pose proof (parent_ok J0 T0 i _ G0) as X. cbn [n_parent] in X. rewrite Ep in X. exact X. }
                symmetry. apply incl_l_nil. intros l' I'. apply in_flat_map in I'. destruct I' as (l0 & I0 & I').
                pose proof (root_only J0 i (NLeaf l) T0 Er0 G0 I _ _ (in_node_leaf J0 (ids J0 T0) l0 I0)) as X. rewrite (leaf_unique l0 l I0 Il) in I' by congruence.
                unfold survive in I'. rewrite Lx, Q in I'. destruct I'.
             ++ destruct (ex_frame _ _ _ _ H) as (ns & ls & r & ->). eexists _, _, _. reflexivity.
  Qed.

  Lemma cond_loop_ok : forall r, root J0 = Some r ->
    exists ns rt, let J' := JPT (n_vars J0) (full J0) ns (flat_map survive (leaves J0)) rt (priors J0) in
      cond_loop (2 * n_nodes J0) e J0 [r] = Ok J' /\ (emptied J' \/ tree_ok J' /\ childful J').
  Proof.
    intros r Er. destruct (root_ok J0 T0) as (r' & m & Er' & Gr & Pr & Pt). rewrite Er in Er'. inversion Er'; subst r'.
    destruct (explore_loop (2 * n_nodes J0) [] [r] [] J0) as (J' & R & Lv & (ns & ls & rt & ->) & K).
    - constructor.
      + constructor; cbn.
        * repeat constructor. intros [].
        * intros i [<-|[]]. exists m. split; [exact Gr|]. rewrite Pt. reflexivity.
        * intros i m' [<-|[]] G. rewrite Gr in G. inversion G; subst. left; exact Pr.
        * intros n i [].
      + constructor; [exact T0|intros n I; rewrite (Bin n I); lia|intros n I E; pose proof (Bin n I) as B; rewrite E in B; discriminate|intros n I []|intros b l []].
      + clear Lp. induction (leaves J0) as [|l ls IHl]; [reflexivity|]. cbn. f_equal. exact IHl.
      + reflexivity.
      + apply same_refl.
      + cbn. lia.
      + reflexivity.
    - cbn. lia.
    - exists r. split; [exact Er|left; reflexivity].
    - cbn in Lv. subst ls. exists ns, rt. split; [exact R|exact K].
  Qed.
End Explore.
