(* The indexed Graham scan and the parallel hull on grid coordinates, generic in the format. *)
From Coq Require Import ZArith Reals Lra Lia Psatz Floats.SpecFloat Sorting.Permutation.
From Flocq Require Import Core BinarySingleNaN.
From Verif Require Import Prelude Scalar RInst Flt FloatSpec FloatLink FloatGrid FloatHull Geo2 GeoSpec Hull HullSpec HullGeo HullSim HullSim2 HullAny HullUniq GrahamProofs GrahamProofs2 GrahamProofs3 IndexedProofs HullPar HullMerge3 Properties_Hull Properties_Hull2.
Local Open Scope R_scope.

(* p is one of the vertices the indices refer to *)
Definition listed {A} (vertices : list A) (indices : list nat) (p : A) : Prop := exists i, In i indices /\ nth_error vertices i = Some p.

Lemma mapM_idx_listed {A} (vertices : list A) : forall is ps, mapM (idx vertices) is = Val ps -> forall p, In p ps -> listed vertices is p.
Proof.
  induction is as [|i is IH]; cbn [mapM]; intros ps E p Hp; [injection E as <-; destruct Hp|].
  unfold idx at 1 in E. destruct (nth_error vertices i) as [a|] eqn:Ei; cbn [obind] in E; try discriminate.
  destruct (mapM (idx vertices) is) as [qs| | |] eqn:Eq; cbn [obind] in E; try discriminate. injection E as <-. destruct Hp as [<-|Hp].
  - exists i. split; auto. left; auto.
  - destruct (IH qs eq_refl p Hp) as (j & Hj & E'). exists j. split; auto. right; auto.
Qed.
Lemma mapM_idx_lt {A} (vertices : list A) : forall is ps, mapM (idx vertices) is = Val ps -> Forall (fun i => (i < length vertices)%nat) is.
Proof.
  induction is as [|i is IH]; cbn [mapM]; intros ps E; [constructor|].
  unfold idx at 1 in E. destruct (nth_error vertices i) as [a|] eqn:Ei; cbn [obind] in E; try discriminate.
  destruct (mapM (idx vertices) is) as [qs| | |] eqn:Eq; cbn [obind] in E; try discriminate. constructor; eauto. apply nth_error_Some. congruence.
Qed.
Lemma mapM_picks v : forall is ps, mapM (idx v) is = Val ps -> picks v is ps.
Proof.
  induction is as [|i is IH]; cbn [mapM]; intros ps E; [injection E as <-; constructor|].
  unfold idx at 1 in E. destruct (nth_error v i) as [a|] eqn:Ei; cbn [obind] in E; try discriminate.
  destruct (mapM (idx v) is) as [qs| | |] eqn:Eq; cbn [obind] in E; try discriminate. injection E as <-. constructor; auto. apply IH; auto.
Qed.

Section G.
  Context (prec emax epsexp s n : Z) (OK : format_ok prec emax epsexp s n) (at2 : spec_float -> spec_float -> spec_float).
  Notation FS := (FloatS prec emax epsexp at2).
  Notation val := (@point_value prec emax epsexp at2).
  Notation onp := (@grid_point prec emax epsexp at2 s n).

  Definition angles_ok (vertices : list (V2 FS)) (indices : list nat) : Prop :=
    forall st p q, listed vertices indices st -> listed vertices indices p -> listed vertices indices q ->
      lex_le (val st) (val p) -> lex_le (val st) (val q) -> same_angle_order st p q.

  Lemma indexed_angles (vertices : list (V2 FS)) indices is : Forall onp vertices -> angles_ok vertices indices -> incl is indices ->
    forall ii st, indexed_find_lowest_x vertices is = Val (ii, st) -> forall ps, mapM (idx vertices) is = Val ps -> angles_agree val st ps.
  Proof.
    intros H Ha Hi ii st E ps Eps. destruct OK as [O1 O2 O3 O4 O5 O6 O7 O8 O9].
    assert (Hv := mapM_idx_lt _ _ _ Eps).
    assert (Lst : listed vertices is st).
    { pose proof (indexed_lowest_safe vertices is Hv) as L. rewrite E in L. cbn in L. destruct L as (i & L1 & L2). exists i. split; auto. eapply nth_error_In; eauto. }
    assert (Hp : picks (map val vertices) is (map val ps)) by (apply mapM_picks; rewrite mapM_idx_map, Eps; reflexivity).
    assert (Hmin : forall q, In q (map val ps) -> lex_le (val st) q).
    { destruct (indexed_lowest_R (map val vertices) is (map val ps)) as (k & q & Ek & _ & Hq); auto.
      { intros ->. unfold indexed_find_lowest_x in E. destruct vertices; discriminate. }
      rewrite (sim_indexed_lowest val onp (grid_pcmp prec emax epsexp at2 s n) (grid_lty prec emax epsexp at2 s n)) in Ek by auto. rewrite E in Ek. injection Ek as _ <-. auto. }
    assert (Up : forall p, listed vertices is p -> listed vertices indices p) by (intros p (i & Hp1 & Hp2); exists i; auto).
    intros a b Ia Ib.
    assert (A1 : same_angle_order st a b) by (apply Ha; auto using in_map; apply Up; auto; eapply mapM_idx_listed; eauto).
    assert (A2 : same_angle_order st b a) by (apply Ha; auto using in_map; apply Up; auto; eapply mapM_idx_listed; eauto).
    unfold same_angle_order in *. cbv zeta in *.
    unfold spcmp. cbn [vsub vx vy ssub satan2 sltb seqb FloatS RS point_value car] in *.
    destruct A1 as [L1 E1], A2 as [L2 _].
    repeat match goal with |- context [if ?c then _ else _] => destruct c eqn:? end; auto;
      repeat match goal with
      | K : Rltb _ _ = true |- _ => apply Rltb_true in K
      | K : Rltb _ _ = false |- _ => apply Rltb_false in K
      | K : Reqb _ _ = true |- _ => apply Reqb_true in K
      | K : Reqb _ _ = false |- _ => apply Reqb_false in K
      end; exfalso; intuition (try congruence; try lra).
  Qed.
  Lemma gen_indexed_graham (vertices : list (V2 FS)) indices opn pts r : Forall onp vertices -> angles_ok vertices indices ->
    ring_of indices opn -> picks (map val vertices) opn pts -> NoDup pts -> (4 <= length pts)%nat ->
    indexed_graham_scan vertices indices r -> exists out vs, r = Val out /\ picks (map val vertices) out vs /\ hull_result pts vs.
  Proof.
    intros H Ha Hr Hp Hn Hl Hg. destruct OK as [O1 O2 O3 O4 O5 O6 O7 O8 O9]. eapply C49_indexed_graham_is_hull; eauto.
    apply (grid_indexed_graham prec emax epsexp at2 O1 O2 s n); auto. intros ii st E ps Eps.
    eapply indexed_angles; eauto. apply drop_index_incl.
  Qed.
  Lemma gen_par (vertices : list (V2 FS)) indices pts fuel chunk t r : Forall onp vertices -> angles_ok vertices indices ->
    picks (map val vertices) (drop_loop_index indices) pts -> NoDup pts -> (length pts <= fuel)%nat ->
    (forall c a b d, In c (chunks (length (drop_loop_index indices)) chunk (drop_loop_index indices)) -> picks (map val vertices) c [a; b; d] -> orient a b d <> 0) ->
    one_each t -> convex_hull_par_by t fuel vertices indices chunk r ->
    exists out vs, r = Val out /\ picks (map val vertices) out vs /\ hull_result pts vs.
  Proof.
    intros H Ha Hp Hn Hf Hc Ho Hr. destruct OK as [O1 O2 O3 O4 O5 O6 O7 O8 O9]. eapply C54_one_chunk_per_task_partial; eauto.
    assert (Hch : chunk <> 0%nat) by (destruct Hr as (_ & K & _); auto).
    apply (sim_par_by val onp (grid_pcmp prec emax epsexp at2 s n) (grid_lty prec emax epsexp at2 s n)); auto.
    - apply (grid_left prec emax epsexp at2 O1 O2 s n); auto.
    - apply (grid_pdist prec emax epsexp at2 O1 O2 s n); auto.
    - apply (grid_dist prec emax epsexp at2 O1 O2 s n); auto.
    - apply (grid_neg prec emax epsexp at2 O1 O2 s n); auto.
    - apply (grid_ulps prec emax epsexp at2 O1 O2 s n); auto.
    - apply (grid_orient prec emax epsexp at2 O1 O2 s n); auto.
    - intros c Ic ii st E ps Eps. eapply indexed_angles; eauto.
      destruct (chunks_spec chunk Hch (length (drop_loop_index indices)) (drop_loop_index indices) (le_n _)) as [Ecc _].
      intros i Hi. apply drop_index_incl. rewrite <- Ecc. apply in_concat. exists c. split; auto. apply drop_index_incl; auto.
  Qed.
End G.
