(* Hull and containment theorems for float points on a grid, generic in the format. *)
From Coq Require Import ZArith Reals Lra Lia Psatz Floats.SpecFloat Sorting.Permutation.
From Flocq Require Import Core BinarySingleNaN.
From Verif Require Import Prelude Scalar RInst Flt FloatSpec FloatLink FloatGrid Geo2 GeoSpec Hull HullSpec HullGeo HullSim HullSim2 HullAny HullUniq GrahamProofs GrahamProofs2 GrahamProofs3 Properties_Hull Properties_Hull2.
Local Open Scope R_scope.

Record format_ok (prec emax epsexp s n : Z) : Prop := {
  ok_prec : Prec_gt_0 prec; ok_max : Prec_lt_emax prec emax; ok_n : (8 * (n * n) <= 2 ^ prec)%Z; ok_p4 : (4 <= prec)%Z;
  ok_s : scale_ok prec emax s; ok_ss : scale_ok prec emax (s + s); ok_eps : scale_ok prec emax epsexp;
  ok_eps2 : (epsexp < s + s)%Z; ok_emin : (SpecFloat.emin prec emax + 3 <= s + s)%Z }.
Lemma ok64 s : (-25 <= s <= 485)%Z -> format_ok 53 1024 (-52) s (2 ^ 25).
Proof. intros H. split; unfold Prec_gt_0, Prec_lt_emax, scale_ok, SpecFloat.emin; lia. Qed.
Lemma ok32 s : (-11 <= s <= 51)%Z -> format_ok 24 128 (-23) s 1448.
Proof. intros H. split; unfold Prec_gt_0, Prec_lt_emax, scale_ok, SpecFloat.emin; lia. Qed.

Section G.
  Context (prec emax epsexp s n : Z) (OK : format_ok prec emax epsexp s n) (at2 : spec_float -> spec_float -> spec_float).
  Notation FS := (FloatS prec emax epsexp at2).
  Notation val := (@point_value prec emax epsexp at2).
  Notation onp := (@grid_point prec emax epsexp at2 s n).

  Lemma gen_gift fuel (pts : list (V2 FS)) opn : Forall onp pts -> ring_of (map val pts) opn -> NoDup opn -> (4 <= length opn)%nat -> (length pts <= fuel)%nat ->
    exists vs, gift_wrap fuel pts = Val vs /\ incl vs pts /\ hull_result (map val pts) (map val vs).
  Proof.
    intros H Hr Hn Hl Hf. destruct OK. destruct (C51_gift_wrap_is_hull fuel (map val pts) opn) as (vs & E & Hh); auto; [rewrite map_length; auto|].
    pose proof (grid_gift_wrap prec emax epsexp at2 ok_prec0 ok_max0 s n ok_n0 ok_p5 ok_s0 ok_ss0 ok_eps0 ok_eps3 ok_emin0 fuel pts H) as G.
    rewrite E in G. destruct (gift_wrap fuel pts) as [ws| | |] eqn:Eg; try discriminate. injection G as ->. exists ws. split; auto. split; auto.
    pose proof (gift_wrap_safe fuel pts) as Hs. rewrite Eg in Hs. exact Hs.
  Qed.

  Lemma gen_drop (pts : list (V2 FS)) : Forall onp pts -> drop_loop_point (map val pts) = map val (drop_loop_point pts).
  Proof. intros H. eapply sim_drop; [|exact H]. apply grid_eqb. Qed.
  Lemma angles (pts : list (V2 FS)) : Forall onp pts ->
    (forall st p q, In st pts -> In p pts -> In q pts -> (forall r, In r pts -> lex_le (val st) (val r)) -> same_angle_order st p q) ->
    forall i st, find_lowest_x pts = Val (i, st) -> angles_agree val st pts.
  Proof.
    intros H Ha i st E. destruct OK.
    assert (Ist : In st pts) by (pose proof (find_lowest_safe pts) as Hs; rewrite E in Hs; cbn in Hs; eapply nth_error_In; eauto).
    assert (Hmin : forall r, In r pts -> lex_le (val st) (val r)).
    { destruct (find_lowest_R (map val pts)) as (k & q & Ek & _ & Hq); [destruct pts; [destruct Ist|discriminate]|].
      rewrite (sim_lowest val onp (grid_pcmp prec emax epsexp at2 s n) (grid_lty prec emax epsexp at2 s n)) in Ek by auto. rewrite E in Ek. injection Ek as <- <-.
      intros r Hr. apply Hq. apply in_map; auto. }
    assert (Hx : forall p q, In p pts -> In q pts -> fvalue (SFsub prec emax (vx p) (vx q)) = fvalue (vx p) - fvalue (vx q) /\ fvalue (SFsub prec emax (vy p) (vy q)) = fvalue (vy p) - fvalue (vy q)).
    { intros p q Hp Hq. rewrite Forall_forall in H. destruct (H p Hp) as [P1 P2], (H q Hq) as [Q1 Q2].
      split; apply (x_sub prec emax ok_prec0 ok_max0 s n); auto. }
    intros a b Ia Ib. assert (A1 := Ha st a b Ist Ia Ib Hmin). assert (A2 := Ha st b a Ist Ib Ia Hmin). unfold same_angle_order in *. cbv zeta in *.
    unfold spcmp. cbn [vsub vx vy ssub satan2 sltb seqb FloatS RS point_value car] in *.
    destruct A1 as [L1 E1], A2 as [L2 _].
    repeat match goal with |- context [if ?c then _ else _] => destruct c eqn:? end; auto;
      repeat match goal with
      | K : Rltb _ _ = true |- _ => apply Rltb_true in K
      | K : Rltb _ _ = false |- _ => apply Rltb_false in K
      | K : Reqb _ _ = true |- _ => apply Reqb_true in K
      | K : Reqb _ _ = false |- _ => apply Reqb_false in K
      end; exfalso; intuition (try congruence; try lra).
  Qed.
  Lemma gen_graham (pts : list (V2 FS)) r : Forall onp pts -> enough (map val pts) ->
    (forall st p q, In st pts -> In p pts -> In q pts -> (forall r, In r pts -> lex_le (val st) (val r)) -> same_angle_order st p q) ->
    graham_scan pts r -> exists vs, r = Val vs /\ incl vs pts /\ hull_result (map val pts) (map val vs).
  Proof.
    intros H He Ha Hg. destruct OK. assert (Hg' := Hg).
    apply (grid_graham_scan prec emax epsexp at2 ok_prec0 ok_max0 s n) in Hg; auto.
    - destruct (C46_graham_scan_is_hull _ _ He Hg) as (vs & E & Hh). destruct r as [ws| | |]; try discriminate. injection E as <-.
      exists ws. split; auto. split; auto. apply graham_scan_safe in Hg' as [_ Hs]. exact Hs.
    - assert (Hi := drop_point_incl pts). assert (Hd : Forall onp (drop_loop_point pts)) by (eapply incl_Forall; eauto).
      apply angles; auto. intros st p q Is Ip Iq Hm. apply Ha; auto. intros x Hx. 
      assert (Hx2 : In (val x) (map val (drop_loop_point pts))).
      { rewrite <- gen_drop by auto. apply drop_loop_In; [|apply in_map; auto]. destruct He as (a & m & b & -> & _). cbn. rewrite app_length. cbn. lia. }
      apply in_map_iff in Hx2 as (y & <- & Hy). auto.
  Qed.
  Lemma gen_wo (pts : list (V2 FS)) opn r : Forall onp pts -> ring_of (map val pts) opn -> NoDup opn -> (4 <= length opn)%nat ->
    graham_scan_wo_atan2 pts r -> exists vs, r = Val vs /\ incl vs pts /\ hull_result (map val pts) (map val vs).
  Proof.
    intros H Hr Hn Hl Hg. destruct OK. assert (Hg' := Hg).
    apply (grid_wo prec emax epsexp at2 ok_prec0 ok_max0 s n) in Hg; auto.
    destruct (C62_scan_without_atan2_partial _ _ _ Hr Hn Hl Hg) as (vs & E & Hh). destruct r as [ws| | |]; try discriminate. injection E as <-.
    exists ws. split; auto. split; auto. apply wo_safe in Hg'. exact Hg'.
  Qed.
  Lemma gen_indexed_gift fuel (vertices : list (V2 FS)) indices opn pts : Forall onp vertices ->
    ring_of indices opn -> picks (map val vertices) opn pts -> NoDup pts -> (4 <= length pts)%nat -> (length pts <= fuel)%nat ->
    exists out vs, indexed_gift_wrap fuel vertices indices = Val out /\ picks (map val vertices) out vs /\ hull_result pts vs.
  Proof.
    intros H Hr Hp Hn Hl Hf. destruct OK.
    rewrite <- (grid_indexed_gift_wrap prec emax epsexp at2 ok_prec0 ok_max0 s n) by auto. eapply C51_indexed_gift_wrap_is_hull; eauto.
  Qed.
  Lemma gen_orientation (a b c : V2 FS) : onp a -> onp b -> onp c ->
    point_orientation a b c = point_orientation (val a) (val b) (val c) /\ is_point_left a b c = is_point_left (val a) (val b) (val c) /\
    is_point_left_allow_collinear a b c = is_point_left_allow_collinear (val a) (val b) (val c).
  Proof.
    intros Ha Hb Hc. destruct OK. split; [symmetry; apply (grid_orient prec emax epsexp at2 ok_prec0 ok_max0 s n); auto|].
    split; symmetry; [apply (grid_left prec emax epsexp at2 ok_prec0 ok_max0 s n)|apply (grid_leftc prec emax epsexp at2 ok_prec0 ok_max0 s n)]; auto.
  Qed.
  Lemma gen_contains (l m : list (V2 FS)) p : Forall onp l -> Forall onp m -> onp p ->
    contains_point_inclusive l p = contains_point_inclusive (map val l) (val p) /\
    contains_point_exclusive l p = contains_point_exclusive (map val l) (val p) /\
    contains_convex_hull l m = contains_convex_hull (map val l) (map val m).
  Proof.
    intros Hl Hm Hp. destruct OK. split; [|split]; symmetry.
    - apply (grid_inclusive prec emax epsexp at2 ok_prec0 ok_max0 s n); auto.
    - apply (grid_exclusive prec emax epsexp at2 ok_prec0 ok_max0 s n); auto.
    - apply (grid_hull_in_hull prec emax epsexp at2 ok_prec0 ok_max0 s n); auto.
  Qed.
End G.
