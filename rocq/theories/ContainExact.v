(* Exactly which interior points contains_point_exclusive finds: those not on a line from the pivot vertex of its
   search to another vertex. *)
From Coq Require Import Reals Lra Lia.
From Verif Require Import Prelude Scalar RInst Geo2 GeoSpec DistR HullSpec HullGeo Hull HullAny GrahamProofs GrahamProofs2 GrahamProofs3 HullUniq ContainProofs.
Local Open Scope R_scope.

Section Exact.
  Variables (Q : list pt) (o p : pt) (t : list pt).
  Hypothesis HQ : convex_polygon Q.
  Hypothesis EQ : Q = o :: t.

  Lemma slice_exact left : inside Q p -> exists a b,
    (let* r := search (length Q) o p Q false in match r with None => Val false | Some (sl, retain) => final_test left o p sl retain end)
      = Val (left o a p && left a b p && left b o p)%bool /\
    In (a, b) (edges Q) /\ In a Q /\ In b Q /\ 0 < orient o a b /\ 0 <= orient o a p /\ 0 <= orient a b p /\ 0 <= orient b o p.
  Proof.
    intros Hin.
    destruct (search_spec Q o p (Ho' Q o t EQ) (length Q) Q false (le_n _) (start_inv Q o p HQ)) as [(E & a & b & X & Y & EX & Hneg)|(sl & retain & E & Hi & Hl)]; rewrite E; cbn [obind].
    - exfalso. specialize (Hin a b (adj_edge Q o t EQ _ _ _ _ EX)). lra.
    - destruct (final_tri Q o p t HQ EQ sl retain Hi Hl) as (a & b & -> & Ht & Ha & Hb & He & Hc). rewrite final_test_tri.
      exists a, b. split; auto. destruct (Hc Hin) as (H1 & H2 & H3). repeat split; auto.
  Qed.

  (* no vertex lies strictly inside the polygon or strictly inside a triangle of vertices *)
  Lemma succ_edge v : In v Q -> exists n, In (v, n) (edges Q) /\ In n Q.
  Proof.
    intros Hv. apply in_split in Hv as (X & Y & E). destruct Y as [|y Y].
    - exists o. split; [eapply close_edge; eauto|]. rewrite EQ. left; auto.
    - exists y. split; [eapply adj_edge; eauto|]. rewrite E. apply in_or_app. right; right; left; auto.
  Qed.
  Lemma vertex_not_in_triangle v a b : In v Q -> In a Q -> In b Q -> In o Q -> 0 < orient o a b ->
    0 < orient o a v -> 0 < orient a b v -> 0 < orient b o v -> False.
  Proof.
    intros Hv Ha Hb Ho Ht H1 H2 H3. destruct (succ_edge v Hv) as (n & He & Hn).
    pose proof (bary_id v n o a b v) as Id. rewrite orient_aba in Id.
    pose proof (polygon_left _ _ _ _ HQ He Ho) as L1. pose proof (polygon_left _ _ _ _ HQ He Ha) as L2. pose proof (polygon_left _ _ _ _ HQ He Hb) as L3.
    assert (M1 : 0 <= orient a b v * orient v n o) by (apply Rmult_le_pos; lra).
    assert (M2 : 0 <= orient b o v * orient v n a) by (apply Rmult_le_pos; lra).
    assert (M3 : 0 <= orient o a v * orient v n b) by (apply Rmult_le_pos; lra).
    assert (Z1 : orient v n o = 0) by (apply Rmult_eq_reg_l with (orient a b v); lra).
    assert (Z2 : orient v n a = 0) by (apply Rmult_eq_reg_l with (orient b o v); lra).
    assert (Z3 : orient v n b = 0) by (apply Rmult_eq_reg_l with (orient o a v); lra).
    destruct HQ as (_ & _ & Hs).
    assert (K : forall x, In x Q -> orient v n x = 0 -> x = v \/ x = n).
    { intros x Hx Hz. destruct (pt_dec x v); auto. destruct (pt_dec x n); auto. specialize (Hs v n x He Hx n0 n1). lra. }
    destruct (K o Ho Z1) as [->| ->], (K a Ha Z2) as [->| ->], (K b Hb Z3) as [->| ->];
      rewrite ?orient_aab, ?orient_aba, ?orient_abb in *; lra.
  Qed.

  (* p on the line through o and another vertex v: p is on a side of the final triangle *)
  Lemma on_spoke a b v : strictly_inside Q p -> In (a, b) (edges Q) -> In a Q -> In b Q -> 0 < orient o a b ->
    0 < orient o a p -> 0 < orient a b p -> 0 < orient b o p -> In v Q -> v <> o -> orient o v p <> 0.
  Proof.
    intros Hsi He Ha Hb Ht H1 H2 H3 Hv Hvo Hz.
    assert (Ho : In o Q) by (rewrite EQ; left; auto).
    destruct (succ_edge o Ho) as (n & Hon & Hn).
    pose proof (Hsi o n Hon) as P1. pose proof (polygon_left _ _ _ _ HQ Hon Hv) as V1.
    (* p - o = s (v - o) *)
    assert (Hs : exists s, vx p - vx o = s * (vx v - vx o) /\ vy p - vy o = s * (vy v - vy o)).
    { unfold orient in Hz. destruct (Req_dec (vx v - vx o) 0) as [X|X].
      - assert (Y : vy v - vy o <> 0). { intros Y. apply Hvo. apply V2_ext; lra. }
        exists ((vy p - vy o) / (vy v - vy o)). split; [|field; auto].
        rewrite X in Hz |- *. assert (vx p - vx o = 0); [|lra]. apply Rmult_eq_reg_l with (vy v - vy o); auto. lra.
      - exists ((vx p - vx o) / (vx v - vx o)). split; [field; auto|]. apply Rmult_eq_reg_l with (vx v - vx o); auto.
        replace ((vx v - vx o) * ((vx p - vx o) / (vx v - vx o) * (vy v - vy o))) with ((vx p - vx o) * (vy v - vy o)) by (field; auto). lra. }
    destruct Hs as (s & Sx & Sy).
    assert (S1 : forall x, orient o x p = s * orient o x v).
    { intros x. unfold orient. rewrite Sx, Sy. ring. }
    assert (S2 : forall x, orient x o p = s * orient x o v).
    { intros x. rewrite (orient_swap x o p), (orient_swap x o v), S1. ring. }
    rewrite S1 in P1. assert (Hs0 : 0 < s).
    { destruct (Rlt_dec 0 s) as [|N]; auto. exfalso. assert (s * orient o n v <= 0); [|lra].
      apply Ropp_le_cancel. rewrite Ropp_0, <- Ropp_mult_distr_l_reverse. apply Rmult_le_pos; lra. }
    rewrite S1 in H1. rewrite S2 in H3.
    assert (A1 : 0 < orient o a v) by (apply Rmult_lt_reg_l with s; lra).
    assert (A3 : 0 < orient b o v) by (apply Rmult_lt_reg_l with s; lra).
    assert (A2 : 0 < orient a b v).
    { destruct HQ as (_ & _ & Hst). apply Hst; auto; intros ->; rewrite ?orient_abb, ?orient_aba, ?orient_aab in *; lra. }
    exact (vertex_not_in_triangle v a b Hv Ha Hb Ho Ht A1 A2 A3).
  Qed.

  Lemma slice_exclusive : strictly_inside Q p -> exists r,
    (let* r := search (length Q) o p Q false in match r with None => Val false | Some (sl, retain) => final_test is_point_left o p sl retain end) = Val r /\
    (r = true <-> forall v, In v Q -> v <> o -> orient o v p <> 0).
  Proof.
    intros Hsi. assert (Hin : inside Q p) by (intros a b He; apply Rlt_le, Hsi; auto).
    destruct (slice_exact is_point_left Hin) as (a & b & E & He & Ha & Hb & Ht & H1 & H2 & H3).
    exists (is_point_left o a p && is_point_left a b p && is_point_left b o p)%bool. split; auto. split.
    - intros H. apply andb_true_iff in H as [H K3]. apply andb_true_iff in H as [K1 K2]. rewrite left_R in K1, K2, K3.
      intros v Hv Hvo. eapply on_spoke; eauto.
    - intros H. rewrite !andb_true_iff, !left_R. split; [split|].
      + assert (orient o a p <> 0); [|lra]. apply H; auto. intros ->. rewrite orient_aab in Ht. lra.
      + apply Hsi; auto.
      + assert (orient o b p <> 0); [|rewrite orient_swap in H3 |- *; lra]. apply H; auto. intros ->. rewrite orient_aba in Ht. lra.
  Qed.
End Exact.

Lemma contains_open left (o : pt) t p : convex_polygon (o :: t) -> contains_with left (o :: t) p =
  (let* r := search (length (o :: t)) o p (o :: t) false in match r with None => Val false | Some (sl, retain) => final_test left o p sl retain end).
Proof.
  intros (Hl & Hn & _). destruct t as [|v1 [|v2 t]]; try (cbn in Hl; lia).
  assert (Hlast : veqb o (last (v1 :: v2 :: t) o) = false).
  { apply not_true_iff_false. intros H. apply veqb_R in H. destruct (@exists_last _ (v1 :: v2 :: t)) as (W & z & Ew); [congruence|].
    rewrite Ew, last_app_one in H. subst z. inversion Hn as [|? ? H1 _]; subst. apply H1. rewrite Ew. apply in_or_app. right; left; auto. }
  unfold contains_with. rewrite Hlast. cbn [Nat.eqb andb]. unfold idx at 1. cbn [nth_error obind length Nat.eqb andb]. auto.
Qed.
Lemma contains_closed left (v o : pt) t p : convex_polygon (v :: o :: t) -> contains_with left ((v :: o :: t) ++ [v]) p =
  (let* r := search (length (o :: t ++ [v])) o p (o :: t ++ [v]) false in match r with None => Val false | Some (sl, retain) => final_test left o p sl retain end).
Proof.
  intros (Hl & Hn & _). destruct t as [|v2 t]; try (cbn in Hl; lia).
  assert (Hlast : veqb v (last ((o :: v2 :: t) ++ [v]) v) = true) by (apply veqb_R; rewrite last_app_one; auto).
  unfold contains_with. cbn [app] in *. rewrite Hlast. cbn [length Nat.eqb andb]. unfold idx at 1. cbn [nth_error obind]. auto.
Qed.

Lemma exclusive_open (o : pt) t p : convex_polygon (o :: t) -> exists r, contains_point_exclusive (o :: t) p = Val r /\
  (r = true <-> strictly_inside (o :: t) p /\ forall v, In v (o :: t) -> v <> o -> orient o v p <> 0).
Proof.
  intros Hc. destruct (exclusive_sound (o :: t) (o :: t) p Hc (or_introl eq_refl)) as (r & E & Hr). exists r. split; auto.
  assert (K : strictly_inside (o :: t) p -> (r = true <-> forall v, In v (o :: t) -> v <> o -> orient o v p <> 0)).
  { intros Hs. destruct (slice_exclusive (o :: t) o p t Hc eq_refl Hs) as (r' & E' & H').
    unfold contains_point_exclusive in E. rewrite contains_open, E' in E by auto. injection E as ->. auto. }
  split; [intros H; split; [auto|apply K; auto]|]. intros [Hs H]. apply K; auto.
Qed.
Lemma exclusive_closed (v o : pt) t p : convex_polygon (v :: o :: t) -> exists r, contains_point_exclusive ((v :: o :: t) ++ [v]) p = Val r /\
  (r = true <-> strictly_inside (v :: o :: t) p /\ forall w, In w (v :: o :: t) -> w <> o -> orient o w p <> 0).
Proof.
  intros Hc. destruct (exclusive_sound (v :: o :: t) ((v :: o :: t) ++ [v]) p Hc) as (r & E & Hr); [right; exists v, (o :: t); auto|]. exists r. split; auto.
  assert (Hin : forall x, In x (o :: t ++ [v]) <-> In x (v :: o :: t)).
  { intros x. change (o :: t ++ [v]) with ((o :: t) ++ [v]). rewrite in_app_iff. cbn. intuition. }
  assert (K : strictly_inside (v :: o :: t) p -> (r = true <-> forall w, In w (v :: o :: t) -> w <> o -> orient o w p <> 0)).
  { intros Hs. assert (Hc' := convex_rotate _ _ Hc). cbn [app] in Hc'.
    destruct (slice_exclusive (o :: t ++ [v]) o p (t ++ [v]) Hc' eq_refl) as (r' & E' & H').
    { apply (strict_rotate v (o :: t)); auto. congruence. }
    unfold contains_point_exclusive in E. rewrite contains_closed, E' in E by auto. injection E as ->. rewrite H'.
    split; intros H w Hw; apply H; apply Hin; auto. }
  split; [intros H; split; [auto|apply K; auto]|]. intros [Hs H]. apply K; auto.
Qed.
