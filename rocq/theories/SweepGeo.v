(* Geometry of lines that are not horizontal: the order in which a sweep crosses them. *)
From Coq Require Import Reals Lra Psatz Classical.
From Verif Require Import Prelude Scalar RInst Geo2 GeoSpec DistR IsectProofs Sweep SweepMap SweepProofs SweepCand.
Local Open Scope R_scope.

Ltac req := match goal with |- @eq _ ?a ?b => change (@eq R a b) end.

Definition sl (l : line) : R := (vx (hi l) - vx (lo l)) / (vy (hi l) - vy (lo l)).
Definition XX (l : line) (y : R) : R := vx (lo l) + (y - vy (lo l)) * sl l.
Definition steep (l : line) : Prop := vy (lo l) < vy (hi l).

Lemma XX_step l y y0 : XX l y = XX l y0 + (y - y0) * sl l.
Proof. unfold XX. ring. Qed.
Lemma XX_lo l : XX l (vy (lo l)) = vx (lo l).
Proof. unfold XX. ring. Qed.
Lemma XX_hi l : steep l -> XX l (vy (hi l)) = vx (hi l).
Proof. unfold XX, sl, steep. intros H. field. lra. Qed.
Lemma on_XX p l : steep l -> (on_line p l <-> vy (lo l) <= vy p <= vy (hi l) /\ vx p = XX l (vy p)).
Proof.
  intros Hs. rewrite on_line_lohi. unfold steep in Hs. split.
  - intros (t & Ht & E). assert (Ey : vy p = vy (lo l) + t * (vy (hi l) - vy (lo l))) by (rewrite E; auto).
    assert (Ex : vx p = vx (lo l) + t * (vx (hi l) - vx (lo l))) by (rewrite E; auto).
    split; [rewrite Ey; nra|]. unfold XX, sl. rewrite Ey, Ex. req. field. lra.
  - intros [Hy Hx]. exists ((vy p - vy (lo l)) / (vy (hi l) - vy (lo l))).
    assert (Hd : 0 < vy (hi l) - vy (lo l)) by lra. split.
    + split; [apply Rmult_le_pos; [lra|left; apply Rinv_0_lt_compat; auto]|].
      apply (Rmult_le_reg_r (vy (hi l) - vy (lo l))); auto. unfold Rdiv. rewrite Rmult_assoc, Rinv_l by lra. lra.
    + apply V2_ext; cbn; [rewrite Hx; unfold XX, sl; req; field; lra|apply Rminus_diag_uniq; field; lra].
Qed.
(* two lines that change sides meet in between *)
Lemma cross_between a b y0 y1 : y0 < y1 -> XX a y0 < XX b y0 -> XX b y1 < XX a y1 -> exists y, y0 < y < y1 /\ XX a y = XX b y.
Proof.
  intros Hy H0 H1. rewrite (XX_step b y1 y0), (XX_step a y1 y0) in H1. set (D := XX b y0 - XX a y0). set (m := sl a - sl b).
  assert (HD : 0 < D) by (unfold D; lra). assert (Hm : D < (y1 - y0) * m) by (unfold D, m; lra).
  assert (Hm0 : 0 < m) by nra. exists (y0 + D / m). assert (Hq : D / m * m = D) by (field; lra). split.
  - assert (0 < D / m) by (apply Rdiv_lt_0_compat; auto). assert (D / m < y1 - y0) by (apply (Rmult_lt_reg_r m); lra). lra.
  - rewrite (XX_step b _ y0), (XX_step a _ y0). unfold D, m in *. lra.
Qed.

(* c is active just after the sweep passed p *)
Definition active (p : pt) (l : line) : Prop := ~ klt p (lo l) /\ klt p (hi l).
(* a left of b just after the sweep passed p: on lines already crossed at this height look slightly up, on the others slightly down *)
Definition olt (p : pt) (a b : line) : Prop :=
  XX a (vy p) < XX b (vy p) \/
  (XX a (vy p) = XX b (vy p) /\ ((XX a (vy p) <= vx p /\ sl a < sl b) \/ (vx p < XX a (vy p) /\ sl b < sl a))).

Lemma olt_trans p a b c : olt p a b -> olt p b c -> olt p a c.
Proof. unfold olt. intros [H|(H & [[H1 H2]|[H1 H2]])] [K|(K & [[K1 K2]|[K1 K2]])]; try (left; lra); right; (split; [lra|]); [left|..|right]; try lra. Qed.
Lemma olt_irrefl p a : ~ olt p a a.
Proof. unfold olt. intros [H|(H & [[H1 H2]|[H1 H2]])]; lra. Qed.
Lemma olt_le p a b : olt p a b -> XX a (vy p) <= XX b (vy p).
Proof. unfold olt. intros [H|(H & _)]; lra. Qed.

Section Position.
  Variable lines : list line.
  Notation ln := (ln lines).
  Definition common_point (r : pt) : Prop := exists i j a b, i <> j /\ ln i a /\ ln j b /\ on_line r a /\ on_line r b.
  (* the events of the arrangement: end points, and points common to two lines *)
  Definition tev (r : pt) : Prop := (exists i l, ln i l /\ (r = lo l \/ r = hi l)) \/ common_point r.
  Record general : Prop := {
    g_steep : forall i l, ln i l -> steep l;
    g_once : forall i j a b p q, i <> j -> ln i a -> ln j b -> on_line p a -> on_line p b -> on_line q a -> on_line q b -> p = q;
    g_start : forall i j a b, ln i a -> ln j b -> on_line (lo a) b -> lo a = lo b \/ lo a = hi b;
    g_row : forall i j a b c r, i <> j -> ln i a -> ln j b -> on_line c a -> on_line c b -> c <> hi a -> c <> hi b -> tev r -> vy r = vy c -> ~ vx c < vx r
  }.
  Hypothesis G : general.

  Lemma lo_lt_hi i l : ln i l -> klt (lo l) (hi l).
  Proof. intros H. left. apply (g_steep G _ _ H). Qed.
  Lemma active_y p i l : ln i l -> active p l -> vy (lo l) <= vy p <= vy (hi l).
  Proof.
    intros Hl [H1 H2]. unfold klt in *. pose proof (g_steep G _ _ Hl) as Hs. unfold steep in Hs. split; [|lra].
    destruct (Rle_dec (vy (lo l)) (vy p)); auto. exfalso. apply H1. left. lra.
  Qed.
  Lemma active_on p i l : ln i l -> active p l -> on_line (@mkV2 RS (XX l (vy p)) (vy p)) l.
  Proof. intros Hl Ha. apply on_XX; [apply (g_steep G _ _ Hl)|]. cbn [vx vy]. split; auto. eapply active_y; eauto. Qed.
  Lemma active_up p i l : ln i l -> active p l -> XX l (vy p) <= vx p -> vy p < vy (hi l).
  Proof.
    intros Hl Ha Hx. pose proof (active_y _ _ _ Hl Ha) as Hy. destruct (Req_dec (vy p) (vy (hi l))) as [E|]; [|lra].
    destruct Ha as [_ [K|[_ K]]]; [lra|]. rewrite E, XX_hi in Hx; [lra|apply (g_steep G _ _ Hl)].
  Qed.
  Lemma active_down p i l : ln i l -> active p l -> vx p < XX l (vy p) -> vy (lo l) < vy p.
  Proof.
    intros Hl Ha Hx. pose proof (active_y _ _ _ Hl Ha) as Hy. destruct (Req_dec (vy p) (vy (lo l))) as [E|]; [|lra].
    exfalso. destruct Ha as [K _]. apply K. right. split; auto. rewrite E, XX_lo in Hx. auto.
  Qed.
  Lemma same_line i j l : ln i l -> ln j l -> i = j.
  Proof.
    intros Hi Hj. destruct (Nat.eq_dec i j); auto. exfalso. pose proof (lo_lt_hi _ _ Hi) as K. apply (klt_ne _ _ K).
    apply (g_once G i j l l); auto using on_lo, on_hi.
  Qed.
  (* two points of two lines at different heights *)
  Lemma twice i j a b y1 y2 : i <> j -> ln i a -> ln j b -> XX a y1 = XX b y1 -> XX a y2 = XX b y2 ->
    vy (lo a) <= y1 <= vy (hi a) -> vy (lo b) <= y1 <= vy (hi b) -> vy (lo a) <= y2 <= vy (hi a) -> vy (lo b) <= y2 <= vy (hi b) -> y1 = y2.
  Proof.
    intros Hij Ha Hb E1 E2 A1 B1 A2 B2. pose proof (g_steep G _ _ Ha) as Sa. pose proof (g_steep G _ _ Hb) as Sb.
    assert (K : @mkV2 RS (XX a y1) y1 = @mkV2 RS (XX a y2) y2).
    { apply (g_once G i j a b); auto; apply on_XX; auto; cbn [vx vy]; auto. }
    apply (f_equal (@vy RS)) in K. exact K.
  Qed.
  Lemma slopes_differ p i j a b : i <> j -> ln i a -> ln j b -> active p a -> active p b -> XX a (vy p) = XX b (vy p) -> sl a <> sl b.
  Proof.
    intros Hij Ha Hb Aa Ab E Es. pose proof (active_y _ _ _ Ha Aa) as Ya. pose proof (active_y _ _ _ Hb Ab) as Yb.
    destruct (Rle_dec (XX a (vy p)) (vx p)) as [Hx|Hx].
    - pose proof (active_up _ _ _ Ha Aa Hx). pose proof (active_up _ _ _ Hb Ab ltac:(lra)).
      set (y := Rmin (vy (hi a)) (vy (hi b))). assert (vy p < y) by (apply Rmin_glb_lt; auto).
      assert (y <= vy (hi a)) by apply Rmin_l. assert (y <= vy (hi b)) by apply Rmin_r.
      assert (vy p = y); [|lra]. apply (twice i j a b); auto; try lra. rewrite (XX_step a y (vy p)), (XX_step b y (vy p)), E, Es. auto.
    - pose proof (active_down _ _ _ Ha Aa ltac:(lra)). pose proof (active_down _ _ _ Hb Ab ltac:(lra)).
      set (y := Rmax (vy (lo a)) (vy (lo b))). assert (y < vy p) by (apply Rmax_lub_lt; auto).
      assert (vy (lo a) <= y) by apply Rmax_l. assert (vy (lo b) <= y) by apply Rmax_r.
      assert (vy p = y); [|lra]. apply (twice i j a b); auto; try lra. rewrite (XX_step a y (vy p)), (XX_step b y (vy p)), E, Es. auto.
  Qed.
  Lemma olt_total p i j a b : i <> j -> ln i a -> ln j b -> active p a -> active p b -> olt p a b \/ olt p b a.
  Proof.
    intros Hij Ha Hb Aa Ab. unfold olt. destruct (Rtotal_order (XX a (vy p)) (XX b (vy p))) as [H|[H|H]]; auto.
    pose proof (slopes_differ _ _ _ _ _ Hij Ha Hb Aa Ab H) as Hs.
    destruct (Rle_dec (XX a (vy p)) (vx p)); destruct (Rtotal_order (sl a) (sl b)) as [K|[K|K]]; try contradiction.
    - left. right. split; auto.
    - right. right. split; auto. left. split; auto. lra.
    - right. right. split; auto. right. split; auto. lra.
    - left. right. split; auto. right. split; auto. lra.
  Qed.

  (* p' is the next event after p *)
  Definition next (p p' : pt) : Prop := tev p' /\ klt p p' /\ forall r, tev r -> klt p r -> r = p' \/ klt p' r.
  Lemma tev_hi i l : ln i l -> tev (hi l).
  Proof. intros H. left. eauto. Qed.
  Lemma tev_lo i l : ln i l -> tev (lo l).
  Proof. intros H. left. eauto. Qed.
  Lemma next_hi p p' i l : next p p' -> ln i l -> active p l -> hi l = p' \/ klt p' (hi l).
  Proof. intros (_ & _ & H) Hl [_ Ha]. apply H; auto. eapply tev_hi; eauto. Qed.
  Lemma klt_y p q : klt p q -> vy p <= vy q.
  Proof. unfold klt. lra. Qed.
  Lemma next_y p p' i l : next p p' -> ln i l -> active p l -> vy (lo l) <= vy p' <= vy (hi l).
  Proof.
    intros Hn Hl Ha. pose proof (active_y _ _ _ Hl Ha). pose proof (klt_y _ _ (proj1 (proj2 Hn))). split; [lra|].
    destruct (next_hi _ _ _ _ Hn Hl Ha) as [E|K]; [rewrite E; lra|]. apply klt_y; auto.
  Qed.
  Lemma meets_tev i j a b y : i <> j -> ln i a -> ln j b -> XX a y = XX b y -> vy (lo a) <= y <= vy (hi a) -> vy (lo b) <= y <= vy (hi b) ->
    tev (@mkV2 RS (XX a y) y).
  Proof.
    intros Hij Ha Hb E A B. right. exists i, j, a, b. repeat split; auto; apply on_XX; cbn [vx vy]; auto; [apply (g_steep G _ _ Ha)|apply (g_steep G _ _ Hb)].
  Qed.
  Lemma order_at_next p p' i j a b : i <> j -> ln i a -> ln j b -> active p a -> active p b -> next p p' -> olt p a b -> XX a (vy p') <= XX b (vy p').
  Proof.
    intros Hij Ha Hb Aa Ab Hn Ho. pose proof (next_y _ _ _ _ Hn Ha Aa) as Ya. pose proof (next_y _ _ _ _ Hn Hb Ab) as Yb.
    pose proof (active_y _ _ _ Ha Aa) as Ya0. pose proof (active_y _ _ _ Hb Ab) as Yb0.
    destruct Hn as (Ht & Hk & Hmin). pose proof (klt_y _ _ Hk) as Hy.
    destruct (Req_dec (vy p) (vy p')) as [E|E]; [rewrite <- E; apply olt_le; auto|].
    assert (Hlt : vy p < vy p') by lra. destruct Ho as [Ho|(Ho & [[H1 H2]|[H1 H2]])].
    - destruct (Rle_dec (XX a (vy p')) (XX b (vy p'))) as [|Hc]; auto. exfalso.
      destruct (cross_between a b (vy p) (vy p')) as (y & Hyy & Ey); auto; [lra|].
      assert (Tv : tev (@mkV2 RS (XX a y) y)) by (apply (meets_tev i j a b); auto; lra).
      assert (K1 : klt p (@mkV2 RS (XX a y) y)) by (left; cbn; lra).
      destruct (Hmin _ Tv K1) as [K2|K2]; [apply (f_equal (@vy RS)) in K2; cbn in K2; lra|apply klt_y in K2; cbn in K2; lra].
    - rewrite (XX_step a (vy p') (vy p)), (XX_step b (vy p') (vy p)), Ho. nra.
    - exfalso. assert (Tv : tev (@mkV2 RS (XX a (vy p)) (vy p))) by (apply (meets_tev i j a b); auto; lra).
      assert (K1 : klt p (@mkV2 RS (XX a (vy p)) (vy p))) by (right; cbn; auto).
      destruct (Hmin _ Tv K1) as [K2|K2]; [apply (f_equal (@vy RS)) in K2; cbn in K2; lra|apply klt_y in K2; cbn in K2; lra].
  Qed.
  (* lines that do not both pass through the next event keep their order *)
  Lemma order_kept p p' i j a b : i <> j -> ln i a -> ln j b -> active p a -> active p b -> active p' a -> active p' b -> next p p' ->
    ~ (on_line p' a /\ on_line p' b) -> olt p a b -> olt p' a b.
  Proof.
    intros Hij Ha Hb Aa Ab Aa' Ab' Hn Hno Ho. pose proof (order_at_next p p' i j a b Hij Ha Hb Aa Ab Hn Ho) as Hle.
    destruct (Rle_lt_or_eq_dec _ _ Hle) as [|E]; [left; auto|]. right. split; auto.
    pose proof (active_y _ _ _ Ha Aa') as Ya'. pose proof (active_y _ _ _ Hb Ab') as Yb'.
    pose proof (active_y _ _ _ Ha Aa) as Ya0. pose proof (active_y _ _ _ Hb Ab) as Yb0.
    pose proof (meets_tev i j a b (vy p') Hij Ha Hb E Ya' Yb') as Tv. set (r := @mkV2 RS (XX a (vy p')) (vy p')) in *.
    assert (Hr : r <> p').
    { intros Er. apply Hno. split; apply on_XX; [apply (g_steep G _ _ Ha)| |apply (g_steep G _ _ Hb)|]; (split; [auto|]); rewrite <- Er; cbn; auto. }
    destruct Hn as (Ht & Hk & Hmin).
    assert (Hxx : vx p' < XX a (vy p') \/ (vy p = vy p' /\ XX a (vy p') <= vx p)).
    { destruct (klt_total p r) as [K|[K|K]].
      - destruct (Hmin r Tv K) as [|K2]; [contradiction|]. left. destruct K2 as [K2|[_ K2]]; [cbn in K2; lra|auto].
      - right. apply (f_equal (@vx RS)) in K as Kx. apply (f_equal (@vy RS)) in K as Ky. cbn in Kx, Ky. split; lra.
      - right. destruct K as [K|[K1 K2]]; cbn in *; [apply klt_y in Hk; lra|]. split; lra. }
    destruct Hxx as [Hx|[Ey Hx]].
    - right. split; auto. destruct (Req_dec (vy p) (vy p')) as [Ey|Ey].
      + destruct Ho as [Ho|(_ & [[H1 H2]|[H1 H2]])]; auto; [rewrite Ey in Ho; lra|]. destruct Hk as [Hk|[_ Hk]]; [lra|]. rewrite Ey in H1. lra.
      + apply klt_y in Hk. assert (Hlt : XX a (vy p) < XX b (vy p)).
        { destruct Ho as [Ho|[Ho _]]; auto. exfalso. apply Ey. apply (twice i j a b); auto; lra. }
        rewrite (XX_step a (vy p') (vy p)), (XX_step b (vy p') (vy p)) in E. nra.
    - left. destruct Hk as [Hk|[_ Hk]]; [lra|]. split; [lra|]. destruct Ho as [Ho|(_ & [[H1 H2]|[H1 H2]])]; auto; rewrite Ey in *; lra.
  Qed.
End Position.
