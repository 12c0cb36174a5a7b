(* The event points of a sweep: end points, and single points where two lines cross. *)
From Coq Require Import Reals Lra Psatz.
From Verif Require Import Prelude Scalar RInst Geo2 GeoSpec DistR IsectProofs Sweep SweepMap SweepProofs.
Local Open Scope R_scope.

Lemma lerp_eq (a b p : pt) t : p = lerp a b t <-> vx p = vx a + t * (vx b - vx a) /\ vy p = vy a + t * (vy b - vy a).
Proof. split; [intros ->; auto|intros [H1 H2]; apply V2_ext; auto]. Qed.

Lemma overlap_start (a b s : line) : lstart s <> lend s -> (forall q, common a b q <-> on_segment q (lstart s) (lend s)) ->
  ends_of (lstart s) a \/ ends_of (lstart s) b.
Proof.
  intros Hne Hc. set (p := lstart s) in *. set (e := lend s) in *.
  assert (Cp : common a b p) by (apply Hc, on_segment_start). assert (Ce : common a b e) by (apply Hc, on_segment_end).
  assert (In_ : forall l : line, on_line p l -> on_line e l -> ends_of p l \/ exists eps, 0 < eps /\ forall x, 0 <= x <= eps -> on_line (lerp p e (- x)) l).
  { intros l (t & Ht & Ep) (t' & Ht' & Ee). destruct (Req_dec t 0) as [->|H0].
    { left. left. rewrite Ep. apply V2_ext; cbn; lra. }
    destruct (Req_dec t 1) as [->|H1]. { left. right. rewrite Ep. apply V2_ext; cbn; lra. }
    right. exists (Rmin t (1 - t)). split; [apply Rmin_glb_lt; lra|]. intros x Hx.
    assert (x <= t) by (eapply Rle_trans; [apply Hx|apply Rmin_l]). assert (x <= 1 - t) by (eapply Rle_trans; [apply Hx|apply Rmin_r]).
    exists (t - x * (t' - t)). split; [nra|]. apply lerp_eq in Ep as [X1 Y1]. apply lerp_eq in Ee as [X2 Y2].
    apply lerp_eq. cbn. rewrite X1, Y1, X2, Y2. split; ring. }
  destruct (In_ a) as [|(e1 & He1 & K1)]; [apply Cp|apply Ce|auto|]. destruct (In_ b) as [|(e2 & He2 & K2)]; [apply Cp|apply Ce|auto|].
  exfalso. set (x := Rmin e1 e2). assert (Hx : 0 < x) by (apply Rmin_glb_lt; lra).
  assert (C : common a b (lerp p e (- x))).
  { split; [apply K1|apply K2]; split; try lra; [apply Rmin_l|apply Rmin_r]. }
  apply Hc in C as (w & Hw & E). apply Hne. apply lerp_eq in E as [E1 E2]. cbn in E1, E2.
  apply V2_ext.
  - assert (Z : (x + w) * (vx e - vx p) = 0) by lra. apply Rmult_integral in Z as [Z|Z]; [lra|]. symmetry. apply Rminus_diag_uniq. exact Z.
  - assert (Z : (x + w) * (vy e - vy p) = 0) by lra. apply Rmult_integral in Z as [Z|Z]; [lra|]. symmetry. apply Rminus_diag_uniq. exact Z.
Qed.

(* [pts] contains every end point, and every point that is the only common point of two input lines *)
Definition event_points (input : list line) (pts : list pt) : Prop :=
  (forall l, In l input -> In (lstart l) pts /\ In (lend l) pts) /\
  (forall a b p, In a input -> In b input -> (forall q, common a b q <-> q = p) -> In p pts).

Lemma event_points_cands (f : line -> line) input pts : (forall l, (f l = l) \/ f l = arrange l) -> event_points input pts -> incl (cands (map f input)) pts.
Proof.
  intros Hf [H1 H2] k Hk.
  assert (Hfe : forall l k, ends_of k (f l) -> ends_of k l).
  { intros l k0 H. apply end_cases in H. apply end_cases. destruct (Hf l) as [E|E]; rewrite E in H; auto. rewrite lo_arrange, hi_arrange in H. auto. }
  assert (Hfo : forall l k, on_line k (f l) <-> on_line k l).
  { intros l k0. destruct (Hf l) as [E|E]; rewrite E; [tauto|]. apply on_line_arrange. }
  assert (He : forall l k, In l input -> ends_of k (f l) -> In k pts).
  { intros l k0 Hl H. apply Hfe in H. destruct (H1 l Hl). destruct H as [->| ->]; auto. }
  apply in_app_iff in Hk as [Hk|Hk].
  - apply in_flat_map in Hk as (l' & Hl' & Hk). apply in_map_iff in Hl' as (l & <- & Hl). apply (He l); auto. cbn in Hk. unfold ends_of. intuition.
  - apply in_flat_map in Hk as (a' & Ha' & Hk). apply in_flat_map in Hk as (b' & Hb' & Hk).
    apply in_map_iff in Ha' as (a & <- & Ha). apply in_map_iff in Hb' as (b & <- & Hb).
    pose proof (intersection_correct (f a) (f b)) as C. destruct (intersection_point (f a) (f b)) as [it|] eqn:E; [|destruct Hk].
    destruct Hk as [<-|[]]. destruct it as [p|s]; cbn [isingle correct] in *.
    + apply (H2 a b p); auto. intros q. rewrite <- C. unfold common. fold (on_line q a) (on_line q b) (on_line q (f a)) (on_line q (f b)). rewrite !Hfo. tauto.
    + destruct C as [Hne C]. destruct (overlap_start _ _ _ Hne C) as [K|K]; [apply (He a _ Ha K)|apply (He b _ Hb K)].
Qed.
(* a list of at most n (n + 2) such points always exists *)
Lemma event_points_exist input : exists pts, event_points input pts /\ (length pts <= length input * (length input + 2))%nat.
Proof.
  exists (cands input). split; [|apply cands_length]. split.
  - intros l Hl. split; apply (in_cands_end _ l); auto; [left|right]; auto.
  - intros a b p Ha Hb H. pose proof (intersection_correct a b) as C. destruct (intersection_point a b) as [[q|s]|] eqn:E; cbn [correct] in C.
    + assert (q = p) by (apply H, C; auto). subst q. apply (in_cands_pair _ a b (IPoint p)); auto.
    + exfalso. destruct C as [Hne C]. apply Hne. transitivity p; [|symmetry]; apply H, C; [apply on_segment_start|apply on_segment_end].
    + exfalso. apply (C p). apply H. auto.
Qed.
