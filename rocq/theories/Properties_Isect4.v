(* Segment intersections, line strings against lines, and rays: what the results depend on (C141-C143), in exact arithmetic.
   Model: Geo2.v. Vocabulary: GeoSpec.v ([on_segment]), IsectProofs.v ([common a b q]: q is on both segments; [ray_at o d t]: o + t*d),
   Properties_Sweep6.v ([mapped a k m c b d]: the affine map p -> (a x + k y + b, m x + c y + d)). *)
From Coq Require Import ZArith Reals Lra Lia Psatz Floats.SpecFloat.
From Verif Require Import Prelude Scalar RInst Flt Geo2 GeoSpec DistR IsectProofs IsectSym ShapeUniq Properties_Float Properties_Sweep6.
Local Open Scope R_scope.

Definition flip {S} (l : Line2 S) : Line2 S := mkL (lend l) (lstart l).
(* a line and an intersection under a map of points *)
Definition line_under (T : pt -> pt) (l : Line2 RS) : Line2 RS := mkL (T (lstart l)) (T (lend l)).
Definition under (T : pt -> pt) (i : Intersection RS) : Intersection RS :=
  match i with IPoint p => IPoint (T p) | IOverlap s => IOverlap (line_under T s) end.

(* C141: what is reported for two segments depends only on the points they have in common *)
Theorem C141_determined_by_common_points : forall a b a' b' : Line2 RS,
  (forall q, common a b q <-> common a' b' q) -> intersection_point a b = intersection_point a' b'.
Proof. exact intersection_determined. Qed.
Print Assumptions C141_determined_by_common_points.
(* so the order and the directions of the two segments do not matter, and an overlap is reported from left to right *)
Theorem C141_order_and_direction : forall a b : Line2 RS,
  intersection_point b a = intersection_point a b /\ intersection_point (flip a) b = intersection_point a b /\
  intersection_point a (flip b) = intersection_point a b /\
  forall s, intersection_point a b = Some (IOverlap s) ->
    vx (lstart s) < vx (lend s) \/ (vx (lstart s) = vx (lend s) /\ vy (lstart s) < vy (lend s)).
Proof.
  intros a b. split; [|split; [|split]].
  - apply intersection_determined. intros q. unfold common. tauto.
  - apply intersection_determined. intros q. unfold common, flip. cbn [lstart lend]. rewrite (on_segment_sym q (lend a)). tauto.
  - apply intersection_determined. intros q. unfold common, flip. cbn [lstart lend]. rewrite (on_segment_sym q (lend b)). tauto.
  - intros s E. apply intersection_rightward in E. destruct E as [E|[E1 E2]]; lra.
Qed.
Print Assumptions C141_order_and_direction.
(* and the result moves along with every invertible affine map: the same kind, the image of the point, the image of the overlap,
   which is turned round when the map turns left to right round *)
Theorem C141_moves_along : forall a k m c b d (l l' : Line2 RS), a * c - k * m <> 0 -> let T := mapped a k m c b d in
  let there := intersection_point (line_under T l) (line_under T l') in
  match intersection_point l l' with
  | None => there = None
  | Some (IPoint p) => there = Some (IPoint (T p))
  | Some (IOverlap s) => there = Some (IOverlap (line_under T s)) \/ there = Some (IOverlap (flip (line_under T s)))
  end /\
  (0 < a -> k = 0 -> 0 < c -> there = option_map (under T) (intersection_point l l')).
Proof.
  intros a k m c b d l l' Hd T there. pose proof (intersection_mapped a k m c b d Hd l l') as H.
  change (IsectSym.Tl a k m c b d l) with (line_under T l) in H. change (IsectSym.Tl a k m c b d l') with (line_under T l') in H. fold there in H.
  split; [|exact (intersection_moved a k m c b d Hd l l')].
  destruct (intersection_point l l') as [[p|s]|]; cbn [option_map Ti] in H; destruct there as [[q|r]|]; cbn [same_up_to_direction] in H; try contradiction; auto.
  - rewrite H. reflexivity.
  - destruct H as [-> | ->]; [left|right]; reflexivity.
Qed.
Print Assumptions C141_moves_along.
Example C141_hypotheses_met : intersection_point (mkL (@mkV2 RS 0 0) (@mkV2 RS 4 0)) (mkL (@mkV2 RS 6 0) (@mkV2 RS 1 0)) =
  intersection_point (mkL (@mkV2 RS 1 0) (@mkV2 RS 9 0)) (mkL (@mkV2 RS 4 0) (@mkV2 RS (-1) 0)).
Proof.
  apply C141_determined_by_common_points. intros [x y]. unfold common. cbn [lstart lend].
  assert (H : forall u v, u < v -> on_segment (@mkV2 RS x y) (@mkV2 RS u 0) (@mkV2 RS v 0) <-> u <= x <= v /\ y = 0).
  { intros u v Huv. rewrite on_segment_coord. split.
    - intros (t & Ht & -> & ->). pose proof (mul01 t (v - u) Ht). lra.
    - intros [Hx ->]. exists ((x - u) / (v - u)). split; [|cbn [car RS] in *; split; field; lra].
      cbn [car RS] in *. split; [apply Rmult_le_pos; [lra|left; apply Rinv_0_lt_compat; lra]|]. apply Rmult_le_reg_r with (v - u); [lra|]. unfold Rdiv. rewrite Rmult_assoc, Rinv_l by lra. lra. }
  rewrite (on_segment_sym _ (@mkV2 RS 6 0)), (on_segment_sym _ (@mkV2 RS 4 0) (@mkV2 RS (-1) 0)). rewrite !H by lra. lra.
Qed.
(* in f64 the order and the direction of the segments do change the last bits *)
Theorem C141_f64_refuted : let a := mkL (P 1 1) (P 0 0) in let b := mkL (P 0 2) (P 1 0) in
  let x (i : option (Intersection F64_)) := match i with Some (IPoint p) => Some (vx p) | _ => None end in
  let same i j := match x i, x j with Some u, Some v => Some (SFeqb u v) | _, _ => None end in
  same (intersection_point (S := F64_) b a) (intersection_point a b) = Some false /\
  same (intersection_point (S := F64_) (flip a) b) (intersection_point a b) = Some false.
Proof. vm_compute. auto. Qed.
Print Assumptions C141_f64_refuted.

(* C142: a line string against a line *)
Lemma filter_some_ext {A B} (f g : A -> option B) l : (forall x, f x = g x) -> filter_some f l = filter_some g l.
Proof. intros H. induction l as [|x l IH]; cbn [filter_some]; auto. rewrite H, IH. auto. Qed.
Lemma filter_some_app {A B} (f : A -> option B) l l' : filter_some f (l ++ l') = filter_some f l ++ filter_some f l'.
Proof. induction l as [|x l IH]; cbn [filter_some app]; auto. rewrite IH. destruct (f x); auto. Qed.
Lemma filter_some_rev {A B} (f : A -> option B) l : filter_some f (rev l) = rev (filter_some f l).
Proof. induction l as [|x l IH]; cbn [filter_some rev]; auto. rewrite filter_some_app, IH. cbn [filter_some]. destruct (f x); cbn [rev]; auto. rewrite app_nil_r. auto. Qed.
Lemma filter_some_map {A B C} (f : B -> option C) (g : A -> B) l : filter_some f (map g l) = filter_some (fun x => f (g x)) l.
Proof. induction l as [|x l IH]; cbn [filter_some map]; auto. rewrite IH. auto. Qed.
Lemma filter_some_out {A B C} (f : A -> option B) (g : B -> C) l : filter_some (fun x => option_map g (f x)) l = map g (filter_some f l).
Proof. induction l as [|x l IH]; cbn [filter_some map]; auto. destruct (f x); cbn [option_map map]; rewrite IH; auto. Qed.
Lemma first_some_hd {A B} (f : A -> option B) l : first_some f l = hd_error (filter_some f l).
Proof. induction l as [|x l IH]; cbn [filter_some first_some]; auto. destruct (f x); auto. Qed.
Lemma window_iter_rev {S : Scalar} (l : list (V2 S)) : window_iter (rev l) = rev (map flip (window_iter l)).
Proof. unfold window_iter. rewrite windows_rev, map_rev. rewrite !map_map. reflexivity. Qed.
Lemma window_iter_under T (l : list pt) : window_iter (map T l) = map (line_under T) (window_iter l).
Proof. unfold window_iter. rewrite windows_map, !map_map. reflexivity. Qed.
Lemma two_loop_ext {S : Scalar} (es : list (Line2 S)) o o' : (forall e, intersection_point e o = intersection_point e o') -> forall acc, two_loop es o acc = two_loop es o' acc.
Proof. intros H. induction es as [|e es IH]; intros acc; cbn [two_loop]; auto. rewrite H. rewrite IH. auto. Qed.

(* the line may be given in either direction; a line string walked backwards has the same intersections in the opposite order *)
Theorem C142_direction : forall (l : list pt) (o : Line2 RS),
  find_all_intersections l (flip o) = find_all_intersections l o /\ ls_intersection l (flip o) = ls_intersection l o /\
  find_two_intersections l (flip o) = find_two_intersections l o /\
  find_all_intersections (rev l) o = rev (find_all_intersections l o).
Proof.
  intros l o. assert (H : forall e, intersection_point e (flip o) = intersection_point e o) by (intros e; apply C141_order_and_direction).
  split; [apply filter_some_ext; exact H|]. split; [|split].
  - unfold ls_intersection. rewrite !first_some_hd. f_equal. apply filter_some_ext. exact H.
  - unfold find_two_intersections. rewrite (two_loop_ext (window_iter l) (flip o) o H). reflexivity.
  - unfold find_all_intersections. rewrite window_iter_rev, <- map_rev, filter_some_map, filter_some_rev.
    f_equal. apply filter_some_ext. intros e. apply C141_order_and_direction.
Qed.
Print Assumptions C142_direction.
Theorem C142_moves_along : forall a m c b d (l : list pt) (o : Line2 RS), 0 < a -> 0 < c -> let T := mapped a 0 m c b d in
  find_all_intersections (map T l) (line_under T o) = map (under T) (find_all_intersections l o) /\
  ls_intersection (map T l) (line_under T o) = option_map (under T) (ls_intersection l o) /\
  find_two_intersections (map T l) (line_under T o) = (option_map T (fst (find_two_intersections l o)), option_map T (snd (find_two_intersections l o))).
Proof.
  intros a m c b d l o Pa Pc T.
  assert (Hd : a * c - 0 * m <> 0) by (assert (0 < a * c) by (apply Rmult_lt_0_compat; auto); lra).
  assert (H : forall e, intersection_point (line_under T e) (line_under T o) = option_map (under T) (intersection_point e o)).
  { intros e. apply (C141_moves_along a 0 m c b d e o Hd); auto. }
  assert (A : find_all_intersections (map T l) (line_under T o) = map (under T) (find_all_intersections l o)).
  { unfold find_all_intersections. rewrite window_iter_under, filter_some_map, (filter_some_ext _ _ _ H). apply filter_some_out. }
  split; [exact A|]. split.
  - unfold ls_intersection. rewrite !first_some_hd. change (hd_error (find_all_intersections (map T l) (line_under T o)) = option_map (under T) (hd_error (find_all_intersections l o))).
    rewrite A. destruct (find_all_intersections l o); reflexivity.
  - unfold find_two_intersections. cbn [fst snd]. rewrite window_iter_under.
    assert (Mem : forall p q, veqb (T p) (T q) = veqb p q).
    { intros p q. destruct (veqb p q) eqn:E; [apply veqb_R in E as ->; apply veqb_R; auto|]. apply not_true_iff_false. intros E'. apply veqb_R in E'.
      apply (Tp_inj a 0 m c b d Hd) in E'. apply veqb_R in E'. congruence. }
    assert (Push : forall acc p, push_new (map T acc) (T p) = map T (push_new acc p)).
    { intros acc p. unfold push_new, vmem. replace (existsb (fun q => veqb q (T p)) (map T acc)) with (existsb (fun q => veqb q p) acc).
      - destruct (existsb (fun q => veqb q p) acc); auto. rewrite map_app. auto.
      - induction acc as [|x acc IH]; cbn [existsb map]; auto. rewrite Mem, IH. auto. }
    assert (Loop : forall es acc, two_loop (map (line_under T) es) (line_under T o) (map T acc) = map T (two_loop es o acc)).
    { induction es as [|e es IH]; intros acc; cbn [two_loop map]; auto. rewrite H.
      assert (Step : exists acc', match option_map (under T) (intersection_point e o) with
        | Some (IPoint p) => push_new (map T acc) p
        | Some (IOverlap l) => let acc1 := push_new (map T acc) (lstart l) in if (Nat.ltb (length acc1) 2)%bool then push_new acc1 (lend l) else acc1
        | None => map T acc end = map T acc' /\ acc' = match intersection_point e o with
        | Some (IPoint p) => push_new acc p
        | Some (IOverlap l) => let acc1 := push_new acc (lstart l) in if (Nat.ltb (length acc1) 2)%bool then push_new acc1 (lend l) else acc1
        | None => acc end).
      { destruct (intersection_point e o) as [[p|s]|]; cbn [option_map under]; eexists; (split; [|reflexivity]); auto. cbv zeta. cbn [line_under lstart lend].
        rewrite Push, map_length. destruct (Nat.ltb (length (push_new acc (lstart s))) 2); auto. }
      destruct Step as (acc' & E1 & E2). cbv zeta in E1, E2 |- *. rewrite E1, <- E2, map_length. destruct (Nat.eqb (length acc') 2); auto. }
    pose proof (Loop (window_iter l) []) as L. cbn [map] in L. rewrite L, !nth_error_map. reflexivity.
Qed.
Print Assumptions C142_moves_along.

(* C143: rays *)
(* the ray and the line string may be moved, turned, scaled or sheared together *)
Theorem C143_ray_moves_along : forall a k m c b d (l : list pt) (o v : pt), a * c - k * m <> 0 -> vx v <> 0 \/ vy v <> 0 ->
  let T := mapped a k m c b d in let Tv : pt := @mkV2 RS (a * vx v + k * vy v) (m * vx v + c * vy v) in
  closest_ray_intersection (map T l) Tv (T o) = option_map T (closest_ray_intersection l v o).
Proof. intros a k m c b d l o v Hd Hv. exact (closest_mapped a k m c b d Hd l o v Hv). Qed.
Print Assumptions C143_ray_moves_along.

(* a fold with the least positive parameter does not depend on the order of the edges *)
Lemma gi (g t : R) : 0 < g -> t = g * (/ g * t).
Proof. intros. field. lra. Qed.
Lemma gi' (g t : R) : 0 < g -> t = / g * (g * t).
Proof. intros. field. lra. Qed.
Lemma ray_fold_set (o v o' v' : pt) (g : R) (ws ws' : list (V2 RS * V2 RS)) : 0 < g ->
  (forall t, (exists w, In w ws /\ ray_edge_intersection o v (fst w) (snd w) = Some t) <-> (exists w, In w ws' /\ ray_edge_intersection o' v' (fst w) (snd w) = Some (g * t))) ->
  fold_left (ray_step o' v') ws' None = option_map (Rmult g) (fold_left (ray_step o v) ws None).
Proof.
  intros Pg H. pose proof (ray_fold_least _ o v ws (fun w => eq_refl) None I) as F. pose proof (ray_fold_least _ o' v' ws' (fun w => eq_refl) None I) as F'.
  match type of F with context [fold_left ?x ws ?y] => change (fold_left x ws y) with (fold_left (ray_step o v) ws None) in F end.
  match type of F' with context [fold_left ?x ws' ?y] => change (fold_left x ws' y) with (fold_left (ray_step o' v') ws' None) in F' end.
  destruct (fold_left (ray_step o v) ws None) as [t|]; destruct (fold_left (ray_step o' v') ws' None) as [t'|]; cbn [option_map]; auto.
  - destruct F as (P & [F1|(w & Hw & Ew)] & _ & F3); [discriminate|]. destruct F' as (P' & [F1|(w' & Hw' & Ew')] & _ & F3'); [discriminate|]. f_equal.
    assert (Q1 : t' <= g * t). { destruct (proj1 (H t)) as (x & Hx & Ex); eauto. apply (F3' x); auto. apply Rmult_lt_0_compat; auto. }
    assert (Q2 : t <= / g * t').
    { destruct (proj2 (H (/ g * t'))) as (x & Hx & Ex); [exists w'; split; auto; rewrite Ew'; f_equal; exact (gi g t' Pg)|].
      apply (F3 x); auto. apply Rmult_lt_0_compat; auto. apply Rinv_0_lt_compat; auto. }
    assert (Q3 : g * t <= g * (/ g * t')) by (apply Rmult_le_compat_l; lra). replace (g * (/ g * t')) with t' in Q3 by exact (gi g t' Pg). cbn [car RS] in *. lra.
  - destruct F as (P & [F1|(w & Hw & Ew)] & _ & _); [discriminate|]. destruct F' as (_ & F'). destruct (proj1 (H t)) as (x & Hx & Ex); eauto.
    specialize (F' x _ Hx Ex). assert (0 < g * t) by (apply Rmult_lt_0_compat; auto). lra.
  - destruct F' as (P & [F1|(w & Hw & Ew)] & _ & _); [discriminate|]. destruct F as (_ & F).
    destruct (proj2 (H (/ g * t'))) as (x & Hx & Ex); [exists w; split; auto; rewrite Ew; f_equal; exact (gi g t' Pg)|].
    specialize (F x _ Hx Ex). assert (0 < / g * t') by (apply Rmult_lt_0_compat; auto; apply Rinv_0_lt_compat; auto). lra.
Qed.
Lemma ray_edge_flip (o v p q : pt) : vx v <> 0 \/ vy v <> 0 -> ray_edge_intersection o v q p = ray_edge_intersection o v p q.
Proof.
  intros Hv. destruct (Req_dec (vx v * (vy q - vy p) - vy v * (vx q - vx p)) 0) as [E|E].
  - assert (E' : vx v * (vy p - vy q) - vy v * (vx p - vx q) = 0) by lra.
    pose proof (ray_edge_parallel o v p q Hv E) as G. pose proof (ray_edge_parallel o v q p Hv E') as G'.
    destruct (ray_edge_intersection o v p q) as [t|], (ray_edge_intersection o v q p) as [t'|]; auto.
    + destruct G as (t0 & t1 & E0 & E1 & ->), G' as (u0 & u1 & F0 & F1 & ->). rewrite E1 in F0. rewrite E0 in F1. apply ray_inj in F0, F1; auto. subst. rewrite Rmin_comm. auto.
    + destruct G as (t0 & t1 & E0 & E1 & ->). exfalso. apply (G' t0). rewrite <- E0. apply on_segment_end.
    + destruct G' as (t0 & t1 & E0 & E1 & ->). exfalso. apply (G t0). rewrite <- E0. apply on_segment_end.
  - assert (E' : vx v * (vy p - vy q) - vy v * (vx p - vx q) <> 0) by lra.
    assert (H : forall t, ray_edge_intersection o v q p = Some t <-> ray_edge_intersection o v p q = Some t).
    { intros t. rewrite ray_edge_cross by exact E'. rewrite ray_edge_cross by exact E. rewrite on_segment_sym. tauto. }
    destruct (ray_edge_intersection o v p q) as [t|]; [apply H; auto|].
    destruct (ray_edge_intersection o v q p) as [t'|]; auto. discriminate (proj1 (H t') eq_refl).
Qed.
Lemma ray_edge_scaled (o v p q : pt) g : 0 < g -> vx v <> 0 \/ vy v <> 0 ->
  ray_edge_intersection o (@mkV2 RS (g * vx v) (g * vy v)) p q = option_map (Rmult (/ g)) (ray_edge_intersection o v p q).
Proof.
  intros Pg Hv. set (v' := @mkV2 RS (g * vx v) (g * vy v)).
  assert (Ig : 0 < / g) by (apply Rinv_0_lt_compat; auto).
  assert (Hv' : vx v' <> 0 \/ vy v' <> 0). { unfold v'. cbn [vx vy]. destruct Hv as [Hv|Hv]; [left|right]; intros Z; apply Rmult_integral in Z; destruct Z; lra. }
  assert (W : forall x c t : R, x + / g * t * (g * c) = x + t * c) by (intros; field; lra).
  assert (Rt : forall t, ray_at o v' (/ g * t) = ray_at o v t) by (intros t; unfold ray_at, v'; cbn [vx vy]; apply V2_ext; apply W).
  assert (Pr : vx v' * (vy q - vy p) - vy v' * (vx q - vx p) = g * (vx v * (vy q - vy p) - vy v * (vx q - vx p))) by (unfold v'; cbn [vx vy]; ring).
  destruct (Req_dec (vx v * (vy q - vy p) - vy v * (vx q - vx p)) 0) as [E|E].
  - assert (E' : vx v' * (vy q - vy p) - vy v' * (vx q - vx p) = 0) by (rewrite Pr, E; ring).
    pose proof (ray_edge_parallel o v p q Hv E) as G. pose proof (ray_edge_parallel o v' p q Hv' E') as G'.
    destruct (ray_edge_intersection o v p q) as [t|], (ray_edge_intersection o v' p q) as [t'|]; cbn [option_map]; auto.
    + destruct G as (t0 & t1 & E0 & E1 & ->), G' as (u0 & u1 & F0 & F1 & ->). rewrite <- Rt in E0, E1. rewrite E0 in F0. rewrite E1 in F1. apply ray_inj in F0, F1; auto. subst. f_equal.
      unfold Rmin. destruct (Rle_dec (/ g * t0) (/ g * t1)) as [A|A], (Rle_dec t0 t1) as [B|B]; auto; exfalso.
      * apply B. apply Rmult_le_reg_l with (/ g); auto.
      * apply A. apply Rmult_le_compat_l; lra.
    + destruct G as (t0 & t1 & E0 & E1 & ->). exfalso. apply (G' (/ g * t0)). rewrite Rt, <- E0. apply on_segment_start.
    + destruct G' as (t0 & t1 & E0 & E1 & ->). exfalso. apply (G (g * t0)). rewrite <- Rt. replace (/ g * (g * t0)) with t0 by (field; lra). rewrite <- E0. apply on_segment_start.
  - assert (E' : vx v' * (vy q - vy p) - vy v' * (vx q - vx p) <> 0) by (rewrite Pr; intros Z; apply Rmult_integral in Z as [Z|Z]; lra).
    assert (H : forall t, ray_edge_intersection o v' p q = Some (/ g * t) <-> ray_edge_intersection o v p q = Some t).
    { intros t. rewrite ray_edge_cross by exact E'. rewrite ray_edge_cross by exact E. rewrite Rt. split; intros [Q1 Q2]; (split; [|exact Q2]).
      - replace t with (g * (/ g * t)) by (field; lra). apply Rmult_le_pos; lra.
      - apply Rmult_le_pos; lra. }
    destruct (ray_edge_intersection o v p q) as [t|]; cbn [option_map]; [apply H; auto|].
    destruct (ray_edge_intersection o v' p q) as [t'|]; auto. specialize (H (g * t')). rewrite <- (gi' g t' Pg) in H. discriminate (proj1 H eq_refl).
Qed.
(* the length of the direction does not matter, nor the direction in which the line string is given *)
Theorem C143_ray_representation : forall (l : list pt) (o v : pt), vx v <> 0 \/ vy v <> 0 ->
  (forall g, 0 < g -> closest_ray_intersection l (@mkV2 RS (g * vx v) (g * vy v)) o = closest_ray_intersection l v o) /\
  closest_ray_intersection (rev l) v o = closest_ray_intersection l v o.
Proof.
  intros l o v Hv. split.
  - intros g Pg. unfold closest_ray_intersection. destruct (Nat.leb (length l) 1); auto.
    assert (Ig : 0 < / g) by (apply Rinv_0_lt_compat; auto).
    rewrite (ray_fold_set o v o (@mkV2 RS (g * vx v) (g * vy v)) (/ g) (windows l) (windows l) Ig).
    + destruct (fold_left (ray_step o v) (windows l) None) as [t|]; cbn [option_map]; auto. f_equal. assert (W : forall x c t : R, x + g * c * (/ g * t) = x + c * t) by (intros; field; lra). unfold vadd, vscale. cbn [vx vy sadd smul RS].
      apply V2_ext; cbn [vx vy]; apply W.
    + intros t. split; intros (w & Hw & E); exists w; (split; [exact Hw|]); rewrite ray_edge_scaled in * by auto.
      * rewrite E. reflexivity.
      * destruct (ray_edge_intersection o v (fst w) (snd w)) as [x|]; cbn [option_map] in E; [|discriminate]. injection E as E. f_equal.
        apply Rmult_eq_reg_l with (/ g); [exact E|lra].
  - unfold closest_ray_intersection. rewrite rev_length. destruct (Nat.leb (length l) 1); auto.
    rewrite (ray_fold_set o v o v 1 (windows l) (windows (rev l)) Rlt_0_1).
    + destruct (fold_left (ray_step o v) (windows l) None) as [t|]; cbn [option_map]; auto. rewrite Rmult_1_l. auto.
    + intros t. rewrite Rmult_1_l, windows_rev. split.
      * intros ([p q] & Hw & E). exists (q, p). cbn [fst snd] in *. split; [|rewrite ray_edge_flip; auto]. apply -> in_rev. apply in_map_iff. exists (p, q). auto.
      * intros (w & Hw & E). apply in_rev in Hw. apply in_map_iff in Hw as ([p q] & <- & Hw). exists (p, q). cbn [fst snd] in *. split; auto. rewrite ray_edge_flip in E; auto.
Qed.
Print Assumptions C143_ray_representation.
(* a quarter turn of C35's example, and the same line string backwards *)
Example C143_met : closest_ray_intersection (S := F64_) [P 1 5; P (-1) 5; P (-1) 2; P 1 2] (P 0 1) (P 0 0) = Some (P 0 2) /\
  closest_ray_intersection (S := F64_) (rev [P 1 5; P (-1) 5; P (-1) 2; P 1 2]) (P 0 3) (P 0 0) = Some (P 0 2).
Proof. split; apply (opt_same_eq v2_same v2_same_eq); vm_compute; reflexivity. Qed.
