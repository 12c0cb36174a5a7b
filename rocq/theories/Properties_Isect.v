(* Segment intersection, rays, line strings against lines, self-intersection of short line strings
   (C29-C31, C34-C38, C80). Model: Geo2.v.
   Vocabulary: [on_segment q a b] (GeoSpec.v): q = a + t (b - a) for some t in [0, 1];
   [common a b q] (IsectProofs.v): q is on both segments;
   [described i q] (IsectProofs.v): q belongs to the reported intersection i. *)
From Coq Require Import Reals Lra Psatz Floats.SpecFloat Sorting.Sorted.
From Verif Require Import Prelude Scalar RInst Flt Geo2 GeoSpec DistR IsectProofs.
Local Open Scope R_scope.

(* C29 *)
Theorem C29_segment_intersection : forall a b : Line2 RS,
  (intersection_point a b = None <-> forall q, ~ common a b q) /\
  (forall p, intersection_point a b = Some (IPoint p) <-> forall q, common a b q <-> q = p) /\
  (forall s, intersection_point a b = Some (IOverlap s) ->
     lstart s <> lend s /\ forall q, common a b q <-> on_segment q (lstart s) (lend s)) /\
  ((exists p q, p <> q /\ common a b p /\ common a b q) -> exists s, intersection_point a b = Some (IOverlap s)).
Proof.
  intros a b. pose proof (intersection_correct a b) as H.
  destruct (intersection_point a b) as [[p|s]|]; cbn [correct] in H; split; [|split; [|split]| |split; [|split]| |split; [|split]].
  - split; [discriminate|]. intros G. destruct (G p). apply H; auto.
  - intros p'. split; [intros E; injection E as <-; auto|]. intros G. do 2 f_equal. apply G, H; auto.
  - discriminate.
  - intros (u & v & Hn & Hu & Hv). apply H in Hu, Hv. congruence.
  - split; [discriminate|]. intros G. destruct (G (lstart s)). apply H, on_segment_start.
  - intros p'. split; [discriminate|]. intros G. destruct H as [Hn H]. destruct Hn.
    transitivity p'; [|symmetry]; apply G, H; [apply on_segment_start|apply on_segment_end].
  - intros s' E. injection E as <-. auto.
  - intros _. eauto.
  - split; auto.
  - intros p'. split; [discriminate|]. intros G. destruct (H p'). apply G; auto.
  - discriminate.
  - intros (u & v & Hn & Hu & Hv). destruct (H u); auto.
Qed.
Print Assumptions C29_segment_intersection.
(* the three outcomes on concrete f64 segments *)
Example C29_example_cross : intersection_point (S := F64_) (mkL (P 0 0) (P 4 4)) (mkL (P 0 4) (P 4 0)) = Some (IPoint (P 2 2)).
Proof. fisec. Qed.
Example C29_example_overlap : intersection_point (S := F64_) (mkL (P 0 0) (P 4 4)) (mkL (P 6 6) (P 1 1)) = Some (IOverlap (mkL (P 1 1) (P 4 4))).
Proof. fisec. Qed.
Example C29_example_none : intersection_point (S := F64_) (mkL (P 0 0) (P 4 4)) (mkL (P 1 0) (P 4 2)) = None.
Proof. fisec. Qed.

(* C30 *)
Theorem C30_intersection_symmetric : forall (a b : Line2 RS) (q : pt),
  let ra := mkL (lend a) (lstart a) in
  (described (intersection_point a b) q <-> described (intersection_point b a) q) /\
  (described (intersection_point a b) q <-> described (intersection_point ra b) q) /\
  (described (intersection_point a b) q <-> described (intersection_point a (mkL (lend b) (lstart b))) q) /\
  (intersection_point a b = None <-> intersection_point b a = None) /\
  (intersection_point a b = None <-> intersection_point ra b = None) /\
  (intersection_point a b = None <-> intersection_point a (mkL (lend b) (lstart b)) = None).
Proof.
  assert (D : forall a b q, described (intersection_point a b) q <-> common a b q).
  { intros a b q. pose proof (intersection_correct a b) as H. destruct (intersection_point a b) as [[p|s]|]; cbn [correct described] in *.
    - rewrite H; tauto. - destruct H as [_ H]; rewrite H; tauto. - specialize (H q); tauto. }
  intros a b q ra. split; [|split; [|split; [|split; [|split]]]].
  - rewrite !D. unfold common; tauto.
  - rewrite !D. unfold common, ra; cbn [lstart lend]. rewrite (on_segment_sym q (lend a)). tauto.
  - rewrite !D. unfold common; cbn [lstart lend]. rewrite (on_segment_sym q (lend b)). tauto.
  - rewrite !(proj1 (C29_segment_intersection _ _)). unfold common. split; intros G x [? ?]; apply (G x); auto.
  - rewrite !(proj1 (C29_segment_intersection _ _)). unfold common, ra; cbn [lstart lend].
    split; intros G x; specialize (G x); rewrite (on_segment_sym x (lend a)) in *; tauto.
  - rewrite !(proj1 (C29_segment_intersection _ _)). unfold common; cbn [lstart lend].
    split; intros G x; specialize (G x); rewrite (on_segment_sym x (lend b)) in *; tauto.
Qed.
Print Assumptions C30_intersection_symmetric.

(* C31 *)
Theorem C31_point_on_segment : forall (l : Line2 RS) (p : pt),
  (on_segment p (lstart l) (lend l) -> intersect_line_point l p = Some (IPoint p)) /\
  (~ on_segment p (lstart l) (lend l) -> intersect_line_point l p = None).
Proof.
  intros l p. pose proof (intersect_line_point_R l p) as H. destruct (intersect_line_point l p) as [i|].
  - destruct H as [-> H]. split; tauto. - split; tauto.
Qed.
Print Assumptions C31_point_on_segment.

(* C34 *)
Theorem C34_ray_edge : forall (o d p0 p1 : pt), vx d <> 0 \/ vy d <> 0 ->
  (* not parallel *)
  (vx d * (vy p1 - vy p0) <> vy d * (vx p1 - vx p0) ->
     forall t, ray_edge_intersection o d p0 p1 = Some t <-> 0 <= t /\ on_segment (ray_at o d t) p0 p1) /\
  (* parallel, on the same line *)
  (vx d * (vy p1 - vy p0) = vy d * (vx p1 - vx p0) ->
     forall t0 t1, p0 = ray_at o d t0 -> p1 = ray_at o d t1 -> ray_edge_intersection o d p0 p1 = Some (Rmin t0 t1)) /\
  (* parallel, apart *)
  (vx d * (vy p1 - vy p0) = vy d * (vx p1 - vx p0) ->
     (ray_edge_intersection o d p0 p1 = None <-> forall t, ~ on_segment (ray_at o d t) p0 p1)).
Proof.
  intros o d p0 p1 Hd. split; [|split].
  - intros H t. apply ray_edge_cross. lra.
  - intros H t0 t1 E0 E1. assert (H' : vx d * (vy p1 - vy p0) - vy d * (vx p1 - vx p0) = 0) by lra.
    pose proof (ray_edge_parallel o d p0 p1 Hd H') as G. destruct (ray_edge_intersection o d p0 p1) as [t|].
    + destruct G as (u0 & u1 & F0 & F1 & ->). do 2 f_equal; symmetry.
      * rewrite E0 in F0. unfold ray_at in F0. injection F0 as G1 G2. apply (line_param_inj (vx o) (vy o) (vx d) (vy d)); auto.
        pose proof (sq_nn (vx d)); pose proof (sq_nn (vy d)). destruct Hd as [Hd|Hd]; apply sq_pos in Hd; lra.
      * rewrite E1 in F1. unfold ray_at in F1. injection F1 as G1 G2. apply (line_param_inj (vx o) (vy o) (vx d) (vy d)); auto.
        pose proof (sq_nn (vx d)); pose proof (sq_nn (vy d)). destruct Hd as [Hd|Hd]; apply sq_pos in Hd; lra.
    + destruct (G t0). rewrite <- E0. apply on_segment_start.
  - intros H. assert (H' : vx d * (vy p1 - vy p0) - vy d * (vx p1 - vx p0) = 0) by lra.
    pose proof (ray_edge_parallel o d p0 p1 Hd H') as G. destruct (ray_edge_intersection o d p0 p1) as [t|].
    + destruct G as (u0 & u1 & F0 & F1 & ->). split; [discriminate|]. intros N. destruct (N u0). rewrite <- F0. apply on_segment_start.
    + tauto.
Qed.
Print Assumptions C34_ray_edge.
Example C34_hypotheses_met : ray_edge_intersection (S := F64_) (P 0 0) (P 1 0) (P 2 (-1)) (P 2 1) = Some (f64 2).
Proof. apply (opt_same_eq sf_eqb sf_eqb_eq). vm_compute. reflexivity. Qed.

(* C35: an edge along the ray that reaches back to or behind the origin is the only kind that may be
   passed over *)
Theorem C35_closest_ray : forall (l : list pt) (d o : pt), vx d <> 0 \/ vy d <> 0 ->
  let passed_over (a b : pt) := vx d * (vy b - vy a) = vy d * (vx b - vx a) /\
                         exists t0, t0 <= 0 /\ (a = ray_at o d t0 \/ b = ray_at o d t0) in
  match closest_ray_intersection l d o with
  | Some x => exists t, 0 < t /\ x = ray_at o d t /\
      (exists i a b, edge_of l i a b /\ on_segment x a b) /\
      (forall i a b t', edge_of l i a b -> 0 < t' < t -> on_segment (ray_at o d t') a b -> passed_over a b)
  | None => forall i a b t', edge_of l i a b -> 0 < t' -> on_segment (ray_at o d t') a b -> passed_over a b
  end.
Proof.
  intros l d o Hd passed_over. unfold closest_ray_intersection.
  assert (Nd : vx d * vx d + vy d * vy d <> 0).
  { pose proof (sq_nn (vx d)); pose proof (sq_nn (vy d)). destruct Hd as [Hd|Hd]; apply sq_pos in Hd; lra. }
  assert (Short : (length l <= 1)%nat -> windows l = []) by (destruct l as [|? [|? ?]]; simpl; auto; lia).
  set (f := fun w : pt * pt => ray_edge_intersection o d (fst w) (snd w)).
  pose proof (ray_fold_least f o d (windows l) (fun _ => eq_refl) None I) as H.
  (* a hit at t' that is not passed over is reported at some parameter <= t' *)
  assert (Hit : forall a b t', 0 < t' -> on_segment (ray_at o d t') a b ->
            passed_over a b \/ exists t, f (a, b) = Some t /\ 0 < t <= t').
  { intros a b t' Ht' Hs. unfold f; cbn [fst snd].
    destruct (Req_dec (vx d * (vy b - vy a) - vy d * (vx b - vx a)) 0) as [E|E].
    - pose proof (ray_edge_parallel o d a b Hd E) as G. destruct (ray_edge_intersection o d a b) as [t|]; [|destruct (G t'); auto].
      destruct G as (u0 & u1 & E0 & E1 & ->). destruct (Rle_dec (Rmin u0 u1) 0) as [L|L].
      + left. split; [lra|]. exists (Rmin u0 u1). split; auto. unfold Rmin. destruct (Rle_dec u0 u1); auto.
      + right. exists (Rmin u0 u1). split; [auto|]. split; [lra|].
        destruct Hs as (w & Hw & Es). subst a b. unfold ray_at, lerp in Es. cbn [vx vy] in Es. injection Es as Es1 Es2.
        assert (t' = u0 + w * (u1 - u0)). { apply (line_param_inj (vx o) (vy o) (vx d) (vy d)); auto; lra. }
        pose proof (mul01 w (u1 - u0) Hw) as [M1 M2]. unfold Rmin. destruct (Rle_dec u0 u1); [lra|]. 
        assert (M : u1 - u0 <= 0) by lra. specialize (M2 M). lra.
    - right. exists t'. split; [|lra]. apply ray_edge_cross; auto. split; [lra|auto]. }
  assert (OnEdge : forall w t, In w (windows l) -> f w = Some t -> exists i a b, edge_of l i a b /\ on_segment (ray_at o d t) a b).
  { intros [a b] t Hin Hf. apply windows_In in Hin as (i & Hi). exists i, a, b. split; auto. unfold f in Hf; cbn [fst snd] in Hf.
    destruct (Req_dec (vx d * (vy b - vy a) - vy d * (vx b - vx a)) 0) as [E|E].
    - pose proof (ray_edge_parallel o d a b Hd E) as G. rewrite Hf in G. destruct G as (u0 & u1 & E0 & E1 & ->).
      unfold Rmin. destruct (Rle_dec u0 u1); [rewrite <- E0; apply on_segment_start|rewrite <- E1; apply on_segment_end].
    - apply ray_edge_cross in Hf; tauto. }
  assert (Main : match fold_left (ray_step o d) (windows l) None with
     | Some t => 0 < t /\ (exists i a b, edge_of l i a b /\ on_segment (ray_at o d t) a b) /\
        (forall i a b t', edge_of l i a b -> 0 < t' < t -> on_segment (ray_at o d t') a b -> passed_over a b)
     | None => forall i a b t', edge_of l i a b -> 0 < t' -> on_segment (ray_at o d t') a b -> passed_over a b
     end).
  { set (r := fold_left (ray_step o d) (windows l) None) in *.
    change (match r with
      | Some t => 0 < t /\ (None = Some t \/ (exists w, In w (windows l) /\ f w = Some t)) /\
                  (forall t', None = Some t' -> t <= t') /\ (forall w t', In w (windows l) -> f w = Some t' -> 0 < t' -> t <= t')
      | None => None = (None : option R) /\ (forall w t', In w (windows l) -> f w = Some t' -> t' <= 0) end) in H.
    destruct r as [t|].
    - destruct H as (H0 & H1 & _ & H3). split; auto. split.
      + destruct H1 as [?|(w & Hw & Ew)]; [discriminate|]. eauto.
      + intros i a b t' He Ht' Hs. destruct (Hit a b t') as [?|(u & Eu & Hu)]; auto; [lra|].
        assert (t <= u) by (apply (H3 (a, b)); auto; [apply windows_In; eauto|lra]). lra.
    - destruct H as (_ & H1). intros i a b t' He Ht' Hs. destruct (Hit a b t') as [?|(u & Eu & Hu)]; auto.
      assert (u <= 0) by (apply (H1 (a, b)); auto; apply windows_In; eauto). lra. }
  destruct (Nat.leb_spec (length l) 1) as [Hl|Hl].
  - intros i a b t' He. exfalso. assert (In (a, b) (windows l)) by (apply windows_In; eauto). rewrite Short in *; auto.
  - revert Main. destruct (fold_left (ray_step o d) (windows l) None) as [t|]; cbn [option_map]; intros Main; auto.
    destruct Main as (M1 & M2 & M3). assert (E : vadd o (vscale d t) = ray_at o d t).
    { unfold vadd, vscale, ray_at. apply V2_ext; rsimp; ring. }
    exists t. rewrite E. auto.
Qed.
Print Assumptions C35_closest_ray.
Example C35_hypotheses_met : closest_ray_intersection (S := F64_) [P 5 (-1); P 5 1; P 2 1; P 2 (-1)] (P 1 0) (P 0 0) = Some (P 2 0).
Proof. apply (opt_same_eq v2_same v2_same_eq). vm_compute. reflexivity. Qed.

(* C36: any scalar *)
Theorem C36_linestring_intersections : forall (S : Scalar) (l : list (V2 S)) (o : Line2 S),
  let of_edge e := match intersection_point e o with Some i => [i] | None => [] end in
  let points i := match i with IPoint p => [p] | IOverlap s => [lstart s; lend s] end in
  let found := flat_map of_edge (map (fun w => mkL (fst w) (snd w)) (windows l)) in
  find_all_intersections l o = found /\
  ls_intersection l o = hd_error found /\
  find_two_intersections l o =
    match flat_map points found with
    | [] => (None, None)
    | p :: rest => (Some p, find (fun q => negb (veqb p q)) rest)
    end.
Proof.
  intros S l o of_edge points found. split; [|split].
  - unfold find_all_intersections, found, window_iter. induction (map _ (windows l)) as [|e es IH]; simpl; auto.
    unfold of_edge at 1. destruct (intersection_point e o); simpl; rewrite IH; auto.
  - unfold ls_intersection, found, window_iter. induction (map _ (windows l)) as [|e es IH]; simpl; auto.
    unfold of_edge at 1. destruct (intersection_point e o); simpl; auto.
  - unfold find_two_intersections, found, window_iter. set (es := map _ (windows l)). clearbody es.
    assert (P0 : forall q : V2 S, push_new [] q = [q]) by reflexivity.
    assert (P1 : forall p q : V2 S, push_new [p] q = if veqb p q then [p] else [p; q]).
    { intros p q. unfold push_new, vmem. simpl. rewrite orb_false_r. auto. }
    assert (One : forall p es, two_loop es o [p] = p :: match find (fun q => negb (veqb p q)) (flat_map points (flat_map of_edge es)) with Some q => [q] | None => [] end).
    { intros p. induction es0 as [|e es0 IH]; auto. cbn [two_loop flat_map]. unfold of_edge at 1.
      destruct (intersection_point e o) as [[q|s]|]; cbn [app flat_map points find]; [| |exact IH].
      - rewrite P1. destruct (veqb p q); cbn [negb length Nat.eqb]; auto.
      - rewrite P1. destruct (veqb p (lstart s)) eqn:E1; cbn [negb length Nat.eqb Nat.ltb Nat.leb].
        + rewrite P1. destruct (veqb p (lend s)) eqn:E2; cbn [negb length Nat.eqb]; auto.
        + auto. }
    induction es as [|e es IH]; [reflexivity|]. cbn [two_loop flat_map]. unfold of_edge at 1.
    destruct (intersection_point e o) as [[q|s]|]; cbn [app flat_map points]; [| |exact IH].
    + rewrite P0. cbn [length Nat.eqb]. rewrite One. cbn [nth_error]. destruct (find _ _); auto.
    + rewrite P0. cbn [length Nat.eqb Nat.ltb Nat.leb]. rewrite P1. cbn [find]. destruct (veqb (lstart s) (lend s)) eqn:E1; cbn [length Nat.eqb negb].
      * rewrite One. cbn [nth_error]. destruct (find _ _); auto.
      * auto.
Qed.
Print Assumptions C36_linestring_intersections.

(* C37: refuted. Three points in order on the diagonal are reported as self-intersecting. *)
Theorem C37_straight_refuted : exists ts : list R, StronglySorted Rlt ts /\
  self_intersecting_short (map (lerp (@mkV2 RS 0 0) (@mkV2 RS 1 1)) ts) = true.
Proof.
  exists [0; 1; 2]. split; [repeat constructor; lra|].
  apply self_short_spec. exists 0%nat, 1%nat, (lerp (@mkV2 RS 0 0) (@mkV2 RS 1 1) 0), (lerp (@mkV2 RS 0 0) (@mkV2 RS 1 1) 1),
    (lerp (@mkV2 RS 0 0) (@mkV2 RS 1 1) 1), (lerp (@mkV2 RS 0 0) (@mkV2 RS 1 1) 2).
  split; [lia|]. split; [split; reflexivity|]. split; [split; reflexivity|].
  unfold self_pair. cbn [Nat.eqb Nat.add lstart lend].
  destruct (intersection_point3 _ _ _) eqn:E; auto.
  apply intersection_point3_R in E; unfold lerp; rsimp; try lra. destruct E. unfold lerp; rsimp. lra.
Qed.
Print Assumptions C37_straight_refuted.
(* it holds for every straight line string that is not vertical and has no point on the diagonal x = y *)
Theorem C37_straight_partial : forall (a b : pt) (ts : list R),
  vx a <> vx b -> StronglySorted Rlt ts ->
  (forall t, In t ts -> vx (lerp a b t) <> vy (lerp a b t)) ->
  self_intersecting_short (map (lerp a b) ts) = false.
Proof.
  intros a b ts Hx Hs Hd.
  destruct (self_intersecting_short (map (lerp a b) ts)) eqn:E; auto. exfalso.
  apply self_short_spec in E as (i & j & p & q & r & s & Hij & [Hp Hq] & [Hr Hs'] & H).
  assert (Nth : forall k x, nth_error (map (lerp a b) ts) k = Some x -> exists t, nth_error ts k = Some t /\ x = lerp a b t).
  { intros k x Hk. rewrite nth_error_map in Hk. destruct (nth_error ts k); simpl in Hk; [|discriminate]. injection Hk as <-. eauto. }
  assert (Lt : forall k k' t t', (k < k')%nat -> nth_error ts k = Some t -> nth_error ts k' = Some t' -> t < t').
  { clear - Hs. induction Hs as [|x ts Hs IH Hf]; intros k k' t t' Hk H1 H2; [destruct k; discriminate|].
    destruct k as [|k], k' as [|k']; try lia; simpl in *.
    - injection H1 as <-. rewrite Forall_forall in Hf. apply Hf. eapply nth_error_In; eauto.
    - eapply (IH k k'); eauto. lia. }
  apply Nth in Hp as (tp & Tp & ->). apply Nth in Hq as (tq & Tq & ->). apply Nth in Hr as (tr & Tr & ->). apply Nth in Hs' as (tS & TS & ->).
  assert (L1 : tp < tq) by (apply (Lt i (i + 1)%nat); auto; lia).
  assert (L2 : tr < tS) by (apply (Lt j (j + 1)%nat); auto; lia).
  unfold self_pair in H. destruct (Nat.eqb_spec i j); [lia|]. destruct (Nat.eqb_spec (i + 1) j) as [Ej|Ej].
  - (* consecutive *)
    subst j. rewrite Tq in Tr. injection Tr as <-. cbn [lstart lend] in H.
    pose proof (Hd tp (nth_error_In _ _ Tp)) as D1. clear Hd Nth Lt Hs Tp Tq TS. destruct a as [ax ay], b as [bx by_]. unfold lerp in *. rsimp.
    unfold intersection_point3 in H. rsimp.
    assert (N1 : forall u v, u < v -> (v - u) * (bx - ax) <> 0).
    { intros u v Huv E. apply Rmult_integral in E. lra. }
    pose proof (N1 tp tq L1) as N2. pose proof (N1 tq tS L2) as N3.
    rewrite !(proj2 (Reqb_false _ 0)) in H by lra. cbn [andb orb] in H.
    match type of H with context [Reqb ?u ?v] => destruct (Reqb_spec u v) as [E|E] end; cbn [negb] in H; [|discriminate].
    clear H. 
    replace (ax + tq * (bx - ax) - (ax + tp * (bx - ax))) with ((tq - tp) * (bx - ax)) in E by ring.
    replace (ax + tq * (bx - ax) - (ax + tS * (bx - ax))) with (- ((tS - tq) * (bx - ax))) in E by ring.
    replace (ay + tq * (by_ - ay) - (ay + tS * (by_ - ay))) with (- ((tS - tq) * (by_ - ay))) in E by ring.
    set (g := ay + tq * (by_ - ay) - (ax + tp * (bx - ax))) in *.
    assert (Hg : g = (tq - tp) * (by_ - ay) + (ay + tp * (by_ - ay) - (ax + tp * (bx - ax)))) by (unfold g; ring).
    set (h := ay + tp * (by_ - ay) - (ax + tp * (bx - ax))) in *. assert (Hh : h <> 0) by (unfold h; lra).
    unfold Rdiv in E. destruct (Req_dec g 0) as [G|G].
    + rewrite G, Rinv_0, Rmult_0_r in E. symmetry in E. apply Rmult_integral in E as [E|E]; [lra|].
      destruct (Req_dec (by_ - ay) 0) as [Y|Y]; [rewrite Y in Hg; lra|].
      revert E. apply Rinv_neq_0_compat. intros F. assert (F' : (tS - tq) * (by_ - ay) = 0) by lra. apply Rmult_integral in F'. lra.
    + destruct (Req_dec (by_ - ay) 0) as [Y|Y].
      * rewrite Y, Rmult_0_r, Ropp_0, Rinv_0, Rmult_0_r in E. apply Rmult_integral in E as [E|E]; [lra|]. revert E. apply Rinv_neq_0_compat; auto.
      * assert (E' : (tq - tp) * (bx - ax) * / g = (bx - ax) / (by_ - ay)).
        { rewrite E. field. lra. }
        assert (E'' : (tq - tp) * (by_ - ay) = g).
        { apply Rmult_eq_reg_r with (bx - ax); [|lra]. 
          transitivity ((tq - tp) * (bx - ax) * / g * g * (by_ - ay)); [field; auto|]. rewrite E'. field. auto. }
        lra.
  - (* edges further apart do not meet *)
    assert (L3 : tq < tr) by (apply (Lt (i + 1)%nat j); auto; lia).
    pose proof (intersection_correct (mkL (lerp a b tp) (lerp a b tq)) (mkL (lerp a b tr) (lerp a b tS))) as C.
    destruct (intersection_point _ _) as [it|]; [|discriminate].
    assert (X : exists x, common (mkL (lerp a b tp) (lerp a b tq)) (mkL (lerp a b tr) (lerp a b tS)) x).
    { destruct it as [x|s']; cbn [correct] in C; [exists x; apply C; auto|]. exists (lstart s'). apply C, on_segment_start. }
    destruct X as [x [X1 X2]]. cbn [lstart lend] in X1, X2. apply on_segment_range in X1, X2.
    destruct X1 as [X1 _], X2 as [X2 _]. clear - X1 X2 L1 L2 L3 Hx. destruct a as [ax ay], b as [bx by_]. unfold lerp in *. rsimp.
    assert (M : forall u v, u < v -> (0 < bx - ax -> u * (bx - ax) < v * (bx - ax)) /\ (bx - ax < 0 -> v * (bx - ax) < u * (bx - ax))).
    { intros u v Huv. split; intros; nra. }
    pose proof (M tp tq L1). pose proof (M tq tr L3). pose proof (M tr tS L2).
    assert (S0 : 0 < bx - ax \/ bx - ax < 0) by lra.
    revert X1 X2. unfold Rmin, Rmax.
    repeat match goal with |- context [Rle_dec ?u ?v] => destruct (Rle_dec u v) end; intros; destruct S0; lra.
Qed.
Print Assumptions C37_straight_partial.
Example C37_hypotheses_met : self_intersecting_short (S := F64_) [P 0 1; P 1 3; P 2 5; P 3 7] = false.
Proof. vm_compute. reflexivity. Qed.

(* C38. What the English property asks of a line string *)
Definition self_crossing (l : list pt) : Prop :=
  (exists i j a b c d p, (i + 1 < j)%nat /\ edge_of l i a b /\ edge_of l j c d /\
     on_segment p a b /\ on_segment p c d /\ ~ ((p = a \/ p = b) /\ (p = c \/ p = d))) \/
  (exists i a b c p, edge_of l i a b /\ edge_of l (i + 1) b c /\ on_segment p a b /\ on_segment p b c /\ p <> b).
(* refuted in both directions *)
Theorem C38_self_intersection_refuted :
  (exists l, length l = 3%nat /\ self_intersecting_short l = true /\ ~ self_crossing l) /\
  (exists l, length l = 3%nat /\ self_intersecting_short l = false /\ self_crossing l).
Proof.
  split.
  - exists (map (lerp (@mkV2 RS 0 0) (@mkV2 RS 1 1)) [0; 1; 2]). split; [reflexivity|]. split.
    + apply self_short_spec. exists 0%nat, 1%nat, (lerp (@mkV2 RS 0 0) (@mkV2 RS 1 1) 0), (lerp (@mkV2 RS 0 0) (@mkV2 RS 1 1) 1),
        (lerp (@mkV2 RS 0 0) (@mkV2 RS 1 1) 1), (lerp (@mkV2 RS 0 0) (@mkV2 RS 1 1) 2).
      split; [lia|]. split; [split; reflexivity|]. split; [split; reflexivity|].
      unfold self_pair. cbn [Nat.eqb Nat.add lstart lend].
      destruct (intersection_point3 _ _ _) eqn:E; auto.
      apply intersection_point3_R in E; unfold lerp; rsimp; try lra. destruct E. unfold lerp; rsimp. lra.
    + intros [(i & j & a & b & c & d & p & Hij & [_ Hi] & [_ Hj] & _)|(i & a & b & c & p & [Ha Hb] & [_ Hc] & P1 & P2 & Hn)].
      * assert (j + 1 < 3)%nat by (apply (nth_error_Some (map (lerp (@mkV2 RS 0 0) (@mkV2 RS 1 1)) [0; 1; 2])); congruence). lia.
      * assert (i + 1 + 1 < 3)%nat by (apply (nth_error_Some (map (lerp (@mkV2 RS 0 0) (@mkV2 RS 1 1)) [0; 1; 2])); congruence).
        assert (i = 0)%nat by lia. subst i. simpl in Ha, Hb, Hc. injection Ha as <-. injection Hb as <-. injection Hc as <-.
        apply Hn. destruct p as [x y]. unfold lerp in *. rsimp. apply on_segment_coord in P1 as (t & Ht & E1 & E2). apply on_segment_coord in P2 as (u & Hu & E3 & E4).
        f_equal; lra.
  - exists [@mkV2 RS 2 0; @mkV2 RS 4 4; @mkV2 RS 3 2]. split; [reflexivity|]. split.
    + match goal with |- ?b = false => destruct b eqn:E end; auto. exfalso.
      apply self_short_spec in E as (i & j & a & b & c & d & Hij & [Ha Hb] & [Hc Hd] & H).
      assert (j + 1 < 3)%nat by (apply (nth_error_Some [@mkV2 RS 2 0; @mkV2 RS 4 4; @mkV2 RS 3 2]); congruence).
      assert (i = 0)%nat by lia. assert (j = 1)%nat by lia. subst i j. simpl in Ha, Hb, Hc, Hd.
      injection Ha as <-. injection Hb as <-. injection Hc as <-. injection Hd as <-.
      unfold self_pair in H. cbn [Nat.eqb Nat.add lstart lend] in H.
      assert (N : intersection_point3 (@mkV2 RS 2 0) (@mkV2 RS 4 4) (@mkV2 RS 3 2) = None) by (apply intersection_point3_R; rsimp; lra).
      rewrite N in H. discriminate.
    + right. exists 0%nat, (@mkV2 RS 2 0), (@mkV2 RS 4 4), (@mkV2 RS 3 2), (@mkV2 RS 3 2).
      split; [split; reflexivity|]. split; [split; reflexivity|]. split; [|split].
      * apply on_segment_coord. exists (1/2). lra.
      * apply on_segment_end.
      * intros E. injection E. lra.
Qed.
Print Assumptions C38_self_intersection_refuted.
(* what does hold: edges that are not neighbours are handled correctly unless they overlap along a stretch,
   and the test on neighbours is the slope comparison below, which uses the first point's x for its y *)
Theorem C38_self_intersection_partial : forall l : list pt,
  (self_intersecting_short l = true ->
     (exists i a b c, edge_of l i a b /\ edge_of l (i + 1) b c /\ intersection_point3 a b c <> None) \/
     (exists i j a b c d p, (i + 1 < j)%nat /\ edge_of l i a b /\ edge_of l j c d /\
        on_segment p a b /\ on_segment p c d /\ ~ ((p = a \/ p = b) /\ (p = c \/ p = d)))) /\
  (forall i j a b c d p, (i + 1 < j)%nat -> edge_of l i a b -> edge_of l j c d ->
     on_segment p a b -> on_segment p c d -> ~ ((p = a \/ p = b) /\ (p = c \/ p = d)) ->
     (forall q, on_segment q a b -> on_segment q c d -> q = p) ->
     self_intersecting_short l = true) /\
  (forall i a b c, edge_of l i a b -> edge_of l (i + 1) b c ->
     vx a <> vx b -> vx b <> vx c -> vy b <> vx a -> vy b <> vy c ->
     (vx b - vx a) * (vy b - vy c) = (vx b - vx c) * (vy b - vx a) -> self_intersecting_short l = true) /\
  ((forall i a b c, edge_of l i a b -> edge_of l (i + 1) b c ->
     vx a <> vx b /\ vx b <> vx c /\ vy b <> vx a /\ vy b <> vy c /\
     (vx b - vx a) * (vy b - vy c) <> (vx b - vx c) * (vy b - vx a)) ->
   (forall i j a b c d, (i + 1 < j)%nat -> edge_of l i a b -> edge_of l j c d ->
     forall p, on_segment p a b -> on_segment p c d -> (p = a \/ p = b) /\ (p = c \/ p = d)) ->
   self_intersecting_short l = false).
Proof.
  intros l.
  assert (Sound : self_intersecting_short l = true ->
     (exists i a b c, edge_of l i a b /\ edge_of l (i + 1) b c /\ intersection_point3 a b c <> None) \/
     (exists i j a b c d p, (i + 1 < j)%nat /\ edge_of l i a b /\ edge_of l j c d /\
        on_segment p a b /\ on_segment p c d /\ ~ ((p = a \/ p = b) /\ (p = c \/ p = d)))).
  { intros E. apply self_short_spec in E as (i & j & a & b & c & d & Hij & He & Hf & H).
    unfold self_pair in H. destruct (Nat.eqb_spec i j); [lia|]. destruct (Nat.eqb_spec (i + 1) j) as [Ej|Ej].
    - left. subst j. assert (c = b) by (destruct He, Hf; congruence). subst c. exists i, a, b, d. cbn [lstart lend] in H.
      split; [auto|]. split; [auto|]. destruct (intersection_point3 a b d); congruence.
    - right. cbn [lstart lend] in H. pose proof (intersection_correct (mkL a b) (mkL c d)) as C.
      destruct (intersection_point (mkL a b) (mkL c d)) as [it|]; [|discriminate].
      assert (X : common (mkL a b) (mkL c d) (isingle it)).
      { destruct it as [x|s']; cbn [correct isingle] in *; apply C; auto. apply on_segment_start. }
      destruct X as [X1 X2]. exists i, j, a, b, c, d, (isingle it). split; [lia|]. split; [auto|]. split; [auto|]. split; [auto|]. split; [auto|].
      intros [G1 G2]. assert (T : forall u v w : pt, (u = v \/ u = w) -> (vulps u v || vulps u w)%bool = true).
      { intros u v w [K|K]; apply vulps_R in K; rewrite K; auto. apply orb_true_r. }
      rewrite (T _ _ _ G1), (T _ _ _ G2) in H. discriminate. }
  split; [exact Sound|]. split; [|split].
  - intros i j a b c d p Hij He Hf P1 P2 Hn Hu. apply self_short_spec. exists i, j, a, b, c, d. split; [lia|]. split; [auto|]. split; [auto|].
    unfold self_pair. destruct (Nat.eqb_spec i j); [lia|]. destruct (Nat.eqb_spec (i + 1) j); [lia|].
    assert (E : intersection_point (mkL a b) (mkL c d) = Some (IPoint p)).
    { apply C29_segment_intersection. intros q. unfold common; cbn [lstart lend]. split; [intros [? ?]; auto|intros ->; auto]. }
    rewrite E. cbn [isingle lstart lend].
    match goal with |- negb ?b = true => destruct b eqn:B end; auto. exfalso. apply Hn.
    apply andb_prop in B as [B1 B2]. rewrite orb_true_iff, !vulps_R in B1, B2. auto.
  - intros i a b c He Hf H1 H2 H3 H4 H5. apply self_short_spec. exists i, (i + 1)%nat, a, b, b, c. split; [lia|]. split; [auto|]. split; [auto|].
    unfold self_pair. destruct (Nat.eqb_spec i (i + 1)); [lia|]. rewrite Nat.eqb_refl. cbn [lstart lend].
    destruct (intersection_point3 a b c) eqn:E; auto. apply intersection_point3_R in E; tauto.
  - intros Hc Hn. destruct (self_intersecting_short l) eqn:E; auto. exfalso.
    destruct (Sound eq_refl) as [(i & a & b & c & He & Hf & N)|(i & j & a & b & c & d & p & Hij & He & Hf & P1 & P2 & N)].
    + apply N. destruct (Hc i a b c He Hf) as (? & ? & ? & ? & ?). apply intersection_point3_R; auto.
    + apply N. eapply Hn; eauto.
Qed.
Print Assumptions C38_self_intersection_partial.
Example C38_hypotheses_met : self_intersecting_short (S := F64_) [P 0 1; P 4 6; P 5 2; P 0 5] = true /\
  self_intersecting_short (S := F64_) [P 0 1; P 4 6; P 5 2; P 7 5] = false.
Proof. split; vm_compute; reflexivity. Qed.

(* C80: refuted in f64: scaling by 2^-30 turns a crossing into an overlap *)
Definition scaled {S : Scalar} (l : Line2 S) (k : car S) : Line2 S := mkL (vscale (lstart l) k) (vscale (lend l) k).
Theorem C80_scaling_refuted : exists (a b : Line2 F64_) (k : spec_float) p s,
  intersection_point a b = Some (IPoint p) /\ intersection_point (scaled a k) (scaled b k) = Some (IOverlap s).
Proof.
  exists (mkL (P 0 0) (P 4 4)), (mkL (P 0 4) (P 12 0)), (fl_pow2 53 1024 (-30)), (P 3 3).
  assert (E : match intersection_point (S := F64_) (scaled (S := F64_) (mkL (P 0 0) (P 4 4)) (fl_pow2 53 1024 (-30)))
      (scaled (S := F64_) (mkL (P 0 4) (P 12 0)) (fl_pow2 53 1024 (-30))) with Some (IOverlap _) => true | _ => false end = true)
    by (vm_compute; reflexivity).
  destruct (intersection_point (scaled _ _) _) as [[?|l]|]; try discriminate E.
  exists l. split; [fisec|reflexivity].
Qed.
Print Assumptions C80_scaling_refuted.
(* in exact arithmetic scaling never changes the kind of intersection *)
Theorem C80_scaling_partial : forall (a b : Line2 RS) (k : R), 0 < k ->
  (intersection_point a b = None <-> intersection_point (scaled (S := RS) a k) (scaled (S := RS) b k) = None) /\
  (forall p, intersection_point a b = Some (IPoint p) -> intersection_point (scaled (S := RS) a k) (scaled (S := RS) b k) = Some (IPoint (@vscale RS p k))) /\
  (forall s, intersection_point a b = Some (IOverlap s) -> exists s', intersection_point (scaled (S := RS) a k) (scaled (S := RS) b k) = Some (IOverlap s')).
Proof.
  intros a b k Hk.
  assert (Sc : forall (q u v : pt), on_segment (@vscale RS q k) (@vscale RS u k) (@vscale RS v k) <-> on_segment q u v).
  { intros [x y] [ux uy] [v1 v2]. unfold vscale. rsimp. rewrite !on_segment_coord. split; intros (t & Ht & E1 & E2); exists t; (split; [auto|]).
    - split; apply Rmult_eq_reg_r with k; lra.
    - rewrite E1, E2. split; ring. }
  assert (Inv : forall q : pt, exists q', q = @vscale RS q' k).
  { intros [x y]. exists (@mkV2 RS (x / k) (y / k)). unfold vscale. apply V2_ext; rsimp; field; lra. }
  assert (Cm : forall q, common (scaled (S := RS) a k) (scaled (S := RS) b k) (@vscale RS q k) <-> common a b q).
  { intros q. unfold common, scaled. cbn [lstart lend]. rewrite !Sc. tauto. }
  assert (Inj : forall p q : pt, @vscale RS p k = @vscale RS q k -> p = q).
  { intros [x y] [u v] E. unfold vscale in E. cbn [vx vy] in E. injection E as E1 E2. apply V2_ext; rsimp; apply Rmult_eq_reg_r with k; lra. }
  destruct (C29_segment_intersection a b) as (A1 & A2 & A3 & A4).
  destruct (C29_segment_intersection (scaled (S := RS) a k) (scaled (S := RS) b k)) as (B1 & B2 & B3 & B4).
  split; [|split].
  - rewrite A1, B1. split; intros H q Hq.
    + destruct (Inv q) as (q' & ->). apply (H q'), Cm; auto.
    + apply (H (@vscale RS q k)), Cm; auto.
  - intros p Hp. apply B2. intros q. destruct (Inv q) as (q' & ->). rewrite Cm. rewrite (proj1 (A2 p) Hp). split; [congruence|apply Inj].
  - intros s Hs. destruct (A3 s Hs) as [Hn Hq]. apply B4. exists (@vscale RS (lstart s) k), (@vscale RS (lend s) k).
    split; [intros E; apply Hn, Inj; auto|]. split; apply Cm, Hq; [apply on_segment_start|apply on_segment_end].
Qed.
Print Assumptions C80_scaling_partial.
