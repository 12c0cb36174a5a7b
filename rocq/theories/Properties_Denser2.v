(* Points added on the edges of a line, e.g. by discretizing it, and intersections (C156) and hulls (C157), in exact arithmetic.
   Model: Geo2.v, Discretize.v, Hull.v, Simplify.v; vocabulary: DiscSpec.v ([denser]), IsectProofs.v ([ray_at o v t]: o + t*v), HullSpec.v
   ([enough]), DenserIsect.v ([on_line_string l q]: q is on an edge of l; [repeated l m]: m is l with every entry repeated, at least once). *)
From Coq Require Import Reals Lra Psatz Sorting.Permutation.
From Verif Require Import Prelude Scalar RInst Flt Geo2 Geo3 GeoSpec DistR DiscSpec Discretize DiscProofs DiscSym Simplify Rdp1 RdpRefine IsectProofs IsectSym DenserIsect
  HullSpec HullGeo Hull HullAny GrahamProofs GrahamProofs2 GrahamProofs3 HullUniq GiftProofs GiftProofs2 ContainProofs Properties_Float Properties_Rdp Properties_Vw Properties_Disc Properties_Hull Properties_Hull3 Properties_Isect4 Properties_Denser.
Local Open Scope R_scope.

(* ---- C156: intersections ---- *)
Lemma in_described (l : list pt) (o : Line2 RS) q : (exists i, In i (find_all_intersections l o) /\ described (Some i) q) <-> on_line_string l q /\ on_segment q (lstart o) (lend o).
Proof.
  assert (G : forall (es : list (Line2 RS)), (exists i, In i (filter_some (fun e => intersection_point e o) es) /\ described (Some i) q) <-> exists e, In e es /\ common e o q).
  { induction es as [|e es IH]; cbn [filter_some]; [split; [intros (i & [] & _)|intros (e & [] & _)]|].
    pose proof (described_common e o q) as D. destruct (intersection_point e o) as [i|]; split.
    - intros (j & [<-|Hj] & Dj); [exists e; split; [left; auto|apply D; auto]|]. destruct (proj1 IH) as (e' & He & C); eauto. exists e'. split; [right|]; auto.
    - intros (e' & [<-|He] & C); [exists i; split; [left; auto|apply D; auto]|]. destruct (proj2 IH) as (j & Hj & Dj); eauto. exists j. split; [right|]; auto.
    - intros H. apply IH in H as (e' & He & C). exists e'. split; [right|]; auto.
    - intros (e' & [<-|He] & C); [apply D in C; destruct C|]. apply IH. eauto. }
  unfold find_all_intersections. rewrite G. unfold on_line_string. split.
  - intros (e & He & C1 & C2). apply in_map_iff in He as ([x y] & <- & He). split; auto. exists x, y. auto.
  - intros ((x & y & Hi & Hq) & Ho). exists (mkL x y). split; [apply in_map_iff; exists (x, y); auto|]. split; auto.
Qed.
(* the reported intersections of a line string with a line cover the same points, however many points are added on its edges;
   so one is found for the one exactly when one is found for the other *)
Theorem C156_same_points_partial : forall (l m : list pt) (o : Line2 RS), denser lerp l m ->
  (forall q, (exists i, In i (find_all_intersections m o) /\ described (Some i) q) <-> (exists i, In i (find_all_intersections l o) /\ described (Some i) q)) /\
  (ls_intersection m o = None <-> ls_intersection l o = None).
Proof.
  intros l m o D. assert (E : forall q, (exists i, In i (find_all_intersections m o) /\ described (Some i) q) <-> (exists i, In i (find_all_intersections l o) /\ described (Some i) q)).
  { intros q. rewrite !in_described. pose proof (denser_points l m q D). tauto. }
  split; [exact E|].
  assert (N : forall l l' : list pt, (forall q, (exists i, In i (find_all_intersections l o) /\ described (Some i) q) -> (exists i, In i (find_all_intersections l' o) /\ described (Some i) q)) ->
    ls_intersection l' o = None -> ls_intersection l o = None).
  { clear. intros l l' H. unfold ls_intersection. rewrite !first_some_hd. change (hd_error (find_all_intersections l' o) = None -> hd_error (find_all_intersections l o) = None).
    intros Hn. destruct (find_all_intersections l' o) as [|x t'] eqn:El'; [|discriminate]. destruct (find_all_intersections l o) as [|i t] eqn:El; auto. exfalso.
    assert (exists q, described (Some i) q) as (q & Hq) by (destruct i as [p|s]; [exists p; reflexivity|exists (lstart s); apply on_segment_start]).
    destruct (H q) as (j & [] & _). exists i. split; [left; auto|auto]. }
  split; apply N; intros q Hq; apply E; auto.
Qed.
Print Assumptions C156_same_points_partial.
(* when the line meets every edge in a point (or not at all), the first intersection and the first two are the same, and every
   intersection is reported again, in the same order, but possibly several times in a row *)
Theorem C156_meeting_in_points_partial : forall (l m : list pt) (o : Line2 RS), denser lerp l m ->
  (forall i, In i (find_all_intersections l o) -> exists p, i = IPoint p) ->
  ls_intersection m o = ls_intersection l o /\ find_two_intersections m o = find_two_intersections l o /\
  repeated (find_all_intersections l o) (find_all_intersections m o).
Proof.
  intros l m o D H. pose proof (denser_all l m o D H) as Rp. split; [|split; [|exact Rp]].
  - unfold ls_intersection. rewrite !first_some_hd. exact (repeated_hd _ _ Rp).
  - unfold find_two_intersections. assert (E : two_loop (window_iter m) o [] = two_loop (window_iter l) o []).
    { rewrite !two_loop_list by (cbn [length]; lia). exact (two_list_repeated _ _ Rp H []). }
    rewrite E. reflexivity.
Qed.
Print Assumptions C156_meeting_in_points_partial.
(* the closest hit of a ray is the same, unless the ray starts on an edge and runs along it *)
Theorem C156_ray_partial : forall (l m : list pt) (o v : pt), denser lerp l m -> vx v <> 0 \/ vy v <> 0 ->
  (forall a b s t, In (a, b) (windows l) -> a = ray_at o v s -> b = ray_at o v t -> (0 < s /\ 0 < t) \/ (s <= 0 /\ t <= 0)) ->
  closest_ray_intersection m v o = closest_ray_intersection l v o.
Proof.
  intros l m o v D Hv H. apply denser_ray; auto. intros a b Hi s t Ea Eb. destruct (H a b s t Hi Ea Eb) as [[Hs Ht]|[Hs Ht]].
  - assert (0 < Rmin s t) by (apply Rmin_glb_lt; auto). lra.
  - assert (Rmax s t <= 0) by (apply Rmax_lub; auto). lra.
Qed.
Print Assumptions C156_ray_partial.
(* all of it for the discretized line *)
Theorem C156_discretized_partial : forall (l out : list pt) (step : R) (o : Line2 RS) (p v : pt), 0 < step -> yields (dnext2 (S := RS) l step) dnew2 out ->
  (ls_intersection out o = None <-> ls_intersection l o = None) /\
  ((forall i, In i (find_all_intersections l o) -> exists q, i = IPoint q) ->
     ls_intersection out o = ls_intersection l o /\ find_two_intersections out o = find_two_intersections l o) /\
  (vx v <> 0 \/ vy v <> 0 ->
     (forall a b s t, In (a, b) (windows l) -> a = ray_at p v s -> b = ray_at p v t -> (0 < s /\ 0 < t) \/ (s <= 0 /\ t <= 0)) ->
     closest_ray_intersection out v p = closest_ray_intersection l v p).
Proof.
  intros l out step o p v Hs Y. assert (D := proj1 (C153_discretize_adds_points step Hs) l out Y). split; [apply C156_same_points_partial; auto|]. split.
  - intros H. split; apply (C156_meeting_in_points_partial l out o D H).
  - intros Hv H. apply C156_ray_partial; auto.
Qed.
Print Assumptions C156_discretized_partial.
(* the exceptions are real: a corner is reported by both edges that meet there; a piece of an overlap is shorter; and a ray along an
   edge it starts on misses the edge, but not the pieces ahead of it. In f64, with small integers, where nothing is rounded. *)
Theorem C156_discretized_refuted :
  let l := [P 0 0; P 4 0] in let m := [P 0 0; P 2 0; P 4 0] in
  length (find_all_intersections (S := F64_) l (mkL (P 2 (-1)) (P 2 1))) = 1%nat /\ length (find_all_intersections (S := F64_) m (mkL (P 2 (-1)) (P 2 1))) = 2%nat /\
  (let e i := match i with Some (IOverlap s) => Some (lend s) | _ => None end in
   e (ls_intersection (S := F64_) l (mkL (P 1 0) (P 3 0))) = Some (P 3 0) /\ e (ls_intersection (S := F64_) m (mkL (P 1 0) (P 3 0))) = Some (P 2 0)) /\
  closest_ray_intersection (S := F64_) l (P 1 0) (P 1 0) = None /\ closest_ray_intersection (S := F64_) m (P 1 0) (P 1 0) = Some (P 2 0).
Proof.
  cbv zeta. split; [vm_compute; reflexivity|]. split; [vm_compute; reflexivity|]. split; split; apply (opt_same_eq v2_same v2_same_eq); vm_compute; reflexivity.
Qed.
Print Assumptions C156_discretized_refuted.
Example C156_hypotheses_met : let l := [at_ 0 0; at_ 4 0; at_ 4 4] in let m := [at_ 0 0; at_ 2 0; at_ 4 0; at_ 4 1; at_ 4 4] in
  denser lerp l m /\ forall a b s t, In (a, b) (windows l) -> a = ray_at (at_ 1 (-1)) (at_ 0 1) s -> b = ray_at (at_ 1 (-1)) (at_ 0 1) t -> (0 < s /\ 0 < t) \/ (s <= 0 /\ t <= 0).
Proof.
  cbv zeta. split.
  - apply (dn_edge lerp (at_ 0 0) (at_ 4 0) _ [at_ 2 0] [at_ 4 0; at_ 4 1; at_ 4 4]).
    + constructor; [|constructor]. exists (1/2). split; [lra|]. unfold lerp. apply V2_ext; cbn [vx vy]; cbn [car RS]; lra.
    + apply (dn_edge lerp (at_ 4 0) (at_ 4 4) [] [at_ 4 1] [at_ 4 4]); [|constructor]. constructor; [|constructor]. exists (1/4). split; [lra|]. unfold lerp. apply V2_ext; cbn [vx vy]; cbn [car RS]; lra.
  - intros a b s t [E|[E|[]]] Ea Eb; injection E as <- <-; exfalso.
    + assert (X := f_equal (fun v : pt => vx v) Ea). unfold ray_at in X. cbn [vx] in X. cbn [car RS] in X. lra.
    + assert (X := f_equal (fun v : pt => vx v) Ea). unfold ray_at in X. cbn [vx] in X. cbn [car RS] in X. lra.
Qed.

(* ---- C157: hulls ---- *)
Lemma denser_enough l m : denser lerp l m -> enough l -> enough m.
Proof.
  intros D (a & mid & b & -> & H). destruct (denser_ends _ _ _ _ _ D) as (mid' & -> & _). pose proof (denser_length _ _ _ D) as L.
  cbn [length] in L. rewrite !app_length in L. cbn [length] in L. exists a, mid', b. split; auto. destruct H as [[H1 H2]|[H1 H2]]; [left|right]; split; auto; lia.
Qed.
Lemma denser_spanned l m : denser lerp l m -> incl l m /\ forall q, In q m -> spanned l q.
Proof.
  induction 1 as [|a|a b rest ins m Hi Hd [I1 I2]].
  - split; [intros q []|intros q []].
  - split; [intros q H; exact H|intros q H; apply spanned_In; exact H].
  - split.
    + intros q [<-|Hq]; [left; auto|]. right. apply in_app_iff. right. auto.
    + assert (Mono : forall q, spanned (b :: rest) q -> spanned (a :: b :: rest) q).
      { intros q (x & y & z & u & v & w & Hx & Hy & Hz & Hr). exists x, y, z, u, v, w. split; [right; auto|]. split; [right; auto|]. split; [right; auto|exact Hr]. }
      intros q [<-|Hq]; [apply spanned_In; left; auto|]. apply in_app_iff in Hq as [Hq|Hq]; [|apply Mono, I2; auto].
      rewrite Forall_forall in Hi. destruct (Hi q Hq) as (t & Ht & ->). exists a, b, b, (1 - t), t, 0. unfold lerp. cbn [vx vy].
      split; [left; auto|]. split; [right; left; auto|]. split; [right; left; auto|]. split; [lra|]. split; [lra|]. split; [lra|]. split; [lra|].
      cbn [car RS] in *. split; ring.
Qed.
(* added points do not change the hull *)
Theorem C157_hull_of_denser_line : forall (l m : list pt) r r', enough l -> denser lerp l m -> graham_scan l r -> graham_scan m r' -> r' = r.
Proof.
  intros l m r r' He D H H'. destruct (denser_spanned l m D) as [I1 I2]. symmetry. eapply (C112_inner_points_irrelevant l m); eauto. eapply denser_enough; eauto.
Qed.
Print Assumptions C157_hull_of_denser_line.
Theorem C157_hull_of_discretized_line : forall (l out : list pt) (step : R) r r', 0 < step -> enough l -> yields (dnext2 (S := RS) l step) dnew2 out ->
  graham_scan l r -> graham_scan out r' -> r' = r.
Proof. intros l out step r r' Hs He Y H H'. eapply (C157_hull_of_denser_line l out); eauto. exact (proj1 (C153_discretize_adds_points step Hs) l out Y). Qed.
Print Assumptions C157_hull_of_discretized_line.
(* the hull of a line contains the hull of the simplified line *)
Theorem C157_hull_of_simplified_line : forall (l out vs ws order : list pt), enough out -> enough l ->
  (exists a b c, In a l /\ In b l /\ In c l /\ orient a b c <> 0) ->
  ((exists d, simplify_rdp_2d (S := RS) l d = Val out) \/ (exists pick k, simplify_vw_2d (S := RS) pick l k = Val out)) ->
  graham_scan out (Val vs) -> graham_scan l (Val ws) -> Permutation vs order ->
  contains_convex_hull ws vs = Val true /\ contains_convex_hull_par ws vs order = Val true.
Proof.
  intros l out vs ws order Ho Hl Hc Hs H H' Hp. apply (C114_hulls_are_nested out l vs ws order); auto. destruct Hs as [(d & E)|(pick & k & E)].
  - destruct (proj1 (C07_rdp_subsequence RS) l d) as (o & E' & Sq & _). assert (E2 : Val o = Val out) by (rewrite <- E', <- E; reflexivity). injection E2 as ->. clear E'. intros q Hq. eapply subseq_In; eauto.
  - intros q Hq. destruct (C15_vw_subsequence RS pick l out k E) as (Sq & _). eapply subseq_In; eauto.
Qed.
Print Assumptions C157_hull_of_simplified_line.
(* the hull of the outline of a box is the outline *)
Theorem C157_hull_of_box_outline : forall (lo hi : pt) r fuel, vx lo < vx hi -> vy lo < vy hi -> (5 <= fuel)%nat ->
  exists outline, aabb2_convex_hull (S := RS) (Some (lo, hi)) = Some outline /\
    (graham_scan outline r -> r = Val outline) /\ gift_wrap fuel outline = Val outline /\
    (graham_scan_wo_atan2 outline r -> r = Val outline).
Proof.
  intros lo hi r fuel Hx Hy Hf. destruct (C23_aabb_outline lo hi lo Hx Hy) as (outline & E & _ & Eo & Hc & _). exists outline. split; [exact E|].
  set (c1 := at_ (vx hi) (vy lo)) in *. set (c3 := at_ (vx lo) (vy hi)) in *.
  assert (Hr : ring_of outline [lo; c1; hi; c3]) by (right; exists lo, [c1; hi; c3]; split; [reflexivity|exact Eo]).
  assert (Hn : NoDup [lo; c1; hi; c3]) by apply Hc.
  assert (Hh : hull_result outline outline).
  { rewrite Eo at 2. apply (hull_proper _ lo [c1; hi; c3]).
    - split; [rewrite Eo; intros q Hq; cbn [In] in *; tauto|]. split; [exact Hc|]. intros p Hp a b Hab. rewrite Eo in Hp.
      assert (Hp' : In p [lo; c1; hi; c3]) by (cbn [In] in *; tauto).
      destruct (Req_dec (orient a b p) 0) as [Z|Z]; [rewrite Z; lra|]. left. apply Hc; auto.
      + intros ->. apply Z. unfold orient. ring.
      + intros ->. apply Z. unfold orient. ring.
    - intros p Hp. rewrite Eo in Hp. cbn [In] in Hp. unfold lex_le. unfold c1, c3 in Hp.
      destruct Hp as [<-|[<-|[<-|[<-|[<-|[]]]]]]; cbn [vx vy]; cbn [car RS] in *; lra. }
  destruct (C51_gift_wrap_is_hull fuel outline [lo; c1; hi; c3] Hr Hn) as (vs & Eg & Hv); [cbn; lia|rewrite Eo; cbn; lia|].
  rewrite (hull_result_unique _ _ _ Hv Hh) in Eg. split; [|split; [exact Eg|]].
  - intros H. destruct (C46_graham_scan_is_hull outline r) as (ws & -> & Hw); auto.
    + exists lo, [c1; hi; c3], lo. split; [exact Eo|]. right. split; [auto|cbn; lia].
    + f_equal. eapply hull_result_unique; eauto.
  - intros H. destruct (C62_scan_without_atan2_partial outline _ r Hr Hn) as (ws & -> & Hw); [cbn; lia|auto|]. f_equal. eapply hull_result_unique; eauto.
Qed.
Print Assumptions C157_hull_of_box_outline.
Example C157_example : gift_wrap (S := F64_) 9 [P 0 0; P 4 0; P 4 2; P 1 1] = Val [P 0 0; P 4 0; P 4 2; P 1 1; P 0 0] /\
  gift_wrap (S := F64_) 9 [P 0 0; P 1 0; P 2 0; P 3 0; P 4 0; P 4 1; P 4 2; P 1 1] = Val [P 0 0; P 4 0; P 4 2; P 1 1; P 0 0].
Proof. split; fcomp2. Qed.
