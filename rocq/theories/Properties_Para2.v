(* Sampling of parabolic arcs: the direction and extent of the segment, the direction of the arc, and similar arcs (C149).
   Model: Parabola.v; vocabulary: ParaSpec.v, GeoSpec.v. A call is [discretize_2d fuel arc max_dist]: [Val out] is what it returns;
   NoFuel means the while loop is still running after fuel iterations. *)
From Coq Require Import Reals Lra Psatz.
From Verif Require Import Prelude Scalar RInst Geo2 GeoSpec DistR Parabola ParaSpec ParaProofs ParaSym Properties_Para.
Local Open Scope R_scope.

Definition arc (a b f s e : pt) : Arc RS := @mkArc RS (mkL (S := RS) a b) f s e.
Definition mapM {A B} (h : A -> B) (o : outcome (list A)) : outcome (list B) := omap (map h) o.

Ltac flatp := unfold X, along, orient, untransform, sqr_segment_length, segm_vec_x, segm_vec_y, rot_x, rot_y, point_vec_x, point_vec_y, lerp in *; rsimp.
Lemma disc3_of (c : Arc RS) d fuel : proper c ->
  discretize_3d fuel c d = mapM (fun p : pt => @mkV3 RS (vx p) (vy p) (- edist p (cell_point c))) (discretize_2d fuel c d).
Proof. intros (H & _). exact (C73_parabola_3d c d fuel H). Qed.

Lemma un_line (a b f s e : pt) (i j x y : R) : i <> j -> (sqr_segment_length (arc a b f s e) : R) <> 0 ->
  @untransform RS (arc (lerp a b i) (lerp a b j) f s e) ((j - i) * x + - ((j - i) * i * sqr_segment_length (arc a b f s e))) ((j - i) * y) = @untransform RS (arc a b f s e) x y.
Proof.
  intros Hij. destruct a as [a1 a2], b as [b1 b2]. unfold arc. flatp. cbn. intros HL. assert (Hji : j - i <> 0) by lra.
  assert (E : (a1 + j * (b1 - a1) - (a1 + i * (b1 - a1))) * (a1 + j * (b1 - a1) - (a1 + i * (b1 - a1))) + (a2 + j * (b2 - a2) - (a2 + i * (b2 - a2))) * (a2 + j * (b2 - a2) - (a2 + i * (b2 - a2))) = (j - i) * (j - i) * ((b1 - a1) * (b1 - a1) + (b2 - a2) * (b2 - a2))) by ring.
  apply V2_ext; cbn; rewrite E; field; auto.
Qed.
(* ---- the segment only stands for its line ---- *)
Theorem C149_only_the_line : forall (a b f s e : pt) (i j d : R) fuel, proper (arc a b f s e) -> i <> j ->
  discretize_2d fuel (arc (lerp a b i) (lerp a b j) f s e) d = discretize_2d fuel (arc a b f s e) d /\
  discretize_3d fuel (arc (lerp a b i) (lerp a b j) f s e) d = discretize_3d fuel (arc a b f s e) d.
Proof.
  intros a b f s e i j d fuel Hp Hij.
  assert (E2 : discretize_2d fuel (arc (lerp a b i) (lerp a b j) f s e) d = discretize_2d fuel (arc a b f s e) d /\ proper (arc (lerp a b i) (lerp a b j) f s e)).
  { pose proof (proper_L _ Hp) as HL. pose proof (proper_b _ Hp) as Hb. pose proof (proper_uv _ Hp) as Hn. set (c := arc a b f s e) in *. set (c' := arc (lerp a b i) (lerp a b j) f s e).
    set (lam := j - i). assert (Hlam : lam <> 0) by (unfold lam; lra).
    assert (HLL : (sqr_segment_length c' : R) = lam * lam * sqr_segment_length c) by (unfold c, c', lam, arc; flatp; cbn; ring).
    assert (HX : forall m : pt, X c' m = lam * X c m + - (lam * i * sqr_segment_length c)) by (intros m; unfold c, c', lam, arc; flatp; cbn; ring).
    assert (Hb' : (rot_y c' : R) = lam * rot_y c) by (unfold c, c', lam, arc; flatp; cbn; ring).
    assert (HL' : (sqr_segment_length c' : R) <> 0) by (rewrite HLL; repeat apply Rmult_integral_contrapositive_currified; auto).
    split.
    - rewrite (disc2_R fuel c' d HL'), (disc2_R fuel c d HL), !HX.
      transitivity (omap (map (fun p : pt => p)) (disc (fun p : pt => p) fuel c (d * d * sqr_segment_length c) (X c (start_point c)) (X c (end_point c)))).
      + apply (disc_sim c c' lam (- (lam * i * sqr_segment_length c)) lam); auto.
        * rewrite HLL. rring.
        * rewrite (rot_X c'), (rot_X c) by auto. apply HX.
        * intros x y. apply un_line; auto.
      + destruct (disc _ _ _ _ _ _); unfold omap; cbn [obind]; try reflexivity. rewrite map_id. reflexivity.
    - unfold proper, proper_arc. fold c'. split; [|split].
      + intros K. apply HL'. unfold sqr_segment_length, segm_vec_x, segm_vec_y. rewrite K. rsimp. ring.
      + change (orient (sA c') (sB c') (cell_point c')) with (@Y c' (cell_point c')). rewrite <- (rot_Y c'), Hb' by auto. apply Rmult_integral_contrapositive_currified; auto.
      + change (X c' (start_point c') <> X c' (end_point c')). rewrite !HX. intros K. apply Hn. apply (Rmult_eq_reg_l lam); auto. unfold c, c' in *. cbn [start_point end_point arc] in *. lra. }
  destruct E2 as [E2 Hp']. split; [exact E2|]. rewrite !disc3_of, E2 by auto. reflexivity.
Qed.
Print Assumptions C149_only_the_line.

(* ---- start and end exchanged ---- *)
Theorem C149_backwards : forall (a b f s e : pt) (d : R) fuel, proper (arc a b f s e) ->
  discretize_2d fuel (arc a b f e s) d = omap (@rev pt) (discretize_2d fuel (arc a b f s e) d) /\
  discretize_3d fuel (arc a b f e s) d = omap (@rev pt3) (discretize_3d fuel (arc a b f s e) d).
Proof.
  intros a b f s e d fuel Hp.
  assert (Hp' : proper (arc a b f e s)) by (destruct Hp as (H1 & H2 & H3); split; [|split]; auto; cbn in *; auto).
  assert (E2 : discretize_2d fuel (arc a b f e s) d = omap (@rev pt) (discretize_2d fuel (arc a b f s e) d)).
  { pose proof (proper_L _ Hp) as HL. pose proof (proper_b _ Hp) as Hb. pose proof (proper_uv _ Hp) as Hn. pose proof (proper_L _ Hp') as HL'. pose proof (proper_b _ Hp') as Hb'. pose proof (proper_uv _ Hp') as Hn'.
    rewrite (disc2_R fuel _ d HL'), (disc2_R fuel _ d HL). exact (disc_back _ f s e _ _ _ fuel Hb Hn). }
  split; [exact E2|]. rewrite !disc3_of, E2 by auto. unfold mapM. destruct (discretize_2d fuel (arc a b f s e) d); unfold omap; cbn [obind]; try reflexivity. rewrite map_rev. reflexivity.
Qed.
Print Assumptions C149_backwards.

(* ---- moved, turned, mirrored and scaled ---- *)
(* sg = 1: turn and scale by the complex number p + i q, then move by (ex, ey); sg = -1: mirror in the x axis before that *)
Definition similar (p q sg ex ey : R) (v : pt) : pt := @mkV2 RS (p * vx v - sg * q * vy v + ex) (q * vx v + sg * p * vy v + ey).
Lemma similar_dist p q sg ex ey u v : sg * sg = 1 -> sqdist (similar p q sg ex ey u) (similar p q sg ex ey v) = (p * p + q * q) * sqdist u v.
Proof.
  intros Hs. unfold sqdist, similar. cbn. rsimp.
  transitivity ((p * p + q * q) * ((vx u - vx v) * (vx u - vx v)) + (sg * sg) * ((p * p + q * q) * ((vy u - vy v) * (vy u - vy v)))); [|rewrite Hs]; ring.
Qed.
Lemma un_similar (a b f s e : pt) (p q sg ex ey x y : R) : sg * sg = 1 -> p * p + q * q <> 0 -> (sqr_segment_length (arc a b f s e) : R) <> 0 ->
  @untransform RS (arc (similar p q sg ex ey a) (similar p q sg ex ey b) (similar p q sg ex ey f) (similar p q sg ex ey s) (similar p q sg ex ey e)) ((p * p + q * q) * x + 0) (sg * (p * p + q * q) * y) =
  similar p q sg ex ey (@untransform RS (arc a b f s e) x y).
Proof.
  intros Hs Hk. destruct a as [a1 a2], b as [b1 b2]. unfold arc, similar. flatp. cbn. intros HL.
  set (u := b1 - a1) in *. set (w := b2 - a2) in *.
  assert (E1 : p * b1 - sg * q * b2 + ex - (p * a1 - sg * q * a2 + ex) = p * u - sg * q * w) by (unfold u, w; ring).
  assert (E2 : q * b1 + sg * p * b2 + ey - (q * a1 + sg * p * a2 + ey) = q * u + sg * p * w) by (unfold u, w; ring).
  rewrite E1, E2.
  assert (E : (p * u - sg * q * w) * (p * u - sg * q * w) + (q * u + sg * p * w) * (q * u + sg * p * w) = (p * p + q * q) * (u * u + w * w)).
  { transitivity ((p * p + q * q) * (u * u) + (sg * sg) * ((p * p + q * q) * (w * w))); [ring|rewrite Hs; ring]. }
  rewrite E. set (k := p * p + q * q) in *. set (L := u * u + w * w) in *.
  assert (D : forall z : R, z / (k * L) = z / k / L) by (intros; field; auto).
  apply V2_ext; cbn [vx vy]; rewrite D.
  - replace (((p * u - sg * q * w) * (k * x + 0) - (q * u + sg * p * w) * (sg * k * y)) / k) with (p * (u * x - w * y) - sg * q * (u * y + w * x) + (1 - sg * sg) * (p * w * y)) by (field; auto).
    rewrite Hs. match goal with |- @eq _ ?l ?r => change (@eq R l r) end. field. auto.
  - replace (((p * u - sg * q * w) * (sg * k * y) + (q * u + sg * p * w) * (k * x + 0)) / k) with (q * (u * x - w * y) + sg * p * (u * y + w * x) + (1 - sg * sg) * (q * w * y)) by (field; auto).
    rewrite Hs. match goal with |- @eq _ ?l ?r => change (@eq R l r) end. field. auto.
Qed.
Theorem C149_similar : forall (a b f s e : pt) (p q sg ex ey k d : R) fuel, proper (arc a b f s e) -> sg * sg = 1 -> 0 < k -> k * k = p * p + q * q ->
  let g := similar p q sg ex ey in
  discretize_2d fuel (arc (g a) (g b) (g f) (g s) (g e)) (k * d) = mapM g (discretize_2d fuel (arc a b f s e) d) /\
  discretize_3d fuel (arc (g a) (g b) (g f) (g s) (g e)) (k * d) =
    mapM (fun v : pt3 => let w := g (@mkV2 RS (wx v) (wy v)) in @mkV3 RS (vx w) (vy w) (k * wz v)) (discretize_3d fuel (arc a b f s e) d).
Proof.
  intros a b f s e p q sg ex ey k d fuel Hp Hs Hk Hkk g. assert (Hkp : 0 < k * k) by (apply Rmult_lt_0_compat; auto).
  assert (E2 : discretize_2d fuel (arc (g a) (g b) (g f) (g s) (g e)) (k * d) = mapM g (discretize_2d fuel (arc a b f s e) d) /\ proper (arc (g a) (g b) (g f) (g s) (g e))).
  { pose proof (proper_L _ Hp) as HL. pose proof (proper_b _ Hp) as Hb. pose proof (proper_uv _ Hp) as Hn. set (c := arc a b f s e) in *. set (c' := arc (g a) (g b) (g f) (g s) (g e)).
    set (lam := p * p + q * q). assert (Hlam : lam <> 0) by (unfold lam; lra).
    assert (HLL : (sqr_segment_length c' : R) = lam * sqr_segment_length c).
    { change (sqr_segment_length c' : R) with (sqdist (g b) (g a)). change (sqr_segment_length c : R) with (sqdist b a). apply similar_dist; auto. }
    assert (HX : forall m : pt, X c' (g m) = lam * X c m + 0).
    { intros m. unfold c, c', lam, g, arc, similar. flatp. cbn.
      transitivity ((p * p + q * q) * ((vx b - vx a) * (vx m - vx a)) + (sg * sg) * ((p * p + q * q) * ((vy b - vy a) * (vy m - vy a)))); [|rewrite Hs]; ring. }
    assert (Hb' : (rot_y c' : R) = sg * lam * rot_y c) by (unfold c, c', lam, g, arc, similar; flatp; cbn; ring).
    assert (HL' : (sqr_segment_length c' : R) <> 0) by (rewrite HLL; apply Rmult_integral_contrapositive_currified; auto).
    split.
    - rewrite (disc2_R fuel c' (k * d) HL'), (disc2_R fuel c d HL).
      change (X c' (start_point c')) with (X c' (g (start_point c))). change (X c' (end_point c')) with (X c' (g (end_point c))). rewrite !HX.
      apply (disc_sim c c' lam 0 (sg * lam)); auto.
      + transitivity (sg * sg * (lam * lam)); [ring|rewrite Hs; ring].
      + rewrite HLL. assert (G : forall L : R, k * d * (k * d) * (lam * L) = lam * lam * (d * d * L)) by (intros L; transitivity (k * k * (d * d) * (lam * L)); [ring|rewrite Hkk; fold lam; ring]). apply G.
      + rewrite (rot_X c'), (rot_X c) by auto. apply HX.
      + intros x y. apply un_similar; auto.
    - unfold proper, proper_arc. fold c'. split; [|split].
      + intros K. apply HL'. unfold sqr_segment_length, segm_vec_x, segm_vec_y. rewrite K. rsimp. ring.
      + change (orient (sA c') (sB c') (cell_point c')) with (@Y c' (cell_point c')). rewrite <- (rot_Y c'), Hb' by auto.
        apply Rmult_integral_contrapositive_currified; auto. apply Rmult_integral_contrapositive_currified; auto. intros ->. lra.
      + change (X c' (g (start_point c)) <> X c' (g (end_point c))). rewrite !HX. intros K. apply Hn. apply (Rmult_eq_reg_l lam); auto. lra. }
  destruct E2 as [E2 Hp']. split; [exact E2|]. rewrite !disc3_of, E2 by auto. unfold mapM.
  destruct (discretize_2d fuel (arc a b f s e) d); unfold omap; cbn [obind]; try reflexivity. f_equal. rewrite !map_map. apply map_ext. intros v.
  apply V3_ext; cbn; auto. unfold edist. assert (E : sqdist (g v) (g f) = k * k * sqdist v f) by (rewrite Hkk; apply similar_dist; auto).
  assert (E' : sqrt (sqdist (g v) (g f)) = k * sqrt (sqdist v f)) by (rewrite E, sqrt_mult; [rewrite sqrt_square by lra; reflexivity|lra|apply sqdist_nonneg]).
  change (cell_point (arc (g a) (g b) (g f) (g s) (g e))) with (g f). rewrite E'. change (cell_point (arc a b f s e)) with f. rsimp. ring.
Qed.
Print Assumptions C149_similar.
(* such arcs exist, such maps exist (a turn by the angle of 3 + 4 i with scale 5, mirrored), and different places on the line exist *)
Example C149_an_arc : exists a b f s e, proper (arc a b f s e) /\ proper (arc a b f e s).
Proof.
  exists (@mkV2 RS 0 0), (@mkV2 RS 1 0), (@mkV2 RS 0 1), (@mkV2 RS (-1) 1), (@mkV2 RS 2 (5/2)).
  assert (K : @mkV2 RS 0 0 <> @mkV2 RS 1 0) by (intros K; apply (f_equal (@vx RS)) in K; cbn in K; lra).
  split; (split; [exact K|split; unfold orient, along; cbn; lra]).
Qed.
Example C149_a_map : (-1) * (-1) = 1 /\ 0 < 5 /\ 5 * 5 = 3 * 3 + 4 * 4 /\ similar 3 4 (-1) 7 0 (@mkV2 RS 1 0) = @mkV2 RS 10 4.
Proof. split; [lra|]. split; [lra|]. split; [lra|]. apply V2_ext; cbn; lra. Qed.
