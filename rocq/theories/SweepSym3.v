(* Scaled and translated lines, and lines in another order: the ingredients of SweepSym2 for these. *)
From Coq Require Import Reals Lra Permutation Sorting.Sorted.
From Verif Require Import Prelude Scalar RInst Geo2 GeoSpec DistR IsectProofs Sweep SweepMap SweepProofs SweepCand SweepLoop SweepLoop2 SweepRun SweepIdx SweepExact SweepSym SweepSym2.
Local Open Scope R_scope.

(* ---- the point reported for two lines with several common points is the leftmost of them (the lowest of these) ---- *)
Definition xlt (p q : pt) : Prop := vx p < vx q \/ (vx p = vx q /\ vy p < vy q).
Lemma parallel_dir (a b : Line2 RS) :
  lstart a <> lend a -> lstart b <> lend b ->
  vperp (vsub (lend a) (lstart a)) (vsub (lend b) (lstart b)) = 0 ->
  (Rmin (vx (lstart b)) (vx (lend b)) <= Rmax (vx (lstart a)) (vx (lend a)) /\
   Rmin (vx (lstart a)) (vx (lend a)) <= Rmax (vx (lstart b)) (vx (lend b)) /\
   Rmin (vy (lstart b)) (vy (lend b)) <= Rmax (vy (lstart a)) (vy (lend a)) /\
   Rmin (vy (lstart a)) (vy (lend a)) <= Rmax (vy (lstart b)) (vy (lend b))) ->
  forall s, intersection_parallel a b = Some (IOverlap s) -> xlt (lstart s) (lend s).
Proof.
  destruct a as [a1 a2], b as [b1 b2]. cbn [lstart lend]. intros Ha Hb Hp HB ov.
  unfold intersection_parallel. cbn [lstart lend].
  destruct (normalise a1 a2 Ha) as (p & rx & ry & -> & Lr & Da & Sa & Na1 & Na2 & Na3).
  destruct (normalise b1 b2 Hb) as (q & sx & sy & -> & Ls & Db & Sb & Nb1 & Nb2 & Nb3).
  unfold vperp, vsub in Hp. rsimp.
  assert (Hx : sx * ry - sy * rx = 0) by (destruct Da as [[Da1 Da2]|[Da1 Da2]], Db as [[Db1 Db2]|[Db1 Db2]];
    rewrite Da1, Da2, Db1, Db2 in Hp; lra).
  clear Hp Da Db.
  destruct p as [px py], q as [qx qy]. rewrite Na1, Na2, Nb1, Nb2 in HB. rsimp.
  pose proof (lexpos_nz _ _ Lr) as Nr.
  destruct (parallel_multiple rx ry sx sy Nr Hx) as [Ks1 Ks2].
  set (k := (sx * rx + sy * ry) / (rx * rx + ry * ry)) in *.
  assert (Kp : 0 < k) by (apply (lexpos_multiple rx ry); auto; rewrite <- Ks1, <- Ks2; auto).
  unfold vperp, vdot, vsub, vadd, vscale. rsimp. fold k.
  match goal with |- context [Reqb ?u 0] => destruct (Reqb_spec u 0) as [E|E] end; [|discriminate].
  destruct (parallel_multiple rx ry (qx - px) (qy - py) Nr E) as [Kq1 Kq2].
  set (t0 := ((qx - px) * rx + (qy - py) * ry) / (rx * rx + ry * ry)) in *.
  set (t1 := t0 + k).
  assert (Ht0 : t0 <= 1 /\ 0 <= t1).
  { destruct Lr as [Lr|[Lr0 Lr]].
    - split; apply Rmult_le_reg_r with rx; auto; unfold t1; lra.
    - destruct (Na3 Lr0) as [Na4 Na5]. rewrite Lr0, Rmult_0_r in Ks1. destruct (Nb3 Ks1) as [Nb4 Nb5].
      rewrite Na4, Na5, Nb4, Nb5 in HB. split; apply Rmult_le_reg_r with ry; auto; unfold t1; lra. }
  set (u := Rmax t0 0). set (v := Rmin t1 1).
  assert (Huv : u <= v). { unfold u, v, Rmax, Rmin. unfold t1 in *. destruct (Rle_dec t0 0), (Rle_dec (t0 + k) 1); lra. }
  destruct (veqb (@mkV2 RS (px + rx * u) (py + ry * u)) (@mkV2 RS (px + rx * v) (py + ry * v))) eqn:Ev; [discriminate|].
  intros [= <-]. cbn [lstart lend]. unfold xlt. cbn [vx vy].
  assert (Nuv : u <> v) by (intros Q; rewrite Q in Ev; assert (X : veqb (@mkV2 RS (px + rx * v) (py + ry * v)) (@mkV2 RS (px + rx * v) (py + ry * v)) = true) by (apply veqb_R; auto); congruence).
  assert (Lt : u < v) by lra. destruct Lr as [Lr|[Lr0 Lr]].
  - left. assert (rx * u < rx * v) by (apply Rmult_lt_compat_l; auto). lra.
  - right. assert (ry * u < ry * v) by (apply Rmult_lt_compat_l; auto). rewrite Lr0. lra.
Qed.
Lemma line_point_no_overlap (l : Line2 RS) p s : intersect_line_point l p <> Some (IOverlap s).
Proof. unfold intersect_line_point. cbv zeta. repeat match goal with |- context [if ?c then _ else _] => destruct c end; discriminate. Qed.
Lemma point_dir (a b : Line2 RS) s : intersection_point a b = Some (IOverlap s) -> xlt (lstart s) (lend s).
Proof.
  unfold intersection_point.
  destruct (vulps (lstart a) (lend a)) eqn:Da; [intros H; destruct (line_point_no_overlap _ _ _ H)|].
  destruct (vulps (lstart b) (lend b)) eqn:Db; [intros H; destruct (line_point_no_overlap _ _ _ H)|].
  assert (Na : lstart a <> lend a) by (intros E; apply vulps_R in E; congruence).
  assert (Nb : lstart b <> lend b) by (intros E; apply vulps_R in E; congruence).
  cbv zeta. match goal with |- (if ?c then _ else _) = _ -> _ => destruct c eqn:B end; [discriminate|].
  rsimp. rewrite !orb_false_iff, !Rltb_false in B.
  match goal with |- (if Reqb ?c 0 then _ else _) = _ -> _ => destruct (Reqb_spec c 0) as [E|E] end.
  - apply parallel_dir; auto. tauto.
  - unfold intersection_cross. cbv zeta. match goal with |- (if ?c then _ else _) = _ -> _ => destruct c end; discriminate.
Qed.
Lemma xlt_asym p q : xlt p q -> ~ xlt q p.
Proof. intros [H|[H1 H2]] [K|[K1 K2]]; lra. Qed.
Lemma single_first (a b : Line2 RS) it : intersection_point a b = Some it ->
  common a b (isingle it) /\ forall q, common a b q -> q = isingle it \/ xlt (isingle it) q.
Proof.
  intros H. pose proof (intersection_correct a b) as C. rewrite H in C. destruct it as [p|s]; cbn [correct isingle] in *.
  - split; [apply C; auto|]. intros q Hq. left. apply C; auto.
  - destruct C as [N C]. apply point_dir in H. split; [apply C, on_segment_start|]. intros q Hq. apply C in Hq as (t & Ht & ->).
    destruct (Req_dec t 0) as [->|Nt]; [left; unfold lerp; apply V2_ext; rsimp; rring|]. right. unfold xlt, lerp in *. cbn [vx vy].
    assert (0 < t) by lra. destruct H as [H|[H1 H2]].
    + left. assert (0 < t * (vx (lend s) - vx (lstart s))) by (apply Rmult_lt_0_compat; lra). lra.
    + right. assert (0 < t * (vy (lend s) - vy (lstart s))) by (apply Rmult_lt_0_compat; lra). rewrite H1. split; [rring|lra].
Qed.

(* ---- x scaled by a > 0, y by c > 0, moved by (b, d) ---- *)
Section Scaled.
  Variables (a b c d : R).
  Hypothesis Ha : 0 < a.
  Hypothesis Hc : 0 < c.
  Definition scaled (p : pt) : pt := @mkV2 RS (a * vx p + b) (c * vy p + d).
  Lemma scaled_lerp s e t : scaled (lerp s e t) = lerp (scaled s) (scaled e) t.
  Proof. unfold scaled, lerp. apply V2_ext; rsimp; rring. Qed.
  Lemma scaled_inj p q : scaled p = scaled q -> p = q.
  Proof.
    intros E. assert (Ex := f_equal (fun v : pt => vx v) E). assert (Ey := f_equal (fun v : pt => vy v) E). unfold scaled in Ex, Ey. cbn [vx vy] in Ex, Ey.
    apply V2_ext; [apply Rmult_eq_reg_l with a|apply Rmult_eq_reg_l with c]; lra.
  Qed.
  Lemma scaled_sur q : exists p, scaled p = q.
  Proof. exists (@mkV2 RS ((vx q - b) / a) ((vy q - d) / c)). unfold scaled. apply V2_ext; rsimp; field; lra. Qed.
  Lemma mul_lt k x y : 0 < k -> x < y <-> k * x < k * y.
  Proof. intros Hk. split; [apply Rmult_lt_compat_l; auto|apply Rmult_lt_reg_l; auto]. Qed.
  Lemma scaled_klt p q : klt p q -> klt (scaled p) (scaled q).
  Proof. unfold klt, scaled. cbn [vx vy]. intros [H|[H1 H2]]; [left; apply (mul_lt c) in H; lra|right; apply (mul_lt a) in H2; rewrite ?H1; lra]. Qed.
  Lemma scaled_xlt p q : xlt p q -> xlt (scaled p) (scaled q).
  Proof. unfold xlt, scaled. cbn [vx vy]. intros [H|[H1 H2]]; [left; apply (mul_lt a) in H; lra|right; apply (mul_lt c) in H2; rewrite ?H1; lra]. Qed.
  Lemma scaled_seg p s e : on_segment (scaled p) (scaled s) (scaled e) <-> on_segment p s e.
  Proof.
    split; intros (t & Ht & E); exists t; (split; [auto|]).
    - rewrite <- scaled_lerp in E. apply scaled_inj; auto.
    - rewrite E. apply scaled_lerp.
  Qed.
  Lemma scaled_common l m q : common (Tl scaled l) (Tl scaled m) (scaled q) <-> common l m q.
  Proof. unfold common, Tl. cbn [lstart lend]. rewrite !scaled_seg. tauto. Qed.
  Lemma scaled_ix l m : match intersection_point l m with
                        | None => intersection_point (Tl scaled l) (Tl scaled m) = None
                        | Some it => exists it', intersection_point (Tl scaled l) (Tl scaled m) = Some it' /\ isingle it' = scaled (isingle it)
                        end.
  Proof.
    destruct (intersection_point l m) as [it|] eqn:E.
    - destruct (single_first _ _ _ E) as [C F]. destruct (intersection_point (Tl scaled l) (Tl scaled m)) as [it'|] eqn:E'.
      + exists it'. split; auto. destruct (single_first _ _ _ E') as [C' F']. destruct (scaled_sur (isingle it')) as (p & Ep). rewrite <- Ep in C'. apply (proj1 (scaled_common l m p)) in C'.
        destruct (F p C') as [->|K1]; [auto|]. destruct (F' (scaled (isingle it)) (proj2 (scaled_common l m _) C)) as [K2|K2]; [auto|]. apply scaled_xlt in K1. rewrite Ep in K1. destruct (xlt_asym _ _ K1 K2).
      + exfalso. pose proof (intersection_correct (Tl scaled l) (Tl scaled m)) as N. rewrite E' in N. cbn in N. apply (N (scaled (isingle it))). apply scaled_common. auto.
    - destruct (intersection_point (Tl scaled l) (Tl scaled m)) as [it'|] eqn:E'; auto. exfalso.
      destruct (single_first _ _ _ E') as [C' _]. destruct (scaled_sur (isingle it')) as (p & Ep). rewrite <- Ep in C'. apply (proj1 (scaled_common l m p)) in C'.
      pose proof (intersection_correct l m) as N. rewrite E in N. exact (N _ C').
  Qed.
  Lemma eqb_scaled m x y k : 0 < m -> Reqb (m * x + k) (m * y + k) = Reqb x y.
  Proof.
    intros Hm. destruct (Reqb_spec x y) as [->|N].
    - destruct (Reqb_spec (m * y + k) (m * y + k)); congruence.
    - destruct (Reqb_spec (m * x + k) (m * y + k)) as [E|E]; auto. exfalso. apply N. apply Rmult_eq_reg_l with m; lra.
  Qed.
  Lemma ltb_scaled m x y k : 0 < m -> Rltb (m * x + k) (m * y + k) = Rltb x y.
  Proof. intros Hm. destruct (Rltb_spec x y) as [H|H]; destruct (Rltb_spec (m * x + k) (m * y + k)) as [K|K]; auto; exfalso; [apply K; apply (mul_lt m) in H; lra|apply H; apply (mul_lt m); lra]. Qed.
  (* the infinity of one run and of the other; a finite slope changes by the factor k *)
  Variables (inf inf' : R).
  Definition slope_to (k s : R) : R := if Reqb s inf then inf' else k * s.
  (* infinity is greater than every slope, in both runs, unless slopes do not change at all *)
  Definition over (l : line) : Prop :=
    (a = c /\ inf = inf') \/
    (0 < inf /\ 0 < inf' /\
     (vx (lstart l) <> vx (lend l) -> (vy (lend l) - vy (lstart l)) / (vx (lend l) - vx (lstart l)) < inf /\ c / a * ((vy (lend l) - vy (lstart l)) / (vx (lend l) - vx (lstart l))) < inf') /\
     (vy (lstart l) <> vy (lend l) -> (vx (lend l) - vx (lstart l)) / (vy (lend l) - vy (lstart l)) < inf /\ a / c * ((vx (lend l) - vx (lstart l)) / (vy (lend l) - vy (lstart l))) < inf')).
  Lemma slope_to_inf k : slope_to k inf = inf'.
  Proof. unfold slope_to. destruct (Reqb_spec inf inf); congruence. Qed.
  Lemma slope_to_fin k s : s < inf -> slope_to k s = k * s.
  Proof. intros H. unfold slope_to. destruct (Reqb_spec s inf); auto. lra. Qed.
  Lemma slope_to_id s : inf = inf' -> slope_to 1 s = s.
  Proof. intros H. unfold slope_to. destruct (Reqb_spec s inf); lra. Qed.
  Lemma slope_to_le k s t : 0 < k -> (s = inf \/ (s < inf /\ k * s < inf')) -> (t = inf \/ (t < inf /\ k * t < inf')) -> slope_to k s <= slope_to k t <-> s <= t.
  Proof.
    intros Hk [->|[H1 H2]] [->|[H3 H4]].
    - split; intros; apply Rle_refl.
    - rewrite slope_to_inf, slope_to_fin by auto. split; intros; lra.
    - rewrite slope_to_inf, slope_to_fin by auto. split; intros; lra.
    - rewrite !slope_to_fin by auto. split; intros K; [apply Rmult_le_reg_l with k; auto|apply Rmult_le_compat_l; lra].
  Qed.
  Lemma scaled_sw p l : over l -> sweepline_intersection (S := RS) inf' (scaled p) (Tl scaled l) =
    match sweepline_intersection (S := RS) inf p l with Some (x, s) => Some (a * x + b, slope_to (c / a) s) | None => None end.
  Proof.
    intros O. destruct l as [[x1 y1] [x2 y2]], p as [px py]. unfold sweepline_intersection, Tl, scaled, over in *. rsimp. cbn [lstart lend vx vy] in *. rewrite !eqb_scaled, ltb_scaled by auto.
    assert (Z : slope_to (c / a) 0 = 0).
    { destruct O as [[-> ->]|(O1 & O2 & _)]; [replace (c / c) with 1 by (field; lra); apply slope_to_id; auto|rewrite slope_to_fin by auto; lra]. }
    destruct (Reqb_spec y1 y2) as [Ey|Ey]; [destruct (Rltb px x2); rewrite ?Z; auto|]. destruct (Reqb_spec x1 x2) as [Ex|Ex]; [rewrite slope_to_inf, Ex; auto|].
    assert (Sl : (c * y2 + d - (c * y1 + d)) / (a * x2 + b - (a * x1 + b)) = c / a * ((y2 - y1) / (x2 - x1))).
    { replace (c * y2 + d - (c * y1 + d)) with (c * (y2 - y1)) by ring. replace (a * x2 + b - (a * x1 + b)) with (a * (x2 - x1)) by ring. field. split; lra. }
    assert (X : slope_to (c / a) ((y2 - y1) / (x2 - x1)) = c / a * ((y2 - y1) / (x2 - x1))).
    { destruct O as [[-> E]|(_ & _ & O & _)]; [replace (c / c) with 1 by (field; lra); rewrite slope_to_id by auto; lra|]. apply slope_to_fin. apply O. auto. }
    rewrite Sl, X. f_equal. f_equal. field. repeat split; lra.
  Qed.
  Lemma scaled_cs l : over l -> cslope inf' (Tl scaled l) = slope_to (a / c) (cslope inf l).
  Proof.
    intros O. destruct l as [[x1 y1] [x2 y2]]. unfold cslope, Tl, scaled, over in *. cbn [lstart lend vx vy] in *. rewrite eqb_scaled by auto. destruct (Reqb_spec y2 y1) as [E|E]; [rewrite slope_to_inf; auto|].
    replace (c * y2 + d - (c * y1 + d)) with (c * (y2 - y1)) by ring. replace (a * x2 + b - (a * x1 + b)) with (a * (x2 - x1)) by ring.
    replace (slope_to (a / c) ((x2 - x1) / (y2 - y1))) with (a / c * ((x2 - x1) / (y2 - y1))); [field; split; lra|].
    destruct O as [[-> Ei]|(_ & _ & _ & O)]; [replace (c / c) with 1 by (field; lra); rewrite slope_to_id by auto; lra|]. symmetry. apply slope_to_fin. apply O. auto.
  Qed.
  Lemma fac_pos x y : 0 < x -> 0 < y -> 0 < x / y.
  Proof. intros. apply Rmult_lt_0_compat; auto. apply Rinv_0_lt_compat; auto. Qed.
  Lemma over_sw p l x s : over l -> sweepline_intersection (S := RS) inf p l = Some (x, s) -> (a = c /\ inf = inf') \/ s = inf \/ (s < inf /\ c / a * s < inf').
  Proof.
    intros [O|(O1 & O2 & O & _)]; auto. destruct l as [[x1 y1] [x2 y2]], p as [px py]. unfold sweepline_intersection. rsimp. cbn [lstart lend vx vy] in *.
    destruct (Reqb_spec y1 y2) as [Ey|Ey]; [destruct (Rltb px x2); [|discriminate]; intros [= <- <-]; right; right; split; lra|].
    destruct (Reqb_spec x1 x2) as [Ex|Ex]; intros [= <- <-]; auto.
  Qed.
  Lemma over_cs l : over l -> (a = c /\ inf = inf') \/ cslope inf l = inf \/ (cslope inf l < inf /\ a / c * cslope inf l < inf').
  Proof.
    intros [O|(O1 & O2 & _ & O)]; auto. unfold cslope. destruct (Reqb_spec (vy (lend l)) (vy (lstart l))) as [E|E]; auto.
  Qed.
  Lemma scaled_ts p l m x s y t : over l -> over m -> sweepline_intersection (S := RS) inf p l = Some (x, s) -> sweepline_intersection (S := RS) inf p m = Some (y, t) ->
    slope_to (c / a) s <= slope_to (c / a) t <-> s <= t.
  Proof.
    intros O1 O2 E1 E2. destruct (over_sw _ _ _ _ O1 E1) as [[E Ei]|K1]; [|destruct (over_sw _ _ _ _ O2 E2) as [[E Ei]|K2]].
    - rewrite E. replace (c / c) with 1 by (field; lra). rewrite !slope_to_id by auto. tauto.
    - rewrite E. replace (c / c) with 1 by (field; lra). rewrite !slope_to_id by auto. tauto.
    - apply slope_to_le; auto. apply fac_pos; auto.
  Qed.
  Lemma scaled_tc l m : over l -> over m -> slope_to (a / c) (cslope inf l) <= slope_to (a / c) (cslope inf m) <-> cslope inf l <= cslope inf m.
  Proof.
    intros O1 O2. destruct (over_cs _ O1) as [[E Ei]|K1]; [|destruct (over_cs _ O2) as [[E Ei]|K2]].
    - rewrite E. replace (c / c) with 1 by (field; lra). rewrite !slope_to_id by auto. tauto.
    - rewrite E. replace (c / c) with 1 by (field; lra). rewrite !slope_to_id by auto. tauto.
    - apply slope_to_le; auto. apply fac_pos; auto.
  Qed.
End Scaled.

(* ---- the queue of with_lines has no crossings yet ---- *)
Lemma start_queue (f : line -> line) : (forall l, lo (f l) = lo l /\ hi (f l) = hi l) ->
  forall input lines acc (q : list (pt * SiteEvent)), q_ok lines None q -> (forall k e, get q k = Some e -> e_inter e = []) ->
  exists q', with_lines_loop (S := RS) (length lines) input q acc = Val (q', acc ++ map (@arrange RS) input) /\ q_ok (lines ++ map f input) None q' /\
    forall k e, get q' k = Some e -> e_inter e = [].
Proof.
  intros Hf. induction input as [|l input IH]; intros lines acc q Hq Hi; cbn [with_lines_loop map].
  - rewrite !app_nil_r. eauto.
  - unfold line_finite. cbn [sfin RS andb].
    destruct (bt_push_ok lines (f l) q Hq Hi) as (q1 & E1 & Hq1 & Hi1). destruct (Hf l) as [E2 E3].
    rewrite E2, E3 in E1. unfold lo, hi in E1. rewrite E1. cbn [obind].
    destruct (IH (lines ++ [f l]) (acc ++ [arrange l]) q1 Hq1 Hi1) as (q' & E' & Hq' & N'). rewrite app_length in E'. cbn [length] in E'. rewrite Nat.add_1_r in E'.
    rewrite E'. rewrite <- !app_assoc in *. cbn [app] in *. eauto.
Qed.

(* both runs *)
Section Runs.
  Variables (inf inf' : R) (ord ord' : nat -> list nat -> list nat).
  Hypothesis Hord : forall n l, Permutation (ord n l) l.
  Hypothesis Hord' : forall n l, Permutation (ord' n l) l.
  Variables (f : nat -> nat) (a b c d : R).
  Hypothesis Ha : 0 < a.
  Hypothesis Hc : 0 < c.
  Definition paired (lines lines' : list line) : Prop :=
    (forall i j li lj, ln lines i li -> ln lines j lj -> f i = f j -> i = j) /\
    (forall i l, ln lines i l -> ln lines' (f i) (Tl (scaled a b c d) l)) /\
    (forall j l', ln lines' j l' -> exists i l, j = f i /\ ln lines i l /\ l' = Tl (scaled a b c d) l) /\
    (forall i l, ln lines i l -> over a c inf inf' l).
  Definition same_reports (r r' : list (pt * list nat)) : Prop :=
    Forall2 (fun x x' => fst x' = scaled a b c d (fst x) /\ Permutation (snd x') (map f (snd x))) r r'.
  Lemma loops_same lines lines' ign stop fuel fuel' q q' r r' : paired lines lines' ->
    q_ok lines None q -> q_ok lines' None q' -> (forall k e, get q k = Some e -> e_inter e = []) -> (forall k e, get q' k = Some e -> e_inter e = []) ->
    event_loop (S := RS) inf lines ign stop ord fuel 0 (mkSt [] q []) = Val r -> event_loop (S := RS) inf' lines' ign stop ord' fuel' 0 (mkSt [] q' []) = Val r' -> same_reports r r'.
  Proof.
    intros (P1 & P2 & P3 & P4) Q Q' N N' E E'.
    destruct (loop_rel inf inf' lines lines' ign f (scaled a b c d) (fun x => a * x + b) (slope_to inf inf' (c / a)) (slope_to inf inf' (a / c))) with (ord := ord) (ord' := ord') (stop := stop) (fuel := fuel) (fuel' := fuel') (n := 0%nat) (n' := 0%nat)
      (pos := @None pt) (st := mkSt (S := RS) [] q []) (st' := mkSt (S := RS) [] q' []) (r := r) (r' := r') as (A & B & C); auto using scaled_klt, scaled_sur, init_ok.
    - intros l m. apply scaled_ix; auto.
    - intros p i l Hl. apply scaled_sw; auto. eapply P4; eauto.
    - intros p i j l m x s y t Hl Hm Es Et. exact (scaled_ts a c Ha Hc inf inf' p l m x s y t (P4 _ _ Hl) (P4 _ _ Hm) Es Et).
    - intros x y H. apply (mul_lt a _ _ Ha) in H. lra.
    - intros i l Hl. apply scaled_cs; auto. eapply P4; eauto.
    - intros i j l m Hl Hm. apply scaled_tc; auto; eapply P4; eauto.
    - cbn [st_queue]. eapply start_rel; eauto using scaled_klt.
    - intros k. cbn. auto.
    - eapply r_rel_Forall2; eauto using scaled_klt, scaled_sur.
  Qed.
  Lemma plain_same input input' ign stop fuel fuel' r r' : paired (map (@arrange RS) input) (map (@arrange RS) input') ->
    intersections (S := RS) inf ord fuel stop ign input = Val r -> intersections (S := RS) inf' ord' fuel' stop ign input' = Val r' -> same_reports r r'.
  Proof.
    intros P. unfold intersections, with_lines, compute. cbn [d_events d_lines d_stop d_ign default_data with_ignore_end_point_intersections with_stop_at_first_intersection].
    destruct (start_queue (@arrange RS)) with (input := input) (lines := @nil line) (acc := @nil line) (q := @nil (pt * SiteEvent)) as (q & E & Hq & N).
    { intros l. split; [apply lo_arrange|apply hi_arrange]. } { apply q_ok_nil. } { intros k e; discriminate. }
    destruct (start_queue (@arrange RS)) with (input := input') (lines := @nil line) (acc := @nil line) (q := @nil (pt * SiteEvent)) as (q' & E' & Hq' & N').
    { intros l. split; [apply lo_arrange|apply hi_arrange]. } { apply q_ok_nil. } { intros k e; discriminate. }
    cbn [length] in E, E'. rewrite E, E'. cbn [obind app d_lines d_ign d_stop d_events] in *. apply loops_same; auto.
  Qed.
  Lemma indexed_same vertices edges ls vertices' edges' ls' ign stop fuel fuel' vs out vs' out' :
    lines_of (S := RS) vertices edges ls -> lines_of (S := RS) vertices' edges' ls' -> paired ls ls' ->
    indexed_intersections (S := RS) inf ord fuel stop ign vertices edges = Val (vs, out) -> indexed_intersections (S := RS) inf' ord' fuel' stop ign vertices' edges' = Val (vs', out') ->
    exists r r', same_reports r r' /\ Forall2 (fun x k => snd x = snd k /\ nth_error vs (fst x) = Some (fst k)) out r /\ Forall2 (fun x k => snd x = snd k /\ nth_error vs' (fst x) = Some (fst k)) out' r'.
  Proof.
    intros L L' P.
    assert (G : forall inf ord fuel vertices edges ls vs out, lines_of (S := RS) vertices edges ls -> indexed_intersections (S := RS) inf ord fuel stop ign vertices edges = Val (vs, out) ->
      exists q r, q_ok ls None q /\ (forall k e, get q k = Some e -> e_inter e = []) /\ event_loop (S := RS) inf ls ign stop ord fuel 0 (mkSt [] q []) = Val r /\ Forall2 (fun x k => snd x = snd k /\ nth_error vs (fst x) = Some (fst k)) out r).
    { clear. intros inf ord fuel vertices edges ls vs out Hl. unfold indexed_intersections, with_edges, icompute. cbn [t_events t_lines t_stop t_ign t_vertices tester_new tester_ign tester_stop].
      pose proof (lines_of_edge_lines _ _ _ Hl) as HE.
      pose proof (with_edges_sim vertices edges ls Hl 0 [] [] [] (Forall_nil _)) as W. cbn [plain map] in W.
      destruct (start_queue (fun l => l)) with (input := ls) (lines := @nil line) (acc := @nil line) (q := @nil (pt * SiteEvent)) as (q & E & Hq & N).
      { auto. } { apply q_ok_nil. } { intros k e; discriminate. }
      cbn [length] in E. rewrite E in W. rewrite map_id in Hq. cbn [app] in *.
      destruct (with_edges_loop vertices 0 edges [] []) as [[iq es]|?| |]; cbn in W; try contradiction. destruct W as (K1 & K2 & K3 & _). subst es.
      cbn [obind t_events t_lines t_stop t_ign t_vertices].
      assert (SR : st_rel vertices (mkISt [] vertices iq []) (mkSt [] q [])).
      { split; [auto|]. split; [exists []; rewrite app_nil_r; auto|]. cbn. repeat split; auto. constructor. }
      pose proof (iloop_sim (S := RS) inf edges vertices ls HE ign stop ord fuel 0 (mkISt [] vertices iq []) (mkSt [] q []) SR) as Sm.
      destruct (ievent_loop (S := RS) inf edges ign stop ord fuel 0 (mkISt [] vertices iq [])) as [[vs1 ir]|?| |] eqn:Ei; cbn [obind]; try discriminate.
      destruct (event_loop (S := RS) inf ls ign stop ord fuel 0 (mkSt [] q [])) as [r|?| |] eqn:El; cbn in Sm; try contradiction. destruct Sm as (G1 & G2 & G3).
      destruct (mapM_unwrap vs1 ir G2) as (out1 & Eo & Fo). rewrite Eo. cbn [obind]. intros [= <- <-]. exists q, r. split; auto. split; auto. split; auto. rewrite <- G3. auto. }
    intros E E'. destruct (G _ _ _ _ _ _ _ _ L E) as (q & r & H1 & H2 & H3 & H4). destruct (G _ _ _ _ _ _ _ _ L' E') as (q' & r' & H1' & H2' & H3' & H4').
    exists r, r'. split; auto. eapply loops_same; eauto.
  Qed.
End Runs.
