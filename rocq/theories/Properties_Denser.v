(* Points added on the edges of a line, e.g. by discretizing it, and the two simplifications (C153, C154), in exact arithmetic.
   Model: Simplify.v, Discretize.v; vocabulary: DiscSpec.v ([denser]), VwSpec.v ([vw_steps]), GeoSpec.v. *)
From Coq Require Import Reals Lra Psatz.
From Verif Require Import Prelude Scalar RInst Flt Geo2 Geo3 GeoSpec DistR DiscSpec Discretize DiscProofs DiscSym VwSpec VwProofs2 VwRev Simplify Rdp1 RdpRefine VwRefine FltOrd FloatSpec FloatVw Properties_Vw Properties_Disc Properties_Disc3.
Local Open Scope R_scope.

(* ---- C153 ---- *)
Theorem C153_simplified_with_more_points : forall d : R,
  (forall l m : list pt, denser lerp l m -> simplify_rdp_2d m d = simplify_rdp_2d l d) /\
  (forall l m : list pt3, denser lerp3 l m -> simplify_rdp_3d m d = simplify_rdp_3d l d).
Proof.
  intros d. split; intros l m D.
  - exact (rdp_denser lerp (fun a b p => dist_line2_safe (S := RS) a b p) dist2_convex (fun a b => proj1 (dist2_at a b)) (fun a b => proj2 (dist2_at a b)) l m d D).
  - exact (rdp_denser lerp3 (fun a b p => dist_line3_safe (S := RS) a b p) dist3_convex (fun a b => proj1 (dist3_at a b)) (fun a b => proj2 (dist3_at a b)) l m d D).
Qed.
Print Assumptions C153_simplified_with_more_points.
(* what discretize adds are such points *)
Theorem C153_discretize_adds_points : forall step : R, 0 < step ->
  (forall pts out : list pt, yields (dnext2 (S := RS) pts step) dnew2 out -> denser lerp pts out) /\
  (forall pts out : list pt3, yields (dnext3 (S := RS) pts step) dnew3 out -> denser lerp3 pts out).
Proof.
  intros step Hs. split; intros pts out Y.
  - destruct (C39_discretize pts step Hs) as (o & _ & U & Sd & _). rewrite <- (U out Y) in Sd. exact (subdivided_denser lerp edist step pts out lerp_0 Sd).
  - destruct (C39_discretize_3d pts step Hs) as (o & _ & U & Sd & _). rewrite <- (U out Y) in Sd. exact (subdivided_denser lerp3 edist3 step pts out lerp3_0 Sd).
Qed.
Print Assumptions C153_discretize_adds_points.
Theorem C153_simplify_discretized : forall step d : R, 0 < step ->
  (forall pts out : list pt, yields (dnext2 (S := RS) pts step) dnew2 out -> simplify_rdp_2d out d = simplify_rdp_2d pts d) /\
  (forall pts out : list pt3, yields (dnext3 (S := RS) pts step) dnew3 out -> simplify_rdp_3d out d = simplify_rdp_3d pts d).
Proof.
  intros step d Hs. destruct (C153_discretize_adds_points step Hs) as [D2 D3]. destruct (C153_simplified_with_more_points d) as [S2 S3]. split; intros pts out Y; auto.
Qed.
Print Assumptions C153_simplify_discretized.
(* a run in f64: the discretized line is simplified to what the line is *)
Example C153_example :
  simplify_rdp_2d (S := F64_) [P 0 0; P 2 0; P 4 0; P 4 2; P 8 3] (f64 1) = Val [P 0 0; P 4 0; P 4 2; P 8 3] /\
  simplify_rdp_2d (S := F64_) [P 0 0; P 1 0; P 2 0; P 3 0; P 4 0; P 4 1; P 4 2; P 8 3] (f64 1) = Val [P 0 0; P 4 0; P 4 2; P 8 3].
Proof. split; fcomp2. Qed.

(* ---- C154 ---- *)
(* no inner corner is on a line with its two neighbours *)
Definition corners2 (l : list pt) : Prop := forall l1 a b c l2, l = l1 ++ a :: b :: c :: l2 -> orient a b c <> 0.
Definition corners3 (l : list pt3) : Prop := forall l1 a b c l2, l = l1 ++ a :: b :: c :: l2 -> triangle_area3 a b c <> 0.
Lemma corners2_real l : corners2 l -> real_corners (fun a b c => area2 (S := RS) a b c) l.
Proof.
  intros H l1 a b c l2 E. specialize (H _ _ _ _ _ E). intros K. apply H. rewrite C16_vw_area in K. apply Rmult_integral in K. tauto.
Qed.
Lemma corners3_real l : corners3 l -> real_corners (fun a b c => area3 (S := RS) a b c) l.
Proof. intros H l1 a b c l2 E K. apply (H _ _ _ _ _ E). rewrite triangle_area3_eq. replace (sqrt (area3 (S := RS) a b c)) with 0; [unfold Rdiv; apply Rmult_0_l|]. rewrite <- sqrt_0. f_equal. symmetry. exact K. Qed.
Lemma lerp_1' (a b : pt) : lerp a b 1 = b. Proof. apply lerp_ends. Qed.
Lemma lerp3_1' (a b : pt3) : lerp3 a b 1 = b. Proof. apply lerp3_ends. Qed.
Lemma denser_connected (l m : list pt) : denser lerp l m -> is_connected (S := RS) m = is_connected l.
Proof.
  intros D. destruct l as [|a l]; [inversion D; auto|]. destruct (denser_hd _ _ _ _ D) as (m' & ->).
  destruct l as [|z l _] using rev_ind; [inversion D; auto|].
  destruct (denser_ends _ _ _ _ _ D) as (mid & E & _). injection E as ->. unfold is_connected. f_equal.
  change (a :: l ++ [z]) with ((a :: l) ++ [z]). change (a :: mid ++ [z]) with ((a :: mid) ++ [z]). rewrite !last_last. reflexivity.
Qed.
Theorem C154_vw_2d : forall pick (l m : list pt) k, pops_smallest (S := RS) (fun _ => True) pick -> (4 <= length l)%nat -> is_connected l = false ->
  corners2 l -> denser lerp l m ->
  exists out, simplify_vw_2d pick m k = Val out /\
    (* the added points go first *)
    ((k <= length m - length l)%nat -> denser lerp l out) /\
    (k = (length m - length l)%nat -> out = l) /\
    (* then the corners, as they would from the line itself *)
    ((length m - length l <= k)%nat -> vw_steps (S := RS) area2 (Nat.min (k - (length m - length l)) (length l - 4)) l out) /\
    ((length m - length l <= k)%nat -> forall pick', pops_smallest (S := RS) (fun _ => True) pick' -> no_tied_smallest (S := RS) area2 (k - (length m - length l)) l ->
       simplify_vw_2d pick' l (k - (length m - length l)) = Val out).
Proof.
  intros pick l m k Hp Hl Hc Hr D. pose proof (denser_length _ _ _ D) as L. assert (Hcm : is_connected (S := RS) m = false) by (rewrite (denser_connected l m D); auto).
  destruct (vw2_open (S := RS) (fun _ => True) OrdOn_R pick m k Hp (fun _ _ _ _ _ _ => I) ltac:(lia) Hcm) as (out & E & Hs). exists out. split; [exact E|].
  replace (Nat.eqb (length m) 3) with false in Hs by (symmetry; apply Nat.eqb_neq; lia).
  destruct (vw_steps_denser lerp (fun a b c => area2 (S := RS) a b c) area2_nn lerp_0 lerp_1' area2_flat area2_part l (corners2_real l Hr) _ m out D Hs) as [I1 I2].
  assert (V : (length m - length l <= k)%nat -> vw_steps (S := RS) area2 (Nat.min (k - (length m - length l)) (length l - 4)) l out).
  { intros Hk. replace (Nat.min (k - (length m - length l)) (length l - 4)) with (Nat.min k (length m - 4) - (length m - length l))%nat by lia. apply I2. lia. }
  split; [intros; apply I1; lia|]. split; [|split; [exact V|]].
  - intros ->. specialize (V (le_n _)). rewrite Nat.sub_diag in V. cbn [Nat.min] in V. apply vw_steps_0 in V. auto.
  - intros Hk pick' Hp' Hn. destruct (vw2_open (S := RS) (fun _ => True) OrdOn_R pick' l (k - (length m - length l)) Hp' (fun _ _ _ _ _ _ => I) ltac:(lia) Hc) as (out' & E' & Hs').
    replace (Nat.eqb (length l) 3) with false in Hs' by (symmetry; apply Nat.eqb_neq; lia). rewrite E'. f_equal.
    eapply vw_steps_det; [|exact Hs'|exact (V Hk)]. eapply no_tied_less; [|exact Hn]. lia.
Qed.
Print Assumptions C154_vw_2d.
Theorem C154_vw_3d : forall pick (l m : list pt3) k, pops_smallest (S := RS) (fun _ => True) pick -> (3 <= length l)%nat ->
  corners3 l -> denser lerp3 l m ->
  exists out z, simplify_vw_3d pick m k = Val out /\ hd_error (rev l) = Some z /\
    ((k <= length m - length l)%nat -> denser lerp3 l (out ++ [z])) /\
    (k = (length m - length l)%nat -> out ++ [z] = l) /\
    ((length m - length l <= k)%nat -> vw_steps (S := RS) area3 (Nat.min (k - (length m - length l)) (length l - 2)) l (out ++ [z])) /\
    ((length m - length l <= k)%nat -> forall pick', pops_smallest (S := RS) (fun _ => True) pick' -> no_tied_smallest (S := RS) area3 (k - (length m - length l)) l ->
       simplify_vw_3d pick' l (k - (length m - length l)) = Val out).
Proof.
  intros pick l m k Hp Hl Hr D. pose proof (denser_length _ _ _ D) as L.
  destruct (vw3_total (S := RS) (fun _ => True) OrdOn_R pick m k Hp (fun _ _ _ _ _ _ => I) ltac:(lia)) as (out & z & E & Hz & Hs). exists out, z. split; [exact E|].
  assert (Hzl : hd_error (rev l) = Some z).
  { destruct l as [|z' l0 _] using rev_ind; [cbn in Hl; lia|]. destruct (denser_last _ _ _ _ D) as (m1 & -> & _). rewrite rev_app_distr in *. cbn in *. exact Hz. }
  split; [exact Hzl|].
  destruct (vw_steps_denser lerp3 (fun a b c => area3 (S := RS) a b c) area3_nn lerp3_0 lerp3_1' area3_flat area3_part l (corners3_real l Hr) _ m _ D Hs) as [I1 I2].
  assert (V : (length m - length l <= k)%nat -> vw_steps (S := RS) area3 (Nat.min (k - (length m - length l)) (length l - 2)) l (out ++ [z])).
  { intros Hk. replace (Nat.min (k - (length m - length l)) (length l - 2)) with (Nat.min k (length m - 2) - (length m - length l))%nat by lia. apply I2. lia. }
  split; [intros; apply I1; lia|]. split; [|split; [exact V|]].
  - intros ->. specialize (V (le_n _)). rewrite Nat.sub_diag in V. cbn [Nat.min] in V. apply vw_steps_0 in V. auto.
  - intros Hk pick' Hp' Hn. destruct (vw3_total (S := RS) (fun _ => True) OrdOn_R pick' l (k - (length m - length l)) Hp' (fun _ _ _ _ _ _ => I) Hl) as (out' & z' & E' & Hz' & Hs').
    rewrite Hzl in Hz'. injection Hz' as <-. rewrite E'. f_equal. apply (app_inv_tail [z]).
    eapply vw_steps_det; [|exact Hs'|exact (V Hk)]. eapply no_tied_less; [|exact Hn]. lia.
Qed.
Print Assumptions C154_vw_3d.
(* deleting as many points as discretize has added gives the line back *)
Theorem C154_undo_discretize : forall pick step, pops_smallest (S := RS) (fun _ => True) pick -> 0 < step ->
  (forall l out : list pt, (4 <= length l)%nat -> is_connected l = false -> corners2 l -> yields (dnext2 (S := RS) l step) dnew2 out ->
     simplify_vw_2d pick out (length out - length l) = Val l) /\
  (forall (l out : list pt3), (3 <= length l)%nat -> corners3 l -> yields (dnext3 (S := RS) l step) dnew3 out ->
     simplify_vw_3d pick out (length out - length l) = Val (removelast l)).
Proof.
  intros pick step Hp Hs. destruct (C153_discretize_adds_points step Hs) as [D2 D3]. split.
  - intros l out Hl Hc Hr Y. destruct (C154_vw_2d pick l out (length out - length l) Hp Hl Hc Hr (D2 _ _ Y)) as (o & E & _ & H & _). rewrite E, (H eq_refl). reflexivity.
  - intros l out Hl Hr Y. destruct (C154_vw_3d pick l out (length out - length l) Hp Hl Hr (D3 _ _ Y)) as (o & z & E & _ & _ & H & _). rewrite E. f_equal. rewrite <- (H eq_refl) . symmetry. apply removelast_last.
Qed.
Print Assumptions C154_undo_discretize.
Example C154_hypotheses_met : corners2 [@mkV2 RS 0 0; @mkV2 RS 4 0; @mkV2 RS 4 2; @mkV2 RS 8 3].
Proof.
  intros l1 a b c l2 E. assert (L := f_equal (@length _) E). rewrite app_length in L. cbn [length] in L.
  destruct l1 as [|x [|y l1]]; cbn [app length] in *; [| |lia]; [injection E as <- <- <- <-|injection E as <- <- <- <- <-]; unfold orient; cbn; lra.
Qed.
Example C154_example :
  simplify_vw_2d (S := F64_) pick_min [P 0 0; P 1 0; P 2 0; P 3 0; P 4 0; P 4 1; P 4 2; P 8 3] 4 = Val [P 0 0; P 4 0; P 4 2; P 8 3].
Proof. fcomp2. Qed.
