(* Rays against line strings in f64 and f32 (C140). Model: Geo2.v. Vocabulary: FloatSpec.v ([grid64_to n s]: both coordinates
   are integers of absolute value at most n times 2^s; [value64]: the point of real numbers a float point stands for),
   GeoSpec.v ([on_segment]), IsectProofs.v ([ray_at o d t]: the point o + t*d; [edge_of l i a b]: the i-th edge of l is from a to b),
   Properties_Isect2.v ([within d p q]: p and q differ by at most d in each coordinate). *)
From Coq Require Import ZArith Reals Lra Lia Psatz Floats.SpecFloat.
From Flocq Require Import Core BinarySingleNaN.
From Verif Require Import Prelude Scalar RInst Flt FloatSpec FloatLink FloatGrid Geo2 GeoSpec DistR IsectProofs FloatIsect FloatRay Properties_Float Properties_Float2 Properties_Isect2.
Local Open Scope R_scope.

(* C140, one edge: the float code hits the same edges as exact arithmetic, on the same side of the origin, and the two points of
   the ray are at most 16 units in the last place of the largest coordinate apart *)
Theorem C140_ray_edge_f64 : forall at2 s (o d a b : V2 (F64 at2)), (-25 <= s)%Z ->
  Forall (grid64_to (2 ^ 24) s) [o; d; a; b] -> vx (value64 d) <> 0 \/ vy (value64 d) <> 0 ->
  match ray_edge_intersection o d a b, ray_edge_intersection (S := RS) (value64 o) (value64 d) (value64 a) (value64 b) with
  | None, None => True
  | Some t, Some T => (0 < fvalue t <-> 0 < T) /\
      within (bpow radix2 (s - 25)) (ray_at (value64 o) (value64 d) (fvalue t)) (ray_at (value64 o) (value64 d) T)
  | _, _ => False
  end.
Proof.
  intros at2 s o d a b Hs HF Dn. rewrite Forall_forall in HF.
  assert (A : forall p, In p [o; d; a; b] -> @grid_point 53 1024 (-52) at2 s (2 ^ 24) p) by (intros p Hp; apply HF, Hp).
  assert (Hs2 : (-25 <= s <= 228)%Z) by (destruct (HF o (or_introl eq_refl)) as [H _]; lia). clear HF.
  assert (H := ray_edge_like 53 1024 (-52) at2 P53 M53 s 24 (isect_ok64 s Hs2) o d a b (A _ (or_introl eq_refl)) (A _ (or_intror (or_introl eq_refl)))
    (A _ (or_intror (or_intror (or_introl eq_refl)))) (A _ (or_intror (or_intror (or_intror (or_introl eq_refl))))) Dn).
  change (@point_value 53 1024 (-52) at2) with (@value64 at2) in H.
  change (FloatS 53 1024 (-52) at2) with (F64 at2) in H.
  destruct (ray_edge_intersection o d a b) as [t|], (ray_edge_intersection (S := RS) (value64 o) (value64 d) (value64 a) (value64 b)) as [T|]; auto.
  destruct H as (_ & H1 & H2 & H3). split; [exact H1|]. replace (s - 25)%Z with (24 + s - 53 + 4)%Z by lia. rewrite bpow_plus. change (bpow radix2 4) with 16.
  pose proof (bpow_gt_0 radix2 (24 + s - 53)) as Pb. unfold within, ray_at. cbn [vx vy].
  split; eapply Rle_trans; [|eapply Rle_trans; [exact H2|lra]| |eapply Rle_trans; [exact H3|lra]]; apply Req_le; f_equal; unfold value64; ring.
Qed.
Print Assumptions C140_ray_edge_f64.

(* C140: the point found is within a few units in the last place of a point of the line string in front of the origin, and
   any hit before it is that near to it too, unless it is on an edge along the ray that reaches back to the origin *)
Theorem C140_closest_ray_f64 : forall at2 s (l : list (V2 (F64 at2))) o d, (-25 <= s)%Z ->
  Forall (grid64_to (2 ^ 24) s) (o :: d :: l) -> vx (value64 d) <> 0 \/ vy (value64 d) <> 0 ->
  let O := value64 o in let D := value64 d in let near := within (bpow radix2 (s - 24)) in
  let passed_over (a b : pt) := vx D * (vy b - vy a) = vy D * (vx b - vx a) /\
                         exists t0, t0 <= 0 /\ (a = ray_at O D t0 \/ b = ray_at O D t0) in
  match closest_ray_intersection l d o with
  | Some x => exists t, 0 < t /\ near (value64 x) (ray_at O D t) /\
      (exists i a b, edge_of l i a b /\ on_segment (ray_at O D t) (value64 a) (value64 b)) /\
      (forall i a b t', edge_of l i a b -> 0 < t' < t -> on_segment (ray_at O D t') (value64 a) (value64 b) ->
         passed_over (value64 a) (value64 b) \/ near (ray_at O D t') (ray_at O D t))
  | None => forall i a b t', edge_of l i a b -> 0 < t' -> on_segment (ray_at O D t') (value64 a) (value64 b) -> passed_over (value64 a) (value64 b)
  end.
Proof.
  intros at2 s l o d Hs HF Dn. rewrite Forall_forall in HF.
  assert (A : forall p, In p (o :: d :: l) -> @grid_point 53 1024 (-52) at2 s (2 ^ 24) p) by (intros p Hp; apply HF, Hp).
  assert (Hs2 : (-25 <= s <= 228)%Z) by (destruct (HF o (or_introl eq_refl)) as [H _]; lia). clear HF.
  assert (Hl : Forall (@grid_point 53 1024 (-52) at2 s (2 ^ 24)) l) by (apply Forall_forall; intros p Hp; apply A; right; right; auto).
  assert (H := closest_like 53 1024 (-52) at2 P53 M53 s 24 (isect_ok64 s Hs2) l o d (A _ (or_introl eq_refl)) (A _ (or_intror (or_introl eq_refl))) Hl Dn).
  cbv zeta in H |- *. change (@point_value 53 1024 (-52) at2) with (@value64 at2) in H. change (FloatS 53 1024 (-52) at2) with (F64 at2) in H.
  replace (s - 24)%Z with (24 + s - 53 + 5)%Z by lia. rewrite bpow_plus. change (bpow radix2 5) with 32.
  pose proof (bpow_gt_0 radix2 (24 + s - 53)) as Pb.
  assert (W : forall c p q, c <= 32 -> near2 53 s 24 c p q -> within (bpow radix2 (24 + s - 53) * 32) p q).
  { intros c p q Hc [H1 H2]. split; eapply Rle_trans; [exact H1| |exact H2|]; nra. }
  destruct (closest_ray_intersection l d o) as [x|]; [|exact H].
  destruct H as (T & PT & N & Ex & Fa). exists T. split; [exact PT|]. split; [apply (W 22); [lra|exact N]|]. split; [exact Ex|].
  intros i a b t' He Ht Hs'. destruct (Fa i a b t' He Ht Hs') as [Q|Q]; [left; exact Q|right; apply (W 20); [lra|exact Q]].
Qed.
Print Assumptions C140_closest_ray_f64.
Theorem C140_closest_ray_f32 : forall at2 s (l : list (V2 (F32 at2))) o d, (-11 <= s)%Z ->
  Forall (grid32_to (2 ^ 10) s) (o :: d :: l) -> vx (value32 d) <> 0 \/ vy (value32 d) <> 0 ->
  let O := value32 o in let D := value32 d in let near := within (bpow radix2 (s - 9)) in
  let passed_over (a b : pt) := vx D * (vy b - vy a) = vy D * (vx b - vx a) /\
                         exists t0, t0 <= 0 /\ (a = ray_at O D t0 \/ b = ray_at O D t0) in
  match closest_ray_intersection l d o with
  | Some x => exists t, 0 < t /\ near (value32 x) (ray_at O D t) /\
      (exists i a b, edge_of l i a b /\ on_segment (ray_at O D t) (value32 a) (value32 b)) /\
      (forall i a b t', edge_of l i a b -> 0 < t' < t -> on_segment (ray_at O D t') (value32 a) (value32 b) ->
         passed_over (value32 a) (value32 b) \/ near (ray_at O D t') (ray_at O D t))
  | None => forall i a b t', edge_of l i a b -> 0 < t' -> on_segment (ray_at O D t') (value32 a) (value32 b) -> passed_over (value32 a) (value32 b)
  end.
Proof.
  intros at2 s l o d Hs HF Dn. rewrite Forall_forall in HF.
  assert (A : forall p, In p (o :: d :: l) -> @grid_point 24 128 (-23) at2 s (2 ^ 10) p) by (intros p Hp; apply HF, Hp).
  assert (Hs2 : (-11 <= s <= 19)%Z) by (destruct (HF o (or_introl eq_refl)) as [H _]; lia). clear HF.
  assert (Hl : Forall (@grid_point 24 128 (-23) at2 s (2 ^ 10)) l) by (apply Forall_forall; intros p Hp; apply A; right; right; auto).
  assert (H := closest_like 24 128 (-23) at2 P24 M24 s 10 (isect_ok32 s Hs2) l o d (A _ (or_introl eq_refl)) (A _ (or_intror (or_introl eq_refl))) Hl Dn).
  cbv zeta in H |- *. change (@point_value 24 128 (-23) at2) with (@value32 at2) in H. change (FloatS 24 128 (-23) at2) with (F32 at2) in H.
  replace (s - 9)%Z with (10 + s - 24 + 5)%Z by lia. rewrite bpow_plus. change (bpow radix2 5) with 32.
  pose proof (bpow_gt_0 radix2 (10 + s - 24)) as Pb.
  assert (W : forall c p q, c <= 32 -> near2 24 s 10 c p q -> within (bpow radix2 (10 + s - 24) * 32) p q).
  { intros c p q Hc [H1 H2]. split; eapply Rle_trans; [exact H1| |exact H2|]; nra. }
  destruct (closest_ray_intersection l d o) as [x|]; [|exact H].
  destruct H as (T & PT & N & Ex & Fa). exists T. split; [exact PT|]. split; [apply (W 22); [lra|exact N]|]. split; [exact Ex|].
  intros i a b t' He Ht Hs'. destruct (Fa i a b t' He Ht Hs') as [Q|Q]; [left; exact Q|right; apply (W 20); [lra|exact Q]].
Qed.
Print Assumptions C140_closest_ray_f32.
(* coordinates at the limit of the grid; the ray crosses one edge and runs along another *)
Example C140_hypotheses_met at2 : Forall (grid64_to (2 ^ 24) 0) (@I64 at2 0 0 :: I64 16777216 16777213 :: [I64 3 16777216; I64 16777216 (-5); I64 0 7]) /\
  vx (value64 (@I64 at2 16777216 16777213)) <> 0.
Proof.
  split; [repeat (apply Forall_cons; [apply I64_to; lia|]); apply Forall_nil|]. intros E.
  assert (S0 : scale_ok 53 1024 0) by (split; cbn; lia). unfold value64, point_value in E. cbn [vx I64] in E. 
  destruct (fl_of_Z_good 53 1024 P53 M53 16777216) as [_ E5]; [cbn; lia|auto|]. unfold fvalue in *.
  assert (IZR 16777216 = 0) by (rewrite <- E5; exact E). lra.
Qed.
Example C140_found :
  match closest_ray_intersection (S := F64_) [P 3 16777216; P 16777216 (-5); P 0 7] (P 16777216 16777213) (P 0 0) with Some _ => true | _ => false end = true /\
  match closest_ray_intersection (S := F64_) [P 3 6; P 5 10; P 7 16777216] (P 1 2) (P 0 0) with Some p => sf_eqb (vx p) (f64 3) | _ => false end = true /\
  match closest_ray_intersection (S := F64_) [P 3 7; P 5 11; P 7 16777216] (P 1 2) (P 0 0) with None => true | _ => false end = true.
Proof. vm_compute. auto. Qed.
(* beyond the grid a hit can be missed: the ray along (2^27+1, 2^27) crosses this edge at its own end point (2^27+1, 2^27) *)
Example C140_limit : match closest_ray_intersection (S := F64_) [P 1 1; P 134217729 134217728] (P 134217729 134217728) (P 0 0) with None => true | _ => false end = true.
Proof. vm_compute. reflexivity. Qed.
