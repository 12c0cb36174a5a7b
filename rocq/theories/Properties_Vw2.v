(* Visvalingam-Whyatt, continued (C102, C103): more deletions keep fewer points; affine maps.
   Model: Simplify.v. Vocabulary: GeoSpec.v (subseq, edist3), VwSpec.v (pops_smallest). *)
From Coq Require Import Reals Lra Psatz ZArith Floats.SpecFloat.
From Verif Require Import Prelude Scalar RInst Flt Geo2 Geo3 GeoSpec DistR Simplify Rdp1 Rdp2 Rdp3 FltOrd VwSpec VwProofs VwProofs2 Vw3 Properties_Rdp2.

(* C102: any scalar type (NaN included), any behaviour of the heap, as long as it is the same in both runs *)
Theorem C102_more_deletions_keep_fewer : forall (S : Scalar) pick (k1 k2 : nat), k1 <= k2 ->
  (forall line out1 out2 : list (V2 S),
     simplify_vw_2d pick line k1 = Val out1 -> simplify_vw_2d pick line k2 = Val out2 -> subseq out2 out1) /\
  (forall line out1 out2 : list (V3 S),
     simplify_vw_3d pick line k1 = Val out1 -> simplify_vw_3d pick line k2 = Val out2 -> subseq out2 out1).
Proof.
  intros S pick k1 k2 Hk. split; intros line out1 out2.
  - exact (vw2_nested pick line out1 out2 k1 k2 Hk).
  - exact (vw3_nested pick line out1 out2 k1 k2 Hk).
Qed.
Print Assumptions C102_more_deletions_keep_fewer.
Example C102_hypotheses_met :
  simplify_vw_2d (S := F64_) pick_min [P 0 0; P 1 1; P 2 (-3); P 3 0; P 4 9; P 5 0] 1 = Val [P 0 0; P 2 (-3); P 3 0; P 4 9; P 5 0] /\
  simplify_vw_2d (S := F64_) pick_min [P 0 0; P 1 1; P 2 (-3); P 3 0; P 4 9; P 5 0] 2 = Val [P 0 0; P 2 (-3); P 4 9; P 5 0].
Proof. split; fcomp2. Qed.

(* C103: a heap whose choice does not change when all keys are multiplied by the same positive number (it only
   compares keys) *)
Definition compares_only (pick : nat -> list (car RS * nat) -> nat) : Prop :=
  forall s h c, (0 < c)%R -> pick s (map (fun e => ((c * fst e)%R : car RS, snd e)) h) = pick s h.

Lemma area3_gram (a b c : pt3) : area3 (S := RS) a b c =
  (sqdist3 a b * sqdist3 c b - ((sqdist3 a b + sqdist3 c b - sqdist3 a c) / 2) * ((sqdist3 a b + sqdist3 c b - sqdist3 a c) / 2))%R.
Proof. destruct a as [ax ay az], b as [bx by_ bz], c as [cx cy cz]. unfold area3, sqdist3; cbn. field. Qed.

Theorem C103_affine : forall pick, compares_only pick ->
  (forall (p q r s t u : R), (p * t - q * s <> 0)%R ->
     let f := fun v : pt => @mkV2 RS (p * vx v + q * vy v + r)%R (s * vx v + t * vy v + u)%R in
     forall (line : list pt) k, simplify_vw_2d pick (map f line) k = omap (map f) (simplify_vw_2d pick line k)) /\
  (forall (c : R) (f : pt3 -> pt3), (0 < c)%R -> (forall a b, edist3 (f a) (f b) = c * edist3 a b)%R ->
     forall (line : list pt3) k, simplify_vw_3d pick (map f line) k = omap (map f) (simplify_vw_3d pick line k)).
Proof.
  intros pick Hp. split.
  - intros p q r s t u Hd f line k.
    apply (vw2_scale f ((p * t - q * s) * (p * t - q * s))%R).
    + apply (Rsqr_pos_lt (p * t - q * s)); auto.
    + intros [ax ay] [bx by_] E. injection E as E1 E2. cbn [vx vy] in *.
      cbn in E1, E2.
      assert (X : ((p * t - q * s) * (ax - bx) = 0)%R).
      { replace ((p * t - q * s) * (ax - bx))%R with (t * ((p * ax + q * ay + r) - (p * bx + q * by_ + r)) - q * ((s * ax + t * ay + u) - (s * bx + t * by_ + u)))%R by ring.
        rewrite E1, E2. ring. }
      assert (Y : ((p * t - q * s) * (ay - by_) = 0)%R).
      { replace ((p * t - q * s) * (ay - by_))%R with (p * ((s * ax + t * ay + u) - (s * bx + t * by_ + u)) - s * ((p * ax + q * ay + r) - (p * bx + q * by_ + r)))%R by ring.
        rewrite E1, E2. ring. }
      apply Rmult_integral in X, Y. destruct X as [X|X]; [lra|]. destruct Y as [Y|Y]; [lra|]. apply V2_ext; cbn; lra.
    + intros [ax ay] [bx by_] [cx cy]. unfold area2, f; cbn. ring.
    + intros s' h. apply Hp. apply (Rsqr_pos_lt (p * t - q * s)); auto.
  - intros c f Hc Hf line k.
    assert (Hs : forall a b, sqdist3 (f a) (f b) = (c * c * sqdist3 a b)%R).
    { intros a b. specialize (Hf a b). unfold edist3 in Hf.
      pose proof (sqdist3_nonneg a b) as Ha. pose proof (sqdist3_nonneg (f a) (f b)) as Hb.
      rewrite <- (sqrt_sqrt _ Hb), Hf. rewrite <- (sqrt_sqrt _ Ha) at 3. ring. }
    apply (vw3_scale f (c * c * (c * c))%R).
    + assert (0 < c * c)%R by (apply Rmult_lt_0_compat; auto). apply Rmult_lt_0_compat; auto.
    + intros a b d. rewrite !area3_gram, !Hs. cbn. field.
    + intros s' h. apply Hp. assert (0 < c * c)%R by (apply Rmult_lt_0_compat; auto). apply Rmult_lt_0_compat; auto.
Qed.
Print Assumptions C103_affine.
(* taking the first of the smallest keys is such a choice *)
Example C103_hypotheses_met : compares_only pick_min /\ pops_smallest (S := RS) (fun _ => True) pick_min.
Proof.
  split; [|apply pick_min_ok, OrdOn_R].
  intros s h c Hc. unfold pick_min. destruct h as [|e h]; [reflexivity|]. cbn [map].
  generalize 1 as i. generalize 0 as j. revert e. induction h as [|x h IH]; intros e j i; cbn [map argmin]; [reflexivity|]. cbn [fst snd].
  match goal with |- (if ?x then _ else _) = (if ?y then _ else _) => assert (E : x = y) end.
  { rsimp. cbn in *. destruct (Rltb_spec (fst x) (fst e)); [apply Rltb_true|apply Rltb_false]; nra. }
  rewrite E. match goal with |- (if ?x then _ else _) = _ => destruct x end.
  - apply (IH x i (i + 1)).
  - apply (IH e j (i + 1)).
Qed.
