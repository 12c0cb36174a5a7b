(* Bounding box containment, accessors and transforms, iterator states, apply, closest intersection point
   (C90-C93, C95-C99). Model: Geo2.v, Geo3.v, Misc.v. Vocabulary: GeoSpec.v, BoxSpec.v. *)
From Coq Require Import Reals Lra Psatz ZArith NArith Floats.SpecFloat.
From Verif Require Import Prelude Scalar RInst Flt Geo2 Geo3 GeoSpec DistR Rdp1 FltOrd BoxSpec BoxProofs IsectProofs Misc.

(* the point p has coordinates between those of lo and hi *)
Definition in_box2 (lo hi p : pt) : Prop := (vx lo <= vx p <= vx hi /\ vy lo <= vy p <= vy hi)%R.
Definition in_box3 (lo hi p : pt3) : Prop :=
  (wx lo <= wx p <= wx hi /\ wy lo <= wy p <= wy hi /\ wz lo <= wz p <= wz hi)%R.

Lemma contains2_R lo hi p : aabb2_contains_ (S := RS) (lo, hi) p = true <-> in_box2 lo hi p.
Proof.
  unfold aabb2_contains_, in_box2. cbn [fst snd]. rsimp.
  rewrite !andb_true_iff, !orb_true_iff, !Rltb_true, !Reqb_true. lra.
Qed.
Lemma contains3_R lo hi p : aabb3_contains_ (S := RS) (lo, hi) p = true <-> in_box3 lo hi p.
Proof.
  unfold aabb3_contains_, in_box3. cbn [fst snd]. rsimp.
  rewrite !andb_true_iff, !orb_true_iff, !Rltb_true, !Reqb_true. lra.
Qed.

(* C90: in floating point a box also "contains" points that are outside it *)
Theorem C90_float_containment_refuted : exists (a : Aabb2 F64_) (p : V2 F64_),
  a = aabb2_with_points [P 0 0; P 1 1] /\ aabb2_contains_point a p = true /\ sltb (vx p) s0 = true.
Proof.
  (* x = -2^-53 lies left of the box, but within the default epsilon of its left side *)
  exists (aabb2_with_points [P 0 0; P 1 1]), (@mkV2 F64_ (S754_finite true (2 ^ 52) (-105)) (f64 0)).
  split; [reflexivity|]. split; vm_compute; reflexivity.
Qed.
Print Assumptions C90_float_containment_refuted.
(* exact arithmetic: precisely the points between the corners, the segments all of whose points are, and the
   boxes all of whose points are *)
Theorem C90_containment_partial :
  (forall (lo hi p : pt), aabb2_contains_point (Some (lo, hi)) p = true <-> in_box2 lo hi p) /\
  (forall (lo hi a b : pt), aabb2_contains_line (Some (lo, hi)) (mkL a b) = true <->
     forall p, on_segment p a b -> in_box2 lo hi p) /\
  (forall (lo hi l h : pt), in_box2 l h l -> in_box2 l h h ->
     (aabb2_contains_aabb (Some (lo, hi)) (Some (l, h)) = true <-> forall p, in_box2 l h p -> in_box2 lo hi p)) /\
  (forall (lo hi p : pt3), aabb3_contains_point (Some (lo, hi)) p = true <-> in_box3 lo hi p) /\
  (forall (lo hi a b : pt3), aabb3_contains_line (Some (lo, hi)) (mkL3 a b) = true <->
     forall t, (0 <= t <= 1)%R -> in_box3 lo hi (lerp3 a b t)) /\
  (forall (lo hi l h : pt3), in_box3 l h l -> in_box3 l h h ->
     (aabb3_contains_aabb (Some (lo, hi)) (Some (l, h)) = true <-> forall p, in_box3 l h p -> in_box3 lo hi p)).
Proof.
  assert (K : forall l h a b t, (0 <= t <= 1 -> l <= a <= h -> l <= b <= h -> l <= a + t * (b - a) <= h)%R) by (intros; nra).
  split; [|split; [|split; [|split; [|split]]]].
  - intros. apply contains2_R.
  - intros. cbn [aabb2_contains_line lstart lend]. rewrite andb_true_iff, !contains2_R. split.
    + intros [A B] p (t & Ht & ->). unfold in_box2, lerp in *. cbn [vx vy]. split; apply K; tauto.
    + intros H. split; apply H; [exists 0%R|exists 1%R]; (split; [lra|]); unfold lerp; apply V2_ext; cbn [vx vy]; rring.
  - intros lo hi l h Hl Hh. cbn [aabb2_contains_aabb]. rewrite andb_true_iff, !contains2_R. split.
    + intros [A B] p Hp. unfold in_box2 in *. lra.
    + intros H. split; apply H; auto.
  - intros. apply contains3_R.
  - intros. cbn [aabb3_contains_line wstart wend]. rewrite andb_true_iff, !contains3_R. split.
    + intros [A B] t Ht. unfold in_box3, lerp3 in *. cbn [wx wy wz]. split; [|split]; apply K; tauto.
    + intros H. split.
      * specialize (H 0%R). replace (lerp3 a b 0) with a in H; [apply H; lra|unfold lerp3; apply V3_ext; cbn [wx wy wz]; rring].
      * specialize (H 1%R). replace (lerp3 a b 1) with b in H; [apply H; lra|unfold lerp3; apply V3_ext; cbn [wx wy wz]; rring].
  - intros lo hi l h Hl Hh. cbn [aabb3_contains_aabb]. rewrite andb_true_iff, !contains3_R. split.
    + intros [A B] p Hp. unfold in_box3 in *. lra.
    + intros H. split; apply H; auto.
Qed.
Print Assumptions C90_containment_partial.
(* the box around points is such a box (low corner below the high corner) *)
Example C90_hypotheses_met : in_box2 (@mkV2 RS 0 0)%R (@mkV2 RS 1 2)%R (@mkV2 RS 0 0)%R.
Proof. unfold in_box2; simpl; lra. Qed.
(* an empty box contains nothing and is contained in nothing *)
Theorem C90_empty_box : forall (S : Scalar),
  (forall p, aabb2_contains_point (S := S) None p = false) /\ (forall l, aabb2_contains_line (S := S) None l = false) /\
  (forall a, aabb2_contains_aabb (S := S) None a = false /\ aabb2_contains_aabb (S := S) a None = false) /\
  (forall p, aabb3_contains_point (S := S) None p = false) /\ (forall l, aabb3_contains_line (S := S) None l = false) /\
  (forall a, aabb3_contains_aabb (S := S) None a = false /\ aabb3_contains_aabb (S := S) a None = false).
Proof. intros S. repeat split; auto; destruct a; auto. Qed.
Print Assumptions C90_empty_box.

(* C91 *)
Theorem C91_box_accessors :
  (forall (a : Aabb2 RS) ps, built2 a ps -> ps <> [] -> exists lo hi d c,
     bounds2 ps (lo, hi) /\ aabb2_low a = Some lo /\ aabb2_high a = Some hi /\ aabb2_extents a = Some (lo, hi, d) /\
     (vx lo + vx d = vx hi /\ vy lo + vy d = vy hi /\ 0 <= vx d /\ 0 <= vy d)%R /\
     aabb2_center a = Some c /\ c = lerp lo hi (1/2) /\ aabb2_contains_point a c = true) /\
  (forall (a : Aabb3 RS) ps, built3 a ps -> ps <> [] -> exists lo hi d c,
     bounds3 ps (lo, hi) /\ aabb3_low a = Some lo /\ aabb3_high a = Some hi /\ aabb3_extents a = Some (lo, hi, d) /\
     (wx lo + wx d = wx hi /\ wy lo + wy d = wy hi /\ wz lo + wz d = wz hi /\ 0 <= wx d /\ 0 <= wy d /\ 0 <= wz d)%R /\
     aabb3_center a = Some c /\ c = lerp3 lo hi (1/2) /\ aabb3_contains_point a c = true).
Proof.
  assert (LG : forall (vs : list R) lo hi, least (S := RS) vs lo -> greatest (S := RS) vs hi -> (lo <= hi)%R).
  { intros vs lo hi [A _] [_ B]. specialize (B _ A). apply Rltb_false in B. exact B. }
  split; intros a ps Ha Hne.
  - assert (Dp : Forall (fun p : pt => (fun _ : R => True) (vx p) /\ (fun _ : R => True) (vy p)) ps) by (apply Forall_forall; auto).
    pose proof (built2_ok (S := RS) _ BoxOn_R a ps Ha Dp) as H. destruct a as [[lo hi]|]; [|simpl in H; congruence].
    pose proof H as (H1 & H2 & H3 & H4). cbn [fst snd] in *.
    pose proof (LG _ _ _ H1 H3) as Gx. pose proof (LG _ _ _ H2 H4) as Gy.
    exists lo, hi, (mkV2 (S := RS) (vx hi - vx lo) (vy hi - vy lo))%R, (lerp lo hi (1/2)).
    split; [exact H|]. split; [auto|]. split; [auto|]. split; [auto|]. split; [cbn [vx vy]; lra|].
    split; [|split; [auto|]].
    + cbn [aabb2_center]. f_equal. unfold lerp. apply V2_ext; cbn [vx vy]; rsimp; lra.
    + cbn [aabb2_contains_point]. apply contains2_R. unfold in_box2, lerp; cbn [vx vy]. lra.
  - assert (Dp : Forall (fun p : pt3 => (fun _ : R => True) (wx p) /\ (fun _ : R => True) (wy p) /\ (fun _ : R => True) (wz p)) ps) by (apply Forall_forall; auto).
    pose proof (built3_ok (S := RS) _ BoxOn_R a ps Ha Dp) as H. destruct a as [[lo hi]|]; [|simpl in H; congruence].
    pose proof H as (H1 & H2 & H3 & H4 & H5 & H6). cbn [fst snd] in *.
    pose proof (LG _ _ _ H1 H4) as Gx. pose proof (LG _ _ _ H2 H5) as Gy. pose proof (LG _ _ _ H3 H6) as Gz.
    exists lo, hi, (mkV3 (S := RS) (wx hi - wx lo) (wy hi - wy lo) (wz hi - wz lo))%R, (lerp3 lo hi (1/2)).
    split; [exact H|]. split; [auto|]. split; [auto|]. split; [auto|]. split; [cbn [wx wy wz]; lra|].
    split; [|split; [auto|]].
    + cbn [aabb3_center]. f_equal. unfold lerp3, wdivs, wadd. apply V3_ext; cbn [wx wy wz]; rsimp; lra.
    + cbn [aabb3_contains_point]. apply contains3_R. unfold in_box3, lerp3; cbn [wx wy wz]. lra.
Qed.
Print Assumptions C91_box_accessors.
Theorem C91_empty_accessors : forall (S : Scalar),
  (forall a : Aabb2 S, built2 a [] -> aabb2_low a = None /\ aabb2_high a = None /\ aabb2_extents a = None /\ aabb2_center a = None) /\
  (forall a : Aabb3 S, built3 a [] -> aabb3_low a = None /\ aabb3_high a = None /\ aabb3_extents a = None /\ aabb3_center a = None).
Proof.
  intros S. split; intros a Ha.
  - assert (E : a = None); [|subst; auto]. remember [] as ps eqn:Ep. revert Ep. induction Ha; intros Ep; subst; auto; try discriminate.
    + destruct ps; discriminate.
    + apply app_eq_nil in Ep as [-> ->]. simpl. auto.
    + apply app_eq_nil in Ep as [-> ->]. rewrite IHHa1, IHHa2; auto.
  - assert (E : a = None); [|subst; auto]. remember [] as ps eqn:Ep. revert Ep. induction Ha; intros Ep; subst; auto; try discriminate.
    + destruct ps; discriminate.
    + apply app_eq_nil in Ep as [-> ->]. simpl. auto.
    + apply app_eq_nil in Ep as [-> ->]. rewrite IHHa1, IHHa2; auto.
Qed.
Print Assumptions C91_empty_accessors.
Example C91_hypotheses_met : built2 (S := RS) (aabb2_with_points [@mkV2 RS 3 1; @mkV2 RS 0 2]%R) [@mkV2 RS 3 1; @mkV2 RS 0 2]%R.
Proof. constructor. Qed.

(* C92: after apply the box no longer contains the transformed points *)
Theorem C92_apply_refuted : exists (f : pt -> pt) (ps : list pt) (p : pt),
  (forall q, f q = mkV2 (S := RS) (- vx q)%R (vy q)) /\ In p ps /\
  aabb2_contains_point (aabb2_with_points ps) p = true /\
  aabb2_contains_point (aabb2_apply f (aabb2_with_points ps)) (f p) = false.
Proof.
  exists (fun q : pt => mkV2 (S := RS) (- vx q)%R (vy q)), [@mkV2 RS 0 0; @mkV2 RS 1 0]%R, (@mkV2 RS 0 0)%R.
  split; [auto|]. split; [left; auto|].
  assert (E : aabb2_with_points [@mkV2 RS 0 0; @mkV2 RS 1 0]%R = Some (@mkV2 RS 0 0, @mkV2 RS 1 0)%R).
  { cbn. f_equal. unfold aabb2_widen; cbn. f_equal; f_equal; unfold Rmin, Rmax; repeat destruct Rle_dec; first [reflexivity|exfalso; lra]. }
  rewrite E. cbn [aabb2_apply aabb2_contains_point]. split.
  - apply contains2_R. unfold in_box2; cbn [vx vy]. lra.
  - match goal with |- ?b = false => destruct b eqn:E'; auto end. apply contains2_R in E'. unfold in_box2 in E'; cbn [vx vy] in E'. lra.
Qed.
Print Assumptions C92_apply_refuted.
(* what holds: a function that keeps the order of each coordinate maps the box to the box of the images *)
Theorem C92_apply_partial : forall (S : Scalar) (D : car S -> Prop), BoxOn S D ->
  (forall (g h : car S -> car S),
     (forall x y, D x -> D y -> sltb x y = false -> sltb (g x) (g y) = false) ->
     (forall x y, D x -> D y -> sltb x y = false -> sltb (h x) (h y) = false) ->
     forall a ps, built2 a ps -> Forall (fun p => D (vx p) /\ D (vy p)) ps -> ps <> [] ->
     exists mm, aabb2_apply (fun p => mkV2 (g (vx p)) (h (vy p))) a = Some mm /\
       bounds2 (map (fun p => mkV2 (g (vx p)) (h (vy p))) ps) mm) /\
  (forall (g h k : car S -> car S),
     (forall x y, D x -> D y -> sltb x y = false -> sltb (g x) (g y) = false) ->
     (forall x y, D x -> D y -> sltb x y = false -> sltb (h x) (h y) = false) ->
     (forall x y, D x -> D y -> sltb x y = false -> sltb (k x) (k y) = false) ->
     forall a ps, built3 a ps -> Forall (fun p => D (wx p) /\ D (wy p) /\ D (wz p)) ps -> ps <> [] ->
     exists mm, aabb3_apply (fun p => mkV3 (g (wx p)) (h (wy p)) (k (wz p))) a = Some mm /\
       bounds3 (map (fun p => mkV3 (g (wx p)) (h (wy p)) (k (wz p))) ps) mm).
Proof.
  intros S D HB.
  assert (L : forall g : car S -> car S, (forall x y, D x -> D y -> sltb x y = false -> sltb (g x) (g y) = false) ->
    forall vs lo, Forall D vs -> least vs lo -> least (map g vs) (g lo)).
  { intros g Hg vs lo HD [A B]. rewrite Forall_forall in HD. split; [apply in_map; auto|]. intros v Hv. apply in_map_iff in Hv as (w & <- & Hw). auto. }
  assert (G : forall g : car S -> car S, (forall x y, D x -> D y -> sltb x y = false -> sltb (g x) (g y) = false) ->
    forall vs hi, Forall D vs -> greatest vs hi -> greatest (map g vs) (g hi)).
  { intros g Hg vs hi HD [A B]. rewrite Forall_forall in HD. split; [apply in_map; auto|]. intros v Hv. apply in_map_iff in Hv as (w & <- & Hw). auto. }
  split.
  - intros g h Hg Hh a ps Ha Dp Hne. pose proof (built2_ok D HB a ps Ha Dp) as H. destruct a as [[lo hi]|]; [|simpl in H; congruence].
    destruct H as (H1 & H2 & H3 & H4). eexists. split; [reflexivity|]. unfold bounds2. cbn [fst snd vx vy] in *.
    rewrite !map_map. cbn [vx vy].
    assert (X : forall (c : V2 S -> car S) (gg : car S -> car S), map (fun x => gg (c x)) ps = map gg (map c ps)) by (intros; rewrite map_map; auto).
    rewrite (X vx g), (X vy h). assert (Dx : Forall D (map vx ps)) by (apply D2x in Dp; auto). assert (Dy : Forall D (map vy ps)) by (apply D2y in Dp; auto).
    split; [apply (L g Hg _ _ Dx H1)|split; [apply (L h Hh _ _ Dy H2)|split; [apply (G g Hg _ _ Dx H3)|apply (G h Hh _ _ Dy H4)]]].
  - intros g h k Hg Hh Hk a ps Ha Dp Hne. pose proof (built3_ok D HB a ps Ha Dp) as H. destruct a as [[lo hi]|]; [|simpl in H; congruence].
    destruct H as (H1 & H2 & H3 & H4 & H5 & H6). eexists. split; [reflexivity|]. unfold bounds3. cbn [fst snd wx wy wz] in *.
    rewrite !map_map. cbn [wx wy wz].
    assert (X : forall (c : V3 S -> car S) (gg : car S -> car S), map (fun x => gg (c x)) ps = map gg (map c ps)) by (intros; rewrite map_map; auto).
    rewrite (X wx g), (X wy h), (X wz k). assert (Dx : Forall D (map wx ps)) by (apply D3x in Dp; auto). assert (Dy : Forall D (map wy ps)) by (apply D3y in Dp; auto). assert (Dz : Forall D (map wz ps)) by (apply D3z in Dp; auto).
    split; [apply (L g Hg _ _ Dx H1)|split; [apply (L h Hh _ _ Dy H2)|split; [apply (L k Hk _ _ Dz H3)|split; [apply (G g Hg _ _ Dx H4)|split; [apply (G h Hh _ _ Dy H5)|apply (G k Hk _ _ Dz H6)]]]]].
Qed.
Print Assumptions C92_apply_partial.
Example C92_hypotheses_met : forall x y : R, sltb (s := RS) x y = false -> sltb (s := RS) (2 * x + 1)%R (2 * y + 1)%R = false.
Proof. intros x y H. apply Rltb_false in H. apply Rltb_false. lra. Qed.

(* C93: a 3D box made from two corners in the wrong order contains neither of them *)
Theorem C93_corners_refuted : exists (a b : pt3),
  aabb3_contains_point (aabb3_of_corners a b) a = false /\ aabb3_contains_point (aabb3_of_corners a b) b = false /\
  aabb3_of_scalars (wx a) (wy a) (wz a) (wx b) (wy b) (wz b) = aabb3_of_corners a b.
Proof.
  exists (@mkV3 RS 1 0 0)%R, (@mkV3 RS 0 1 1)%R. split; [|split; [|reflexivity]];
  match goal with |- ?x = false => destruct x eqn:E; auto end; apply contains3_R in E; unfold in_box3 in E; cbn [wx wy wz] in E; lra.
Qed.
Print Assumptions C93_corners_refuted.
Theorem C93_corners_partial : forall (S : Scalar) (D : car S -> Prop), BoxOn S D ->
  forall a b : V3 S, D (wx a) -> D (wy a) -> D (wz a) -> D (wx b) -> D (wy b) -> D (wz b) ->
  sltb (wx b) (wx a) = false -> sltb (wy b) (wy a) = false -> sltb (wz b) (wz a) = false ->
  aabb3_of_scalars (wx a) (wy a) (wz a) (wx b) (wy b) (wz b) = aabb3_of_corners a b /\
  exists mm, aabb3_of_corners a b = Some mm /\ bounds3 [a; b] mm.
Proof.
  intros S D HB a b ? ? ? ? ? ? Hx Hy Hz. split; [destruct a, b; reflexivity|].
  exists (a, b). split; [reflexivity|].
  assert (I : forall x, D x -> sltb x x = false) by (intros; apply (ord_irrefl _ _ (box_ord _ _ HB)); auto).
  unfold bounds3, least, greatest. cbn [fst snd map].
  repeat split; try (cbn; tauto); intros v [<-|[<-|[]]]; auto.
Qed.
Print Assumptions C93_corners_partial.
Example C93_hypotheses_met : sltb (s := F64_) (f64 2) (f64 (-1)) = false.
Proof. vm_compute. reflexivity. Qed.

(* C95 *)
(* the pair of points at positions i and i+1 *)
Definition pair_at {T} (l : list T) (i : nat) : option (T * T) :=
  match nth_error l i, nth_error l (i + 1) with Some a, Some b => Some (a, b) | _, _ => None end.

Lemma win_calls {T} k : forall (l : list T) rs it, calls win_next k (win_new l) = (rs, it) ->
  length rs = k /\ (forall j, j < k -> nth_error rs j = Some (pair_at l j)) /\ win_len it = length l - 1 - k.
Proof.
  induction k as [|k IH]; intros l rs it E; simpl in E.
  - injection E as <- <-. split; [auto|]. split; [intros; lia|]. unfold win_len, win_new. destruct (Nat.ltb_spec (length l) 2); lia.
  - unfold win_new in E. destruct l as [|a [|b t]]; cbn [win_next] in E.
    + destruct (calls win_next k []) as [rs' it'] eqn:E'. injection E as <- <-.
      destruct (IH [] rs' it' E') as (H1 & H2 & H3). simpl. split; [lia|]. split; [|simpl in H3; lia].
      intros [|j] Hj; [reflexivity|]. simpl. rewrite H2 by lia. unfold pair_at. destruct j; reflexivity.
    + destruct (calls win_next k [a]) as [rs' it'] eqn:E'. injection E as <- <-.
      destruct (IH [a] rs' it' E') as (H1 & H2 & H3). simpl. split; [lia|]. split; [|simpl in H3; lia].
      intros [|j] Hj; [reflexivity|]. simpl. rewrite H2 by lia. unfold pair_at. destruct j as [|[|j]]; reflexivity.
    + destruct (calls win_next k (b :: t)) as [rs' it'] eqn:E'. injection E as <- <-.
      destruct (IH (b :: t) rs' it' E') as (H1 & H2 & H3). simpl. split; [lia|]. split; [|simpl in H3; lia].
      intros [|j] Hj; [reflexivity|]. simpl. rewrite H2 by lia. reflexivity.
Qed.

Lemma ck_calls {T} k : forall (v r : list T) n rs it, length v = 2 * n -> calls ck_next k (mkChunk v r) = (rs, it) ->
  length rs = k /\ (forall j, j < k -> nth_error rs j = Some (pair_at v (2 * j))) /\ ck_len it = n - k /\ ck_remainder it = r.
Proof.
  induction k as [|k IH]; intros v r n rs it Hn E; simpl in E.
  - injection E as <- <-. split; [auto|]. split; [intros; lia|]. split; [|reflexivity].
    unfold ck_len; cbn [ck_v]. rewrite Hn, (Nat.mul_comm 2 n), Nat.div_mul by lia. lia.
  - destruct v as [|a [|b t]]; unfold ck_next in E at 1; cbn [ck_v ck_rem] in E.
    + destruct (calls ck_next k (mkChunk [] r)) as [rs' it'] eqn:E'. injection E as <- <-.
      destruct (IH [] r 0 rs' it' eq_refl E') as (H1 & H2 & H3 & H4). simpl. split; [lia|]. simpl in Hn. split; [|split; [lia|auto]].
      intros [|j] Hj; [reflexivity|]. simpl. rewrite H2 by lia. unfold pair_at. destruct j; simpl; auto.
    + simpl in Hn. lia.
    + destruct (calls ck_next k (mkChunk t r)) as [rs' it'] eqn:E'. injection E as <- <-.
      destruct (IH t r (n - 1) rs' it' ltac:(simpl in Hn; lia) E') as (H1 & H2 & H3 & H4). simpl. split; [lia|]. simpl in Hn. split; [|split; [lia|auto]].
      intros [|j] Hj; [reflexivity|]. simpl. rewrite H2 by lia. unfold pair_at.
      replace (j + S (j + 0)) with (S (2 * j)) by lia. reflexivity.
Qed.

Theorem C95_iterator_states : forall (T : Type) (l : list T) (k : nat),
  (exists rs it, calls win_next k (win_new l) = (rs, it) /\ length rs = k /\
     (forall j, j < k -> nth_error rs j = Some (pair_at l j)) /\
     win_len it = length l - 1 - k /\ (win_is_empty it = true <-> length l <= k + 1)) /\
  (exists rs it, calls ck_next k (ck_new l) = (rs, it) /\ length rs = k /\
     (forall j, j < k -> nth_error rs j = Some (pair_at l (2 * j))) /\
     ck_len it = length l / 2 - k /\ (ck_is_empty it = true <-> length l < 2 * (k + 1)) /\
     ck_remainder it = skipn (2 * (length l / 2)) l).
Proof.
  intros T l k. split.
  - destruct (calls win_next k (win_new l)) as [rs it] eqn:E. exists rs, it. destruct (win_calls k l rs it E) as (H1 & H2 & H3).
    split; [auto|]. split; [auto|]. split; [auto|]. split; [auto|]. unfold win_is_empty. rewrite Nat.eqb_eq, H3. lia.
  - destruct (calls ck_next k (ck_new l)) as [rs it] eqn:E. exists rs, it. unfold ck_new in E.
    pose proof (Nat.div_mod (length l) 2 ltac:(lia)) as Hd. pose proof (Nat.mod_upper_bound (length l) 2 ltac:(lia)) as Hm.
    replace (length l - length l mod 2) with (2 * (length l / 2)) in E by lia.
    assert (Hlen : length (firstn (2 * (length l / 2)) l) = 2 * (length l / 2)) by (rewrite firstn_length; lia).
    destruct (ck_calls k _ _ (length l / 2) rs it Hlen E) as (H1 & H2 & H3 & H4).
    split; [auto|]. split; [auto|]. split; [|split; [auto|split; [|auto]]].
    + intros j Hj. rewrite H2 by auto. f_equal. unfold pair_at.
      assert (F : forall n m, nth_error (firstn m l) n = if Nat.ltb n m then nth_error l n else None).
      { clear. intros n m. revert n l. induction m as [|m IH]; intros n l; simpl; [destruct n; auto|].
        destruct l as [|x l]; simpl; [destruct n; simpl; [|destruct (Nat.ltb (S n) (S m))]; auto|]. destruct n; simpl; auto. rewrite IH. reflexivity. }
      rewrite !F. destruct (Nat.ltb_spec (2 * j) (2 * (length l / 2))).
      * destruct (Nat.ltb_spec (2 * j + 1) (2 * (length l / 2))); [auto|lia].
      * replace (nth_error l (2 * j + 1)) with (@None T); [destruct (nth_error l (2 * j)); auto|].
        symmetry. apply nth_error_None. lia.
    + unfold ck_is_empty. rewrite Nat.eqb_eq, H3. lia.
Qed.
Print Assumptions C95_iterator_states.
Example C95_example : calls ck_next 2 (ck_new [1; 2; 3]) = ([Some (1, 2); None], mkChunk [] [3]).
Proof. reflexivity. Qed.

(* C99: size_hint of the window iterator does not say how many items follow *)
Theorem C99_size_hint_refuted : exists l : list nat,
  win_size_hint (win_new l) <> (win_len (win_new l), Some (win_len (win_new l))).
Proof. exists [1; 2; 3]. discriminate. Qed.
Print Assumptions C99_size_hint_refuted.
(* it is never wrong as a bound, and is the same whatever was consumed *)
Theorem C99_size_hint_partial : forall (T : Type) (it : list T),
  fst (win_size_hint it) <= win_len it /\ (forall u, snd (win_size_hint it) = Some u -> win_len it <= u).
Proof. intros T it. split; [simpl; lia|discriminate]. Qed.
Print Assumptions C99_size_hint_partial.

(* C96 *)
Lemma ls_apply_map {T} (f : T -> T) l : ls_apply f l = map f l.
Proof. induction l; simpl; congruence. Qed.
Theorem C96_apply : forall (T : Type) (f : T -> T) (l : list T),
  length (ls_apply f l) = length l /\
  (forall i, nth_error (ls_apply f l) i = option_map f (nth_error l i)) /\
  windows (ls_apply f l) = map (fun w => (f (fst w), f (snd w))) (windows l) /\
  chunks2 (ls_apply f l) = map (fun w => (f (fst w), f (snd w))) (chunks2 l).
Proof.
  intros T f l. split; [rewrite ls_apply_map; apply map_length|]. split; [|split].
  - induction l as [|a l IH]; intros [|i]; simpl; auto.
  - induction l as [|a [|b l] IH]; simpl in *; auto. rewrite IH. reflexivity.
  - revert l. fix IH 1. intros [|a [|b l]]; simpl; auto. rewrite IH. reflexivity.
Qed.
Print Assumptions C96_apply.
Example C96_example : ls_apply (fun x => x * x) [1; 2; 3] = [1; 4; 9].
Proof. reflexivity. Qed.
(* exact arithmetic: closed lines stay closed; in floating point they need not (0 and -0 are equal) *)
Theorem C96_apply_closed : forall (f : pt -> pt) (l : list pt), is_connected l = true -> is_connected (ls_apply f l) = true.
Proof.
  intros f [|a l] H; [reflexivity|]. cbn [is_connected ls_apply] in *. apply veqb_R in H. apply veqb_R.
  rewrite ls_apply_map. change (f a :: map f l) with (map f (a :: l)).
  assert (K : forall (l : list pt) d, last (map f l) (f d) = f (last l d)).
  { clear. induction l as [|x [|y l] IH]; intros d; auto. change (last (map f (y :: l)) (f d) = f (last (y :: l) d)). apply IH. }
  rewrite K, <- H. reflexivity.
Qed.
Print Assumptions C96_apply_closed.
Theorem C96_apply_closed_refuted : exists (f : V2 F64_ -> V2 F64_) (l : list (V2 F64_)),
  is_connected l = true /\ is_connected (ls_apply f l) = false.
Proof.
  exists (fun p => mkV2 (sdiv s1 (vx p)) (vy p)), [@mkV2 F64_ (S754_zero false) (f64 0); P 1 1; @mkV2 F64_ (S754_zero true) (f64 0)].
  split; vm_compute; reflexivity.
Qed.
Print Assumptions C96_apply_closed_refuted.
Theorem C96_line_apply : forall (S : Scalar) (f : V3 S -> V3 S) (l : list (V3 S)),
  window_iter3 (ls_apply f l) = map (line3_apply f) (window_iter3 l).
Proof.
  intros S f l. unfold window_iter3. destruct (C96_apply _ f l) as (_ & _ & -> & _). rewrite !map_map. reflexivity.
Qed.
Print Assumptions C96_line_apply.

(* C98 *)
(* equality of boxes (and of lines) with ulps_eq! is not transitive *)
Theorem C98_box_equality_refuted :
  exists a b c : Aabb2 F64_, aabb2_eqb a b = true /\ aabb2_eqb b c = true /\ aabb2_eqb a c = false.
Proof.
  pose (u := fun k => @mkV2 F64_ (S754_finite false (2 ^ 52 + k)%positive (-52)) (f64 0)).
  exists (aabb2_new (u 1%positive)), (aabb2_new (u 4%positive)), (aabb2_new (u 7%positive)).
  split; [|split]; vm_compute; reflexivity.
Qed.
Print Assumptions C98_box_equality_refuted.
(* what holds: reflexive and symmetric; exact arithmetic: equality of the sets of contained points *)
Theorem C98_box_equality_partial :
  (forall (S : Scalar) (D : car S -> Prop), (forall x, D x -> sulps x x = true) -> (forall x y : car S, sulps x y = sulps y x) ->
     (forall a : Aabb2 S, (forall lo hi, a = Some (lo, hi) -> D (vx lo) /\ D (vy lo) /\ D (vx hi) /\ D (vy hi)) -> aabb2_eqb a a = true) /\
     (forall a b : Aabb2 S, aabb2_eqb a b = aabb2_eqb b a)) /\
  (forall (a b : Aabb2 RS) ps qs, built2 a ps -> built2 b qs ->
     (aabb2_eqb a b = true <-> forall p, aabb2_contains_point a p = aabb2_contains_point b p)).
Proof.
  split.
  - intros S D Hr Hs. split.
    + intros [[lo hi]|] H; simpl; auto. destruct (H lo hi eq_refl) as (H1 & H2 & H3 & H4). rewrite !Hr by auto. auto.
    + intros [[lo hi]|] [[l h]|]; simpl; auto. rewrite (Hs (vx lo)), (Hs (vx hi)), (Hs (vy lo)), (Hs (vy hi)). auto.
  - intros a b ps qs Ha Hb.
    assert (W : forall (a : Aabb2 RS) ps, built2 a ps -> forall lo hi, a = Some (lo, hi) -> in_box2 lo hi lo /\ in_box2 lo hi hi).
    { intros a' ps' Ha' lo hi ->. destruct ps' as [|p ps'].
      - destruct (C91_empty_accessors RS) as [E _]. destruct (E _ Ha') as [E' _]. discriminate.
      - destruct C91_box_accessors as [E _]. destruct (E _ _ Ha' ltac:(discriminate)) as (l & h & d & c & _ & E1 & E2 & _ & E3 & _).
        cbn in E1, E2. injection E1 as <-. injection E2 as <-. unfold in_box2. lra. }
    pose proof (W a ps Ha) as Wa. pose proof (W b qs Hb) as Wb.
    destruct a as [[lo hi]|], b as [[l h]|].
    + destruct (Wa _ _ eq_refl) as [A1 A2]. destruct (Wb _ _ eq_refl) as [B1 B2].
      cbn [aabb2_eqb fst snd aabb2_contains_point]. rsimp. rewrite !andb_true_iff, !Reqb_true. split.
      * intros [[[E1 E2] E3] E4] p. apply Bool.eq_iff_eq_true. rewrite !contains2_R. unfold in_box2. rewrite E1, E2, E3, E4. tauto.
      * intros H.
        assert (X : forall p, in_box2 lo hi p <-> in_box2 l h p) by (intros p; rewrite <- !contains2_R; rewrite H; tauto).
        pose proof (proj1 (X lo) A1). pose proof (proj1 (X hi) A2). pose proof (proj2 (X l) B1). pose proof (proj2 (X h) B2).
        unfold in_box2 in *. lra.
    + destruct (Wa _ _ eq_refl) as [A1 A2]. cbn. split; [discriminate|]. intros H. specialize (H lo). cbn in H. apply contains2_R in A1. congruence.
    + destruct (Wb _ _ eq_refl) as [A1 A2]. cbn. split; [discriminate|]. intros H. specialize (H l). cbn in H. apply contains2_R in A1. congruence.
    + cbn. tauto.
Qed.
Print Assumptions C98_box_equality_partial.

(* C97: closest (and single) of a reported intersection lies on both segments, and for an overlap it is the end of
   the overlap nearest to the given position (the one reported as its end when both are equally near). *)
Theorem C97_closest : forall (a b : Line2 RS) (i : Intersection RS) (o : pt), intersection_point a b = Some i ->
  common a b (isingle i) /\ common a b (iclosest i o) /\
  (forall p, i = IPoint p -> isingle i = p /\ iclosest i o = p) /\
  (forall s, i = IOverlap s -> isingle i = lstart s /\
     (iclosest i o = lstart s /\ (edist o (lstart s) < edist o (lend s))%R \/
      iclosest i o = lend s /\ (edist o (lend s) <= edist o (lstart s))%R)).
Proof.
  intros a b i o E. pose proof (intersection_correct a b) as H. rewrite E in H.
  assert (D : forall p q : pt, vdist2 (S := RS) p q = sqdist p q) by (intros; unfold vdist2, vmag2, vdot, vsub, sqdist; cbn [vx vy]; rring).
  destruct i as [p|s]; cbn [correct isingle iclosest] in *.
  - split; [apply H; auto|]. split; [apply H; auto|]. split; [intros q F; injection F as <-; auto|]. discriminate.
  - destruct H as [_ H].
    assert (C : forall p, p = lstart s \/ p = lend s -> common a b p) by (intros p [-> | ->]; apply H; [apply on_segment_start|apply on_segment_end]).
    split; [apply C; auto|]. rewrite (D o (lstart s)), (D o (lend s)). split; [|split; [discriminate|]].
    + destruct (sltb _ _); apply C; [left|right]; reflexivity.
    + intros s' F. injection F as <-. split; auto.
      destruct (Rltb_spec (sqdist o (lstart s)) (sqdist o (lend s))) as [L|L];
        change (sltb (s := RS)) with Rltb; rsimp; [left|right].
      * rewrite (proj2 (Rltb_true _ _) L). split; auto. apply sqrt_lt_1; auto using sqdist_nonneg.
      * apply Rnot_lt_le in L. rewrite (proj2 (Rltb_false _ _) L). split; auto. apply sqrt_le_1; auto using sqdist_nonneg.
Qed.
Print Assumptions C97_closest.
(* it is not the nearest of all common points *)
Theorem C97_not_nearest_of_all : exists (a b : Line2 RS) (i : Intersection RS) (o p : pt), intersection_point a b = Some i /\
  common a b p /\ (edist o p < edist o (iclosest i o))%R.
Proof.
  set (l := mkL (@mkV2 RS 0%R 0%R) (@mkV2 RS 4%R 0%R)).
  pose proof (intersection_correct l l) as H.
  assert (Hc : forall t, (0 <= t <= 1)%R -> common l l (lerp (lstart l) (lend l) t)) by (intros t Ht; split; exists t; auto).
  pose proof (Hc 0%R ltac:(lra)) as H0. pose proof (Hc 1%R ltac:(lra)) as H1. pose proof (Hc (1/2)%R ltac:(lra)) as Hh.
  destruct (intersection_point l l) as [[p|s]|] eqn:E; cbn [correct] in H.
  - apply H in H0, H1. rewrite <- H1 in H0. apply (f_equal vx) in H0. unfold lerp, l in H0; cbn in H0. lra.
  - exists l, l, (IOverlap s), (@mkV2 RS 2%R 0%R), (@mkV2 RS 2%R 0%R). split; [auto|].
    assert (X : common l l (@mkV2 RS 2%R 0%R)). { replace (@mkV2 RS 2%R 0%R) with (lerp (lstart l) (lend l) (1/2)%R); auto. apply V2_ext; unfold lerp, l; cbn; lra. }
    split; auto. destruct (C97_closest l l (IOverlap s) (@mkV2 RS 2%R 0%R) E) as (_ & _ & _ & Cl). destruct (Cl s eq_refl) as [_ Cl'].
    destruct H as [Hn H].
    (* both ends of l are on the overlap, so its ends are those of l *)
    apply H in H0, H1.
    assert (B : forall p, on_segment p (lstart s) (lend s) -> (0 <= vx p <= 4)%R /\ vy p = 0%R).
    { intros p Hp. apply H in Hp. destruct Hp as [(t & Ht & ->) _]. unfold lerp, l; cbn. split; [lra|lra]. }
    destruct (B _ (on_segment_start _ _)) as [B1 B2]. destruct (B _ (on_segment_end _ _)) as [B3 B4].
    destruct H0 as (t0 & T0 & E0). destruct H1 as (t1 & T1 & E1). apply (f_equal vx) in E0, E1. unfold lerp, l in E0, E1; cbn in E0, E1.
    assert (Z : edist (@mkV2 RS 2%R 0%R) (@mkV2 RS 2%R 0%R) = 0%R) by (unfold edist, sqdist; cbn; rewrite <- sqrt_0; f_equal; lra).
    rewrite Z.
    assert (V : forall p : pt, vx p = 0%R \/ vx p = 4%R -> (0 < edist (@mkV2 RS 2%R 0%R) p)%R).
    { intros p Hp. unfold edist. apply sqrt_lt_R0. unfold sqdist; cbn. pose proof (Rle_0_sqr (0 - vy p)) as Y. unfold Rsqr in Y. cbn in Y. destruct Hp as [-> | ->]; lra. }
    assert (Vs : vx (lstart s) = 0%R \/ vx (lstart s) = 4%R) by (set (x := vx (lstart s)) in *; set (y := vx (lend s)) in *; clearbody x y; clear -B1 B3 E0 E1 T0 T1; cbn in *; nra).
    assert (Ve : vx (lend s) = 0%R \/ vx (lend s) = 4%R) by (set (x := vx (lstart s)) in *; set (y := vx (lend s)) in *; clearbody x y; clear -B1 B3 E0 E1 T0 T1; cbn in *; nra).
    destruct Cl' as [[-> _]|[-> _]]; auto.
  - destruct (H _ H0).
Qed.
Print Assumptions C97_not_nearest_of_all.
Example C97_example : iclosest (S := F64_) (IOverlap (mkL (P 0 0) (P 4 0))) (P 1 5) = P 0 0.
Proof. apply v2_same_eq. vm_compute. reflexivity. Qed.

(* C116: lines from flat arrays, nested arrays and points agree, in 2D and, projected to any plane, in 3D *)
Theorem C116_line_constructors : forall (S : Scalar) (x0 y0 z0 x1 y1 z1 : car S),
  line2_of_4 x0 y0 x1 y1 = line2_of_22 (x0, y0) (x1, y1) /\
  line3_of_6 x0 y0 z0 x1 y1 z1 = line3_of_2 (mkV3 x0 y0 z0) (mkV3 x1 y1 z1) /\
  line_copy_to_2d (line3_of_6 x0 y0 z0 x1 y1 z1) XY = line2_of_4 x0 y0 x1 y1 /\
  line_copy_to_2d (line3_of_6 x0 y0 z0 x1 y1 z1) XZ = line2_of_4 x0 z0 x1 z1 /\
  line_copy_to_2d (line3_of_6 x0 y0 z0 x1 y1 z1) YZ = line2_of_4 y0 z0 y1 z1 /\
  (forall pl, line_copy_to_2d (line_copy_to_3d (line2_of_4 x0 y0 x1 y1) pl) pl = line2_of_4 x0 y0 x1 y1).
Proof. intros S x0 y0 z0 x1 y1 z1. repeat split. intros []; reflexivity. Qed.
Print Assumptions C116_line_constructors.
