(* C146: discretizing lines given backwards, moved lines, discretized lines. Model: Discretize.v. Vocabulary: GeoSpec.v
   (edist, edist3); [yields next st out] (DiscProofs.v): calling next repeatedly from st returns the elements of out and then None. *)
From Coq Require Import Reals Lra Psatz Sorting.Sorted.
From Verif Require Import Prelude Scalar RInst Flt GeoSpec DistR Discretize DiscSpec DiscProofs DiscSym Rdp3 Properties_Rdp2 Properties_Disc.
Local Open Scope R_scope.

Lemma edist_sym (a b : pt) : edist a b = edist b a.
Proof. unfold edist. f_equal. unfold sqdist. ring. Qed.
Lemma edist3_sym (a b : pt3) : edist3 a b = edist3 b a.
Proof. unfold edist3. f_equal. unfold sqdist3. ring. Qed.
Lemma edist_sq c (f : pt -> pt) : (forall a b, edist (f a) (f b) = c * edist a b) -> forall a b, sqdist (f a) (f b) = c * c * sqdist a b.
Proof.
  intros H a b. specialize (H a b). unfold edist in H. pose proof (sqdist_nonneg a b) as Ha. pose proof (sqdist_nonneg (f a) (f b)) as Hb.
  rewrite <- (sqrt_sqrt _ Hb), H. rewrite <- (sqrt_sqrt _ Ha) at 3. ring.
Qed.
Lemma edist3_sq c (f : pt3 -> pt3) : (forall a b, edist3 (f a) (f b) = c * edist3 a b) -> forall a b, sqdist3 (f a) (f b) = c * c * sqdist3 a b.
Proof.
  intros H a b. specialize (H a b). unfold edist3 in H. pose proof (sqdist3_nonneg a b) as Ha. pose proof (sqdist3_nonneg (f a) (f b)) as Hb.
  rewrite <- (sqrt_sqrt _ Hb), H. rewrite <- (sqrt_sqrt _ Ha) at 3. ring.
Qed.
Lemma lerp_0 (a b : pt) : lerp a b 0 = a.
Proof. destruct a, b. unfold lerp; apply V2_ext; rsimp; ring. Qed.
Lemma lerp3_0 (a b : pt3) : lerp3 a b 0 = a.
Proof. destruct a, b. unfold lerp3; apply V3_ext; rsimp; ring. Qed.
Lemma lerp_back (a b : pt) t : lerp b a t = lerp a b (1 - t).
Proof. unfold lerp. apply V2_ext; rsimp; rring. Qed.
Lemma lerp3_back (a b : pt3) t : lerp3 b a t = lerp3 a b (1 - t).
Proof. unfold lerp3. apply V3_ext; rsimp; rring. Qed.

Theorem C146_discretize_2d : forall (pts out : list pt) (d : R), 0 < d -> yields (dnext2 (S := RS) pts d) dnew2 out ->
  (* backwards *) yields (dnext2 (S := RS) (rev pts) d) dnew2 (rev out) /\
  (* again *) yields (dnext2 (S := RS) out d) dnew2 out /\
  (* moved, turned, mirrored, scaled *)
  (forall (c : R) (f : pt -> pt), 0 < c -> (forall a b, edist (f a) (f b) = c * edist a b) ->
     yields (dnext2 (S := RS) (map f pts) (c * d)) dnew2 (map f out)).
Proof.
  intros pts out d Hd Y. destruct (C39_discretize pts d Hd) as (o & _ & U & Sd & _ & _ & _ & So). rewrite <- (U out Y) in *. clear U o.
  assert (K : forall p o e, 0 < e -> subdivided lerp edist e p o -> yields (dnext2 (S := RS) p e) dnew2 o).
  { intros p o e He H. destruct (C39_discretize p e He) as (o' & Y' & _ & S' & _). rewrite (subdivided_det lerp edist e He _ _ _ H S'). exact Y'. }
  split; [|split].
  - apply K; auto. apply subdivided_rev; auto using lerp_0, lerp_back, edist_sym.
  - apply K; auto. apply subdivided_repeat; auto using lerp_0.
  - intros c f Hc Hf. apply K; [apply Rmult_lt_0_compat; auto|]. eapply subdivided_map; eauto. apply (lerp_similar f (c * c)). apply edist_sq; auto.
Qed.
Print Assumptions C146_discretize_2d.
Theorem C146_discretize_3d : forall (pts out : list pt3) (d : R), 0 < d -> yields (dnext3 (S := RS) pts d) dnew3 out ->
  yields (dnext3 (S := RS) (rev pts) d) dnew3 (rev out) /\
  yields (dnext3 (S := RS) out d) dnew3 out /\
  (forall (c : R) (f : pt3 -> pt3), 0 < c -> (forall a b, edist3 (f a) (f b) = c * edist3 a b) ->
     yields (dnext3 (S := RS) (map f pts) (c * d)) dnew3 (map f out)).
Proof.
  intros pts out d Hd Y. destruct (C39_discretize_3d pts d Hd) as (o & _ & U & Sd & _ & _ & _ & So). rewrite <- (U out Y) in *. clear U o.
  assert (K : forall p o e, 0 < e -> subdivided lerp3 edist3 e p o -> yields (dnext3 (S := RS) p e) dnew3 o).
  { intros p o e He H. destruct (C39_discretize_3d p e He) as (o' & Y' & _ & S' & _). rewrite (subdivided_det lerp3 edist3 e He _ _ _ H S'). exact Y'. }
  split; [|split].
  - apply K; auto. apply subdivided_rev; auto using lerp3_0, lerp3_back, edist3_sym.
  - apply K; auto. apply subdivided_repeat; auto using lerp3_0.
  - intros c f Hc Hf. apply K; [apply Rmult_lt_0_compat; auto|]. eapply subdivided_map; eauto. apply (lerp3_similar f (c * c)). apply edist3_sq; auto.
Qed.
Print Assumptions C146_discretize_3d.
(* planar lines: the 3D iterator on a line with z = 0 gives the 2D result *)
Theorem C146_planar : forall (pts out : list pt) (d z : R), 0 < d -> yields (dnext2 (S := RS) pts d) dnew2 out ->
  yields (dnext3 (S := RS) (map (fun p : pt => @mkV3 RS (vx p) (vy p) z) pts) d) dnew3 (map (fun p : pt => @mkV3 RS (vx p) (vy p) z) out).
Proof.
  intros pts out d z Hd Y. destruct (C39_discretize pts d Hd) as (o & _ & U & Sd & _). rewrite <- (U out Y) in *. clear U o.
  assert (X : subdivided lerp3 edist3 (1 * d) (map (fun p : pt => @mkV3 RS (vx p) (vy p) z) pts) (map (fun p : pt => @mkV3 RS (vx p) (vy p) z) out)).
  { apply (subdivided_map _ lerp lerp3 edist edist3 1 d); [lra| | |exact Sd].
    - intros a b. rewrite Rmult_1_l. unfold edist, edist3. f_equal. unfold sqdist, sqdist3. cbn. ring.
    - intros a b t. unfold lerp, lerp3. apply V3_ext; rsimp; rring. }
  rewrite Rmult_1_l in X.
  destruct (C39_discretize_3d (map (fun p : pt => @mkV3 RS (vx p) (vy p) z) pts) d Hd) as (o' & Y' & _ & S' & _). rewrite (subdivided_det lerp3 edist3 d Hd _ _ _ X S'). exact Y'.
Qed.
Print Assumptions C146_planar.
(* a run in f64: forwards, backwards, on the result *)
Example C146_example :
  take_out (dnext2 (S := F64_) [P 0 0; P 4 0; P 4 2] (f64 2)) 10 dnew2 = [P 0 0; P 2 0; P 4 0; P 4 2] /\
  take_out (dnext2 (S := F64_) [P 4 2; P 4 0; P 0 0] (f64 2)) 10 dnew2 = [P 4 2; P 4 0; P 2 0; P 0 0] /\
  take_out (dnext2 (S := F64_) [P 0 0; P 2 0; P 4 0; P 4 2] (f64 2)) 10 dnew2 = [P 0 0; P 2 0; P 4 0; P 4 2].
Proof. split; [|split]; apply (list_same_eq v2_same v2_same_eq); vm_compute; reflexivity. Qed.
