(* RDP: final lemmas. *)
From Coq Require Import Reals Lra Psatz.
From Verif Require Import Prelude Scalar RInst Geo2 Geo3 GeoSpec DistR Simplify Rdp1 FltOrd.

(* out starts and ends like pts *)
Definition same_ends {A} (pts out : list A) : Prop :=
  hd_error out = hd_error pts /\ hd_error (rev out) = hd_error (rev pts).

Section Gen.
  Context {S : Scalar} {T : Type} (dist : T -> T -> T -> car S).
  Notation F := (car S).

  Lemma thinned_length2 (P : T -> T -> T -> Prop) pts out : thinned P pts out -> 2 <= length pts -> 2 <= length out.
  Proof. intros H; destruct H; simpl; lia. Qed.

  Lemma simplify_rdp_ok pts d :
    exists out, simplify_rdp dist pts d = Val out /\ subseq out pts /\ same_ends pts out /\
      (length pts <= 2 -> out = pts) /\ (2 <= length pts -> 2 <= length out).
  Proof.
    destruct (le_lt_dec (length pts) 2) as [H|H].
    - exists pts. unfold simplify_rdp. replace (Nat.leb _ 2) with true by (symmetry; apply Nat.leb_le; auto).
      repeat split; auto. apply subseq_refl.
    - destruct (simplify_rdp_rel dist pts d H) as (a & t & out & -> & R & E).
      exists (a :: out). split; auto.
      assert (Hn : t <> []) by (intros ->; simpl in H; lia).
      assert (Th : thinned (fun _ _ _ => True) (a :: t) (a :: out)) by (eapply Rdp_thinned; eauto).
      split; [eapply thinned_subseq; eauto|]. split; [|split; [intros; lia|intros; eapply thinned_length2; eauto]].
      split; auto.
      apply thinned_last in Th as (b & u & u' & -> & ->). rewrite !rev_app_distr. reflexivity.
  Qed.

  Lemma simplify_rdp_thinned (P : T -> T -> T -> Prop) pts d out :
    (forall a mid b p, mid <> [] -> In p mid -> (forall q, In q mid -> In q pts) -> In a pts -> In b pts ->
       sleb (fst (farthest dist (a :: mid ++ [b]) a b)) (smul d d) = true -> P a b p) ->
    pts <> [] -> simplify_rdp dist pts d = Val out -> thinned P pts out.
  Proof.
    intros HP Hn. destruct (le_lt_dec (length pts) 2) as [H|H].
    - unfold simplify_rdp. replace (Nat.leb _ 2) with true by (symmetry; apply Nat.leb_le; auto).
      intros E; injection E as <-. destruct pts as [|a [|b [|]]]; simpl in *; try congruence; try lia.
      + constructor.
      + apply (thin_step P a [] b [] []); constructor.
    - destruct (simplify_rdp_rel dist pts d H) as (a & t & out' & -> & R & E).
      rewrite E. intros E'; injection E' as <-.
      assert (t <> []) by (intros ->; simpl in H; lia).
      eapply Rdp_thinned; eauto. intros x mid y p Hp Hall Hx Hy Hle. apply (HP x mid y p); auto.
      intros ->; contradiction.
  Qed.

  Lemma simplify_rdp_idem (D : F -> Prop) pts d out : OrdOn S D ->
    (forall a b p, In a pts -> In b pts -> In p pts -> D (dist a b p)) ->
    simplify_rdp dist pts d = Val out -> simplify_rdp dist out d = Val out.
  Proof.
    intros HO HD. destruct (le_lt_dec (length pts) 2) as [H|H].
    - unfold simplify_rdp at 1. replace (Nat.leb _ 2) with true by (symmetry; apply Nat.leb_le; auto).
      intros E; injection E as <-. unfold simplify_rdp.
      replace (Nat.leb _ 2) with true by (symmetry; apply Nat.leb_le; auto). auto.
    - destruct (simplify_rdp_rel dist pts d H) as (a & t & out' & -> & R & E).
      rewrite E. intros E'; injection E' as <-.
      assert (Hn : t <> []) by (intros ->; simpl in H; lia).
      pose proof (Rdp_idem dist D HO _ _ _ HD R a t eq_refl Hn) as R'.
      destruct (le_lt_dec (length (a :: out')) 2) as [H2|H2].
      + unfold simplify_rdp. replace (Nat.leb _ 2) with true by (symmetry; apply Nat.leb_le; auto). auto.
      + unfold simplify_rdp. replace (Nat.leb _ 2) with false by (symmetry; apply Nat.leb_gt; auto).
        unfold idx at 1. simpl nth_error. cbn [obind].
        rewrite (Rdp_rdp_rec dist _ _ _ R') by lia. reflexivity.
  Qed.

  Lemma simplify_rdp_unchanged pts d :
    (forall pre a mid b post, pts = pre ++ a :: mid ++ b :: post -> mid <> [] ->
       sleb (fst (farthest dist (a :: mid ++ [b]) a b)) (smul d d) = false) ->
    simplify_rdp dist pts d = Val pts.
  Proof.
    intros HK. destruct (le_lt_dec (length pts) 2) as [H|H].
    - unfold simplify_rdp. replace (Nat.leb _ 2) with true by (symmetry; apply Nat.leb_le; auto). auto.
    - destruct (simplify_rdp_rel dist pts d H) as (a & t & out' & -> & R & E).
      rewrite E. assert (Hn : t <> []) by (intros ->; simpl in H; lia).
      rewrite (Rdp_unchanged dist _ _ _ HK R a t eq_refl Hn). reflexivity.
  Qed.
End Gen.

(* naturality *)
Section Nat.
  Context {S : Scalar} {A B : Type} (f : A -> B) (dist : B -> B -> B -> car S).
  Let dist' a b p := dist (f a) (f b) (f p).

  Lemma farthest_map l a b : farthest dist (map f l) (f a) (f b) = farthest dist' l a b.
  Proof.
    unfold farthest. rewrite map_length.
    assert (E : map (fun ip => (dist (f a) (f b) (snd ip), fst ip))
                    (firstn (length l - 2) (skipn 1 (enumerate (map f l)))) =
                map (fun ip => (dist' a b (snd ip), fst ip)) (firstn (length l - 2) (skipn 1 (enumerate l)))).
    { replace (enumerate (map f l)) with (map (fun ip : nat * A => (fst ip, f (snd ip))) (enumerate l)).
      - rewrite skipn_map, firstn_map, map_map. reflexivity.
      - unfold enumerate. rewrite map_length. generalize 0 as s.
        induction l as [|x l IH]; intros s; simpl; auto. f_equal. apply IH. }
    rewrite E. reflexivity.
  Qed.

  Lemma Rdp_map d2 pts out : Rdp dist' d2 pts out -> Rdp dist d2 (map f pts) (map f out).
  Proof.
    intros H; induction H as [a|a b|a mid b Hm Hs|a m1 p m2 b l r Hf Hs Hl IHl Hr IHr].
    - constructor.
    - constructor.
    - simpl. rewrite map_app. simpl. apply R_drop; [destruct mid; simpl; congruence|].
      rewrite <- Hs. f_equal. f_equal. rewrite <- farthest_map. simpl. rewrite map_app. reflexivity.
    - rewrite map_app. simpl. rewrite !map_app. simpl. apply R_split; auto.
      + pose proof (farthest_map (a :: (m1 ++ p :: m2) ++ [b]) a b) as E. simpl in E.
        rewrite !map_app in E. simpl in E. rewrite E. rewrite map_length. exact Hf.
      + simpl in IHl; rewrite map_app in IHl. exact IHl.
      + simpl in IHr. rewrite map_app in IHr. exact IHr.
  Qed.
End Nat.

Section Indexed.
  Context {S : Scalar} {T : Type} (dist : T -> T -> T -> car S).
  Context (vertices : list T) (dflt : T).
  Let vert i := nth i vertices dflt.
  Let idist a b p := dist (vert a) (vert b) (vert p).

  Lemma idx_vert i : i < length vertices -> idx vertices i = Val (vert i).
  Proof. intros H. apply idx_val. unfold vert. apply nth_error_nth'. auto. Qed.

  Lemma mapM_ext_val {A C} (g : A -> outcome C) (h : A -> C) l :
    (forall a, In a l -> g a = Val (h a)) -> mapM g l = Val (map h l).
  Proof.
    induction l as [|a l IH]; intros H; auto. simpl. rewrite H by (left; auto).
    cbn [obind]. rewrite IH by (intros; apply H; right; auto). reflexivity.
  Qed.

  Lemma firstn_In {A} n (l : list A) x : In x (firstn n l) -> In x l.
  Proof. rewrite <- (firstn_skipn n l) at 2. rewrite in_app_iff. auto. Qed.
  Lemma skipn_In {A} n (l : list A) x : In x (skipn n l) -> In x l.
  Proof. rewrite <- (firstn_skipn n l) at 2. rewrite in_app_iff. auto. Qed.

  Lemma irdp_rec_eq d2 : forall fuel is, (forall i, In i is -> i < length vertices) ->
    irdp_rec dist fuel vertices is d2 = rdp_rec idist fuel is d2.
  Proof.
    induction fuel as [|fuel IH]; intros is Hv; auto. cbn [irdp_rec rdp_rec].
    destruct (Nat.leb (length is) 2) eqn:E; auto. apply Nat.leb_gt in E.
    destruct (idx is 0) as [a| | |] eqn:Ea; auto. cbn [obind].
    destruct (idx is (length is - 1)) as [b| | |] eqn:Eb; auto. cbn [obind].
    assert (Ha : In a is) by (apply idx_val in Ea; eapply nth_error_In; eauto).
    assert (Hb : In b is) by (apply idx_val in Eb; eapply nth_error_In; eauto).
    unfold ifarthest.
    rewrite (mapM_ext_val _ (fun ip : nat * nat => (idist a b (snd ip), fst ip))).
    2:{ intros [j p] Hin. apply firstn_In, skipn_In in Hin. apply in_combine_r in Hin. simpl.
        rewrite !idx_vert by auto. reflexivity. }
    cbn [obind]. fold (farthest idist is a b).
    destruct (farthest idist is a b) as [v i].
    destruct (sleb v d2); auto.
    unfold slice_to, slice_from.
    destruct (Nat.leb (i + 1) (length is)); cbn [obind]; auto.
    rewrite IH by (intros x Hx; apply firstn_In in Hx; auto).
    destruct (rdp_rec idist fuel (firstn (i + 1) is) d2); cbn [obind]; auto.
    destruct (Nat.leb i (length is)); cbn [obind]; auto.
    rewrite IH by (intros x Hx; apply skipn_In in Hx; auto). reflexivity.
  Qed.

  Lemma indexed_rdp_agree is d : 2 < length vertices -> 2 <= length is ->
    (forall i, In i is -> i < length vertices) ->
    exists out, indexed_simplify_rdp dist vertices is d = Val out /\
      simplify_rdp dist (map vert is) d = Val (map vert out) /\ subseq out is /\ same_ends is out.
  Proof.
    intros Hn H2 Hv. unfold indexed_simplify_rdp.
    replace (Nat.leb (length vertices) 2) with false by (symmetry; apply Nat.leb_gt; auto).
    destruct is as [|i0 is]; [simpl in H2; lia|]. unfold idx at 1. simpl nth_error. cbn [obind].
    rewrite irdp_rec_eq by auto.
    destruct (rdp_rec_total idist (smul d d) (Datatypes.S (length (i0 :: is))) (i0 :: is)) as (out & E & R);
      [discriminate|lia|].
    rewrite E. cbn [obind]. exists (i0 :: out). split; auto.
    assert (Hne : is <> []) by (intros ->; simpl in H2; lia).
    assert (Th : thinned (fun _ _ _ => True) (i0 :: is) (i0 :: out)) by (eapply Rdp_thinned; eauto).
    split; [|split; [eapply thinned_subseq; eauto|]].
    - unfold simplify_rdp. rewrite map_length.
      destruct (Nat.leb (length (i0 :: is)) 2) eqn:El.
      + apply Nat.leb_le in El. destruct is as [|i1 [|]]; simpl in *; try lia.
        inversion R; subst; auto; exfalso;
        match goal with H : _ ++ [_] = [_] |- _ =>
           apply (f_equal (@length nat)) in H; rewrite ?app_length in H; simpl in H; rewrite ?app_length in H; simpl in H end;
        try lia; match goal with H : ?m <> [] |- _ => destruct m; simpl in *; [congruence|lia] end.
      + unfold idx at 1. simpl nth_error. cbn [obind].
        change (vert i0 :: map vert is) with (map vert (i0 :: is)).
        assert (R' : Rdp dist (smul d d) (map vert (i0 :: is)) (map vert out)) by (apply Rdp_map; exact R).
        rewrite (Rdp_rdp_rec dist _ _ _ R') by (rewrite map_length; lia). reflexivity.
    - split; auto. apply thinned_last in Th as (b & u & u' & -> & ->). rewrite !rev_app_distr. reflexivity.
  Qed.
End Indexed.

Lemma idx_vert_Forall2 {T} (vertices : list T) dflt is pts :
  Forall2 (fun i p => nth_error vertices i = Some p) is pts ->
  map (fun i => nth i vertices dflt) is = pts /\ (forall i, In i is -> i < length vertices).
Proof.
  intros H; induction H as [|i p is pts Hi H [IH1 IH2]]; simpl; [split; [auto|tauto]|]. split.
  - f_equal; auto. eapply nth_error_nth; eauto.
  - intros j [<-|Hj]; auto. apply nth_error_Some. congruence.
Qed.

Lemma Forall2_idx_vert {T} (vertices : list T) dflt is :
  (forall i, In i is -> i < length vertices) ->
  Forall2 (fun i p => nth_error vertices i = Some p) is (map (fun i => nth i vertices dflt) is).
Proof.
  induction is as [|i is IH]; intros H; simpl; constructor.
  - apply nth_error_nth'. apply H; left; auto.
  - apply IH. intros; apply H; right; auto.
Qed.

Lemma indexed_rdp_agree' {S : Scalar} {T} (dist : T -> T -> T -> car S) vertices is pts d :
  2 < length vertices -> 2 <= length is ->
  Forall2 (fun i p => nth_error vertices i = Some p) is pts ->
  exists iout out, indexed_simplify_rdp dist vertices is d = Val iout /\ simplify_rdp dist pts d = Val out /\
    Forall2 (fun i p => nth_error vertices i = Some p) iout out /\ subseq iout is /\ same_ends is iout.
Proof.
  intros Hn H2 HF. destruct vertices as [|v0 vs] eqn:Ev; [simpl in Hn; lia|]. rewrite <- Ev in *.
  destruct (idx_vert_Forall2 vertices v0 is pts HF) as [Em Hv].
  destruct (indexed_rdp_agree dist vertices v0 is d Hn H2 Hv) as (out & E1 & E2 & E3 & E4).
  rewrite Em in E2. exists out, (map (fun i => nth i vertices v0) out). repeat split; auto; try apply E4.
  apply Forall2_idx_vert. intros i Hi. apply Hv. eapply subseq_In; eauto.
Qed.

Local Open Scope R_scope.

(* tolerance, 2D *)
Lemma edist_le_sq p q d : 0 <= d -> sqdist p q <= d * d -> edist p q <= d.
Proof.
  intros Hd H. unfold edist. rewrite <- (sqrt_square d) by auto. apply sqrt_le_1; auto.
  - apply sqdist_nonneg. - nra.
Qed.
Lemma edist_le_sq_inv p q d : 0 <= d -> edist p q <= d -> sqdist p q <= d * d.
Proof.
  intros Hd H. unfold edist in H. pose proof (sqrt_pos (sqdist p q)).
  rewrite <- (sqrt_sqrt (sqdist p q)) by apply sqdist_nonneg. nra.
Qed.

Lemma farthest_R2 (mid : list pt) a b p : In p mid ->
  dist_line2_safe a b p <= fst (farthest (S := RS) dist_line2_safe (a :: mid ++ [b]) a b).
Proof.
  intros Hp. destruct (farthest_max (S := RS) dist_line2_safe (fun _ => True) OrdOn_R a mid b) as [_ H]; auto.
  - intros ->; contradiction.
  - specialize (H p Hp). apply Rltb_false in H. exact H.
Qed.
Lemma farthest_R3 (mid : list pt3) a b p : In p mid ->
  dist_line3_safe a b p <= fst (farthest (S := RS) dist_line3_safe (a :: mid ++ [b]) a b).
Proof.
  intros Hp. destruct (farthest_max (S := RS) dist_line3_safe (fun _ => True) OrdOn_R a mid b) as [_ H]; auto.
  - intros ->; contradiction.
  - specialize (H p Hp). apply Rltb_false in H. exact H.
Qed.

Lemma rdp2_thinned (pts : list pt) d out : 0 <= d -> pts <> [] -> simplify_rdp_2d pts d = Val out ->
  thinned (fun a b p => exists q, on_segment q a b /\ edist p q <= d) pts out.
Proof.
  intros Hd Hn E. eapply simplify_rdp_thinned; eauto.
  intros a mid b p Hm Hp _ _ _ Hle. apply Rleb_true in Hle.
  pose proof (farthest_R2 mid a b p Hp) as Hf.
  destruct (dist_line2_safe_R a b p) as [(t & Ht & Et) _].
  exists (lerp a b t). split; [exists t; auto|]. apply edist_le_sq; auto.
  rewrite <- Et. eapply Rle_trans; [exact Hf|exact Hle].
Qed.

Lemma windows_cover {A} (out : list A) p : (2 <= length out)%nat -> In p out ->
  exists a b, In (a, b) (windows out) /\ (p = a \/ p = b).
Proof.
  induction out as [|x [|y out] IH]; simpl length; intros H2 Hp; try lia.
  destruct Hp as [<-|Hp]; [exists x, y; split; [left; auto|auto]|].
  destruct out as [|z out].
  - destruct Hp as [<-|[]]. exists x, y; split; [left; auto|auto].
  - destruct IH as (a & b & Hw & Hor); [simpl; lia|auto|]. exists a, b. split; auto. right; auto.
Qed.

Lemma on_segment_l a b : on_segment a a b.
Proof. exists 0. split; [lra|]. apply V2_ext; unfold lerp; rring. Qed.
Lemma on_segment_r a b : on_segment b a b.
Proof. exists 1. split; [lra|]. apply V2_ext; unfold lerp; rring. Qed.
Lemma edist_refl a : edist a a = 0.
Proof. unfold edist, sqdist. rewrite <- sqrt_0. f_equal. ring. Qed.

Lemma rdp2_within (pts : list pt) d out : 0 <= d -> (2 <= length pts)%nat -> simplify_rdp_2d pts d = Val out ->
  forall p, In p pts -> exists a b q, In (a, b) (windows out) /\ on_segment q a b /\ edist p q <= d.
Proof.
  intros Hd H2 E p Hp.
  assert (Hn : pts <> []) by (intros ->; simpl in H2; lia).
  pose proof (rdp2_thinned pts d out Hd Hn E) as Th.
  pose proof (thinned_length2 _ _ _ Th H2) as L2.
  destruct (thinned_cover _ _ _ p Th Hp) as [Ho|(a & b & Hw & q & Hq & Hd2)].
  - destruct (windows_cover out p L2 Ho) as (a & b & Hw & [Ep|Ep]).
    + subst p. exists a, b, a. split; auto. split; [apply on_segment_l|]. rewrite edist_refl; auto.
    + subst p. exists a, b, b. split; auto. split; [apply on_segment_r|]. rewrite edist_refl; auto.
  - exists a, b, q. auto.
Qed.

Lemma rdp2_unchanged (pts : list pt) d : 0 <= d ->
  (forall pre a mid b post, pts = pre ++ a :: mid ++ b :: post -> mid <> [] ->
     exists p, In p mid /\ forall q, on_segment q a b -> d < edist p q) ->
  simplify_rdp_2d pts d = Val pts.
Proof.
  intros Hd HK. apply simplify_rdp_unchanged. intros pre a mid b post E Hm.
  destruct (HK pre a mid b post E Hm) as (p & Hp & Hq).
  apply Rleb_false. pose proof (farthest_R2 mid a b p Hp) as Hf.
  destruct (dist_line2_safe_R a b p) as [(t & Ht & Et) _].
  eapply Rlt_le_trans; [|exact Hf]. rewrite Et.
  assert (Hs : d < edist p (lerp a b t)) by (apply Hq; exists t; auto).
  apply Rnot_le_lt. intros Hc. apply edist_le_sq in Hc; auto. lra.
Qed.

Lemma rdp2_zero (pts : list pt) out : (2 <= length pts)%nat -> simplify_rdp_2d pts 0 = Val out ->
  forall p, In p pts -> exists a b, In (a, b) (windows out) /\ on_segment p a b.
Proof.
  intros H2 E p Hp. destruct (rdp2_within pts 0 out (Rle_refl 0) H2 E p Hp) as (a & b & q & Hw & Hq & Hd).
  apply edist_le_sq_inv in Hd; [|lra]. exists a, b. split; auto.
  replace p with q; auto. unfold sqdist in Hd.
  pose proof (sq_nn (vx p - vx q)). pose proof (sq_nn (vy p - vy q)).
  apply V2_ext; simpl in *; nra.
Qed.

Lemma rdp3_thinned (pts : list pt3) d out : 0 <= d -> pts <> [] -> simplify_rdp_3d pts d = Val out ->
  thinned (fun a b p => exists t, edist3 p (lerp3 a b t) <= d) pts out.
Proof.
  intros Hd Hn E. eapply simplify_rdp_thinned; eauto.
  intros a mid b p Hm Hp _ _ _ Hle. apply Rleb_true in Hle.
  pose proof (farthest_R3 mid a b p Hp) as Hf.
  assert (exists t, dist_line3_safe a b p = sqdist3 p (lerp3 a b t)) as (t & Et).
  { destruct (weqb a b) eqn:Eab.
    - apply weqb_R in Eab. subst b. exists 0. rewrite dist_line3_safe_point.
      unfold sqdist3, lerp3; simpl; ring.
    - apply dist_line3_safe_R. intros ->. assert (weqb b b = true) by (apply weqb_R; auto). congruence. }
  exists t. unfold edist3. rewrite <- (sqrt_square d) by auto. apply sqrt_le_1.
  - unfold sqdist3. pose proof (sq_nn (wx p - wx (lerp3 a b t))). pose proof (sq_nn (wy p - wy (lerp3 a b t))).
    pose proof (sq_nn (wz p - wz (lerp3 a b t))). simpl in *. lra.
  - nra.
  - rewrite <- Et. eapply Rle_trans; [exact Hf|exact Hle].
Qed.

(* counterexample: the middle point overshoots the segment along its own direction *)
Definition c13_pts : list pt3 := [@mkV3 RS 0 0 0; @mkV3 RS 10 0 0; @mkV3 RS 1 0 0].
Lemma c13_eval : simplify_rdp_3d c13_pts 1 = Val [@mkV3 RS 0 0 0; @mkV3 RS 1 0 0].
Proof.
  unfold simplify_rdp_3d, simplify_rdp, c13_pts. cbn [length Nat.leb idx nth_error obind rdp_rec Nat.sub].
  unfold farthest, enumerate. cbn [length seq combine skipn firstn Nat.sub map max_by fold_left snd fst].
  replace (sleb _ _) with true; [reflexivity|]. symmetry. apply Rleb_true.
  destruct (dist_line3_safe_R (@mkV3 RS 0 0 0) (@mkV3 RS 1 0 0) (@mkV3 RS 10 0 0)) as [_ H].
  { intros E. apply (f_equal wx) in E. simpl in E. lra. }
  eapply Rle_trans; [apply (H 10)|]. unfold sqdist3, lerp3; simpl. lra.
Qed.
Lemma c13_refuted : exists (pts : list pt3) d out, 0 <= d /\ simplify_rdp_3d pts d = Val out /\
  exists p, In p pts /\ forall a b t, In (a, b) (windows out) -> 0 <= t <= 1 -> d < edist3 p (lerp3 a b t).
Proof.
  exists c13_pts, 1, [@mkV3 RS 0 0 0; @mkV3 RS 1 0 0]. split; [lra|]. split; [exact c13_eval|].
  exists (@mkV3 RS 10 0 0). split; [right; left; auto|].
  intros a b t [E|[]] Ht. injection E as <- <-. unfold edist3, sqdist3, lerp3. simpl.
  rewrite <- sqrt_1 at 1. apply sqrt_lt_1; nra.
Qed.
