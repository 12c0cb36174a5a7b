(* Proofs about parabolic arc sampling (Parabola.v). *)
From Coq Require Import Reals Lra Psatz Sorting.Sorted.
From Verif Require Import Prelude Scalar RInst Geo2 GeoSpec DistR Parabola.

(* ---- any scalar: what the loop does to rv ---- *)
Section Any.
  Context {S : Scalar} {P : Type} (mk : V2 S -> P) (c : Arc S) (mdt : car S).

  Lemma ploop_more fuel fuel' st v : ploop mk c mdt fuel st = Val v -> fuel <= fuel' -> ploop mk c mdt fuel' st = Val v.
  Proof.
    revert fuel' st. induction fuel as [|f IH]; intros fuel' st H Hle.
    - destruct fuel'; cbn in *; destruct (pstack st); congruence.
    - destruct fuel' as [|f']; [lia|]. cbn in *. destruct (pstack st); [auto|]. apply IH; auto. lia.
  Qed.

  (* rv only grows, and strictly before the loop ends when the stack is not empty *)
  Lemma ploop_grows fuel : forall st v, ploop mk c mdt fuel st = Val v ->
    exists t, v = prv st ++ t /\ (pstack st <> [] -> t <> []).
  Proof.
    induction fuel as [|f IH]; intros st v H; cbn in H; destruct (pstack st) as [|x r] eqn:Es; try discriminate.
    - injection H as <-. exists []. rewrite app_nil_r. auto.
    - injection H as <-. exists []. rewrite app_nil_r. split; auto.
    - apply IH in H as (t & -> & Ht). unfold pstep in *. rewrite Es in *. destruct (sleb _ _); cbn [prv pstack] in *.
      + exists (mk (untransform c x (parabola_y x (rot_x c) (rot_y c))) :: t). rewrite <- app_assoc. split; auto. congruence.
      + exists t. split; auto. intros _. apply Ht. congruence.
  Qed.

  Fixpoint piter (n : nat) (st : PState S P) : PState S P := match n with O => st | Datatypes.S k => piter k (pstep mk c mdt st) end.
  Lemma piter_add n m st : piter (n + m) st = piter m (piter n st).
  Proof. revert st; induction n; intros; cbn; auto. Qed.
  Lemma ploop_piter n st : pstack (piter n st) = [] -> ploop mk c mdt n st = Val (prv (piter n st)).
  Proof.
    revert st; induction n as [|n IH]; intros st H; cbn in *.
    - rewrite H. auto.
    - destruct (pstack st) eqn:Es; [|auto].
      assert (E : pstep mk c mdt st = st) by (unfold pstep; rewrite Es; auto). rewrite E in *.
      assert (G : forall m, piter m st = st) by (induction m; cbn; [auto|rewrite E; auto]). rewrite G. auto.
  Qed.
End Any.

Lemma Sorted_glue {A} (Q : A -> A -> Prop) u xs1 m xs2 :
  Sorted Q (u :: xs1) -> Sorted Q (m :: xs2) -> (exists ys, xs1 = ys ++ [m]) -> Sorted Q (u :: xs1 ++ xs2).
Proof.
  intros S1 S2 [ys ->]. revert u S1. induction ys as [|y ys IH]; intros u Hs; cbn [app] in *.
  - apply Sorted_inv in Hs as [H1 H2]. apply HdRel_inv in H2. constructor; auto.
  - apply Sorted_inv in Hs as [H1 H2]. apply HdRel_inv in H2. constructor; auto.
Qed.

Local Open Scope R_scope.
Section Exact.
  Variable c : Arc RS.
  Notation a := (rot_x c).
  Notation b := (rot_y c).
  Notation L := (sqr_segment_length c).
  Definition fy (x : R) : R := @parabola_y RS x a b.
  Variable T : R.
  Hypothesis Hb : (b : R) <> 0.

  Lemma fy_eq x : fy x = ((x - a) * (x - a) + b * b) / (2 * b).
  Proof. unfold fy, parabola_y. rsimp. field. rsimp. lra. Qed.

  Definition slope (u v : R) : R := (u + v - 2 * a) / (2 * b).
  Lemma fy_diff u v : fy v - fy u = (v - u) * slope u v.
  Proof. rewrite !fy_eq. unfold slope. field. auto. Qed.
  Lemma mid_eq u v : u <> v -> @mid_of RS c u (fy u) v (fy v) = (u + v) / 2.
  Proof. intros H. unfold mid_of. rsimp. rewrite fy_diff. unfold slope. field. split; auto. lra. Qed.
  Lemma dist_eq u v : u <> v -> @dist_of RS c u (fy u) v (fy v) ((u + v) / 2) (fy ((u + v) / 2)) =
     (v - u) ^ 4 / (64 * (b * b) * (1 + slope u v * slope u v)).
  Proof.
    intros H. unfold dist_of. rsimp. rewrite !fy_diff.
    assert (K : (v - u) * slope u v * ((u + v) / 2 - u) - (v - u) * (((u + v) / 2 - u) * slope u ((u + v) / 2)) = (v - u) ^ 3 / (8 * b)).
    { unfold slope. field. auto. }
    rewrite K. assert (D : (v - u) * slope u v * ((v - u) * slope u v) + (v - u) * (v - u) = (v - u) ^ 2 * (1 + slope u v * slope u v)) by ring.
    rewrite D. pose proof (sq_nn (slope u v)). field. repeat split; try lra; auto.
  Qed.

  (* an accepted chord from u to v, walking in direction D *)
  Definition acc (D u v : R) : Prop :=
    0 < (v - u) * D /\ (v - u) ^ 4 <= 64 * (b * b) * (1 + slope u v * slope u v) * T.

  Lemma bb_pos : 0 < b * b. Proof. apply sq_pos; auto. Qed.

  Lemma test_acc u v : u <> v ->
    (@dist_of RS c u (fy u) v (fy v) (@mid_of RS c u (fy u) v (fy v)) (fy (@mid_of RS c u (fy u) v (fy v))) <= T <->
     (v - u) ^ 4 <= 64 * (b * b) * (1 + slope u v * slope u v) * T).
  Proof.
    intros H. rewrite mid_eq, dist_eq by auto. pose proof bb_pos. pose proof (sq_nn (slope u v)).
    assert (Hd : 0 < 64 * (b * b) * (1 + slope u v * slope u v)) by (apply Rmult_lt_0_compat; lra).
    split; intros G.
    - apply Rmult_le_compat_l with (r := 64 * (b * b) * (1 + slope u v * slope u v)) in G; [|lra].
      replace (64 * (b * b) * (1 + slope u v * slope u v) * ((v - u) ^ 4 / (64 * (b * b) * (1 + slope u v * slope u v)))) with ((v - u) ^ 4) in G; auto.
      field. split; [lra|]. auto.
    - apply Rmult_le_reg_l with (64 * (b * b) * (1 + slope u v * slope u v)); auto.
      replace (64 * (b * b) * (1 + slope u v * slope u v) * ((v - u) ^ 4 / (64 * (b * b) * (1 + slope u v * slope u v)))) with ((v - u) ^ 4); auto.
      field. split; [lra|]. auto.
  Qed.

  Context {P : Type} (mk : pt -> P).
  Definition sample (x : R) : P := mk (@untransform RS c x (fy x)).

  Lemma process (n : nat) : forall u v rest rv, u <> v -> 0 < T -> (v - u) ^ 4 <= 16 ^ n * (64 * (b * b) * T) ->
    exists k xs, piter mk c T k (@mkP RS P (v :: rest) u (fy u) rv) = @mkP RS P rest v (fy v) (rv ++ map sample xs) /\
      Sorted (acc (v - u)) (u :: xs) /\ (exists ys, xs = ys ++ [v]).
  Proof.
    assert (Pass : forall u v rest rv, u <> v -> (v - u) ^ 4 <= 64 * (b * b) * (1 + slope u v * slope u v) * T ->
      exists k xs, piter mk c T k (@mkP RS P (v :: rest) u (fy u) rv) = @mkP RS P rest v (fy v) (rv ++ map sample xs) /\
      Sorted (acc (v - u)) (u :: xs) /\ (exists ys, xs = ys ++ [v])).
    { intros u v rest rv Hne Hle. exists 1%nat, [v]. split; [|split].
      - cbn [piter]. unfold pstep. cbn [pstack cur_x cur_y prv]. fold (fy v).
        assert (E : @sleb RS (@dist_of RS c u (fy u) v (fy v) (@mid_of RS c u (fy u) v (fy v)) (@parabola_y RS (@mid_of RS c u (fy u) v (fy v)) a b)) T = true).
        { apply Rleb_true. apply (test_acc u v Hne). auto. }
        rewrite E. reflexivity.
      - constructor; [constructor; constructor|]. constructor. split; auto. apply sq_pos. lra.
      - exists []. auto. }
    induction n as [|n IH]; intros u v rest rv Hne HT Hle.
    - apply Pass; auto. rewrite pow_O, Rmult_1_l in Hle. pose proof bb_pos as Hbb. pose proof (sq_nn (slope u v)) as Hs.
      eapply Rle_trans; [apply Hle|]. revert Hbb Hs HT. generalize (b * b), (slope u v * slope u v). clear. intros x y Hx Hy HT.
      assert (0 < x * T) by (apply Rmult_lt_0_compat; auto). assert (0 <= x * T * y) by (apply Rmult_le_pos; lra). lra.
    - destruct (Rle_dec ((v - u) ^ 4) (64 * (b * b) * (1 + slope u v * slope u v) * T)) as [G|G]; [apply Pass; auto|].
      set (m := (u + v) / 2).
      assert (Hq : forall w, (w / 2) ^ 4 = w ^ 4 / 16) by (intros; field).
      rewrite <- (tech_pow_Rmult 16 n), (Rmult_assoc 16) in Hle.
      assert (Hh : forall w K : R, w ^ 4 <= 16 * K -> (w / 2) ^ 4 <= K) by (intros; rewrite Hq; lra).
      assert (Hm1 : (m - u) ^ 4 <= 16 ^ n * (64 * (b * b) * T)).
      { replace (m - u) with ((v - u) / 2) by (unfold m; field). apply Hh. exact Hle. }
      assert (Hm2 : (v - m) ^ 4 <= 16 ^ n * (64 * (b * b) * T)).
      { replace (v - m) with ((v - u) / 2) by (unfold m; field). apply Hh. exact Hle. }
      destruct (IH u m (v :: rest) rv) as (k1 & xs1 & E1 & S1 & ys1 & Ey1); auto; [unfold m; lra|].
      destruct (IH m v rest (rv ++ map sample xs1)) as (k2 & xs2 & E2 & S2 & ys2 & Ey2); auto; [unfold m; lra|].
      exists (1 + k1 + k2)%nat, (xs1 ++ xs2). split; [|split].
      + rewrite !piter_add. assert (E0 : piter mk c T 1 (@mkP RS P (v :: rest) u (fy u) rv) = @mkP RS P (m :: v :: rest) u (fy u) rv).
        { cbn [piter]. unfold pstep. cbn [pstack cur_x cur_y prv]. fold (fy v).
          assert (E : @sleb RS (@dist_of RS c u (fy u) v (fy v) (@mid_of RS c u (fy u) v (fy v)) (@parabola_y RS (@mid_of RS c u (fy u) v (fy v)) a b)) T = false).
          { apply Rleb_false. apply Rnot_le_lt. intros K. apply G. apply (test_acc u v Hne). exact K. }
          rewrite E, mid_eq by auto. reflexivity. }
        rewrite E0, E1, E2. rewrite map_app, app_assoc. auto.
      + assert (Wk : forall D D' p q, 0 < D * D' -> acc D p q -> acc D' p q).
        { intros D D' p q HD [A1 A2]. split; auto. destruct (Rlt_dec 0 D); nra. }
        assert (Wl : forall D D' l, 0 < D * D' -> Sorted (acc D) l -> Sorted (acc D') l).
        { intros D D' l HD Hs. induction Hs as [|p l Hs IHs Hhd]; constructor; auto. destruct Hhd; constructor; eauto. }
        assert (P1 : 0 < (v - u) * (v - u)) by (apply sq_pos; lra).
        assert (S1' : Sorted (acc (v - u)) (u :: xs1)) by (apply (Wl (m - u)); auto; unfold m; lra).
        assert (S2' : Sorted (acc (v - u)) (m :: xs2)) by (apply (Wl (v - m)); auto; unfold m; lra).
        apply (Sorted_glue _ u xs1 m xs2); auto. exists ys1. auto.
      + exists (xs1 ++ ys2). rewrite Ey2, app_assoc. auto.
  Qed.
End Exact.

From Verif Require Import ParaSpec.

Section Frame.
  Variable c : Arc RS.
  Notation A := (lstart (segment c)).
  Notation B := (lend (segment c)).
  Notation L := (sqr_segment_length c).
  Definition X (m : pt) : R := along A B m.
  Definition Y (m : pt) : R := orient A B m.
  Hypothesis HL : (L : R) <> 0.

  Ltac flat := unfold X, Y, along, orient, untransform, sqr_segment_length, segm_vec_x, segm_vec_y, rot_x, rot_y, point_vec_x, point_vec_y, sqdist, lerp in *; rsimp.

  Lemma L_pos : 0 < L.
  Proof. revert HL. flat. intros H. pose proof (sq_nn (vx B - vx A)). pose proof (sq_nn (vy B - vy A)). rsimp. lra. Qed.
  Lemma X_un x y : X (@untransform RS c x y) = x.
  Proof. revert HL. flat. destruct c as [[[a1 a2] [b1 b2]] [c1 c2] s e]. flat. cbn. intros. field. auto. Qed.
  Lemma Y_un x y : Y (@untransform RS c x y) = y.
  Proof. revert HL. flat. destruct c as [[[a1 a2] [b1 b2]] [c1 c2] s e]. flat. cbn. intros. field. auto. Qed.
  Lemma un_XY m : @untransform RS c (X m) (Y m) = m.
  Proof. revert HL. flat. destruct c as [[[a1 a2] [b1 b2]] [c1 c2] s e], m as [m1 m2]. flat. cbn. intros. apply V2_ext; cbn; field; auto. Qed.
  Lemma sq_un x y x' y' : sqdist (@untransform RS c x y) (@untransform RS c x' y') = ((x - x') * (x - x') + (y - y') * (y - y')) / L.
  Proof. revert HL. flat. destruct c as [[[a1 a2] [b1 b2]] [c1 c2] s e]. flat. cbn. intros. field. auto. Qed.
  Lemma lerp_un x y x' y' t : lerp (@untransform RS c x y) (@untransform RS c x' y') t = @untransform RS c (x + t * (x' - x)) (y + t * (y' - y)).
  Proof. revert HL. flat. destruct c as [[[a1 a2] [b1 b2]] [c1 c2] s e]. flat. cbn. intros. apply V2_ext; cbn; field; auto. Qed.
  Lemma lerp_AB t : lerp A B t = @untransform RS c (t * L) 0.
  Proof. revert HL. flat. destruct c as [[[a1 a2] [b1 b2]] [c1 c2] s e]. flat. cbn. intros. apply V2_ext; cbn; field; auto. Qed.
  Lemma rot_X : (rot_x c : R) = X (cell_point c). Proof. flat. destruct c as [[[a1 a2] [b1 b2]] [c1 c2] s e]. cbn. ring. Qed.
  Lemma rot_Y : (rot_y c : R) = Y (cell_point c). Proof. flat. destruct c as [[[a1 a2] [b1 b2]] [c1 c2] s e]. cbn. ring. Qed.
  Lemma proj_X (m : pt) : @point_projection RS (vx m) (vy m) (segment c) * L = X m.
  Proof. revert HL. unfold point_projection. flat. destruct c as [[[a1 a2] [b1 b2]] [c1 c2] s e], m as [m1 m2]. flat. cbn. intros. field. auto. Qed.

  Hypothesis Hb : (rot_y c : R) <> 0.
  Lemma equi_iff m : equidistant A B (cell_point c) m <-> Y m = fy c (X m).
  Proof.
    assert (Ec : cell_point c = @untransform RS c (rot_x c) (rot_y c)) by (rewrite rot_X, rot_Y, un_XY; auto).
    assert (Hf : forall t, sqdist m (@untransform RS c t 0) = ((X m - t) * (X m - t) + Y m * Y m) / L).
    { intros t. rewrite <- (un_XY m) at 1. rewrite sq_un. f_equal. ring. }
    assert (Hd : forall x y, (vx m - vx (@untransform RS c x y)) * (vx B - vx A) + (vy m - vy (@untransform RS c x y)) * (vy B - vy A) = X m - x).
    { intros x y. rewrite <- (X_un x y) at 3. unfold X, along. rsimp. ring. }
    assert (Hc : sqdist m (cell_point c) = ((X m - rot_x c) * (X m - rot_x c) + (Y m - rot_y c) * (Y m - rot_y c)) / L).
    { rewrite Ec. rewrite <- (un_XY m) at 1. rewrite sq_un. reflexivity. }
    pose proof L_pos as HLp.
    unfold equidistant, foot. rewrite Hc, (fy_eq c Hb). split.
    - intros (h & ((t & ->) & Hp) & Hs). rewrite lerp_AB in *. rewrite Hd in Hp. rewrite Hf in Hs.
      set (a := rot_x c) in *. set (b := rot_y c) in *. set (l := L) in *. change (car RS) with R in *. clearbody a b l.
      assert (Et : t * l = X m) by lra. rewrite Et in Hs.
      apply Rmult_eq_reg_r with (2 * b); [|intros K; apply Hb; lra].
      apply (f_equal (fun x => x * l)) in Hs. unfold Rdiv in Hs. rewrite !Rmult_assoc, Rinv_l in Hs by auto. field_simplify; auto. lra.
    - intros HY. exists (lerp A B (X m / L)). split; [split|].
      + eexists. reflexivity.
      + rewrite lerp_AB, Hd. rsimp. field. auto.
      + rewrite lerp_AB, Hf, HY. set (a := rot_x c) in *. set (b := rot_y c) in *. set (l := L) in *. change (car RS) with R in *. clearbody a b l. field. auto.
  Qed.
End Frame.

Lemma pow16 (x E : R) : 0 < E -> exists n : nat, x <= 16 ^ n * E.
Proof.
  intros HE. destruct (Pow_x_infinity 16 ltac:(rewrite Rabs_right; lra) (x / E)) as [n Hn].
  exists n. specialize (Hn n ltac:(lia)). rewrite Rabs_right in Hn by (apply Rle_ge, pow_le; lra).
  apply Rge_le in Hn. apply Rmult_le_compat_r with (r := E) in Hn; [|lra].
  replace (x / E * E) with x in Hn by (field; lra). auto.
Qed.

Section Result.
  Variable c : Arc RS.
  Context {P : Type} (mk : pt -> P).
  Notation b := (rot_y c).
  Hypothesis Hb : (b : R) <> 0.

  (* with a zero tolerance no chord is ever accepted *)
  Lemma ploop_zero fuel : forall u v rest rv out, u <> v ->
    ploop mk c 0 fuel (@mkP RS P (v :: rest) u (fy c u) rv) <> Val out.
  Proof.
    induction fuel as [|f IH]; intros u v rest rv out Hne; [discriminate|].
    cbn [ploop pstack]. unfold pstep. cbn [pstack cur_x cur_y prv]. fold (fy c v).
    assert (E : @sleb RS (@dist_of RS c u (fy c u) v (fy c v) (@mid_of RS c u (fy c u) v (fy c v)) (@parabola_y RS (@mid_of RS c u (fy c u) v (fy c v)) (rot_x c) b)) 0 = false).
    { apply Rleb_false. apply Rnot_le_lt. intros K. apply (test_acc c 0 Hb u v Hne) in K. rewrite Rmult_0_r in K.
      assert (0 < (v - u) ^ 4). { replace ((v - u) ^ 4) with ((v - u) * (v - u) * ((v - u) * (v - u))) by ring. apply sq_pos. assert (0 < (v - u) * (v - u)) by (apply sq_pos; lra). lra. }
      lra. }
    rewrite E, (mid_eq c Hb) by auto. apply IH. lra.
  Qed.

  Lemma ploop_result (T u v : R) rv : u <> v -> 0 < T ->
    exists n xs ys, xs = ys ++ [v] /\ Sorted (acc c T (v - u)) (u :: xs) /\
      (forall fuel, (n <= fuel)%nat -> ploop mk c T fuel (@mkP RS P [v] u (fy c u) rv) = Val (rv ++ map (sample c mk) xs)) /\
      (forall fuel out, ploop mk c T fuel (@mkP RS P [v] u (fy c u) rv) = Val out -> out = rv ++ map (sample c mk) xs).
  Proof.
    intros Hne HT.
    assert (HE : 0 < 64 * (b * b) * T). { pose proof (bb_pos c Hb). apply Rmult_lt_0_compat; auto. lra. }
    destruct (pow16 ((v - u) ^ 4) _ HE) as [N HN].
    destruct (process c T Hb mk N u v [] rv Hne HT HN) as (k & xs & E & Hs & ys & Hy).
    assert (Ek : ploop mk c T k (@mkP RS P [v] u (fy c u) rv) = Val (rv ++ map (sample c mk) xs)).
    { rewrite ploop_piter; rewrite E; auto. }
    exists k, xs, ys. split; [auto|]. split; [auto|]. split.
    - intros fuel Hf. eapply ploop_more; eauto.
    - intros fuel out Ho.
      assert (H1 : ploop mk c T (fuel + k) (@mkP RS P [v] u (fy c u) rv) = Val out) by (eapply ploop_more; eauto; lia).
      assert (H2 : ploop mk c T (fuel + k) (@mkP RS P [v] u (fy c u) rv) = Val (rv ++ map (sample c mk) xs)) by (eapply ploop_more; eauto; lia).
      congruence.
  Qed.
End Result.

(* discretize_2d and discretize_3d as one *)
Definition disc {S : Scalar} {P} (mk : V2 S -> P) (fuel : nat) (c : Arc S) (mdt u v : car S) : outcome (list P) :=
  match ploop mk c mdt fuel (mkP [v] u (parabola_y u (rot_x c) (rot_y c)) [mk (start_point c)]) with
  | Val rv => set_last rv (mk (end_point c))
  | Panic => Panic | NoFuel => NoFuel | Fail e => Fail e
  end.
Lemma disc_ends {S : Scalar} {P} (mk : V2 S -> P) fuel c mdt u v out :
  disc mk fuel c mdt u v = Val out -> exists l, out = mk (start_point c) :: l ++ [mk (end_point c)].
Proof.
  unfold disc. destruct (ploop _ _ _ _ _) as [rv| | |] eqn:E; try discriminate.
  apply ploop_grows in E as (t & -> & Ht). cbn [prv pstack] in *. specialize (Ht ltac:(discriminate)).
  destruct t as [|y t]; [congruence|]. unfold set_last. cbn [app]. intros H; injection H as <-.
  exists (removelast (y :: t)). auto.
Qed.

Section Main.
  Variable c : Arc RS.
  Context {P : Type} (mk : pt -> P).
  Notation A := (lstart (segment c)).
  Notation B := (lend (segment c)).
  Notation f := (cell_point c).
  Notation L := (sqr_segment_length c).
  Hypothesis Hp : proper_arc A B f (start_point c) (end_point c).

  Lemma proper_L : (L : R) <> 0.
  Proof.
    destruct Hp as (H1 & _). intros K. apply H1. revert K. unfold sqr_segment_length, segm_vec_x, segm_vec_y. rsimp. intros K.
    pose proof (sq_nn (vx B - vx A)). pose proof (sq_nn (vy B - vy A)).
    assert (E1 : (vx B - vx A) * (vx B - vx A) = 0) by (rsimp; lra). assert (E2 : (vy B - vy A) * (vy B - vy A) = 0) by (rsimp; lra).
    apply V2_ext.
    - apply Rmult_integral in E1. destruct E1; lra.
    - apply Rmult_integral in E2. destruct E2; lra.
  Qed.
  Lemma proper_b : (rot_y c : R) <> 0.
  Proof. rewrite rot_Y by apply proper_L. destruct Hp as (_ & H & _). exact H. Qed.

  Notation u := (X c (start_point c)).
  Notation v := (X c (end_point c)).
  Lemma proper_uv : u <> v. Proof. destruct Hp as (_ & _ & H). exact H. Qed.

  Lemma disc_result (d : R) : d <> 0 ->
    exists n ys, Sorted (acc c (d * d * L) (v - u)) (u :: ys ++ [v]) /\
      (forall fuel, (n <= fuel)%nat -> disc mk fuel c (d * d * L) u v = Val (mk (start_point c) :: map (sample c mk) ys ++ [mk (end_point c)])) /\
      (forall fuel out, disc mk fuel c (d * d * L) u v = Val out -> out = mk (start_point c) :: map (sample c mk) ys ++ [mk (end_point c)]).
  Proof.
    intros Hd.
    assert (HT : 0 < d * d * L). { apply Rmult_lt_0_compat; [apply sq_pos; auto|]. apply L_pos, proper_L. }
    destruct (ploop_result c mk proper_b _ u v [mk (start_point c)] proper_uv HT) as (n & xs & ys & -> & Hs & H1 & H2).
    assert (Hl : set_last ([mk (start_point c)] ++ map (sample c mk) (ys ++ [v])) (mk (end_point c)) = Val (mk (start_point c) :: map (sample c mk) ys ++ [mk (end_point c)])).
    { unfold set_last. cbn [app]. rewrite map_app. cbn [map]. rewrite app_comm_cons, removelast_last. auto. }
    exists n, ys. split; [auto|]. unfold disc. split.
    - intros fuel Hf. unfold fy in H1. rewrite H1 by auto. auto.
    - intros fuel out. unfold fy in H2. destruct (ploop _ _ _ _ _) as [rv| | |] eqn:E; try discriminate.
      apply H2 in E. rewrite E, Hl. congruence.
  Qed.
  Lemma disc_zero fuel out : disc mk fuel c (0 * 0 * L) u v <> Val out.
  Proof.
    unfold disc. replace (0 * 0 * L) with 0 by (rsimp; ring).
    destruct (ploop _ _ _ _ _) as [rv| | |] eqn:E; try discriminate.
    exfalso. eapply (ploop_zero c mk proper_b); [apply proper_uv|]. exact E.
  Qed.
End Main.

(* ---- the chord error ---- *)
Section Chord.
  Variable c : Arc RS.
  Notation a := (rot_x c).
  Notation b := (rot_y c).
  Notation L := (sqr_segment_length c).
  Hypothesis HL : (L : R) <> 0.
  Hypothesis Hb : (b : R) <> 0.
  Notation at_ x := (@untransform RS c x (fy c x)).

  Lemma chord_error (u v w d : R) : u <> v -> between u w v ->
    (v - u) ^ 4 <= 64 * (b * b) * (1 + slope c u v * slope c u v) * (d * d * L) ->
    exists t, sqdist (at_ w) (lerp (at_ u) (at_ v) t) <= d * d /\ (~ strictly_between u a v -> 0 <= t <= 1).
  Proof.
    intros Huv Hw Hacc. set (s := slope c u v) in *.
    pose proof (sq_nn s) as Hs. pose proof (bb_pos c Hb) as Hbb. pose proof (L_pos c HL) as HLp.
    set (t := (w - u) * (1 + s * slope c u w) / ((v - u) * (1 + s * s))). exists t.
    assert (D1 : v - u <> 0) by lra. assert (D2 : 1 + s * s <> 0) by lra.
    split.
    - rewrite lerp_un, sq_un by auto.
      assert (Ef : fy c v - fy c u = (v - u) * s) by apply (fy_diff c Hb).
      rewrite Ef. assert (Eg : fy c w = fy c u + (w - u) * slope c u w) by (pose proof (fy_diff c Hb u w); lra). rewrite Eg.
      assert (Es : slope c u w = s - (v - w) / (2 * b)). { unfold s, slope. field. auto. }
      set (g := (w - u) * (v - w) / (2 * b)).
      assert (Et : t * (v - u) = (w - u) - s * g / (1 + s * s)).
      { unfold t. rewrite Es. unfold g. field. repeat split; auto. }
      assert (E : ((w - (u + t * (v - u))) * (w - (u + t * (v - u))) + (fy c u + (w - u) * slope c u w - (fy c u + t * ((v - u) * s))) * (fy c u + (w - u) * slope c u w - (fy c u + t * ((v - u) * s)))) = g * g / (1 + s * s)).
      { replace (t * ((v - u) * s)) with (t * (v - u) * s) by ring. rewrite Et, Es.
        replace ((w - u) * (s - (v - w) / (2 * b))) with ((w - u) * s - g) by (unfold g; field; auto).
        field. auto. }
      rewrite E. clear E Et.
      apply Rmult_le_reg_r with (L * (1 + s * s)); [apply Rmult_lt_0_compat; auto; lra|].
      replace (g * g / (1 + s * s) / L * (L * (1 + s * s))) with (g * g) by (field; auto).
      apply Rmult_le_reg_r with (64 * (b * b)); [lra|].
      eapply Rle_trans; [|eapply Rle_trans; [apply Hacc|]]; [|right; rsimp; ring].
      replace (g * g * (64 * (b * b))) with (16 * (((w - u) * (v - w)) * ((w - u) * (v - w)))) by (unfold g; field; auto).
      assert (0 <= (w - u) * (v - w)) by (destruct Hw; nra).
      assert ((w - u) * (v - w) * 4 <= (v - u) * (v - u)) by (pose proof (sq_nn (2 * w - u - v)); nra).
      replace ((v - u) ^ 4) with ((v - u) * (v - u) * ((v - u) * (v - u))) by ring.
      replace (16 * ((w - u) * (v - w) * ((w - u) * (v - w)))) with ((w - u) * (v - w) * 4 * ((w - u) * (v - w) * 4)) by ring.
      apply Rmult_le_compat; lra.
    - intros Ha.
      assert (Hbi : 0 < / (4 * (b * b))) by (apply Rinv_0_lt_compat; lra).
      assert (Key : forall p, between u p v -> 0 <= s * ((p + w - 2 * a) / (2 * b))).
      { intros p Hpp. replace (s * ((p + w - 2 * a) / (2 * b))) with (((u + v - 2 * a) * (p + w - 2 * a)) * / (4 * (b * b))) by (unfold s, slope; field; auto).
        apply Rmult_le_pos; [|lra].
        assert (Hside : (u <= a /\ v <= a) \/ (a <= u /\ a <= v)).
        { unfold strictly_between in Ha. rsimp. destruct (Rle_dec u a), (Rle_dec v a); try (left; lra); try (right; lra); exfalso; apply Ha; lra. }
        destruct Hside as [[? ?]|[? ?]].
        - assert (u + v - 2 * a <= 0) by lra. assert (p + w - 2 * a <= 0) by (destruct Hpp, Hw; lra). rsimp. nra.
        - assert (0 <= u + v - 2 * a) by lra. assert (0 <= p + w - 2 * a) by (destruct Hpp, Hw; lra). rsimp. nra. }
      assert (Frac : forall x y z, x * y >= 0 -> y <> 0 -> 0 <= z -> 0 <= x * (1 + z) / (y * (1 + s * s))).
      { intros x y z Hxy Hy Hz. replace (x * (1 + z) / (y * (1 + s * s))) with (x * y * (1 + z) * / (y * y * (1 + s * s))) by (field; auto).
        assert (0 < y * y) by (apply sq_pos; auto).
        apply Rmult_le_pos; [apply Rmult_le_pos; lra|]. left. apply Rinv_0_lt_compat. apply Rmult_lt_0_compat; lra. }
      split.
      + unfold t. apply Frac; auto; [destruct Hw; nra|]. unfold slope at 1. apply Key. destruct Hw; [left|right]; lra.
      + assert (E : 1 - t = (v - w) * (1 + s * ((v + w - 2 * a) / (2 * b))) / ((v - u) * (1 + s * s))).
        { unfold t, s, slope. field. repeat split; auto. revert D2. unfold s, slope. intros D2 K. apply D2.
          replace ((u + v - 2 * a) / (2 * b) * ((u + v - 2 * a) / (2 * b))) with ((u + v - 2 * a) * (u + v - 2 * a) / (4 * (b * b))) by (field; auto).
          apply Rmult_eq_reg_r with (4 * (b * b)); [|lra]. rewrite Rmult_0_l, <- K. field. auto. }
        assert (0 <= 1 - t); [|lra]. rewrite E. apply Frac; auto; [destruct Hw; nra|]. apply Key. destruct Hw; [left|right]; lra.
  Qed.
End Chord.
