(* Discretizing in floats (src/linestring_2d.rs:1579-1655, src/linestring_3d.rs:704-780): the number of steps of an edge, and the
   distance of the computed points from the exact ones. *)
From Coq Require Import ZArith NArith Reals Lra Lia Psatz Sorting.Sorted Floats.SpecFloat.
From Flocq Require Import Core BinarySingleNaN Relative.
From Verif Require Import Prelude Scalar RInst Flt GeoSpec FloatSpec FloatLink FloatRound FloatGrid FloatBox FloatAffine FloatPoint Discretize DiscSpec DiscProofs DistR.
Local Open Scope R_scope.

(* ---- error propagation, in real numbers ---- *)
Section Real.
  Context (rnd : R -> R) (u eta : R) (Hu : 0 < u <= / 1024).
  Context (rerr : forall x M, Rabs x <= M -> eta <= M -> Rabs (rnd x - x) <= u * M).

  Lemma u_small X : 0 <= X -> (0 <= u * X <= X / 1024) /\ (0 <= u * (u * X) <= u * X / 1024).
  Proof.
    assert (K : forall Y, 0 <= Y -> 0 <= u * Y <= Y / 1024).
    { intros Y HY. split; [apply Rmult_le_pos; lra|]. unfold Rdiv. rewrite Rmult_comm. apply Rmult_le_compat_l; lra. }
    intros HX. split; [apply K; auto|apply K, K; auto].
  Qed.
  (* the square of one component *)
  Lemma square_err L X : 0 < L -> eta <= L -> eta <= L * L -> Rabs X <= L ->
    let x := rnd X in Rabs (x * x) <= 2 * (L * L) /\ Rabs (rnd (x * x) - X * X) <= 4 * u * (L * L) /\ Rabs (rnd (x * x)) <= 2 * (L * L).
  Proof.
    intros PL H1 H2 HX x. assert (PP : 0 <= L * L) by nra. destruct (u_small (L * L) PP) as [U UU]. destruct (u_small L) as [UL UUL]; [lra|].
    assert (E : Rabs (x - X) <= u * L) by (apply rerr; auto).
    assert (Bx : Rabs x <= L + u * L) by exact (abs_from _ _ _ _ HX E).
    assert (E2 : Rabs (x * x - X * X) <= (L + u * L) * (u * L) + u * L * L) by (apply err_mul; auto).
    replace ((L + u * L) * (u * L) + u * L * L) with (2 * (u * (L * L)) + u * (u * (L * L))) in E2 by ring.
    assert (BX : Rabs (X * X) <= L * L) by (apply abs_le_mul; auto).
    assert (Bxx : Rabs (x * x) <= 5 / 4 * (L * L)) by (eapply Rle_trans; [exact (abs_from _ _ _ _ BX E2)|lra]).
    assert (E3 : Rabs (rnd (x * x) - X * X) <= 4 * u * (L * L)).
    { eapply Rle_trans; [apply (err_trans _ (x * x)); [apply (rerr _ (5 / 4 * (L * L))); [exact Bxx|lra]|exact E2]|lra]. }
    split; [lra|]. split; [exact E3|]. eapply Rle_trans; [exact (abs_from _ _ _ _ BX E3)|lra].
  Qed.
  (* the squared length, of three components; two are the case Z = 0 *)
  Lemma sum_err L X Y Z : 0 < L -> eta <= L -> eta <= L * L -> X * X + Y * Y + Z * Z = L * L ->
    let x := rnd X in let y := rnd Y in let z := rnd Z in let s1 := rnd (x * x) + rnd (y * y) in let s2 := rnd s1 + rnd (z * z) in
    Rabs s1 <= 4 * (L * L) /\ Rabs s2 <= 8 * (L * L) /\ Rabs (rnd s2 - L * L) <= 20 * u * (L * L).
  Proof.
    intros PL H1 H2 HL x y z s1 s2.
    assert (Bc : forall W, W * W <= L * L -> Rabs W <= L). { intros W HW. apply Rabs_le. split; nra. }
    assert (NX : 0 <= X * X) by nra. assert (NY : 0 <= Y * Y) by nra. assert (NZ : 0 <= Z * Z) by nra.
    destruct (square_err L X PL H1 H2 (Bc X ltac:(lra))) as (X1 & X2 & X3). destruct (square_err L Y PL H1 H2 (Bc Y ltac:(lra))) as (Y1 & Y2 & Y3).
    destruct (square_err L Z PL H1 H2 (Bc Z ltac:(lra))) as (Z1 & Z2 & Z3). fold x in X1, X2, X3. fold y in Y1, Y2, Y3. fold z in Z1, Z2, Z3.
    assert (PP : 0 <= L * L) by nra. destruct (u_small (L * L) PP) as [U UU].
    assert (E1 : Rabs (s1 - (X * X + Y * Y)) <= 4 * u * (L * L) + 4 * u * (L * L)).
    { unfold s1. replace (rnd (x * x) + rnd (y * y) - (X * X + Y * Y)) with ((rnd (x * x) - X * X) + (rnd (y * y) - Y * Y)) by ring. apply abs_le_add; auto. }
    assert (B1 : Rabs (X * X + Y * Y) <= L * L) by (rewrite Rabs_pos_eq; lra).
    assert (B1' : Rabs s1 <= 5 / 4 * (L * L)) by (eapply Rle_trans; [exact (abs_from _ _ _ _ B1 E1)|lra]).
    assert (E2 : Rabs (rnd s1 - (X * X + Y * Y)) <= 10 * u * (L * L)).
    { eapply Rle_trans; [apply (err_trans _ s1); [apply (rerr _ (5 / 4 * (L * L))); [exact B1'|lra]|exact E1]|lra]. }
    assert (E3 : Rabs (s2 - L * L) <= 14 * u * (L * L)).
    { unfold s2. rewrite <- HL at 1. replace (rnd s1 + rnd (z * z) - (X * X + Y * Y + Z * Z)) with ((rnd s1 - (X * X + Y * Y)) + (rnd (z * z) - Z * Z)) by ring.
      eapply Rle_trans; [apply abs_le_add; [exact E2|exact Z2]|lra]. }
    assert (B2 : Rabs (L * L) <= L * L) by (rewrite Rabs_pos_eq; lra).
    assert (B2' : Rabs s2 <= 5 / 4 * (L * L)) by (eapply Rle_trans; [exact (abs_from _ _ _ _ B2 E3)|lra]).
    split; [lra|]. split; [lra|].
    eapply Rle_trans; [apply (err_trans _ s2); [apply (rerr _ (5 / 4 * (L * L))); [exact B2'|lra]|exact E3]|lra].
  Qed.
  (* its root, and the quotient by the step *)
  Lemma root_err L s d : 0 < L -> eta <= L -> Rabs (s - L * L) <= 20 * u * (L * L) -> 0 < d -> eta <= L / d ->
    0 <= s /\ Rabs (rnd (sqrt s) - L) <= 13 * u * L /\ Rabs (rnd (sqrt s) / d) <= 2 * (L / d) /\ Rabs (rnd (rnd (sqrt s) / d) - L / d) <= 16 * u * (L / d).
  Proof.
    intros PL H1 Es Pd Hq. assert (PP : 0 < L * L) by nra. destruct (u_small (L * L)) as [U UU]; [lra|]. destruct (u_small L) as [UL UUL]; [lra|].
    apply Rabs_le_inv in Es. assert (Ps : 0 <= s) by lra. split; [exact Ps|].
    pose proof (sqrt_pos s) as Pr. pose proof (sqrt_sqrt s Ps) as Er. set (r := sqrt s) in *. clearbody r.
    assert (Rl : 9 / 10 * L <= r). { destruct (Rle_or_lt (9 / 10 * L) r) as [H|H]; [exact H|]. exfalso. assert (r * r <= 81 / 100 * (L * L)) by nra. lra. }
    assert (E1 : Rabs (r - L) <= 11 * u * L).
    { apply Rabs_le. split.
      - destruct (Rle_or_lt L r) as [H|H]; [lra|]. apply Rnot_lt_le. intros C. assert (11 * u * L * (19 / 10 * L) < (L - r) * (L + r)).
        { apply Rmult_le_0_lt_compat; nra. } nra.
      - apply Rnot_lt_le. intros C. assert (11 * u * L * (19 / 10 * L) < (r - L) * (r + L)) by (apply Rmult_le_0_lt_compat; nra). nra. }
    assert (Br : Rabs r <= 3 / 2 * L) by (rewrite Rabs_pos_eq by exact Pr; apply Rabs_le_inv in E1; lra).
    assert (E2 : Rabs (rnd r - L) <= 25 / 2 * u * L).
    { eapply Rle_trans; [apply (err_trans _ r); [apply (rerr _ (3 / 2 * L)); [exact Br|lra]|exact E1]|lra]. }
    split; [lra|]. set (q := L / d) in *. assert (EL : L = q * d) by (unfold q; field; lra). assert (Pq : 0 < q) by (unfold q; apply Rdiv_lt_0_compat; auto).
    destruct (u_small q) as [Uq UUq]; [lra|].
    assert (E3 : Rabs (rnd r / d - q) <= 25 / 2 * u * q).
    { replace (rnd r / d - q) with ((rnd r - L) * / d) by (rewrite EL; field; lra). rewrite Rabs_mult, (Rabs_pos_eq (/ d)) by (left; apply Rinv_0_lt_compat; auto).
      replace (25 / 2 * u * q) with (25 / 2 * u * L * / d) by (rewrite EL; field; lra). apply Rmult_le_compat_r; [left; apply Rinv_0_lt_compat; auto|exact E2]. }
    assert (Bq : Rabs q <= q) by (rewrite Rabs_pos_eq; lra). assert (B3 : Rabs (rnd r / d) <= 3 / 2 * q) by (eapply Rle_trans; [exact (abs_from _ _ _ _ Bq E3)|lra]).
    split; [lra|]. eapply Rle_trans; [apply (err_trans _ (rnd r / d)); [apply (rerr _ (3 / 2 * q)); [exact B3|lra]|exact E3]|lra].
  Qed.

  (* one coordinate of the point k steps from a, of n steps to b *)
  Lemma point_err M a b n k : 0 < M -> eta <= M -> Rabs a <= M -> Rabs b <= M -> 1 <= n -> eta <= M / n -> 0 <= k <= n ->
    let D := rnd (b - a) in let S := rnd (D / n) in let Q := rnd (S * k) in
    (Rabs (b - a) <= 2 * M /\ Rabs (D / n) <= 4 * M /\ Rabs (S * k) <= 4 * M /\ Rabs (a + Q) <= 4 * M) /\
    Rabs (rnd (a + Q) - (a + (b - a) * (k / n))) <= 12 * u * M.
  Proof.
    intros PM HM Ha Hb Hn HMn Hk D S Q. destruct (u_small M) as [UM UUM]; [lra|]. assert (Pn : 0 < / n) by (apply Rinv_0_lt_compat; lra).
    assert (Ni : / n <= 1) by (rewrite <- Rinv_1; apply Rinv_le_contravar; lra).
    assert (X0 : Rabs (b - a) <= 2 * M) by (replace (2 * M) with (M + M) by ring; apply abs_le_sub; auto).
    assert (E0 : Rabs (D - (b - a)) <= u * (2 * M)) by (apply rerr; [exact X0|lra]).
    assert (X1 : Rabs D <= 3 * M) by (eapply Rle_trans; [exact (abs_from _ _ _ _ X0 E0)|lra]).
    assert (X1' : Rabs (D / n) <= 3 * (M / n)) by (unfold Rdiv; rewrite Rabs_mult, (Rabs_pos_eq (/ n)) by lra; rewrite <- Rmult_assoc; apply Rmult_le_compat_r; lra).
    assert (Mn : 0 < M / n <= M). { unfold Rdiv. split; [apply Rmult_lt_0_compat; auto|]. rewrite <- (Rmult_1_r M) at 2. apply Rmult_le_compat_l; lra. }
    destruct (u_small (M / n)) as [Un UUn]; [lra|].
    assert (E1 : Rabs (S - D / n) <= u * (3 * (M / n))) by (apply rerr; [exact X1'|lra]).
    assert (E1' : Rabs (S - (b - a) / n) <= 5 * u * (M / n)).
    { replace (5 * u * (M / n)) with (u * (3 * (M / n)) + u * (2 * M) * / n) by (field; lra). apply (err_trans _ (D / n)); [exact E1|].
      replace (D / n - (b - a) / n) with ((D - (b - a)) * / n) by (field; lra). rewrite Rabs_mult, (Rabs_pos_eq (/ n)) by lra. apply Rmult_le_compat_r; lra. }
    assert (Ek : Rabs k <= n) by (rewrite Rabs_pos_eq; lra).
    assert (E2 : Rabs (S * k - (b - a) * (k / n)) <= 5 * u * M).
    { replace (S * k - (b - a) * (k / n)) with ((S - (b - a) / n) * k) by (field; lra). replace (5 * u * M) with (5 * u * (M / n) * n) by (field; lra). apply abs_le_mul; auto. }
    assert (Tk : 0 <= k / n <= 1). { unfold Rdiv. split; [apply Rmult_le_pos; lra|]. replace 1 with (n * / n) by (field; lra). apply Rmult_le_compat_r; lra. }
    assert (X2 : Rabs ((b - a) * (k / n)) <= 2 * M). { replace (2 * M) with (2 * M * 1) by ring. apply abs_le_mul; [exact X0|rewrite Rabs_pos_eq; lra]. }
    assert (X2' : Rabs (S * k) <= 5 / 2 * M) by (eapply Rle_trans; [exact (abs_from _ _ _ _ X2 E2)|lra]).
    assert (E3 : Rabs (Q - (b - a) * (k / n)) <= 8 * u * M).
    { eapply Rle_trans; [apply (err_trans _ (S * k)); [apply (rerr _ (5 / 2 * M)); [exact X2'|lra]|exact E2]|lra]. }
    assert (X3 : Rabs (a + (b - a) * (k / n)) <= M).
    { set (t := k / n) in *. apply Rabs_le_inv in Ha. apply Rabs_le_inv in Hb. apply Rabs_le. clearbody t. split; nra. }
    assert (E4 : Rabs ((a + Q) - (a + (b - a) * (k / n))) <= 8 * u * M) by (replace ((a + Q) - (a + (b - a) * (k / n))) with (Q - (b - a) * (k / n)) by ring; exact E3).
    assert (X4 : Rabs (a + Q) <= 2 * M) by (eapply Rle_trans; [exact (abs_from _ _ _ _ X3 E4)|lra]).
    split; [split; [lra|split; [lra|split; lra]]|].
    eapply Rle_trans; [apply (err_trans _ (a + Q)); [apply (rerr _ (2 * M)); [exact X4|lra]|exact E4]|lra].
  Qed.
End Real.

(* ---- ceil and conversions ---- *)
Section Conv.
  Context (prec emax : Z) (Hprec : Prec_gt_0 prec) (Hmax : Prec_lt_emax prec emax).
  Notation good := (finite_float prec emax).
  Notation rv := fvalue.

  Lemma rv_finite s m e : rv (S754_finite s m e) = IZR (cond_Zopp s (Zpos m)) * bpow radix2 e.
  Proof. reflexivity. Qed.
  Lemma to_usize_int x z : good x -> rv x = IZR z -> (0 <= z < 2 ^ 64)%Z -> fl_to_usize x = Z.to_N z.
  Proof.
    intros [_ F] E Hz. destruct x as [s|s| |s m e]; try discriminate.
    - assert (z = 0)%Z by (apply eq_IZR; rewrite <- E; reflexivity). subst z. reflexivity.
    - rewrite rv_finite in E. pose proof (bpow_gt_0 radix2 e) as Pe. destruct s; cbn [cond_Zopp] in E.
      + exfalso. pose proof (IZR_lt (- Z.pos m) 0 ltac:(lia)). pose proof (IZR_le 0 z ltac:(lia)). nra.
      + cbn [fl_to_usize]. destruct (Z.leb_spec 0 e) as [He|He].
        * rewrite <- (IZR_Zpower radix2) in E by exact He. rewrite <- mult_IZR in E. apply eq_IZR in E. change (Zpower radix2 e) with (2 ^ e)%Z in E. rewrite E.
          apply N.min_r. unfold usize_max. lia.
        * assert (Em : Z.pos m = (z * 2 ^ (- e))%Z).
          { apply eq_IZR. rewrite mult_IZR. change (2 ^ (- e))%Z with (Zpower radix2 (- e)). rewrite (IZR_Zpower radix2) by lia. rewrite <- E, Rmult_assoc, <- bpow_plus.
            replace (e + - e)%Z with 0%Z by lia. cbn. ring. }
          rewrite Em, Z.div_mul by (apply Z.pow_nonzero; lia). apply N.min_r. unfold usize_max. lia.
  Qed.
  Lemma ceil_float x : (prec <= 63)%Z -> scale_ok prec emax 0 -> good x -> 0 <= rv x <= IZR (2 ^ prec) -> exists z : Z, IZR z - 1 < rv x <= IZR z /\ (0 <= z <= 2 ^ prec)%Z /\
    good (fl_ceil prec emax x) /\ rv (fl_ceil prec emax x) = IZR z /\ fl_to_usize (fl_ceil prec emax x) = Z.to_N z.
  Proof.
    intros Hp Hs G Hx. assert (P63 : (2 ^ prec <= 2 ^ 63)%Z) by (apply Z.pow_le_mono_r; lia). assert (Q63 : (2 ^ 63 < 2 ^ 64)%Z) by (apply Z.pow_lt_mono_r; lia).
    assert (Fin : forall z, IZR z - 1 < rv x <= IZR z -> (0 <= z <= 2 ^ prec)%Z).
    { intros z [H1 H2]. split; [apply le_IZR; lra|]. apply Zlt_succ_le, lt_IZR. rewrite succ_IZR. lra. }
    assert (K : exists z : Z, IZR z - 1 < rv x <= IZR z /\ good (fl_ceil prec emax x) /\ rv (fl_ceil prec emax x) = IZR z).
    { assert (G' := G). destruct G as [V F]. destruct x as [s|s| |s m e]; try discriminate.
      - exists 0%Z. change (rv (S754_zero s)) with 0. split; [lra|]. split; [exact G'|reflexivity].
      - rewrite rv_finite in Hx, Fin |- *. pose proof (bpow_gt_0 radix2 e) as Pe. destruct s; cbn [cond_Zopp] in *.
        { exfalso. pose proof (IZR_lt (- Z.pos m) 0 ltac:(lia)). nra. }
        cbn [fl_ceil]. destruct (Z.leb_spec 0 e) as [He|He].
        + exists (Z.pos m * 2 ^ e)%Z. assert (E : IZR (Z.pos m) * bpow radix2 e = IZR (Z.pos m * 2 ^ e)).
          { rewrite mult_IZR. f_equal. rewrite <- (IZR_Zpower radix2) by exact He. reflexivity. }
          rewrite E. split; [lra|]. split; [exact G'|rewrite rv_finite; exact E].
        + set (d := (2 ^ (- e))%Z). assert (Pd : (0 < d)%Z) by (apply Z.pow_pos_nonneg; lia).
          assert (Ed : IZR d * bpow radix2 e = 1).
          { unfold d. change (2 ^ (- e))%Z with (Zpower radix2 (- e)). rewrite (IZR_Zpower radix2) by lia. rewrite <- bpow_plus. replace (- e + e)%Z with 0%Z by lia. reflexivity. }
          set (z := (- (- Z.pos m / d))%Z). assert (Zl : (z * d - d < Z.pos m <= z * d)%Z).
          { unfold z. pose proof (Z.div_mod (- Z.pos m) d ltac:(lia)). pose proof (Z.mod_pos_bound (- Z.pos m) d Pd). nia. }
          assert (Zp : (0 < z)%Z) by nia. exists z.
          assert (B : IZR z - 1 < IZR (Z.pos m) * bpow radix2 e <= IZR z).
          { destruct Zl as [Z1 Z2]. apply IZR_lt in Z1. apply IZR_le in Z2. rewrite minus_IZR, mult_IZR in Z1. rewrite mult_IZR in Z2. split.
            - replace (IZR z - 1) with ((IZR z * IZR d - IZR d) * bpow radix2 e). { apply Rmult_lt_compat_r; auto. } { transitivity (IZR z * (IZR d * bpow radix2 e) - IZR d * bpow radix2 e); [ring|]. rewrite Ed. ring. }
            - replace (IZR z) with (IZR z * IZR d * bpow radix2 e). { apply Rmult_le_compat_r; lra. } { rewrite Rmult_assoc, Ed. ring. } }
          split; [exact B|]. destruct (Z.eqb_spec z 0) as [E|_]; [lia|].
          apply fl_of_Z_good; auto. specialize (Fin z B). lia. }
    destruct K as (z & B & Gc & Ec). exists z. split; [exact B|]. specialize (Fin z B). split; [exact Fin|]. split; [exact Gc|]. split; [exact Ec|].
    apply to_usize_int; auto. lia.
  Qed.
End Conv.

(* ---- the number of steps ---- *)
Section Steps.
  Context (prec emax : Z) (Hprec : Prec_gt_0 prec) (Hmax : Prec_lt_emax prec emax).
  Notation fexp := (SpecFloat.fexp prec emax).
  Notation emin := (SpecFloat.emin prec emax).
  Notation rnd := (round radix2 fexp ZnearestE).
  Notation good := (finite_float prec emax).
  Notation rv := fvalue.
  Notation bp := (bpow radix2).
  Notation u := (bpow radix2 (- prec)).
  Notation eta := (bpow radix2 (emin + prec - 1)).
  Context (T : Z) (HT : (1 <= T)%Z) (HTe : (2 * T + 10 <= emax - 2)%Z) (HTp : (T + prec + 4 <= emax)%Z) (Hp : (10 <= prec <= 63)%Z).

  Lemma u_1024 : 0 < u <= / 1024.
  Proof. split; [apply bpow_gt_0|]. replace (/ 1024) with (bp (-10)) by (cbn; lra). apply bpow_le. lia. Qed.
  Lemma rerr_ x M : Rabs x <= M -> eta <= M -> Rabs (rnd x - x) <= u * M.
  Proof. apply round_err; auto. Qed.
  Lemma emin_eq : (emin = 3 - emax - prec)%Z.
  Proof. reflexivity. Qed.
  Lemma rnd_ge x e : (emin <= e <= emax - 1)%Z -> bp e <= x -> bp e <= rnd x.
  Proof.
    intros He H. replace (bp e) with (rnd (bp e)); [apply rnd_le; auto|]. apply round_generic; [apply valid_rnd_N|]. apply generic_format_bpow.
    unfold SpecFloat.fexp. unfold Prec_gt_0 in *. lia.
  Qed.
  Lemma bp_two e : 2 * bp e = bp (e + 1).
  Proof. rewrite bpow_plus. change (bp 1) with 2. ring. Qed.
  Lemma sq_bp x e : Rabs x <= bp e -> Rabs (x * x) <= bp (e + e).
  Proof. intros H. rewrite bpow_plus. apply abs_le_mul; auto. Qed.
  Lemma sum_bp x y e : Rabs x <= bp e -> Rabs y <= bp e -> Rabs (x + y) <= bp (e + 1).
  Proof. intros H1 H2. rewrite <- bp_two. replace (2 * bp e) with (bp e + bp e) by ring. apply abs_le_add; auto. Qed.

  (* a component of the direction, squared *)
  Lemma sub_f a b e : (emin <= e <= emax - 1)%Z -> good a -> good b -> Rabs (rv b - rv a) <= bp e ->
    good (SFsub prec emax b a) /\ rv (SFsub prec emax b a) = rnd (rv b - rv a) /\ Rabs (rnd (rv b - rv a)) <= bp e.
  Proof. intros He Ga Gb H. destruct (sub_rnd prec emax Hprec Hmax b a Gb Ga) as [G E]; [eapply rnd_finite; [auto..| |exact H]; lia|]. split; auto. split; auto. apply rnd_small; auto. Qed.
  Lemma mul_f x y e : (emin <= e <= emax - 1)%Z -> good x -> good y -> Rabs (rv x * rv y) <= bp e ->
    good (SFmul prec emax x y) /\ rv (SFmul prec emax x y) = rnd (rv x * rv y) /\ Rabs (rnd (rv x * rv y)) <= bp e.
  Proof. intros He Ga Gb H. destruct (mul_rnd prec emax Hprec Hmax x y Ga Gb) as [G E]; [eapply rnd_finite; [auto..| |exact H]; lia|]. split; auto. split; auto. apply rnd_small; auto. Qed.
  Lemma add_f x y e : (emin <= e <= emax - 1)%Z -> good x -> good y -> Rabs (rv x + rv y) <= bp e ->
    good (SFadd prec emax x y) /\ rv (SFadd prec emax x y) = rnd (rv x + rv y) /\ Rabs (rnd (rv x + rv y)) <= bp e.
  Proof. intros He Ga Gb H. destruct (add_rnd prec emax Hprec Hmax x y Ga Gb) as [G E]; [eapply rnd_finite; [auto..| |exact H]; lia|]. split; auto. split; auto. apply rnd_small; auto. Qed.
  Lemma div_f x y e : (emin <= e <= emax - 1)%Z -> good x -> good y -> rv y <> 0 -> Rabs (rv x / rv y) <= bp e ->
    good (SFdiv prec emax x y) /\ rv (SFdiv prec emax x y) = rnd (rv x / rv y) /\ Rabs (rnd (rv x / rv y)) <= bp e.
  Proof. intros He Ga Gb Ny H. destruct (div_rnd prec emax Hprec Hmax x y Ga Gb Ny) as [G E]; [eapply rnd_finite; [auto..| |exact H]; lia|]. split; auto. split; auto. apply rnd_small; auto. Qed.

  Definition sumsq (X Y Z : R) : R := rnd (rnd (rnd (rnd X * rnd X) + rnd (rnd Y * rnd Y)) + rnd (rnd Z * rnd Z)).
  Lemma sumsq_bp X Y Z e : (emin <= e <= emax - 1)%Z -> (emin <= e + e)%Z -> (e + e + 2 <= emax - 1)%Z -> Rabs X <= bp e -> Rabs Y <= bp e -> Rabs Z <= bp e -> Rabs (sumsq X Y Z) <= bp (e + e + 2).
  Proof.
    intros He H1 H2 HX HY HZ. assert (K : forall W, Rabs W <= bp e -> Rabs (rnd (rnd W * rnd W)) <= bp (e + e)).
    { intros W HW. apply rnd_small; auto; [lia|]. apply sq_bp. apply rnd_small; auto. }
    unfold sumsq. apply rnd_small; auto; [lia|]. replace (e + e + 2)%Z with (e + e + 1 + 1)%Z by lia. apply sum_bp.
    - apply rnd_small; auto; [lia|]. apply sum_bp; apply K; auto.
    - eapply Rle_trans; [apply K; auto|]. apply bpow_le. lia.
  Qed.
  Lemma sumsq_nonneg X Y Z : 0 <= sumsq X Y Z.
  Proof.
    assert (K : forall W, 0 <= rnd (W * W)) by (intros W; apply rnd_nonneg; auto; nra).
    unfold sumsq. apply rnd_nonneg; auto. apply Rplus_le_le_0_compat; auto. apply rnd_nonneg; auto. apply Rplus_le_le_0_compat; auto.
  Qed.

  Lemma steps s X Y Z L d : good s -> rv s = sumsq X Y Z -> 0 <= L -> X * X + Y * Y + Z * Z = L * L -> L <= bp (T + 2) ->
    good d -> bp (- T) <= rv d <= bp T -> L <= bp (prec - 2) * rv d ->
    let len := SFsqrt prec emax s in let ns := fl_ceil prec emax (SFdiv prec emax len d) in
    exists n : nat, (1 <= n)%nat /\ (Z.of_nat n <= 2 ^ prec)%Z /\ (1 - 16 * u) * L <= INR n * rv d /\ (n = 1%nat \/ INR (n - 1) * rv d < (1 + 16 * u) * L) /\
      good len /\ ((0 < rv len /\ good ns /\ rv ns = INR n /\ fl_to_usize ns = N.of_nat n) \/ (rv len = 0 /\ n = 1%nat)).
  Proof.
    intros Gs Es L0 HL HLT Gd Hd HLd len ns. pose proof emin_eq as Em. pose proof (bpow_gt_0 radix2 (- T)) as PT. assert (Pd : 0 < rv d) by lra.
    pose proof u_1024 as Hu. assert (Sn := sumsq_nonneg X Y Z). rewrite <- Es in Sn. destruct (sqrt_rnd prec emax Hprec Hmax s Gs Sn) as [Gl El]. fold len in Gl, El.
    assert (Sc : scale_ok prec emax 0) by (unfold scale_ok, Prec_gt_0 in *; lia).
    assert (Ceil : forall q z, IZR z - 1 < q <= IZR z -> 0 < q -> (1 <= z)%Z). { intros q z H1 H2. assert (0 < z)%Z by (apply lt_IZR; lra). lia. }
    destruct (Rle_or_lt (bp (- T - 3)) L) as [Big|Small].
    - (* everything is in the normal range *)
      assert (PL : 0 < L) by (pose proof (bpow_gt_0 radix2 (- T - 3)); lra).
      assert (e1 : eta <= L) by (eapply Rle_trans; [|exact Big]; apply bpow_le; lia).
      assert (e2 : eta <= L * L). { apply Rle_trans with (bp (- T - 3) * bp (- T - 3)); [rewrite <- bpow_plus; apply bpow_le; lia|]. pose proof (bpow_gt_0 radix2 (- T - 3)). apply Rmult_le_compat; lra. }
      destruct (sum_err rnd u eta Hu rerr_ L X Y Z PL e1 e2 HL) as (_ & _ & Err). cbv zeta in Err. change (Rabs (sumsq X Y Z - L * L) <= 20 * u * (L * L)) in Err. rewrite <- Es in Err.
      assert (Dl : bp (- T - 3) / bp T <= L / rv d).
      { unfold Rdiv. apply Rmult_le_compat; [apply bpow_ge_0|left; apply Rinv_0_lt_compat, bpow_gt_0|exact Big|apply Rinv_le_contravar; lra]. }
      assert (e3 : eta <= L / rv d).
      { eapply Rle_trans; [|exact Dl]. unfold Rdiv. rewrite <- bpow_opp, <- bpow_plus. apply bpow_le. lia. }
      destruct (root_err rnd u eta Hu rerr_ L (rv s) (rv d) PL e1 Err Pd e3) as (_ & Er & Bq & Eq). rewrite <- El in Er, Bq, Eq.
      assert (Q2 : L / rv d <= bp (prec - 2)). { apply Rmult_le_reg_r with (rv d); auto. replace (L / rv d * rv d) with L by (field; lra). exact HLd. }
      assert (Pq : 0 < L / rv d) by (apply Rdiv_lt_0_compat; auto).
      assert (Bq' : Rabs (rv len / rv d) <= bp (prec - 1)). { replace (prec - 1)%Z with (prec - 2 + 1)%Z by lia. rewrite <- bp_two. lra. }
      destruct (div_f len d (prec - 1)) as (Gq & Evq & Bvq); auto; [unfold Prec_lt_emax in *; lia|lra|]. rewrite <- Evq in Eq, Bvq.
      destruct (u_small u Hu (L / rv d)) as [Uq _]; [lra|]. apply Rabs_le_inv in Eq. set (q := L / rv d) in *. assert (EL : L = q * rv d) by (unfold q; field; lra).
      assert (Pv : 0 < rv (SFdiv prec emax len d)) by lra.
      destruct (ceil_float prec emax Hprec Hmax (SFdiv prec emax len d)) as (z & Bz & Hz & Gn & En & Un); auto; [lia| |].
      { split; [lra|]. apply Rabs_le_inv in Bvq. apply Rle_trans with (bp (prec - 1)); [lra|]. change (2 ^ prec)%Z with (Zpower radix2 prec). rewrite (IZR_Zpower radix2) by lia. apply bpow_le. lia. }
      assert (Z1 : (1 <= z)%Z) by (eapply Ceil; eauto). exists (Z.to_nat z). assert (In_ : INR (Z.to_nat z) = IZR z) by (rewrite INR_IZR_INZ; f_equal; lia).
      split; [lia|]. split; [lia|]. split; [rewrite In_, EL; replace ((1 - 16 * u) * (q * rv d)) with ((q - 16 * u * q) * rv d) by ring; apply Rmult_le_compat_r; lra|].
      split; [right; rewrite minus_INR, In_ by lia; cbn [INR]; rewrite EL; replace ((1 + 16 * u) * (q * rv d)) with ((q + 16 * u * q) * rv d) by ring; apply Rmult_lt_compat_r; lra|].
      split; [exact Gl|]. left. apply Rabs_le_inv in Er. destruct (u_small u Hu L) as [UL _]; [lra|]. split; [lra|]. split; [exact Gn|]. split; [rewrite In_; exact En|].
      fold ns in Un. rewrite Un. lia.
    - (* one step *)
      exists 1%nat. cbn [INR]. assert (LT : L <= rv d). { apply Rle_trans with (bp (- T)); [left; eapply Rlt_le_trans; [exact Small|apply bpow_le; lia]|lra]. }
      split; [lia|]. split; [apply (Z.pow_le_mono_r 2 0); lia|]. split; [assert (0 <= u * L) by (apply Rmult_le_pos; lra); lra|]. split; [left; reflexivity|]. split; [exact Gl|].
      assert (Bc : forall W, W * W <= L * L -> Rabs W <= bp (- T - 3)). { intros W HW. apply Rle_trans with L; [apply Rabs_le; split; nra|lra]. }
      assert (NX : 0 <= X * X) by nra. assert (NY : 0 <= Y * Y) by nra. assert (NZ : 0 <= Z * Z) by nra.
      assert (Bs : Rabs (sumsq X Y Z) <= bp (- T - 3 + (- T - 3) + 2)) by (apply sumsq_bp; try lia; apply Bc; lra).
      rewrite <- Es, Rabs_pos_eq in Bs by exact Sn.
      assert (Bl : rv len <= bp (- T - 2)).
      { rewrite El. apply Rle_trans with (Rabs (rnd (sqrt (rv s)))); [apply Rle_abs|]. apply rnd_small; auto; [lia|]. rewrite Rabs_pos_eq by apply sqrt_pos.
        apply Rle_trans with (sqrt (bp (- T - 2) * bp (- T - 2))); [|rewrite sqrt_square by apply bpow_ge_0; lra]. apply sqrt_le_1_alt. rewrite <- bpow_plus. eapply Rle_trans; [exact Bs|]. apply bpow_le. lia. }
      destruct (Req_dec (rv s) 0) as [Z0|NZ0].
      { right. split; [|reflexivity]. rewrite El, Z0, sqrt_0. apply rnd_0; auto. }
      left. assert (Ps : bp emin <= rv s).
      { apply generic_format_ge_bpow with fexp; [intros e; unfold SpecFloat.fexp; lia|lra|apply good_format; auto]. }
      set (h := (emin / 2)%Z).
      assert (Hh2 : (2 * h <= emin <= 2 * h + 1)%Z) by (unfold h; pose proof (Z.div_mod emin 2); pose proof (Z.mod_pos_bound emin 2); lia). clearbody h.
      assert (Pl : bp h <= rv len).
      { rewrite El. apply rnd_ge; [lia|]. apply Rle_trans with (sqrt (bp h * bp h)); [rewrite sqrt_square by apply bpow_ge_0; lra|]. apply sqrt_le_1_alt. rewrite <- bpow_plus.
        eapply Rle_trans; [|exact Ps]. apply bpow_le. lia. }
      assert (Pl0 : 0 < rv len) by (pose proof (bpow_gt_0 radix2 h); lra). split; [exact Pl0|].
      assert (Q1 : rv len / rv d <= bp (-2)).
      { apply Rmult_le_reg_r with (rv d); auto. replace (rv len / rv d * rv d) with (rv len) by (field; lra). apply Rle_trans with (bp (-2) * bp (- T)); [rewrite <- bpow_plus; eapply Rle_trans; [exact Bl|apply bpow_le; lia]|].
        apply Rmult_le_compat_l; [apply bpow_ge_0|lra]. }
      assert (Q0 : bp emin <= rv len / rv d).
      { apply Rle_trans with (bp h * / bp T); [rewrite <- bpow_opp, <- bpow_plus; apply bpow_le; lia|]. unfold Rdiv. apply Rmult_le_compat; [apply bpow_ge_0|left; apply Rinv_0_lt_compat, bpow_gt_0|exact Pl|apply Rinv_le_contravar; lra]. }
      pose proof (bpow_gt_0 radix2 emin) as Pe.
      destruct (div_f len d (-2)) as (Gq & Evq & Bvq); auto; [unfold Prec_lt_emax in *; lia|lra|rewrite Rabs_pos_eq; lra|]. rewrite <- Evq in Bvq.
      assert (Lq : bp emin <= rv (SFdiv prec emax len d)) by (rewrite Evq; apply rnd_ge; [unfold Prec_lt_emax, Prec_gt_0 in *; lia|exact Q0]).
      apply Rabs_le_inv in Bvq. change (bp (-2)) with (/ 4) in Bvq.
      assert (One : 1 <= IZR (2 ^ prec)) by (apply IZR_le; apply (Z.pow_le_mono_r 2 0); lia).
      destruct (ceil_float prec emax Hprec Hmax (SFdiv prec emax len d)) as (z & Bz & Hz & Gn & En & Un); auto; [lia|lra|].
      assert (Z1 : (1 <= z)%Z) by (apply (Ceil (rv (SFdiv prec emax len d))); [exact Bz|lra]).
      assert (Z2 : (z < 2)%Z) by (apply lt_IZR; lra). assert (z = 1)%Z by lia. subst z. split; [exact Gn|]. split; [exact En|]. exact Un.
  Qed.
End Steps.

(* ---- the points of one edge ---- *)
Section Points.
  Context (prec emax epsexp : Z) (at2 : spec_float -> spec_float -> spec_float) (Hprec : Prec_gt_0 prec) (Hmax : Prec_lt_emax prec emax).
  Notation FS := (FloatS prec emax epsexp at2).
  Notation fexp := (SpecFloat.fexp prec emax).
  Notation emin := (SpecFloat.emin prec emax).
  Notation rnd := (round radix2 fexp ZnearestE).
  Notation good := (finite_float prec emax).
  Notation rv := fvalue.
  Notation bp := (bpow radix2).
  Notation u := (bpow radix2 (- prec)).
  Notation eta := (bpow radix2 (emin + prec - 1)).
  Context (T : Z) (HT : (1 <= T)%Z) (HTe : (2 * T + 10 <= emax - 2)%Z) (HTp : (T + prec + 4 <= emax)%Z) (Hp : (10 <= prec <= 63)%Z).
  Context (M : R) (HM : bp (- T) <= M <= bp T).
  Notation upM := (up_to prec emax M).
  Notation val := (@point_value prec emax epsexp at2).
  Notation val3 := (@point_value3 prec emax epsexp at2).

  Lemma of_nat_f (n : nat) : (Z.of_nat n <= 2 ^ prec)%Z -> good (fl_of_Z prec emax (Z.of_N (N.of_nat n))) /\ rv (fl_of_Z prec emax (Z.of_N (N.of_nat n))) = INR n.
  Proof.
    intros H. rewrite nat_N_Z, INR_IZR_INZ. apply fl_of_Z_good; auto; [lia|]. unfold scale_ok. rewrite (emin_eq prec emax). unfold Prec_gt_0, Prec_lt_emax in *. lia.
  Qed.
  Definition coord (a st : spec_float) (k : nat) : spec_float := SFadd prec emax a (SFmul prec emax st (fl_of_Z prec emax (Z.of_N (N.of_nat k)))).
  Lemma M_facts : 0 < M /\ eta <= M /\ 2 * M <= bp (T + 1) /\ 4 * M <= bp (T + 2).
  Proof.
    pose proof (bpow_gt_0 radix2 (- T)). pose proof (emin_eq prec emax). split; [lra|]. split; [eapply Rle_trans; [|apply HM]; apply bpow_le; lia|].
    rewrite !bpow_plus. change (bp 1) with 2. change (bp 2) with 4. lra.
  Qed.
  Lemma coord_f a b ns n k : upM a -> upM b -> good ns -> rv ns = INR n -> (1 <= n)%nat -> (Z.of_nat n <= 2 ^ prec)%Z -> (k <= n)%nat ->
    let st := SFdiv prec emax (SFsub prec emax b a) ns in
    good (coord a st k) /\ Rabs (rv (coord a st k) - (rv a + (rv b - rv a) * (INR k / INR n))) <= 12 * u * M /\ (k = 0%nat -> rv (coord a st k) = rv a).
  Proof.
    intros [Ga Ba] [Gb Bb] Gn En Hn Hn2 Hk st. pose proof (emin_eq prec emax) as Em. destruct M_facts as (PM & EM & M2 & M4).
    assert (N1 : 1 <= INR n) by (apply (le_INR 1); auto). assert (K0 : 0 <= INR k <= INR n) by (split; [apply pos_INR|apply le_INR; auto]).
    assert (N2 : INR n <= bp prec). { rewrite INR_IZR_INZ, <- (IZR_Zpower radix2) by lia. apply IZR_le. exact Hn2. }
    assert (EMn : eta <= M / INR n).
    { apply Rle_trans with (bp (- T) / bp prec). { unfold Rdiv. rewrite <- bpow_opp, <- bpow_plus. apply bpow_le. lia. }
      unfold Rdiv. apply Rmult_le_compat; [apply bpow_ge_0|left; apply Rinv_0_lt_compat, bpow_gt_0|lra|apply Rinv_le_contravar; lra]. }
    destruct (point_err rnd u eta (u_1024 prec Hp) (rerr_ prec emax Hprec) M (rv a) (rv b) (INR n) (INR k) PM EM Ba Bb N1 EMn K0) as ((B1 & B2 & B3 & B4) & Err). cbv zeta in *.
    assert (Rg : (emin <= T + 2 <= emax - 1)%Z) by (unfold Prec_gt_0 in *; lia).
    destruct (sub_f prec emax Hprec Hmax a b (T + 2)) as (G1 & E1 & _); auto; [lra|].
    destruct (div_f prec emax Hprec Hmax (SFsub prec emax b a) ns (T + 2)) as (G2 & E2 & _); auto; [lra|rewrite E1, En; lra|]. fold st in G2, E2. rewrite E1, En in E2.
    destruct (of_nat_f k) as [Gk Ek]; [lia|]. rewrite <- E2, <- Ek in B3.
    destruct (mul_f prec emax Hprec Hmax st (fl_of_Z prec emax (Z.of_N (N.of_nat k))) (T + 2)) as (G3 & E3 & _); auto; [lra|].
    rewrite <- E2 in B4. rewrite <- Ek in B4 at 1. rewrite <- E3 in B4.
    destruct (add_f prec emax Hprec Hmax a (SFmul prec emax st (fl_of_Z prec emax (Z.of_N (N.of_nat k)))) (T + 2)) as (G4 & E4 & _); auto; [lra|].
    fold (coord a st k) in G4, E4. split; [exact G4|]. rewrite E3, Ek, E2 in E4. split; [rewrite E4; exact Err|].
    intros ->. rewrite E4. cbn [INR]. rewrite Rmult_0_r, rnd_0, Rplus_0_r by auto. apply round_generic; [apply valid_rnd_N|apply good_format; auto].
  Qed.
  Lemma coord_zero a : upM a -> good (coord a (S754_zero false) 0) /\ rv (coord a (S754_zero false) 0) = rv a.
  Proof.
    intros [Ga Ba]. pose proof (emin_eq prec emax) as Em. destruct M_facts as (PM & EM & M2 & M4). destruct (of_nat_f 0) as [G0 E0]; [apply Z.pow_nonneg; lia|].
    assert (Rg : (emin <= T + 2 <= emax - 1)%Z) by (unfold Prec_gt_0 in *; lia). pose proof (bpow_ge_0 radix2 (T + 2)) as P2.
    destruct (mul_f prec emax Hprec Hmax (S754_zero false) (fl_of_Z prec emax (Z.of_N (N.of_nat 0))) (T + 2)) as (G3 & E3 & _); auto.
    { change (rv (S754_zero false)) with 0. rewrite Rmult_0_l, Rabs_R0. exact P2. }
    change (rv (S754_zero false)) with 0 in E3. rewrite Rmult_0_l, rnd_0 in E3 by auto.
    destruct (add_f prec emax Hprec Hmax a (SFmul prec emax (S754_zero false) (fl_of_Z prec emax (Z.of_N (N.of_nat 0)))) (T + 2)) as (G4 & E4 & _); auto.
    { rewrite E3, Rplus_0_r. lra. }
    split; [exact G4|]. unfold coord. rewrite E4, E3, Rplus_0_r. apply round_generic; [apply valid_rnd_N|apply good_format; auto].
  Qed.

  Context (d : spec_float) (Gd : good d) (Hd : bp (- T) <= rv d <= bp T) (HMd : M <= bp (prec - 4) * rv d).
  Lemma ltb_zero x : good x -> SFltb (S754_zero false) x = Rltb 0 (rv x).
  Proof. intros G. rewrite (ltb_R prec emax at2) by (auto; apply good_zero). reflexivity. Qed.
  Lemma zero_sq : rnd (rnd 0 * rnd 0) = 0.
  Proof. rewrite rnd_0 by auto. rewrite Rmult_0_l. apply rnd_0; auto. Qed.
  Lemma rnd_idem x : rnd (rnd x) = rnd x.
  Proof. apply round_generic; [apply valid_rnd_N|]. apply generic_format_round; [apply fexp_correct; auto|apply valid_rnd_N]. Qed.
  Lemma len_le L X Y Z : X * X + Y * Y + Z * Z = L * L -> Rabs X <= 2 * M -> Rabs Y <= 2 * M -> Rabs Z <= 2 * M -> L <= 4 * M.
  Proof.
    intros HL HX HY HZ. destruct M_facts as (PM & _). apply le_sq; [lra|]. rewrite <- HL.
    assert (K : forall W, Rabs W <= 2 * M -> W * W <= 4 * (M * M)). { intros W HW. apply Rabs_le_inv in HW. nra. }
    apply K in HX. apply K in HY. apply K in HZ. assert (0 <= M * M) by nra. lra.
  Qed.
  Lemma len_bounds L : L <= 4 * M -> L <= bp (T + 2) /\ L <= bp (prec - 2) * rv d.
  Proof.
    intros H. destruct M_facts as (PM & _ & _ & M4). split; [lra|]. replace (prec - 2)%Z with (prec - 4 + 2)%Z by lia. rewrite bpow_plus. change (bp 2) with 4. lra.
  Qed.

  Definition up2 (p : V2 FS) : Prop := upM (vx p) /\ upM (vy p).
  Definition up3 (p : V3 FS) : Prop := upM (wx p) /\ upM (wy p) /\ upM (wz p).
  Definition fin2 (p : V2 FS) : Prop := good (vx p) /\ good (vy p).
  Definition fin3 (p : V3 FS) : Prop := good (wx p) /\ good (wy p) /\ good (wz p).
  Definition close2 (eps : R) (p q : pt) : Prop := Rabs (vx p - vx q) <= eps /\ Rabs (vy p - vy q) <= eps.
  Definition close3 (eps : R) (p q : pt3) : Prop := Rabs (wx p - wx q) <= eps /\ Rabs (wy p - wy q) <= eps /\ Rabs (wz p - wz q) <= eps.

  (* the points emitted for the edge from a to b *)
  Notation emit2 := (emit (S := FS) (V2 FS) v2zero vadd vsub vscale vdivs vmag d).
  Notation emit3 := (emit (S := FS) (V3 FS) v3zero wadd wsub wscale wdivs wmag d).
  Lemma nth_steps {A} (f : nat -> A) n k x : nth_error (map f (seq 0 n)) k = Some x -> (k < n)%nat /\ x = f k.
  Proof.
    intros H. assert (K : (k < n)%nat). { assert (nth_error (map f (seq 0 n)) k <> None) by congruence. apply nth_error_Some in H0. rewrite map_length, seq_length in H0. exact H0. }
    split; [exact K|]. rewrite (map_nth_error f k (seq 0 n) (d := k)) in H; [congruence|]. rewrite (nth_error_nth' _ 0%nat) by (rewrite seq_length; exact K). rewrite seq_nth by exact K. reflexivity.
  Qed.
  Lemma emit2_near a b : up2 a -> up2 b -> exists n : nat, let steps := map val (emit2 a b) in
    (1 <= n)%nat /\ (1 - 16 * u) * edist (val a) (val b) <= INR n * rv d /\ (n = 1%nat \/ INR (n - 1) * rv d < (1 + 16 * u) * edist (val a) (val b)) /\
    length steps = n /\ nth_error steps 0 = Some (val a) /\ (forall k p, nth_error steps k = Some p -> close2 (12 * u * M) p (lerp (val a) (val b) (INR k / INR n))) /\
    Forall fin2 (emit2 a b).
  Proof.
    intros [Ax Ay] [Bx By]. assert (Ax' := Ax). assert (Ay' := Ay). assert (Bx' := Bx). assert (By' := By).
    destruct Ax as [Gax Bax], Ay as [Gay Bay], Bx as [Gbx Bbx], By as [Gby Bby].
    set (X := rv (vx b) - rv (vx a)). set (Y := rv (vy b) - rv (vy a)). set (L := edist (val a) (val b)).
    pose proof (emin_eq prec emax) as Em. destruct M_facts as (PM & EM & M2 & M4). pose proof (bpow_ge_0 radix2 (- prec)) as Pu.
    assert (HX : Rabs X <= 2 * M) by (replace (2 * M) with (M + M) by ring; apply abs_le_sub; auto).
    assert (HY : Rabs Y <= 2 * M) by (replace (2 * M) with (M + M) by ring; apply abs_le_sub; auto).
    assert (HL : X * X + Y * Y + 0 * 0 = L * L). { unfold L. rewrite sqdist_edist. unfold sqdist, point_value. cbn [vx vy RS car]. unfold X, Y. ring. }
    assert (L0 : 0 <= L) by apply edist_nonneg. assert (L4 : L <= 4 * M) by (apply (len_le L X Y 0); auto; rewrite Rabs_R0; lra). destruct (len_bounds L L4) as [LT Ld].
    assert (Rg : (emin <= T + 1 <= emax - 1)%Z) by (unfold Prec_gt_0 in *; lia).
    destruct (sub_f prec emax Hprec Hmax (vx a) (vx b) (T + 1)) as (G1 & E1 & Q1); auto; [fold X; lra|]. destruct (sub_f prec emax Hprec Hmax (vy a) (vy b) (T + 1)) as (G2 & E2 & Q2); auto; [fold Y; lra|].
    fold X in E1, Q1. fold Y in E2, Q2. set (dx := SFsub prec emax (vx b) (vx a)) in *. set (dy := SFsub prec emax (vy b) (vy a)) in *.
    assert (Rg2 : (emin <= T + 1 + (T + 1) + 1 <= emax - 1)%Z) by (unfold Prec_gt_0 in *; lia).
    destruct (mul_f prec emax Hprec Hmax dx dx (T + 1 + (T + 1))) as (G3 & E3 & Q3); auto; [unfold Prec_gt_0 in *; lia|rewrite E1; apply sq_bp; auto|].
    destruct (mul_f prec emax Hprec Hmax dy dy (T + 1 + (T + 1))) as (G4 & E4 & Q4); auto; [unfold Prec_gt_0 in *; lia|rewrite E2; apply sq_bp; auto|].
    rewrite <- E3 in Q3. rewrite <- E4 in Q4.
    destruct (add_f prec emax Hprec Hmax (SFmul prec emax dx dx) (SFmul prec emax dy dy) (T + 1 + (T + 1) + 1)) as (Gs & Es & _); auto; [apply sum_bp; auto|].
    set (s := SFadd prec emax (SFmul prec emax dx dx) (SFmul prec emax dy dy)) in *.
    assert (Es' : rv s = sumsq prec emax X Y 0). { rewrite Es, E3, E4, E1, E2. unfold sumsq. rewrite zero_sq, Rplus_0_r, rnd_idem. reflexivity. }
    destruct (steps prec emax Hprec Hmax T HT HTe HTp Hp s X Y 0 L d Gs Es' L0 HL LT Gd Hd Ld) as (n & N1 & N2 & N3 & N4 & Gl & C). exists n. cbv zeta.
    set (len := SFsqrt prec emax s) in *. set (ns := fl_ceil prec emax (SFdiv prec emax len d)) in *.
    assert (Sx : 0 <= 12 * u * M) by (apply Rmult_le_pos; [apply Rmult_le_pos|]; lra).
    destruct C as [(Pl & Gn & En & Un)|[Zl ->]].
    - assert (Ee : emit2 a b = map (fun k => @mkV2 FS (coord (vx a) (SFdiv prec emax dx ns) k) (coord (vy a) (SFdiv prec emax dy ns) k)) (seq 0 n)).
      { unfold DiscProofs.emit, seg. change (vmag (vsub b a) : car FS) with len. cbn [sltb s0 FloatS]. rewrite ltb_zero by exact Gl. rewrite (proj2 (Rltb_true 0 (rv len)) Pl). cbn [fst snd].
        change (@sceil FS (@sdiv FS len d)) with ns. cbn [s_to_usize FloatS]. rewrite Un, nrange0, map_map. reflexivity. }
      rewrite Ee. split; [exact N1|]. split; [exact N3|]. split; [exact N4|]. split; [rewrite !map_length, seq_length; reflexivity|].
      assert (Cx : forall k, (k <= n)%nat -> _) by (intros k Hk; exact (coord_f (vx a) (vx b) ns n k Ax' Bx' Gn En N1 N2 Hk)).
      assert (Cy : forall k, (k <= n)%nat -> _) by (intros k Hk; exact (coord_f (vy a) (vy b) ns n k Ay' By' Gn En N1 N2 Hk)). cbv zeta in Cx, Cy. fold dx in Cx. fold dy in Cy.
      split; [|split].
      + destruct n as [|n]; [lia|]. cbn [seq map nth_error]. f_equal. unfold point_value. cbn [vx vy]. f_equal; [apply (Cx 0%nat); auto; lia|apply (Cy 0%nat); auto; lia].
      + intros k p Hk. rewrite map_map in Hk. apply nth_steps in Hk as [Hk ->]. destruct (Cx k ltac:(lia)) as (_ & C1 & _). destruct (Cy k ltac:(lia)) as (_ & C2 & _). unfold point_value. split; cbn [vx vy].
        * unfold lerp. cbn [vx vy]. rsimp. eapply Rle_trans; [|exact C1]. right. f_equal. ring.
        * unfold lerp. cbn [vx vy]. rsimp. eapply Rle_trans; [|exact C2]. right. f_equal. ring.
      + apply Forall_forall. intros p Hin. apply in_map_iff in Hin as (k & <- & Hk). apply in_seq in Hk. split; [apply (Cx k); lia|apply (Cy k); lia].
    - assert (Ee : emit2 a b = [@mkV2 FS (coord (vx a) (S754_zero false) 0) (coord (vy a) (S754_zero false) 0)]).
      { unfold DiscProofs.emit, seg. change (vmag (vsub b a) : car FS) with len. cbn [sltb s0 FloatS]. rewrite ltb_zero by exact Gl. rewrite (proj2 (Rltb_false 0 (rv len)) ltac:(lra)). reflexivity. }
      rewrite Ee. split; [exact N1|]. split; [exact N3|]. split; [exact N4|]. split; [reflexivity|]. destruct (coord_zero _ Ax') as [Z1 Z2]. destruct (coord_zero _ Ay') as [Z3 Z4].
      assert (Ev : val (@mkV2 FS (coord (vx a) (S754_zero false) 0) (coord (vy a) (S754_zero false) 0)) = val a) by (unfold point_value; cbn [vx vy]; rewrite Z2, Z4; reflexivity).
      split; [cbn [map nth_error]; f_equal; exact Ev|]. split.
      + intros k p Hk. cbn [map] in Hk. rewrite Ev in Hk. destruct k as [|k]; [|destruct k; discriminate]. cbn [nth_error] in Hk. injection Hk as <-. cbn [INR].
        unfold lerp. rsimp. split; cbn [vx vy]; match goal with |- Rabs ?x <= _ => replace x with 0 by (rsimp; field) end; rewrite Rabs_R0; exact Sx.
      + constructor; [split; [exact Z1|exact Z3]|constructor].
  Qed.
  Lemma sqdist3_nn (p q : pt3) : 0 <= sqdist3 p q.
  Proof. unfold sqdist3. rsimp. repeat apply Rplus_le_le_0_compat; apply Rle_0_sqr. Qed.
  Lemma emit3_near a b : up3 a -> up3 b -> exists n : nat, let steps := map val3 (emit3 a b) in
    (1 <= n)%nat /\ (1 - 16 * u) * edist3 (val3 a) (val3 b) <= INR n * rv d /\ (n = 1%nat \/ INR (n - 1) * rv d < (1 + 16 * u) * edist3 (val3 a) (val3 b)) /\
    length steps = n /\ nth_error steps 0 = Some (val3 a) /\ (forall k p, nth_error steps k = Some p -> close3 (12 * u * M) p (lerp3 (val3 a) (val3 b) (INR k / INR n))) /\
    Forall fin3 (emit3 a b).
  Proof.
    intros (Ax & Ay & Az) (Bx & By & Bz). assert (Az' := Az). assert (Bz' := Bz). assert (Ax' := Ax). assert (Ay' := Ay). assert (Bx' := Bx). assert (By' := By).
    destruct Ax as [Gax Bax], Ay as [Gay Bay], Bx as [Gbx Bbx], By as [Gby Bby], Az as [Gaz Baz], Bz as [Gbz Bbz].
    set (X := rv (wx b) - rv (wx a)). set (Y := rv (wy b) - rv (wy a)). set (Z := rv (wz b) - rv (wz a)). set (L := edist3 (val3 a) (val3 b)).
    pose proof (emin_eq prec emax) as Em. destruct M_facts as (PM & EM & M2 & M4). pose proof (bpow_ge_0 radix2 (- prec)) as Pu.
    assert (HX : Rabs X <= 2 * M) by (replace (2 * M) with (M + M) by ring; apply abs_le_sub; auto).
    assert (HY : Rabs Y <= 2 * M) by (replace (2 * M) with (M + M) by ring; apply abs_le_sub; auto).
    assert (HZ : Rabs Z <= 2 * M) by (replace (2 * M) with (M + M) by ring; apply abs_le_sub; auto).
    assert (HL : X * X + Y * Y + Z * Z = L * L). { unfold L, edist3. rewrite sqrt_sqrt by apply sqdist3_nn. unfold sqdist3, point_value3. cbn [wx wy wz RS car]. unfold X, Y, Z. ring. }
    assert (L0 : 0 <= L) by apply edist3_nonneg. assert (L4 : L <= 4 * M) by (apply (len_le L X Y Z); auto). destruct (len_bounds L L4) as [LT Ld].
    assert (Rg : (emin <= T + 1 <= emax - 1)%Z) by (unfold Prec_gt_0 in *; lia).
    destruct (sub_f prec emax Hprec Hmax (wx a) (wx b) (T + 1)) as (G1 & E1 & Q1); auto; [fold X; lra|]. destruct (sub_f prec emax Hprec Hmax (wy a) (wy b) (T + 1)) as (G2 & E2 & Q2); auto; [fold Y; lra|].
    destruct (sub_f prec emax Hprec Hmax (wz a) (wz b) (T + 1)) as (G5 & E5 & Q5); auto; [fold Z; lra|]. fold Z in E5, Q5. set (dz := SFsub prec emax (wz b) (wz a)) in *.
    fold X in E1, Q1. fold Y in E2, Q2. set (dx := SFsub prec emax (wx b) (wx a)) in *. set (dy := SFsub prec emax (wy b) (wy a)) in *.
    assert (Rg2 : (emin <= T + 1 + (T + 1) + 1 + 1 <= emax - 1)%Z) by (unfold Prec_gt_0 in *; lia).
    destruct (mul_f prec emax Hprec Hmax dx dx (T + 1 + (T + 1))) as (G3 & E3 & Q3); auto; [unfold Prec_gt_0 in *; lia|rewrite E1; apply sq_bp; auto|].
    destruct (mul_f prec emax Hprec Hmax dy dy (T + 1 + (T + 1))) as (G4 & E4 & Q4); auto; [unfold Prec_gt_0 in *; lia|rewrite E2; apply sq_bp; auto|].
    destruct (mul_f prec emax Hprec Hmax dz dz (T + 1 + (T + 1))) as (G6 & E6 & Q6); auto; [unfold Prec_gt_0 in *; lia|rewrite E5; apply sq_bp; auto|].
    rewrite <- E3 in Q3. rewrite <- E4 in Q4. rewrite <- E6 in Q6.
    destruct (add_f prec emax Hprec Hmax (SFmul prec emax dx dx) (SFmul prec emax dy dy) (T + 1 + (T + 1) + 1)) as (Gs1 & Es1 & Q7); auto; [unfold Prec_gt_0 in *; lia|apply sum_bp; auto|]. rewrite <- Es1 in Q7.
    destruct (add_f prec emax Hprec Hmax (SFadd prec emax (SFmul prec emax dx dx) (SFmul prec emax dy dy)) (SFmul prec emax dz dz) (T + 1 + (T + 1) + 1 + 1)) as (Gs & Es & _); auto.
    { apply sum_bp; [exact Q7|]. eapply Rle_trans; [exact Q6|]. apply bpow_le. lia. }
    set (s := SFadd prec emax (SFadd prec emax (SFmul prec emax dx dx) (SFmul prec emax dy dy)) (SFmul prec emax dz dz)) in *.
    assert (Es' : rv s = sumsq prec emax X Y Z). { rewrite Es, Es1, E3, E4, E6, E1, E2, E5. reflexivity. }
    destruct (steps prec emax Hprec Hmax T HT HTe HTp Hp s X Y Z L d Gs Es' L0 HL LT Gd Hd Ld) as (n & N1 & N2 & N3 & N4 & Gl & C). exists n. cbv zeta.
    set (len := SFsqrt prec emax s) in *. set (ns := fl_ceil prec emax (SFdiv prec emax len d)) in *.
    assert (Sx : 0 <= 12 * u * M) by (apply Rmult_le_pos; [apply Rmult_le_pos|]; lra).
    destruct C as [(Pl & Gn & En & Un)|[Zl ->]].
    - assert (Ee : emit3 a b = map (fun k => @mkV3 FS (coord (wx a) (SFdiv prec emax dx ns) k) (coord (wy a) (SFdiv prec emax dy ns) k) (coord (wz a) (SFdiv prec emax dz ns) k)) (seq 0 n)).
      { unfold DiscProofs.emit, seg. change (wmag (wsub b a) : car FS) with len. cbn [sltb s0 FloatS]. rewrite ltb_zero by exact Gl. rewrite (proj2 (Rltb_true 0 (rv len)) Pl). cbn [fst snd].
        change (@sceil FS (@sdiv FS len d)) with ns. cbn [s_to_usize FloatS]. rewrite Un, nrange0, map_map. reflexivity. }
      rewrite Ee. split; [exact N1|]. split; [exact N3|]. split; [exact N4|]. split; [rewrite !map_length, seq_length; reflexivity|].
      assert (Cx : forall k, (k <= n)%nat -> _) by (intros k Hk; exact (coord_f (wx a) (wx b) ns n k Ax' Bx' Gn En N1 N2 Hk)).
      assert (Cy : forall k, (k <= n)%nat -> _) by (intros k Hk; exact (coord_f (wy a) (wy b) ns n k Ay' By' Gn En N1 N2 Hk)). 
      assert (Cz : forall k, (k <= n)%nat -> _) by (intros k Hk; exact (coord_f (wz a) (wz b) ns n k Az' Bz' Gn En N1 N2 Hk)). cbv zeta in Cx, Cy, Cz. fold dx in Cx. fold dy in Cy. fold dz in Cz.
      split; [|split].
      + destruct n as [|n]; [lia|]. cbn [seq map nth_error]. f_equal. unfold point_value3. cbn [wx wy wz]. f_equal; [apply (Cx 0%nat); auto; lia|apply (Cy 0%nat); auto; lia|apply (Cz 0%nat); auto; lia].
      + intros k p Hk. rewrite map_map in Hk. apply nth_steps in Hk as [Hk ->]. destruct (Cx k ltac:(lia)) as (_ & C1 & _). destruct (Cy k ltac:(lia)) as (_ & C2 & _). destruct (Cz k ltac:(lia)) as (_ & C3 & _). unfold point_value3. split; [|split]; cbn [wx wy wz].
        * unfold lerp3. cbn [wx wy wz]. rsimp. eapply Rle_trans; [|exact C1]. right. f_equal. ring.
        * unfold lerp3. cbn [wx wy wz]. rsimp. eapply Rle_trans; [|exact C2]. right. f_equal. ring.
        * unfold lerp3. cbn [wx wy wz]. rsimp. eapply Rle_trans; [|exact C3]. right. f_equal. ring.
      + apply Forall_forall. intros p Hin. apply in_map_iff in Hin as (k & <- & Hk). apply in_seq in Hk. split; [apply (Cx k); lia|split; [apply (Cy k); lia|apply (Cz k); lia]].
    - assert (Ee : emit3 a b = [@mkV3 FS (coord (wx a) (S754_zero false) 0) (coord (wy a) (S754_zero false) 0) (coord (wz a) (S754_zero false) 0)]).
      { unfold DiscProofs.emit, seg. change (wmag (wsub b a) : car FS) with len. cbn [sltb s0 FloatS]. rewrite ltb_zero by exact Gl. rewrite (proj2 (Rltb_false 0 (rv len)) ltac:(lra)). reflexivity. }
      rewrite Ee. split; [exact N1|]. split; [exact N3|]. split; [exact N4|]. split; [reflexivity|]. destruct (coord_zero _ Ax') as [Z1 Z2]. destruct (coord_zero _ Ay') as [Z3 Z4]. destruct (coord_zero _ Az') as [Z5 Z6].
      assert (Ev : val3 (@mkV3 FS (coord (wx a) (S754_zero false) 0) (coord (wy a) (S754_zero false) 0) (coord (wz a) (S754_zero false) 0)) = val3 a) by (unfold point_value3; cbn [wx wy wz]; rewrite Z2, Z4, Z6; reflexivity).
      split; [cbn [map nth_error]; f_equal; exact Ev|]. split.
      + intros k p Hk. cbn [map] in Hk. rewrite Ev in Hk. destruct k as [|k]; [|destruct k; discriminate]. cbn [nth_error] in Hk. injection Hk as <-. cbn [INR].
        unfold lerp3. rsimp. split; [|split]; cbn [wx wy wz]; match goal with |- Rabs ?x <= _ => replace x with 0 by (rsimp; field) end; rewrite Rabs_R0; exact Sx.
      + constructor; [split; [exact Z1|split; [exact Z3|exact Z5]]|constructor].
  Qed.
End Points.

(* ---- what [subdivided_near] entails ---- *)
Section Near.
  Variable V : Type.
  Variables (along : V -> V -> R -> V) (dist : V -> V -> R) (close : V -> V -> Prop) (d delta eps : R).

  Hypothesis Hdelta : 0 <= delta <= / 2.
  Hypothesis dist_nonneg : forall a b, 0 <= dist a b.
  Hypothesis along_1 : forall a b, along a b 1 = b.
  Hypothesis close_refl : forall a, close a a.
  Hypothesis near_step : forall a b p q s h, 0 <= h -> close p (along a b s) -> close q (along a b (s + h)) -> dist p q <= h * dist a b + eps.
  Notation near := (subdivided_near along dist close d delta).

  Lemma near_hd l out : near l out -> hd_error out = hd_error l.
  Proof. intros H. destruct H as [|a|a b rest n steps out H1 H2 H3 H4 H5 H6 H7]; auto. destruct steps as [|s steps]; [discriminate|]. cbn [nth_error app hd_error] in *. auto. Qed.
  Lemma near_subseq l out : near l out -> subseq l out.
  Proof.
    intros H. induction H as [|a|a b rest n steps out H1 H2 H3 H4 H5 H6 H7 IH]; [constructor|apply subseq_refl|].
    destruct steps as [|s steps]; [discriminate|]. cbn [nth_error app] in *. injection H5 as ->. apply sub_keep. apply subseq_app_l. exact IH.
  Qed.
  Lemma near_last l out : near l out -> hd_error (rev out) = hd_error (rev l).
  Proof.
    intros H. induction H as [|a|a b rest n steps out H1 H2 H3 H4 H5 H6 H7 IH]; auto. rewrite rev_app_distr.
    pose proof (near_hd _ _ H7) as Hh. destruct out as [|o out]; [discriminate|].
    assert (E : forall A (x : A) l m, hd_error (rev (x :: l) ++ m) = hd_error (rev (x :: l))).
    { intros A x l0 m. destruct (rev (x :: l0)) eqn:Er; auto. apply (f_equal (@length A)) in Er. rewrite rev_length in Er. discriminate. }
    rewrite E. rewrite IH. change (rev (a :: b :: rest)) with (rev (b :: rest) ++ [a]). rewrite E. auto.
  Qed.
  Lemma near_steps l out : near l out -> Sorted (fun p q => dist p q <= (1 + 2 * delta) * d + eps) out.
  Proof.
    intros H. induction H as [|a|a b rest n steps out H1 H2 H3 H4 H5 H6 H7 IH]; [constructor|repeat constructor|].
    pose proof (near_hd _ _ H7) as Hh. cbn [hd_error] in Hh. destruct out as [|o out]; [discriminate|]. injection Hh as ->.
    assert (Hn : 0 < INR n) by (apply lt_0_INR; lia).
    assert (Len : / INR n * dist a b <= (1 + 2 * delta) * d).
    { apply Rmult_le_reg_l with (INR n); auto. rewrite <- Rmult_assoc, Rinv_r, Rmult_1_l by lra.
      apply Rle_trans with ((1 + 2 * delta) * ((1 - delta) * dist a b)).
      - replace ((1 + 2 * delta) * ((1 - delta) * dist a b)) with ((1 + (delta - 2 * (delta * delta))) * dist a b) by ring. rewrite <- (Rmult_1_l (dist a b)) at 1. apply Rmult_le_compat_r; [auto|]. nra.
      - replace (INR n * ((1 + 2 * delta) * d)) with ((1 + 2 * delta) * (INR n * d)) by ring. apply Rmult_le_compat_l; lra. }
    assert (Next : forall k p q, close p (along a b (INR k / INR n)) -> close q (along a b (INR (Datatypes.S k) / INR n)) -> dist p q <= (1 + 2 * delta) * d + eps).
    { intros k p q Hp Hq. eapply Rle_trans; [apply (near_step a b p q (INR k / INR n) (/ INR n)); [left; apply Rinv_0_lt_compat; auto|exact Hp|]|lra].
      replace (INR k / INR n + / INR n) with (INR (Datatypes.S k) / INR n) by (rewrite S_INR; field; lra). exact Hq. }
    assert (G : forall ps s, (s + length ps = n)%nat -> (forall k p, nth_error ps k = Some p -> close p (along a b (INR (s + k) / INR n))) ->
      Sorted (fun p q => dist p q <= (1 + 2 * delta) * d + eps) (ps ++ b :: out)).
    { induction ps as [|p ps IHp]; intros s Hs Hc; cbn [app]; auto. constructor.
      - apply (IHp (Datatypes.S s)); [cbn [length] in Hs; lia|]. intros k q Hk. replace (Datatypes.S s + k)%nat with (s + Datatypes.S k)%nat by lia. apply (Hc (Datatypes.S k)). exact Hk.
      - assert (Hp : close p (along a b (INR s / INR n))) by (replace s with (s + 0)%nat by lia; apply (Hc 0%nat); reflexivity).
        destruct ps as [|q ps]; cbn [app]; constructor; apply (Next s); auto.
        + cbn [length] in Hs. replace (Datatypes.S s) with n by lia. replace (INR n / INR n) with 1 by (field; lra). rewrite along_1. apply close_refl.
        + replace (Datatypes.S s) with (s + 1)%nat by lia. apply (Hc 1%nat). reflexivity. }
    apply (G steps 0%nat); [lia|]. intros k p Hk. apply H6. exact Hk.
  Qed.
End Near.

Lemma abs_mul_le v e N E : Rabs v <= N -> Rabs e <= E -> v * e <= N * E.
Proof. intros. eapply Rle_trans; [apply Rle_abs|]. apply abs_le_mul; auto. Qed.
Lemma near_step2 eps (a b p q : pt) s h : 0 <= eps -> 0 <= h -> close2 eps p (lerp a b s) -> close2 eps q (lerp a b (s + h)) -> edist p q <= h * edist a b + 6 * eps.
Proof.
  intros He Hh [P1 P2] [Q1 Q2]. set (L := edist a b). assert (L0 : 0 <= L) by apply edist_nonneg. assert (HL : L * L = sqdist a b) by apply sqdist_edist. clearbody L.
  assert (Hl : 0 <= h * L) by (apply Rmult_le_pos; auto). apply le_sq; [lra|]. rewrite sqdist_edist. destruct a as [ax ay], b as [bx by_], p as [px py], q as [qx qy]. unfold lerp, sqdist in *. cbn [vx vy] in *. rsimp.
  set (X := bx - ax) in *. set (Y := by_ - ay) in *.
  assert (EX : Rabs ((qx - px) - h * X) <= 2 * eps).
  { replace ((qx - px) - h * X) with ((qx - (ax + (s + h) * (bx - ax))) - (px - (ax + s * (bx - ax)))) by (unfold X; ring). replace (2 * eps) with (eps + eps) by ring. apply abs_le_sub; [eapply Rle_trans; [|exact Q1]|eapply Rle_trans; [|exact P1]]; right; f_equal; ring. }
  assert (EY : Rabs ((qy - py) - h * Y) <= 2 * eps).
  { replace ((qy - py) - h * Y) with ((qy - (ay + (s + h) * (by_ - ay))) - (py - (ay + s * (by_ - ay)))) by (unfold Y; ring). replace (2 * eps) with (eps + eps) by ring. apply abs_le_sub; [eapply Rle_trans; [|exact Q2]|eapply Rle_trans; [|exact P2]]; right; f_equal; ring. }
  assert (HL' : L * L = X * X + Y * Y) by (rewrite HL; unfold X, Y; ring).
  assert (BX : Rabs X <= L) by (apply Rabs_le; nra). assert (BY : Rabs Y <= L) by (apply Rabs_le; nra).
  set (e := (qx - px) - h * X) in *. set (f := (qy - py) - h * Y) in *.
  replace ((px - qx) * (px - qx) + (py - qy) * (py - qy)) with (h * h * (X * X + Y * Y) + 2 * h * (X * e + Y * f) + (e * e + f * f)) by (unfold e, f; ring).
  rewrite <- HL'. pose proof (abs_mul_le _ _ _ _ BX EX) as M1. pose proof (abs_mul_le _ _ _ _ BY EY) as M2. pose proof (abs_mul_le _ _ _ _ EX EX) as M3. pose proof (abs_mul_le _ _ _ _ EY EY) as M4.
  assert (M5 : 2 * h * (X * e + Y * f) <= 2 * h * (L * (2 * eps) + L * (2 * eps))) by (apply Rmult_le_compat_l; lra).
  assert (0 <= h * L * eps) by (apply Rmult_le_pos; auto). assert (0 <= eps * eps) by nra. nra.
Qed.
Lemma near_step3 eps (a b p q : pt3) s h : 0 <= eps -> 0 <= h -> close3 eps p (lerp3 a b s) -> close3 eps q (lerp3 a b (s + h)) -> edist3 p q <= h * edist3 a b + 6 * eps.
Proof.
  intros He Hh (P1 & P2 & P3) (Q1 & Q2 & Q3). set (L := edist3 a b). assert (L0 : 0 <= L) by apply edist3_nonneg. assert (HL : L * L = sqdist3 a b) by (apply sqrt_sqrt, sqdist3_nn). clearbody L.
  assert (Hl : 0 <= h * L) by (apply Rmult_le_pos; auto). apply le_sq; [lra|]. unfold edist3. rewrite sqrt_sqrt by apply sqdist3_nn. destruct a as [ax ay az], b as [bx by_ bz], p as [px py pz], q as [qx qy qz]. unfold lerp3, sqdist3 in *. cbn [wx wy wz] in *. rsimp.
  set (X := bx - ax) in *. set (Y := by_ - ay) in *. set (Z := bz - az) in *.
  assert (EX : Rabs ((qx - px) - h * X) <= 2 * eps).
  { replace ((qx - px) - h * X) with ((qx - (ax + (s + h) * (bx - ax))) - (px - (ax + s * (bx - ax)))) by (unfold X; ring). replace (2 * eps) with (eps + eps) by ring. apply abs_le_sub; [eapply Rle_trans; [|exact Q1]|eapply Rle_trans; [|exact P1]]; right; f_equal; ring. }
  assert (EY : Rabs ((qy - py) - h * Y) <= 2 * eps).
  { replace ((qy - py) - h * Y) with ((qy - (ay + (s + h) * (by_ - ay))) - (py - (ay + s * (by_ - ay)))) by (unfold Y; ring). replace (2 * eps) with (eps + eps) by ring. apply abs_le_sub; [eapply Rle_trans; [|exact Q2]|eapply Rle_trans; [|exact P2]]; right; f_equal; ring. }
  assert (EZ : Rabs ((qz - pz) - h * Z) <= 2 * eps).
  { replace ((qz - pz) - h * Z) with ((qz - (az + (s + h) * (bz - az))) - (pz - (az + s * (bz - az)))) by (unfold Z; ring). replace (2 * eps) with (eps + eps) by ring. apply abs_le_sub; [eapply Rle_trans; [|exact Q3]|eapply Rle_trans; [|exact P3]]; right; f_equal; ring. }
  assert (HL' : L * L = X * X + Y * Y + Z * Z) by (rewrite HL; unfold X, Y, Z; ring). assert (NX := Rle_0_sqr X). assert (NY := Rle_0_sqr Y). assert (NZ := Rle_0_sqr Z). unfold Rsqr in NX, NY, NZ.
  assert (BX : Rabs X <= L) by (apply Rabs_le; nra). assert (BY : Rabs Y <= L) by (apply Rabs_le; nra). assert (BZ : Rabs Z <= L) by (apply Rabs_le; nra).
  set (e := (qx - px) - h * X) in *. set (f := (qy - py) - h * Y) in *. set (g := (qz - pz) - h * Z) in *.
  replace ((px - qx) * (px - qx) + (py - qy) * (py - qy) + (pz - qz) * (pz - qz)) with (h * h * (X * X + Y * Y + Z * Z) + 2 * h * (X * e + Y * f + Z * g) + (e * e + f * f + g * g)) by (unfold e, f, g; ring).
  rewrite <- HL'. pose proof (abs_mul_le _ _ _ _ BX EX) as M1. pose proof (abs_mul_le _ _ _ _ BY EY) as M2. pose proof (abs_mul_le _ _ _ _ BZ EZ) as M2'. pose proof (abs_mul_le _ _ _ _ EX EX) as M3. pose proof (abs_mul_le _ _ _ _ EY EY) as M4. pose proof (abs_mul_le _ _ _ _ EZ EZ) as M4'.
  assert (M5 : 2 * h * (X * e + Y * f + Z * g) <= 2 * h * (L * (2 * eps) + L * (2 * eps) + L * (2 * eps))) by (apply Rmult_le_compat_l; lra).
  assert (0 <= h * L * eps) by (apply Rmult_le_pos; auto). assert (0 <= eps * eps) by nra. nra.
Qed.

Section All.
  Context (prec emax epsexp : Z) (at2 : spec_float -> spec_float -> spec_float) (Hprec : Prec_gt_0 prec) (Hmax : Prec_lt_emax prec emax).
  Notation FS := (FloatS prec emax epsexp at2).
  Notation good := (finite_float prec emax).
  Notation rv := fvalue.
  Notation bp := (bpow radix2).
  Notation u := (bpow radix2 (- prec)).
  Context (T : Z) (HT : (1 <= T)%Z) (HTe : (2 * T + 10 <= emax - 2)%Z) (HTp : (T + prec + 4 <= emax)%Z) (Hp : (10 <= prec <= 63)%Z).
  Context (M : R) (HM : bp (- T) <= M <= bp T).
  Context (d : spec_float) (Gd : good d) (Hd : bp (- T) <= rv d <= bp T) (HMd : M <= bp (prec - 4) * rv d).
  Notation val := (@point_value prec emax epsexp at2).
  Notation val3 := (@point_value3 prec emax epsexp at2).

  Lemma disc2 (pts : list (V2 FS)) : Forall (up2 prec emax epsexp at2 M) pts -> exists out, yields (dnext2 pts d) dnew2 out /\ Forall (fin2 prec emax epsexp at2) out /\
    subdivided_near lerp edist (close2 (12 * u * M)) (rv d) (16 * u) (map val pts) (map val out) /\ subseq (map val pts) (map val out) /\
    hd_error (map val out) = hd_error (map val pts) /\ hd_error (rev (map val out)) = hd_error (rev (map val pts)) /\
    Sorted (fun p q => edist p q <= (1 + 32 * u) * rv d + 72 * u * M) (map val out).
  Proof.
    intros Hp2. exists (emit_all (S := FS) (V2 FS) v2zero vadd vsub vscale vdivs vmag d pts). pose proof (u_1024 prec Hp) as Hu. pose proof (bpow_gt_0 radix2 (- T)) as PT.
    assert (E0 : 0 <= 12 * u * M) by (apply Rmult_le_pos; [apply Rmult_le_pos|]; lra).
    split; [apply yields_emit_all|].
    assert (N : Forall (fin2 prec emax epsexp at2) (emit_all (S := FS) (V2 FS) v2zero vadd vsub vscale vdivs vmag d pts) /\
      subdivided_near lerp edist (close2 (12 * u * M)) (rv d) (16 * u) (map val pts) (map val (emit_all (S := FS) (V2 FS) v2zero vadd vsub vscale vdivs vmag d pts))).
    { induction pts as [|a [|b t] IH]; [split; constructor| |].
      - split; [|constructor]. inversion Hp2 as [|? ? [H1 H2]]; subst. constructor; [split; [apply H1|apply H2]|constructor].
      - inversion Hp2 as [|? ? Ha Hr]; subst. assert (Hb : up2 prec emax epsexp at2 M b) by (inversion Hr; auto). destruct (IH Hr) as [F N]. change (emit_all (S := FS) (V2 FS) v2zero vadd vsub vscale vdivs vmag d (a :: b :: t)) with
          (emit (S := FS) (V2 FS) v2zero vadd vsub vscale vdivs vmag d a b ++ emit_all (S := FS) (V2 FS) v2zero vadd vsub vscale vdivs vmag d (b :: t)).
        destruct (emit2_near prec emax epsexp at2 Hprec Hmax T HT HTe HTp Hp M HM d Gd Hd HMd a b Ha Hb) as (n & S1 & S2 & S3 & S4 & S5 & S6 & S7).
        split; [apply Forall_app; auto|]. rewrite map_app. cbn [map]. apply sn_edge with n; auto. }
    destruct N as [F N]. split; [exact F|]. split; [exact N|]. split; [eapply near_subseq; eauto|]. split; [eapply near_hd; eauto|]. split; [eapply near_last; eauto|].
    replace (1 + 32 * u) with (1 + 2 * (16 * u)) by ring. replace (72 * u * M) with (6 * (12 * u * M)) by ring. apply (near_steps _ lerp edist (close2 (12 * u * M)) (rv d) (16 * u)) with (l := map val pts); [lra|apply edist_nonneg| | | |exact N].
    - intros [] []; unfold lerp; apply V2_ext; rsimp; ring.
    - intros [px py]. split; rsimp; unfold Rminus; rewrite Rplus_opp_r, Rabs_R0; exact E0.
    - intros a b p q s h Hh. apply near_step2; auto.
  Qed.
  Lemma disc3 (pts : list (V3 FS)) : Forall (up3 prec emax epsexp at2 M) pts -> exists out, yields (dnext3 pts d) dnew3 out /\ Forall (fin3 prec emax epsexp at2) out /\
    subdivided_near lerp3 edist3 (close3 (12 * u * M)) (rv d) (16 * u) (map val3 pts) (map val3 out) /\ subseq (map val3 pts) (map val3 out) /\
    hd_error (map val3 out) = hd_error (map val3 pts) /\ hd_error (rev (map val3 out)) = hd_error (rev (map val3 pts)) /\
    Sorted (fun p q => edist3 p q <= (1 + 32 * u) * rv d + 72 * u * M) (map val3 out).
  Proof.
    intros Hp2. exists (emit_all (S := FS) (V3 FS) v3zero wadd wsub wscale wdivs wmag d pts). pose proof (u_1024 prec Hp) as Hu. pose proof (bpow_gt_0 radix2 (- T)) as PT.
    assert (E0 : 0 <= 12 * u * M) by (apply Rmult_le_pos; [apply Rmult_le_pos|]; lra).
    split; [apply yields_emit_all|].
    assert (N : Forall (fin3 prec emax epsexp at2) (emit_all (S := FS) (V3 FS) v3zero wadd wsub wscale wdivs wmag d pts) /\
      subdivided_near lerp3 edist3 (close3 (12 * u * M)) (rv d) (16 * u) (map val3 pts) (map val3 (emit_all (S := FS) (V3 FS) v3zero wadd wsub wscale wdivs wmag d pts))).
    { induction pts as [|a [|b t] IH]; [split; constructor| |].
      - split; [|constructor]. inversion Hp2 as [|? ? (H1 & H2 & H3)]; subst. constructor; [split; [apply H1|split; [apply H2|apply H3]]|constructor].
      - inversion Hp2 as [|? ? Ha Hr]; subst. assert (Hb : up3 prec emax epsexp at2 M b) by (inversion Hr; auto). destruct (IH Hr) as [F N]. change (emit_all (S := FS) (V3 FS) v3zero wadd wsub wscale wdivs wmag d (a :: b :: t)) with
          (emit (S := FS) (V3 FS) v3zero wadd wsub wscale wdivs wmag d a b ++ emit_all (S := FS) (V3 FS) v3zero wadd wsub wscale wdivs wmag d (b :: t)).
        destruct (emit3_near prec emax epsexp at2 Hprec Hmax T HT HTe HTp Hp M HM d Gd Hd HMd a b Ha Hb) as (n & S1 & S2 & S3 & S4 & S5 & S6 & S7).
        split; [apply Forall_app; auto|]. rewrite map_app. cbn [map]. apply sn_edge with n; auto. }
    destruct N as [F N]. split; [exact F|]. split; [exact N|]. split; [eapply near_subseq; eauto|]. split; [eapply near_hd; eauto|]. split; [eapply near_last; eauto|].
    replace (1 + 32 * u) with (1 + 2 * (16 * u)) by ring. replace (72 * u * M) with (6 * (12 * u * M)) by ring. apply (near_steps _ lerp3 edist3 (close3 (12 * u * M)) (rv d) (16 * u)) with (l := map val3 pts); [lra|apply edist3_nonneg| | | |exact N].
    - intros [] []; unfold lerp3; apply V3_ext; rsimp; ring.
    - intros [px py pz]. split; [|split]; rsimp; unfold Rminus; rewrite Rplus_opp_r, Rabs_R0; exact E0.
    - intros a b p q s h Hh. apply near_step3; auto.
  Qed.
End All.
