(* The comparisons of FloatS satisfy the conditions SweepFlt.v and SweepTerm.v ask for. *)
From Coq Require Import ZArith Bool Floats.SpecFloat.
From Verif Require Import Prelude Scalar Flt FltOrd Rdp1 SweepFin.

Section FP.
Variables (prec emax epsexp : Z) (at2 : spec_float -> spec_float -> spec_float).
Hypothesis He : SFleb (S754_zero false) (fl_pow2 prec emax epsexp) = true.
Notation FS := (FloatS prec emax epsexp at2).

Lemma ulps_refl (a : spec_float) : fl_fin a = true -> fl_ulps_with prec emax (fl_pow2 prec emax epsexp) 4 a a = true.
Proof.
  intros F. unfold fl_ulps_with. destruct (fl_absdiff _ _ _ _ _); auto.
  assert (N : fl_is_nan a = false) by (destruct a; auto; discriminate). rewrite N. cbn [orb].
  rewrite Bool.eqb_reflx. cbn [negb]. rewrite Z.sub_diag. reflexivity.
Qed.
Lemma ulps_zeros b b' : fl_ulps_with prec emax (fl_pow2 prec emax epsexp) 4 (S754_zero b) (S754_zero b') = true.
Proof.
  unfold fl_ulps_with, fl_absdiff. assert (H : SFabs (SFsub prec emax (S754_zero b) (S754_zero b')) = S754_zero false) by (destruct b, b'; reflexivity).
  rewrite H, He. reflexivity.
Qed.
Lemma eqb_same (a b : spec_float) : fl_fin a = true -> fl_fin b = true -> SFeqb a b = true ->
  a = b \/ exists x y, a = S754_zero x /\ b = S754_zero y.
Proof.
  unfold SFeqb. destruct a as [s|s| |s m e], b as [t|t| |t n g]; cbn; try discriminate; eauto.
  - destruct t; discriminate.
  - destruct s; discriminate.
  - intros _ _. destruct s, t; try discriminate; destruct (Z.compare_spec e g) as [->| |]; try discriminate.
    + change (Pos.compare_cont Eq m n) with (Pos.compare m n). destruct (Pos.compare_spec m n); cbn; try discriminate. subst. auto.
    + change (Pos.compare_cont Eq m n) with (Pos.compare m n). destruct (Pos.compare_spec m n); cbn; try discriminate. subst. auto.
Qed.
Lemma float_refl (a : car FS) : sfin a = true -> sulps a a = true.
Proof. exact (ulps_refl a). Qed.
Lemma float_eq (a b : car FS) : sfin a = true -> sfin b = true -> seqb a b = true -> sulps a b = true.
Proof.
  intros Ha Hb E. destruct (eqb_same a b Ha Hb E) as [->|(x & y & -> & ->)]; [exact (ulps_refl b Hb)|exact (ulps_zeros x y)].
Qed.
Lemma float_ord : OrdOn FS (fun x => sfin x = true).
Proof.
  assert (N : forall x : car FS, sfin x = true -> x <> S754_nan) by (intros x H ->; discriminate).
  destruct (OrdOn_float prec emax epsexp at2). constructor; eauto.
Qed.
End FP.
Lemma eps64 : SFleb (S754_zero false) (fl_pow2 53 1024 (-52)) = true. Proof. vm_compute. reflexivity. Qed.
Lemma eps32 : SFleb (S754_zero false) (fl_pow2 24 128 (-23)) = true. Proof. vm_compute. reflexivity. Qed.
