(* IEEE-754 instances of [Scalar], built on the standard library's axiom-free SpecFloat. *)
From Coq Require Import ZArith NArith Floats.SpecFloat.
From Verif Require Import Prelude Scalar.

Section FP.
  Context (prec emax : Z) (epsexp : Z)      (* machine epsilon = 2^epsexp *)
          (at2 : spec_float -> spec_float -> spec_float).
  Local Open Scope Z_scope.

  Definition fl_of_Z (z : Z) : spec_float := binary_normalize prec emax z 0 false.
  Definition fl_pow2 (e : Z) : spec_float := binary_normalize prec emax 1 e false.

  Definition fl_is_nan (x : spec_float) : bool := match x with S754_nan => true | _ => false end.
  Definition fl_min (a b : spec_float) : spec_float :=
    if fl_is_nan a then b else if fl_is_nan b then a else if SFltb b a then b else a.
  Definition fl_max (a b : spec_float) : spec_float :=
    if fl_is_nan a then b else if fl_is_nan b then a else if SFltb a b then b else a.
  Definition fl_fin (x : spec_float) : bool :=
    match x with S754_zero _ | S754_finite _ _ _ => true | _ => false end.
  Definition fl_signneg (x : spec_float) : bool :=
    match x with S754_zero s | S754_infinity s | S754_finite s _ _ => s | S754_nan => false end.

  (* |x| as the integer value of its bit pattern *)
  Definition fl_bits (x : spec_float) : Z :=
    match x with
    | S754_zero _ => 0
    | S754_finite _ m e => (e - emin prec emax) * 2 ^ (prec - 1) + Zpos m
    | S754_infinity _ => (emax - prec - emin prec emax) * 2 ^ (prec - 1) + 2 ^ prec
    | S754_nan => 0
    end.

  (* approx 0.5 AbsDiffEq / UlpsEq for f32 and f64 *)
  Definition fl_absdiff (eps a b : spec_float) : bool := SFleb (SFabs (SFsub prec emax a b)) eps.
  Definition fl_ulps_with (eps : spec_float) (mu : N) (a b : spec_float) : bool :=
    if fl_absdiff eps a b then true
    else if orb (fl_is_nan a) (fl_is_nan b) then false
    else if negb (Bool.eqb (fl_signneg a) (fl_signneg b)) then false
    else Z.leb (Z.abs (fl_bits a - fl_bits b)) (Z.of_N mu).

  Definition fl_ceil (x : spec_float) : spec_float :=
    match x with
    | S754_finite s m e =>
        if Z.leb 0 e then x
        else let d := 2 ^ (- e) in
             let z := if s then - (Zpos m / d) else - ((- Zpos m) / d) in
             if Z.eqb z 0 then S754_zero s else fl_of_Z z
    | _ => x
    end.
  Definition usize_max : N := (2 ^ 64 - 1)%N.
  Definition fl_to_usize (x : spec_float) : N :=
    match x with
    | S754_infinity false => usize_max
    | S754_finite false m e =>
        N.min usize_max (Z.to_N (if Z.leb 0 e then Zpos m * 2 ^ e else Zpos m / 2 ^ (- e)))
    | _ => 0%N
    end.

  Definition FloatS : Scalar := {|
    car := spec_float;
    s0 := S754_zero false; s1 := fl_of_Z 1; s2 := fl_of_Z 2;
    sadd := SFadd prec emax; ssub := SFsub prec emax; smul := SFmul prec emax; sdiv := SFdiv prec emax;
    sneg := SFopp; ssqrt := SFsqrt prec emax; satan2 := at2;
    sltb := SFltb; sleb := SFleb; seqb := SFeqb; smin := fl_min; smax := fl_max; sfin := fl_fin;
    sulps := fl_ulps_with (fl_pow2 epsexp) 4;
    sulps_with := fl_ulps_with; sabsdiff := fl_absdiff;
    sceil := fl_ceil; s_to_usize := fl_to_usize; s_of_usize := fun n => fl_of_Z (Z.of_N n);
    ssignneg := fl_signneg;
    smaxval := binary_normalize prec emax (2 ^ prec - 1) (emax - prec) false;
    sinf := S754_infinity false
  |}.
End FP.

(* f64 and f32; atan2 is left abstract (any function) *)
Definition F64 at2 : Scalar := FloatS 53 1024 (-52) at2.
Definition F32 at2 : Scalar := FloatS 24 128 (-23) at2.

(* integer valued points, for examples *)
Definition f64 (z : Z) : spec_float := fl_of_Z 53 1024 z.
Definition no_atan2 (_ _ : spec_float) : spec_float := S754_nan.
Definition F64_ : Scalar := F64 no_atan2.
Definition P (x y : Z) : V2 F64_ := @mkV2 F64_ (f64 x) (f64 y).
Definition P3 (x y z : Z) : V3 F64_ := @mkV3 F64_ (f64 x) (f64 y) (f64 z).

(* boolean equality of float points, so that concrete runs can be checked by computation *)
Definition sf_eqb (a b : spec_float) : bool :=
  match a, b with
  | S754_zero s, S754_zero t => Bool.eqb s t
  | S754_infinity s, S754_infinity t => Bool.eqb s t
  | S754_nan, S754_nan => true
  | S754_finite s m e, S754_finite t n f => Bool.eqb s t && Pos.eqb m n && Z.eqb e f
  | _, _ => false
  end.
Lemma sf_eqb_eq a b : sf_eqb a b = true -> a = b.
Proof.
  destruct a, b; simpl; try discriminate; auto; intros H;
    repeat match goal with H : _ && _ = true |- _ => apply andb_prop in H as [? ?] end;
    repeat match goal with
           | H : Bool.eqb _ _ = true |- _ => apply Bool.eqb_prop in H
           | H : Pos.eqb _ _ = true |- _ => apply Pos.eqb_eq in H
           | H : Z.eqb _ _ = true |- _ => apply Z.eqb_eq in H
           end; subst; auto.
Qed.
Definition v2_same (a b : V2 F64_) : bool := sf_eqb (vx a) (vx b) && sf_eqb (vy a) (vy b).
Definition v3_same (a b : V3 F64_) : bool := sf_eqb (wx a) (wx b) && sf_eqb (wy a) (wy b) && sf_eqb (wz a) (wz b).
Fixpoint list_same {A} (f : A -> A -> bool) (l m : list A) : bool :=
  match l, m with
  | [], [] => true
  | a :: l, b :: m => f a b && list_same f l m
  | _, _ => false
  end.
Definition out_same {A} (f : A -> A -> bool) (x y : outcome A) : bool :=
  match x, y with
  | Val a, Val b => f a b
  | Panic, Panic => true
  | NoFuel, NoFuel => true
  | _, _ => false
  end.
Definition opt_same {A} (f : A -> A -> bool) (x y : option A) : bool :=
  match x, y with Some a, Some b => f a b | None, None => true | _, _ => false end.
Lemma v2_same_eq a b : v2_same a b = true -> a = b.
Proof.
  destruct a as [a1 a2], b as [b1 b2]. unfold v2_same. simpl. intros H. apply andb_prop in H as [H1 H2].
  apply sf_eqb_eq in H1, H2. subst. auto.
Qed.
Lemma v3_same_eq a b : v3_same a b = true -> a = b.
Proof.
  destruct a as [a1 a2 a3], b as [b1 b2 b3]. unfold v3_same. simpl. intros H.
  apply andb_prop in H as [H H3]. apply andb_prop in H as [H1 H2].
  apply sf_eqb_eq in H1, H2, H3. subst. auto.
Qed.
Lemma list_same_eq {A} (f : A -> A -> bool) : (forall a b, f a b = true -> a = b) ->
  forall l m, list_same f l m = true -> l = m.
Proof.
  intros Hf. induction l as [|a l IH]; intros [|b m]; simpl; try discriminate; auto.
  intros H. apply andb_prop in H as [H1 H2]. f_equal; auto.
Qed.
Lemma out_same_eq {A} (f : A -> A -> bool) : (forall a b, f a b = true -> a = b) ->
  forall x y, out_same f x y = true -> x = y.
Proof. intros Hf [a|e| |] [b|e'| |]; simpl; try discriminate; auto. intros H; f_equal; auto. Qed.
Lemma opt_same_eq {A} (f : A -> A -> bool) : (forall a b, f a b = true -> a = b) ->
  forall x y, opt_same f x y = true -> x = y.
Proof. intros Hf [a|] [b|]; simpl; try discriminate; auto. intros H; f_equal; auto. Qed.
(* checks [m = Val pts] for float points without normalising the scalar record *)
Ltac fcomp2 := apply (out_same_eq (list_same v2_same) (list_same_eq v2_same v2_same_eq)); vm_compute; reflexivity.
Ltac fcomp3 := apply (out_same_eq (list_same v3_same) (list_same_eq v3_same v3_same_eq)); vm_compute; reflexivity.

(* decide a panic through a boolean *)
Definition is_panic {A} (m : outcome A) : bool := match m with Panic => true | _ => false end.
Lemma is_panic_eq {A} (m : outcome A) : is_panic m = true -> m = Panic.
Proof. destruct m; simpl; congruence. Qed.

Definition isec_same (a b : Intersection F64_) : bool :=
  match a, b with
  | IPoint p, IPoint q => v2_same p q
  | IOverlap l, IOverlap m => v2_same (lstart l) (lstart m) && v2_same (lend l) (lend m)
  | _, _ => false
  end.
Lemma isec_same_eq a b : isec_same a b = true -> a = b.
Proof.
  destruct a as [p|[a1 a2]], b as [q|[b1 b2]]; simpl; try discriminate.
  - intros H; apply v2_same_eq in H; congruence.
  - intros H; apply andb_prop in H as [H1 H2]; apply v2_same_eq in H1, H2; congruence.
Qed.
Ltac fisec := apply (opt_same_eq isec_same isec_same_eq); vm_compute; reflexivity.
