(* What is asked of the platform's atan2 in C135. *)
From Coq Require Import ZArith Reals Floats.SpecFloat.
From Verif Require Import Prelude Scalar RInst Flt FloatSpec.
Local Open Scope R_scope.

(* the arguments that occur: finite, x is positive or +0 (not -0) *)
Definition at2_arg (prec emax : Z) (y x : spec_float) : Prop :=
  finite_float prec emax y /\ finite_float prec emax x /\ 0 <= fvalue x /\ x <> S754_zero true.
(* the result is finite and within eps of the exact angle, and depends only on the exact angle *)
Definition accurate_atan2 (prec emax : Z) (eps : R) (at2 : spec_float -> spec_float -> spec_float) : Prop :=
  forall y x, at2_arg prec emax y x ->
    finite_float prec emax (at2 y x) /\ Rabs (fvalue (at2 y x) - Ratan2 (fvalue y) (fvalue x)) <= eps /\
    forall y' x', at2_arg prec emax y' x' -> Ratan2 (fvalue y) (fvalue x) = Ratan2 (fvalue y') (fvalue x') -> fvalue (at2 y x) = fvalue (at2 y' x').
(* the x coordinate is not the negative zero *)
Definition no_neg_zero {prec emax epsexp at2} (p : V2 (FloatS prec emax epsexp at2)) : Prop := vx p <> S754_zero true.

(* the grid of C135: coordinates k * 2^s with |k| <= 2^23 (f64) or |k| <= 724 (f32), and no x coordinate is -0 *)
Definition angle_grid64 {at2} (s : Z) (p : V2 (F64 at2)) : Prop := (-25 <= s <= 485)%Z /\ @grid_point 53 1024 (-52) at2 s (2 ^ 23) p /\ @no_neg_zero 53 1024 (-52) at2 p.
Definition angle_grid32 {at2} (s : Z) (p : V2 (F32 at2)) : Prop := (-11 <= s <= 51)%Z /\ @grid_point 24 128 (-23) at2 s 724 p /\ @no_neg_zero 24 128 (-23) at2 p.
