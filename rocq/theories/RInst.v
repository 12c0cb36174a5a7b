(* Exact real arithmetic as an instance of [Scalar]: ulps_eq is equality, nothing is non-finite. *)
From Coq Require Import Reals Lra NArith ZArith.
From Verif Require Import Prelude Scalar.
Local Open Scope R_scope.

Definition Rltb (a b : R) : bool := if Rlt_dec a b then true else false.
Definition Rleb (a b : R) : bool := if Rle_dec a b then true else false.
Definition Reqb (a b : R) : bool := if Req_EM_T a b then true else false.

(* ceiling: up x is the least integer strictly above x *)
Definition Zceil (x : R) : Z := (- Int_part (- x))%Z.
Definition Rceil (x : R) : R := IZR (Zceil x).
Definition R_to_usize (x : R) : N := Z.to_N (Int_part x).

(* atan2 for the values used by the code: any angle function consistent with [atan] *)
Definition Ratan2 (y x : R) : R :=
  if Rlt_dec 0 x then atan (y / x)
  else if Rlt_dec x 0 then (if Rle_dec 0 y then atan (y / x) + PI else atan (y / x) - PI)
  else if Rlt_dec 0 y then PI / 2 else if Rlt_dec y 0 then - (PI / 2) else 0.

Definition RS : Scalar := {|
  car := R; s0 := 0; s1 := 1; s2 := 2;
  sadd := Rplus; ssub := Rminus; smul := Rmult; sdiv := Rdiv; sneg := Ropp;
  ssqrt := sqrt; satan2 := Ratan2;
  sltb := Rltb; sleb := Rleb; seqb := Reqb; smin := Rmin; smax := Rmax;
  sfin := fun _ => true;
  sulps := Reqb; sulps_with := fun _ _ => Reqb; sabsdiff := fun eps a b => Rleb (Rabs (a - b)) eps;
  sceil := Rceil; s_to_usize := R_to_usize; s_of_usize := fun n => IZR (Z.of_N n);
  ssignneg := fun x => Rltb x 0;
  smaxval := 0;   (* no largest real: code paths using it are not claimed for this instance *)
  sinf := 0
|}.

Lemma Rltb_spec a b : reflect (a < b) (Rltb a b).
Proof. unfold Rltb; destruct (Rlt_dec a b); constructor; auto. Qed.
Lemma Rleb_spec a b : reflect (a <= b) (Rleb a b).
Proof. unfold Rleb; destruct (Rle_dec a b); constructor; auto. Qed.
Lemma Reqb_spec a b : reflect (a = b) (Reqb a b).
Proof. unfold Reqb; destruct (Req_EM_T a b); constructor; auto. Qed.

Lemma Rltb_true a b : Rltb a b = true <-> a < b.
Proof. destruct (Rltb_spec a b); split; auto; try discriminate; lra. Qed.
Lemma Rltb_false a b : Rltb a b = false <-> b <= a.
Proof. destruct (Rltb_spec a b); split; auto; try discriminate; lra. Qed.
Lemma Rleb_true a b : Rleb a b = true <-> a <= b.
Proof. destruct (Rleb_spec a b); split; auto; try discriminate; lra. Qed.
Lemma Rleb_false a b : Rleb a b = false <-> b < a.
Proof. destruct (Rleb_spec a b); split; auto; try discriminate; lra. Qed.
Lemma Reqb_true a b : Reqb a b = true <-> a = b.
Proof. destruct (Reqb_spec a b); split; auto; try discriminate; tauto. Qed.
Lemma Reqb_false a b : Reqb a b = false <-> a <> b.
Proof. destruct (Reqb_spec a b); split; auto; try discriminate; tauto. Qed.

Notation pt := (V2 RS).
Notation pt3 := (V3 RS).
Definition px (p : pt) : R := vx p.
Definition py (p : pt) : R := vy p.

Lemma V2_eta {S} (p : V2 S) : mkV2 (vx p) (vy p) = p.
Proof. destruct p; auto. Qed.
Lemma V2_ext {S} (p q : V2 S) : vx p = vx q -> vy p = vy q -> p = q.
Proof. destruct p, q; simpl; congruence. Qed.
Lemma V3_ext {S} (p q : V3 S) : wx p = wx q -> wy p = wy q -> wz p = wz q -> p = q.
Proof. destruct p, q; simpl; congruence. Qed.

Lemma veqb_R (a b : pt) : veqb a b = true <-> a = b.
Proof.
  unfold veqb; simpl. rewrite andb_true_iff, !Reqb_true. split.
  - intros []; apply V2_ext; auto. - intros ->; auto.
Qed.
Lemma vulps_R (a b : pt) : vulps a b = true <-> a = b.
Proof. apply veqb_R. Qed.
Lemma weqb_R (a b : pt3) : weqb a b = true <-> a = b.
Proof.
  unfold weqb; simpl. rewrite !andb_true_iff, !Reqb_true. split.
  - intros [[] ]; apply V3_ext; auto. - intros ->; auto.
Qed.
Lemma wulps_R (a b : pt3) : wulps a b = true <-> a = b.
Proof. apply weqb_R. Qed.

Lemma spcmp_R (a b : R) : @spcmp RS a b =
  (if Rlt_dec a b then Some Lt else if Rlt_dec b a then Some Gt else Some Eq).
Proof.
  unfold spcmp; simpl. unfold Rltb, Reqb.
  destruct (Rlt_dec a b), (Rlt_dec b a), (Req_EM_T a b); auto; lra.
Qed.
