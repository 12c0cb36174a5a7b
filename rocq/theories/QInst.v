(* Exact rational arithmetic: runs of the model that can be computed, and their image in exact real arithmetic. *)
From Coq Require Import QArith Qreals Reals Lra NArith.
From Verif Require Import Prelude Scalar RInst Geo2 Sweep SweepRun.
Local Open Scope R_scope.

(* the operations the sweep-line code does not use are left out (constant) *)
Definition qltb (a b : Q) : bool := match Qcompare a b with Lt => true | _ => false end.
Definition QS : Scalar := {|
  car := Q; s0 := 0%Q; s1 := 1%Q; s2 := 2%Q;
  sadd := fun a b => Qred (a + b); ssub := fun a b => Qred (a - b); smul := fun a b => Qred (a * b);
  sdiv := fun a b => Qred (a / b); sneg := fun a => Qred (- a);
  ssqrt := fun a => a; satan2 := fun a _ => a;
  sltb := qltb; sleb := Qle_bool; seqb := Qeq_bool;
  smin := fun a b => if Qle_bool a b then a else b; smax := fun a b => if Qle_bool a b then b else a;
  sfin := fun _ => true; sulps := Qeq_bool; sulps_with := fun _ _ => Qeq_bool; sabsdiff := fun _ => Qeq_bool;
  sceil := fun a => a; s_to_usize := fun _ => 0%N; s_of_usize := fun _ => 0%Q;
  ssignneg := fun a => qltb a 0; smaxval := 0%Q; sinf := 0%Q |}.

Record hom (S T : Scalar) (h : car S -> car T) : Prop := {
  h_0 : h s0 = s0; h_1 : h s1 = s1;
  h_add : forall a b, h (sadd a b) = sadd (h a) (h b);
  h_sub : forall a b, h (ssub a b) = ssub (h a) (h b);
  h_mul : forall a b, h (smul a b) = smul (h a) (h b);
  h_div : forall a b, h (sdiv a b) = sdiv (h a) (h b);
  h_neg : forall a, h (sneg a) = sneg (h a);
  h_min : forall a b, h (smin a b) = smin (h a) (h b);
  h_max : forall a b, h (smax a b) = smax (h a) (h b);
  h_ltb : forall a b, sltb (h a) (h b) = sltb a b;
  h_leb : forall a b, sleb (h a) (h b) = sleb a b;
  h_eqb : forall a b, seqb (h a) (h b) = seqb a b;
  h_ulps : forall a b, sulps (h a) (h b) = sulps a b;
  h_fin : forall a, sfin (h a) = sfin a
}.

Lemma Q2R_red a : Q2R (Qred a) = Q2R a.
Proof. apply Qeq_eqR, Qred_correct. Qed.
Lemma Q2R_div_total a b : Q2R (a / b) = Q2R a / Q2R b.
Proof.
  destruct (Qeq_dec b 0) as [E|E]; [|apply Q2R_div; auto].
  assert (E' : (a / b == 0)%Q). { unfold Qdiv. rewrite E. change (/ 0)%Q with 0%Q. ring. }
  rewrite (Qeq_eqR _ _ E'), (Qeq_eqR _ _ E). rewrite RMicromega.Q2R_0. unfold Rdiv. rewrite Rinv_0. ring.
Qed.
Lemma Q2R_ltb a b : Rltb (Q2R a) (Q2R b) = qltb a b.
Proof.
  unfold qltb. destruct (Rltb_spec (Q2R a) (Q2R b)) as [H|H].
  - apply Rlt_Qlt in H. unfold Qlt in H. unfold Qcompare. rewrite (proj2 (Z.compare_lt_iff _ _) H). auto.
  - destruct (a ?= b)%Q eqn:E; auto. exfalso. apply H, Qlt_Rlt. apply Qlt_alt. auto.
Qed.
Lemma Q2R_leb a b : Rleb (Q2R a) (Q2R b) = Qle_bool a b.
Proof.
  destruct (Rleb_spec (Q2R a) (Q2R b)) as [H|H].
  - symmetry. apply Qle_bool_iff, Rle_Qle. auto.
  - destruct (Qle_bool a b) eqn:E; auto. exfalso. apply H, Qle_Rle, Qle_bool_iff. auto.
Qed.
Lemma Q2R_eqb a b : Reqb (Q2R a) (Q2R b) = Qeq_bool a b.
Proof.
  destruct (Reqb_spec (Q2R a) (Q2R b)) as [H|H].
  - symmetry. apply Qeq_bool_iff, eqR_Qeq. auto.
  - destruct (Qeq_bool a b) eqn:E; auto. exfalso. apply H, Qeq_eqR, Qeq_bool_iff. auto.
Qed.
Lemma Q2R_hom : hom QS RS Q2R.
Proof.
  split; cbn [QS RS s0 s1 sadd ssub smul sdiv sneg smin smax sltb sleb seqb sulps sfin car]; intros; rewrite ?Q2R_red; auto using Q2R_plus, Q2R_minus, Q2R_mult, Q2R_opp, Q2R_div_total, Q2R_ltb, Q2R_leb, Q2R_eqb.
  - apply RMicromega.Q2R_0. - apply RMicromega.Q2R_1.
  - rewrite <- (Q2R_leb a b). destruct (Rleb_spec (Q2R a) (Q2R b)); [rewrite Rmin_left|rewrite Rmin_right]; auto; lra.
  - rewrite <- (Q2R_leb a b). destruct (Rleb_spec (Q2R a) (Q2R b)); [rewrite Rmax_right|rewrite Rmax_left]; auto; lra.
Qed.
