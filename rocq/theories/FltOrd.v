(* Order laws: the reals, and the non-NaN floats. *)
From Coq Require Import ZArith Reals Lra Floats.SpecFloat.
From Verif Require Import Prelude Scalar RInst Flt Rdp1.

Lemma OrdOn_R : OrdOn RS (fun _ => True).
Proof.
  constructor; simpl; intros.
  - apply Rltb_false. lra.
  - rewrite Rltb_true in *. lra.
  - rewrite Rltb_false in *. lra.
  - destruct (Rleb_spec a b), (Rltb_spec b a); simpl; auto; lra.
  - destruct (Reqb_spec a b), (Rltb_spec a b), (Rltb_spec b a); simpl; auto; lra.
Qed.

Local Open Scope Z_scope.
Definition fkey (x : spec_float) : Z * Z * Z :=
  match x with
  | S754_infinity true => (-2, 0, 0)
  | S754_finite true m e => (-1, - e, Z.neg m)
  | S754_zero _ => (0, 0, 0)
  | S754_finite false m e => (1, e, Z.pos m)
  | S754_infinity false => (2, 0, 0)
  | S754_nan => (3, 0, 0)
  end.
Definition klt (a b : Z * Z * Z) : Prop :=
  let '(a1, a2, a3) := a in let '(b1, b2, b3) := b in
  a1 < b1 \/ (a1 = b1 /\ (a2 < b2 \/ (a2 = b2 /\ a3 < b3))).
Definition keqv (a b : Z * Z * Z) : Prop :=
  let '(a1, a2, a3) := a in let '(b1, b2, b3) := b in a1 = b1 /\ a2 = b2 /\ a3 = b3.

Lemma SFcompare_key x y : x <> S754_nan -> y <> S754_nan ->
  match SFcompare x y with
  | Some Lt => klt (fkey x) (fkey y)
  | Some Gt => klt (fkey y) (fkey x)
  | Some Eq => keqv (fkey x) (fkey y)
  | None => False
  end.
Proof.
  intros Hx Hy.
  destruct x as [[]|[]| |[] m1 e1], y as [[]|[]| |[] m2 e2]; try congruence;
    cbn [SFcompare fkey klt keqv]; try lia;
    try (change (Pcompare m1 m2 Eq) with (Pos.compare m1 m2)); try (change (Pos.compare_cont Eq m1 m2) with (Pos.compare m1 m2));
    destruct (Z.compare_spec e1 e2); cbn [klt keqv]; try lia;
    destruct (Pos.compare_spec m1 m2); cbn [CompOpp klt keqv]; lia.
Qed.

Lemma OrdOn_float prec emax eps at2 : OrdOn (FloatS prec emax eps at2) (fun x => x <> S754_nan).
Proof.
  assert (LT : forall x y, x <> S754_nan -> y <> S754_nan -> (SFltb x y = true <-> klt (fkey x) (fkey y))).
  { intros x y Hx Hy. pose proof (SFcompare_key x y Hx Hy) as K. unfold SFltb.
    destruct (SFcompare x y) as [[]|]; try contradiction;
      destruct (fkey x) as [[? ?] ?], (fkey y) as [[? ?] ?]; cbn [klt keqv] in *; split; auto; intros; try lia; congruence. }
  assert (LF : forall x y, x <> S754_nan -> y <> S754_nan -> (SFltb x y = false <-> ~ klt (fkey x) (fkey y))).
  { intros x y Hx Hy. rewrite <- (LT x y) by auto. destruct (SFltb x y); split; congruence. }
  constructor; cbn [sltb sleb seqb FloatS car].
  - intros a Ha. apply LF; auto. destruct (fkey a) as [[? ?] ?]; cbn [klt]; lia.
  - intros a b c Ha Hb Hc. rewrite !LT by auto.
    destruct (fkey a) as [[? ?] ?], (fkey b) as [[? ?] ?], (fkey c) as [[? ?] ?]; cbn [klt]; lia.
  - intros a b c Ha Hb Hc. rewrite !LF by auto.
    destruct (fkey a) as [[? ?] ?], (fkey b) as [[? ?] ?], (fkey c) as [[? ?] ?]; cbn [klt]; lia.
  - intros a b Ha Hb. pose proof (SFcompare_key a b Ha Hb) as K.
    destruct (SFltb b a) eqn:E; cbn [negb];
      [apply LT in E; auto|apply LF in E; auto]; unfold SFleb;
      destruct (SFcompare a b) as [[]|]; try contradiction; auto;
      destruct (fkey a) as [[? ?] ?], (fkey b) as [[? ?] ?]; cbn [klt keqv] in *; try lia.
  - intros a b Ha Hb. pose proof (SFcompare_key a b Ha Hb) as K.
    destruct (SFltb b a) eqn:E; [apply LT in E; auto|apply LF in E; auto];
    destruct (SFltb a b) eqn:E'; [apply LT in E'; auto|apply LF in E'; auto| apply LT in E'; auto|apply LF in E'; auto];
      cbn [negb andb]; unfold SFeqb;
      destruct (SFcompare a b) as [[]|]; try contradiction; auto;
      destruct (fkey a) as [[? ?] ?], (fkey b) as [[? ?] ?]; cbn [klt keqv] in *; try lia.
Qed.
