(* Greedy deletion of the smallest triangle: without ties there is one result, and it does not depend on the direction. *)
From Verif Require Import Prelude Scalar VwSpec.

Section VwDet.
  Context {S : Scalar} {T : Type} (area : T -> T -> T -> car S).

  (* in every line that comes up during the first k deletions, before each of them, at most one inner point has a triangle none is smaller than *)
  Definition no_tied_smallest (k : nat) (line : list T) : Prop := forall n q, n < k -> vw_steps area n line q ->
    forall l1 a b c l2 l1' a' b' c' l2', q = l1 ++ a :: b :: c :: l2 -> q = l1' ++ a' :: b' :: c' :: l2' ->
    (forall m x y z r, q = m ++ x :: y :: z :: r -> sltb (area x y z) (area a b c) = false) ->
    (forall m x y z r, q = m ++ x :: y :: z :: r -> sltb (area x y z) (area a' b' c') = false) -> l1 = l1'.

  Lemma no_tied_less j k p : j <= k -> no_tied_smallest k p -> no_tied_smallest j p.
  Proof. intros Hj H n q Hn. apply H. lia. Qed.
  Lemma no_tied_step k p q : no_tied_smallest (Datatypes.S k) p -> vw_step area p q -> no_tied_smallest k q.
  Proof. intros H E n r Hn Hs. apply (H (Datatypes.S n) r); [lia|]. econstructor; eauto. Qed.

  Lemma vw_step_det k p q1 q2 : no_tied_smallest (Datatypes.S k) p -> vw_step area p q1 -> vw_step area p q2 -> q1 = q2.
  Proof.
    intros H (l1 & a & b & c & l2 & E1 & -> & M1) (l1' & a' & b' & c' & l2' & E2 & -> & M2).
    pose proof (H 0 p ltac:(lia) (vw_done area p) _ _ _ _ _ _ _ _ _ _ E1 E2 M1 M2) as <-. rewrite E1 in E2. apply app_inv_head in E2.
    injection E2 as <- <- <- <-. reflexivity.
  Qed.

  Lemma vw_steps_det n : forall p q1 q2, no_tied_smallest n p -> vw_steps area n p q1 -> vw_steps area n p q2 -> q1 = q2.
  Proof.
    induction n as [|n IH]; intros p q1 q2 H A B; inversion A; inversion B; subst; auto.
    assert (q0 = q) as -> by (eapply vw_step_det; eauto). eapply IH; [|eauto|eauto]. eapply no_tied_step; eauto.
  Qed.

  Context (sym : forall a b c, area c b a = area a b c).
  Lemma vw_step_rev p q : vw_step area p q -> vw_step area (rev p) (rev q).
  Proof.
    intros (l1 & a & b & c & l2 & -> & -> & M). exists (rev l2), c, b, a, (rev l1).
    split; [|split].
    - rewrite rev_app_distr. cbn [rev]. repeat (rewrite <- app_assoc; cbn [app]). reflexivity.
    - rewrite rev_app_distr. cbn [rev]. repeat (rewrite <- app_assoc; cbn [app]). reflexivity.
    - intros m x y z r E. rewrite (sym a b c), <- (sym x y z). apply (M (rev r) z y x (rev m)).
      rewrite <- (rev_involutive (l1 ++ _)), E, rev_app_distr. cbn [rev]. repeat (rewrite <- app_assoc; cbn [app]). reflexivity.
  Qed.
  Lemma vw_steps_rev n : forall p q, vw_steps area n p q -> vw_steps area n (rev p) (rev q).
  Proof. induction n as [|n IH]; intros p q H; inversion H; subst; [constructor|]. econstructor; [apply vw_step_rev; eauto|auto]. Qed.
  Lemma vw_steps_rev_det n p q r : no_tied_smallest n p -> vw_steps area n p q -> vw_steps area n (rev p) r -> r = rev q.
  Proof.
    intros H A B. apply vw_steps_rev in B. rewrite rev_involutive in B. rewrite (vw_steps_det n p q (rev r) H A B), rev_involutive. reflexivity.
  Qed.
End VwDet.
