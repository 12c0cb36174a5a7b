(* The positions of SweepSpec.v in the terms of the proofs. *)
From Coq Require Import Reals Lra Psatz Permutation.
From Verif Require Import Prelude Scalar RInst Geo2 GeoSpec DistR IsectProofs Sweep SweepMap SweepProofs SweepCand SweepLoop SweepLoop2 SweepPts SweepGeo SweepComplete SweepComplete2 SweepSpec.
Local Open Scope R_scope.

(* [lines] are the lines of [input], possibly reversed *)
Section Link.
  Variable f : line -> line.
  Hypothesis Hf : forall l, f l = l \/ f l = arrange l.
  Variable input : list line.
  Let lines := map f input.

  Lemma f_on p l : on_line p (f l) <-> on_line p l.
  Proof. destruct (Hf l) as [->| ->]; [tauto|apply on_line_arrange]. Qed.
  Lemma f_ends p l : (p = lo (f l) \/ p = hi (f l)) <-> (p = lstart l \/ p = lend l).
  Proof.
    rewrite <- end_cases. destruct (Hf l) as [->| ->]; [unfold ends_of; tauto|].
    unfold arrange. destruct (key_lt _ _); unfold ends_of; cbn; tauto.
  Qed.
  Lemma ln_f i l : ln lines i l <-> exists l0, nth_error input i = Some l0 /\ l = f l0.
  Proof.
    unfold ln, lines. rewrite nth_error_map. destruct (nth_error input i) as [l0|]; cbn; split; try discriminate; intros H.
    - injection H as <-. eauto.
    - destruct H as (l1 & [= <-] & ->). auto.
    - destruct H as (l1 & H & _). discriminate.
  Qed.
  Lemma has_f i p : line_has input i p <-> exists l, ln lines i l /\ on_line p l.
  Proof.
    split.
    - intros (l & Hl & Ho). exists (f l). split; [apply ln_f; eauto|]. apply f_on. exact Ho.
    - intros (l & Hl & Ho). apply ln_f in Hl as (l0 & Hl0 & ->). exists l0. split; auto. exact (proj1 (f_on _ _) Ho).
  Qed.
  Lemma ends_f i p : line_ends_at input i p <-> exists l, ln lines i l /\ (p = lo l \/ p = hi l).
  Proof.
    split.
    - intros (l & Hl & Ho). exists (f l). split; [apply ln_f; eauto|]. apply f_ends. exact Ho.
    - intros (l & Hl & Ho). apply ln_f in Hl as (l0 & Hl0 & ->). exists l0. split; auto. apply f_ends; auto.
  Qed.
  Lemma meeting_f p : meeting input p <-> common_point lines p.
  Proof.
    split.
    - intros (i & j & Hij & Hi & Hj). apply has_f in Hi as (a & Ha & Oa). apply has_f in Hj as (b & Hb & Ob). exists i, j, a, b. auto.
    - intros (i & j & a & b & Hij & Ha & Hb & Oa & Ob). exists i, j. split; auto. split; apply has_f; eauto.
  Qed.
  Lemma corner_f p : corner input p <-> tev lines p.
  Proof.
    unfold corner, tev. rewrite meeting_f. split; (intros [(i & H)|H]; [left|right; auto]).
    - apply ends_f in H as (l & Hl & E). eauto.
    - exists i. apply ends_f. auto.
  Qed.
  Lemma steep_f : no_horizontal input -> forall i l, ln lines i l -> steep l.
  Proof.
    intros H i l Hl. apply ln_f in Hl as (l0 & Hl0 & ->). apply nth_error_In, H in Hl0. unfold steep.
    assert (E : (lo (f l0) = lo l0) /\ (hi (f l0) = hi l0)).
    { destruct (Hf l0) as [->| ->]; auto. split; [apply lo_arrange|apply hi_arrange]. }
    destruct E as [-> ->]. destruct (lo_hi l0) as [[K|[K _]]|K]; auto; exfalso; apply Hl0; destruct (lohi l0) as [[E1 E2]|[E1 E2]]; rewrite E1, E2 in K; try rewrite K; auto.
  Qed.
  Lemma up_f i p : no_horizontal input -> (goes_up input i p <-> exists l, ln lines i l /\ on_line p l /\ p <> hi l).
  Proof.
    intros Hh. split.
    - intros [Hp (q & Hq & Hy)]. apply has_f in Hp as (l & Hl & Op). apply has_f in Hq as (l' & Hl' & Oq). assert (l' = l) by (eapply ln_fun; eauto). subst l'.
      exists l. split; auto. split; auto. intros ->. apply on_XX in Oq; [|apply (steep_f Hh _ _ Hl)]. lra.
    - intros (l & Hl & Ho & Hn). split; [apply has_f; eauto|]. exists (hi l). split; [apply has_f; exists l; split; auto; apply on_hi|].
      pose proof (steep_f Hh _ _ Hl) as Hs. pose proof (on_before_hi _ _ Ho Hs Hn) as [K|[E K]]; auto.
      exfalso. apply on_XX in Ho as [_ Ho]; auto. rewrite E, XX_hi in Ho; auto. lra.
  Qed.
  Lemma general_f : no_horizontal input -> meet_once input -> no_start_inside input -> clear_right input -> general lines.
  Proof.
    intros Hh Hm Hs Hc. split.
    - apply steep_f; auto.
    - intros i j a b p q Hij Ha Hb Pa Pb Qa Qb. apply (Hm i j); auto; apply has_f; eauto.
    - intros i j a b Ha Hb Ho. assert (K : line_ends_at input j (lo a)).
      { apply (Hs i j).
        - apply ends_f. exists a. auto.
        - apply up_f; auto. exists a. split; auto. split; [apply on_lo|]. pose proof (steep_f Hh _ _ Ha) as K. unfold steep in K. intros E. rewrite E in K. lra.
        - apply has_f. eauto. }
      apply ends_f in K as (b' & Hb' & K). assert (b' = b) by (eapply ln_fun; eauto). subst b'. auto.
    - intros i j a b c r Hij Ha Hb Oa Ob Na Nb Ht Hy Hx. assert (vx r <= vx c); [|lra].
      apply (Hc i j); auto; try (apply up_f; auto; eauto). apply corner_f; auto.
  Qed.
  Lemma wanted_f ign p : wanted lines ign p <-> meeting input p /\ (ign = true -> exists i, line_has input i p /\ ~ line_ends_at input i p).
  Proof.
    unfold wanted. rewrite meeting_f. split; intros [H1 H2]; split; auto; intros E; destruct (H2 E) as (i & H).
    - destruct H as (l & Hl & Ho & N1 & N2). exists i. split; [apply has_f; eauto|]. rewrite ends_f. intros (l' & Hl' & K).
      assert (l' = l) by (eapply ln_fun; eauto). subst l'. tauto.
    - destruct H as [Hh Hn]. apply has_f in Hh as (l & Hl & Ho). rewrite ends_f in Hn. exists i, l. split; auto. split; auto.
      split; intros K; apply Hn; eauto.
  Qed.
End Link.

(* the plainer conditions of C67 *)
Lemma plain_position input : no_horizontal input -> no_touching input -> heights_differ input ->
  meet_once input /\ no_start_inside input /\ clear_right input.
Proof.
  intros Hh Ht Hd. split; [|split].
  - intros i j p q Hij Pi Pj Qi Qj.
    apply has_f with (f := fun l => l) in Pi as (a & Ha & Pa); auto. apply has_f with (f := fun l => l) in Pj as (b & Hb & Pb); auto.
    apply has_f with (f := fun l => l) in Qi as (a' & Ha' & Qa); auto. apply has_f with (f := fun l => l) in Qj as (b' & Hb' & Qb); auto.
    assert (a' = a) by (eapply ln_fun; eauto). assert (b' = b) by (eapply ln_fun; eauto). subst a' b'.
    pose proof (steep_f (fun l => l) (fun l => or_introl eq_refl) input Hh i a Ha) as Sa. pose proof (steep_f (fun l => l) (fun l => or_introl eq_refl) input Hh j b Hb) as Sb.
    destruct (Req_dec (vy p) (vy q)) as [E|E].
    { apply on_XX in Pa as [_ Pa]; auto. apply on_XX in Qa as [_ Qa]; auto. apply V2_ext; auto. rewrite Pa, Qa, E. auto. }
    (* otherwise the lines overlap, and an end point of one lies on the other *)
    exfalso. apply Hij.
    apply on_XX in Pa as [[Pa1 Pa2] Pa]; auto. apply on_XX in Qa as [[Qa1 Qa2] Qa]; auto. apply on_XX in Pb as [[Pb1 Pb2] Pb]; auto. apply on_XX in Qb as [[Qb1 Qb2] Qb]; auto.
    assert (Es : sl a = sl b).
    { rewrite Pa in Pb. rewrite Qa in Qb. rewrite (XX_step a _ (vy p)), (XX_step b _ (vy p)), Pb in Qb.
      apply (Rmult_eq_reg_l (vy q - vy p)); lra. }
    assert (Ex : forall y, XX a y = XX b y). { intros y. rewrite (XX_step a _ (vy p)), (XX_step b _ (vy p)), <- Pa, <- Pb, Es. auto. }
    destruct (Rle_dec (vy (hi a)) (vy (hi b))) as [Hle|Hle].
    + apply (Ht i j (hi a)).
      * apply ends_f with (f := fun l => l); auto. exists a. auto.
      * apply has_f with (f := fun l => l); auto. exists b. split; auto. apply on_XX; auto. split; [lra|]. rewrite <- Ex, XX_hi; auto.
    + symmetry. apply (Ht j i (hi b)).
      * apply ends_f with (f := fun l => l); auto. exists b. auto.
      * apply has_f with (f := fun l => l); auto. exists a. split; auto. apply on_XX; auto. split; [lra|]. rewrite Ex, XX_hi; auto.
  - intros i j p He _ Hp. rewrite <- (Ht i j p); auto.
  - intros i j p r Hij Hi Hj Hr Hy. right. f_equal. apply Hd; auto. right. exists i, j. split; auto. split; [apply Hi|apply Hj].
Qed.
