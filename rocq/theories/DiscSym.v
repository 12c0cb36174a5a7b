(* The subdivision is a function of the points and the step; reversing, moving and repeating it. *)
From Coq Require Import Reals Lra Psatz Sorting.Sorted.
From Verif Require Import Prelude Scalar RInst GeoSpec DistR DiscSpec Rdp3.
Local Open Scope R_scope.

Section DiscSym.
  Context {A : Type} (along : A -> A -> R -> A) (dist : A -> A -> R) (d : R) (Hd : 0 < d).

  Lemma pieces_uniq (len : R) (n m : nat) : (1 <= n)%nat -> (1 <= m)%nat -> len <= INR n * d -> len <= INR m * d ->
    (n = 1%nat \/ INR (n - 1) * d < len) -> (m = 1%nat \/ INR (m - 1) * d < len) -> n = m.
  Proof.
    assert (X : forall n m : nat, (1 <= n)%nat -> (1 <= m)%nat -> len <= INR n * d -> (m = 1%nat \/ INR (m - 1) * d < len) -> (m <= n)%nat).
    { intros n' m' H1 H2 L [->|M]; [auto|]. destruct (le_lt_dec m' n') as [|C]; auto. exfalso.
      assert (INR n' <= INR (m' - 1)) by (apply le_INR; lia). nra. }
    intros H1 H2 H3 H4 H5 H6. pose proof (X n m H1 H2 H3 H6). pose proof (X m n H2 H1 H4 H5). lia.
  Qed.
  Lemma subdivided_det pts o1 o2 : subdivided along dist d pts o1 -> subdivided along dist d pts o2 -> o1 = o2.
  Proof.
    intros H. revert o2. induction H as [|a|a b rest n out Hn L1 L2 H IH]; intros o2 H2; inversion H2; subst; auto.
    assert (n0 = n) as -> by (eapply pieces_uniq; eauto). f_equal. auto.
  Qed.
  Lemma subdivided_repeat out : Sorted (fun p q => dist p q <= d) out -> (forall a b, along a b 0 = a) -> subdivided along dist d out out.
  Proof.
    intros H A0. induction out as [|a out IH]; [constructor|]. destruct out as [|b out]; [constructor|].
    apply Sorted_inv in H as [H1 H2]. apply HdRel_inv in H2.
    pose proof (sd_edge along dist d a b out 1 (b :: out) (le_n _) ltac:(cbn; lra) (or_introl eq_refl) (IH H1)) as X.
    cbn [seq map app] in X. replace (INR 0 / INR 1) with 0 in X by (cbn; lra). rewrite A0 in X. exact X.
  Qed.

  Context (A0 : forall a b, along a b 0 = a) (flip : forall a b t, along b a t = along a b (1 - t)) (sym : forall a b, dist a b = dist b a).
  Lemma subdivided_hd a rest out : subdivided along dist d (a :: rest) out -> exists o, out = a :: o.
  Proof.
    intros H. inversion H as [|?|? ? ? n o Hn ? ? ?]; subst; eauto. destruct n as [|n]; [lia|].
    cbn [seq map app]. replace (INR 0 / INR (S n)) with 0 by (cbn [INR]; unfold Rdiv; ring). rewrite A0. eauto.
  Qed.
  Lemma steps_rev a b n : (1 <= n)%nat -> b :: rev (map (fun k => along a b (INR k / INR n)) (seq 0 n)) = map (fun k => along b a (INR k / INR n)) (seq 0 n) ++ [a].
  Proof.
    intros Hn. assert (Hp : 0 < INR n) by (apply lt_0_INR; lia).
    assert (E1 : b :: rev (map (fun k => along a b (INR k / INR n)) (seq 0 n)) = rev (map (fun k => along a b (INR k / INR n)) (seq 0 (S n)))).
    { rewrite seq_S, map_app, rev_app_distr. cbn [map rev app Nat.add]. f_equal. rewrite <- (A0 b a) at 1. rewrite flip. f_equal. field. lra. }
    assert (E2 : map (fun k => along b a (INR k / INR n)) (seq 0 n) ++ [a] = map (fun k => along b a (INR k / INR n)) (seq 0 (S n))).
    { rewrite seq_S, map_app. cbn [map Nat.add]. do 2 f_equal. rewrite <- (A0 a b) at 1. rewrite flip. f_equal. field. lra. }
    rewrite E1, E2. apply nth_ext with (d := a) (d' := a); [rewrite rev_length, !map_length; auto|].
    rewrite rev_length, map_length, seq_length. intros i Hi.
    rewrite rev_nth by (rewrite map_length, seq_length; lia). rewrite map_length, seq_length.
    rewrite (nth_indep _ a (along a b (INR 0 / INR n))) by (rewrite map_length, seq_length; lia).
    rewrite (nth_indep (map _ _) a (along b a (INR 0 / INR n))) by (rewrite map_length, seq_length; lia).
    rewrite (map_nth (fun k => along a b (INR k / INR n))), (map_nth (fun k => along b a (INR k / INR n))), !seq_nth by lia.
    rewrite flip. f_equal. cbn [Nat.add]. rewrite minus_INR by lia. rewrite S_INR. field_simplify; try lra. rewrite S_INR. field. lra.
  Qed.
  Lemma subdivided_snoc l b a o n : (1 <= n)%nat -> dist b a <= INR n * d -> (n = 1%nat \/ INR (n - 1) * d < dist b a) ->
    subdivided along dist d (l ++ [b]) (o ++ [b]) -> subdivided along dist d (l ++ [b; a]) (o ++ map (fun k => along b a (INR k / INR n)) (seq 0 n) ++ [a]).
  Proof.
    intros Hn L1 L2. revert o. induction l as [|x l IH]; intros o H.
    - cbn [app] in *. inversion H; subst.
      + destruct o as [|? [|? ?]]; try discriminate. cbn [app] in *.
        apply (sd_edge along dist d b a [] n [a]); auto. constructor.
    - cbn [app] in *. destruct l as [|y l].
      + cbn [app] in *. inversion H as [|?|? ? ? m o' Hm M1 M2 H' E Eo]; subst. inversion H'; subst.
        apply app_inj_tail in Eo as [<- _]. apply (sd_edge along dist d x b [a] m); auto.
        apply (sd_edge along dist d b a [] n [a]); auto. constructor.
      + cbn [app] in *. inversion H as [|?|? ? ? m o' Hm M1 M2 H' E Eo]; subst.
        assert (o' <> []) as No by (destruct (subdivided_hd _ _ _ H') as (? & ->); discriminate).
        destruct (exists_last No) as (o'' & z & ->). rewrite app_assoc in Eo. apply app_inj_tail in Eo as [<- ->].
        rewrite <- app_assoc. apply (sd_edge along dist d x y (l ++ [b; a]) m); auto.
  Qed.
  Lemma subdivided_rev pts out : subdivided along dist d pts out -> subdivided along dist d (rev pts) (rev out).
  Proof.
    induction 1 as [|a|a b rest n out Hn L1 L2 H IH]; [constructor|constructor|].
    destruct (subdivided_hd _ _ _ H) as (o & ->). cbn [rev] in *. rewrite rev_app_distr. cbn [rev].
    rewrite <- !app_assoc. cbn [app]. rewrite steps_rev by auto. apply subdivided_snoc; auto.
    - rewrite <- sym. auto.
    - rewrite <- sym. auto.
  Qed.
End DiscSym.

Lemma subdivided_map {A B} (f : A -> B) alongA alongB distA distB (c d : R) : 0 < c ->
  (forall a b, distB (f a) (f b) = c * distA a b) -> (forall a b t, f (alongA a b t) = alongB (f a) (f b) t) ->
  forall pts out, subdivided alongA distA d pts out -> subdivided alongB distB (c * d) (map f pts) (map f out).
Proof.
  intros Hc Hdist Hal pts out H. induction H as [|a|a b rest n out Hn L1 L2 H IH]; [constructor|constructor|].
  rewrite map_app, map_map. cbn [map] in *. rewrite (map_ext _ (fun k => alongB (f a) (f b) (INR k / INR n)) (fun k => Hal a b (INR k / INR n))).
  apply (sd_edge alongB distB (c * d) (f a) (f b) (map f rest) n); auto.
  - rewrite Hdist. replace (INR n * (c * d)) with (c * (INR n * d)) by ring. apply Rmult_le_compat_l; lra.
  - destruct L2 as [->|L2]; [auto|]. right. rewrite Hdist. replace (INR (n - 1) * (c * d)) with (c * (INR (n - 1) * d)) by ring. apply Rmult_lt_compat_l; lra.
Qed.

Lemma sqdist_eq0 (a b : pt) : sqdist a b = 0 -> a = b.
Proof.
  destruct a as [ax ay], b as [bx by_]. intros H. destruct (sum3sq_0 (ax - bx) (ay - by_) 0) as (X & Y & _).
  - refine (eq_trans _ H). unfold sqdist. cbn. ring.
  - apply V2_ext; cbn; lra.
Qed.
Lemma lerp_similar (f : pt -> pt) k : (forall a b, sqdist (f a) (f b) = k * sqdist a b) -> forall a b t, f (lerp a b t) = lerp (f a) (f b) t.
Proof. intros H a b t. apply sqdist_eq0. rewrite stewart, !H. replace (_ - _) with (k * sqdist (lerp a b t) (lerp a b t)) by (rewrite (stewart a b (lerp a b t) t); ring). unfold sqdist. ring. Qed.
Lemma lerp3_similar (f : pt3 -> pt3) k : (forall a b, sqdist3 (f a) (f b) = k * sqdist3 a b) -> forall a b t, f (lerp3 a b t) = lerp3 (f a) (f b) t.
Proof. intros H a b t. apply sqdist3_eq0. rewrite stewart3, !H. replace (_ - _) with (k * sqdist3 (lerp3 a b t) (lerp3 a b t)) by (rewrite (stewart3 a b (lerp3 a b t) t); ring). rewrite sqdist3_refl. ring. Qed.
