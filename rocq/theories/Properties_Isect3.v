(* C131: a line string against a line in f64 and f32. Model: Geo2.v. Vocabulary: FloatSpec.v ([grid64_to n s], [value64]),
   Properties_Isect2.v ([within d p q]: at most d apart in each coordinate). *)
From Coq Require Import ZArith Reals Lra Lia Psatz Floats.SpecFloat.
From Flocq Require Import Core BinarySingleNaN.
From Verif Require Import Prelude Scalar RInst Flt FloatSpec FloatLink FloatGrid Geo2 GeoSpec DistR IsectProofs ContainProofs FloatIsect Properties_Float Properties_Float2 Properties_Isect Properties_Isect2.
Local Open Scope R_scope.

Section Spec.
  Context {S : Scalar} (val : V2 S -> pt).
  (* q is a point of the line string and of the line, in exact arithmetic *)
  Definition shared (l : list (V2 S)) (o : Line2 S) (q : pt) : Prop :=
    (exists pre a b post, l = pre ++ a :: b :: post /\ on_segment q (val a) (val b)) /\ on_segment q (val (lstart o)) (val (lend o)).
  (* the points an answer stands for: one point, or a segment *)
  Definition stands_for (i : Intersection S) (q : pt) : Prop :=
    match i with IPoint p => q = val p | IOverlap s => on_segment q (val (lstart s)) (val (lend s)) end.
  (* consecutive points of the line string differ *)
  Definition no_repeat (l : list (V2 S)) : Prop := forall pre a b post, l = pre ++ a :: b :: post -> val a <> val b.

  (* what the three functions answer, up to 2d in each coordinate *)
  Definition all_found (d : R) (l : list (V2 S)) (o : Line2 S) : Prop :=
    (* every answer is real, and every shared point is answered *)
    (forall i q, In i (find_all_intersections l o) -> stands_for i q -> exists r, shared l o r /\ within (2 * d) q r) /\
    (forall r, shared l o r -> exists i q, In i (find_all_intersections l o) /\ stands_for i q /\ within (2 * d) q r) /\
    (* an answer exists exactly if there is a shared point; intersection returns the first one *)
    (find_all_intersections l o <> [] <-> exists r, shared l o r) /\
    ls_intersection l o = hd_error (find_all_intersections l o) /\
    (* two intersections: real points, the second differs from the first, and one is missing only if there is (almost) only one *)
    (let '(p, q) := find_two_intersections l o in
     (forall x, p = Some x \/ q = Some x -> exists r, shared l o r /\ within (2 * d) (val x) r) /\
     (p = None -> forall r, ~ shared l o r) /\
     (q = None -> forall r1 r2, shared l o r1 -> shared l o r2 -> within (4 * d) r1 r2) /\
     (forall x y, p = Some x -> q = Some y -> veqb x y = false)).
End Spec.

Lemma within_sym d p q : within d p q -> within d q p.
Proof. intros [H1 H2]. split; rewrite Rabs_minus_sym; auto. Qed.
Lemma within_trans d e p q r : within d p q -> within e q r -> within (d + e) p r.
Proof.
  intros [H1 H2] [H3 H4]. split.
  - replace (vx p - vx r) with ((vx p - vx q) + (vx q - vx r)) by ring. eapply Rle_trans; [apply Rabs_triang|lra].
  - replace (vy p - vy r) with ((vy p - vy q) + (vy q - vy r)) by ring. eapply Rle_trans; [apply Rabs_triang|lra].
Qed.
Lemma within_le d e p q : d <= e -> within d p q -> within e p q.
Proof. intros H [H1 H2]. split; lra. Qed.
Lemma between d x y t : 0 <= t <= 1 -> Rabs x <= d -> Rabs y <= d -> Rabs (x + t * (y - x)) <= d.
Proof. intros Ht Hx Hy. apply Rabs_le_inv in Hx, Hy. apply Rabs_le. nra. Qed.
Lemma within_lerp d a b p q t : 0 <= t <= 1 -> within d a p -> within d b q -> within d (lerp a b t) (lerp p q t).
Proof.
  intros Ht [H1 H2] [H3 H4]. unfold within, lerp. cbn [vx vy]. split.
  - replace (vx a + t * (vx b - vx a) - (vx p + t * (vx q - vx p))) with ((vx a - vx p) + t * ((vx b - vx q) - (vx a - vx p))) by ring. apply between; auto.
  - replace (vy a + t * (vy b - vy a) - (vy p + t * (vy q - vy p))) with ((vy a - vy p) + t * ((vy b - vy q) - (vy a - vy p))) by ring. apply between; auto.
Qed.

Lemma windows_in {A} (l : list A) a b : In (a, b) (windows l) <-> exists pre post, l = pre ++ a :: b :: post.
Proof.
  induction l as [|x [|y t] IH].
  - split; [intros []|intros (pre & post & E); destruct pre; discriminate].
  - split; [intros []|intros (pre & post & E); destruct pre as [|? [|? ?]]; discriminate].
  - change (windows (x :: y :: t)) with ((x, y) :: windows (y :: t)). cbn [In]. rewrite IH. split.
    + intros [E|(pre & post & E)]; [injection E as <- <-; exists [], t; auto|exists (x :: pre), post; rewrite E; auto].
    + intros (pre & post & E). destruct pre as [|z pre]; cbn [app] in E; [left; injection E as -> -> ->; auto|right; injection E as -> E; eauto].
Qed.

Section Gen.
  Context {S : Scalar} (val : V2 S -> pt) (d : R) (Hd : 0 <= d) (Hv : forall p q : V2 S, veqb p q = true -> val p = val q).
  Context (l : list (V2 S)) (o : Line2 S).
  Context (He : forall pre a b post, l = pre ++ a :: b :: post ->
    let meets := common (@mkL RS (val a) (val b)) (@mkL RS (val (lstart o)) (val (lend o))) in
    match intersection_point (mkL a b) o with
    | None => forall q, ~ meets q
    | Some (IPoint p) => exists q, (forall x, meets x <-> x = q) /\ within d (val p) q
    | Some (IOverlap s) => exists q r, q <> r /\ (forall x, meets x <-> on_segment x q r) /\ within d (val (lstart s)) q /\ within (2 * d) (val (lend s)) r
    end).

  Lemma found_from i : In i (find_all_intersections l o) <-> exists pre a b post, l = pre ++ a :: b :: post /\ intersection_point (mkL a b) o = Some i.
  Proof.
    rewrite (proj1 (C36_linestring_intersections S l o)). rewrite in_flat_map. split.
    - intros (e & He' & Hi). apply in_map_iff in He' as ([a b] & <- & Hw). apply windows_in in Hw as (pre & post & E). cbn [fst snd] in Hi.
      exists pre, a, b, post. split; auto. destruct (intersection_point _ _) as [j|]; [destruct Hi as [->|[]]; auto|destruct Hi].
    - intros (pre & a & b & post & E & Hi). exists (mkL a b). split.
      + apply in_map_iff. exists (a, b). split; auto. apply windows_in. eauto.
      + rewrite Hi. left. auto.
  Qed.
  Lemma real i q : In i (find_all_intersections l o) -> stands_for val i q -> exists r, shared val l o r /\ within (2 * d) q r.
  Proof.
    intros Hi Hq. apply found_from in Hi as (pre & a & b & post & E & Hi). specialize (He pre a b post E). cbv zeta in He. rewrite Hi in He.
    assert (Sh : forall x, common (@mkL RS (val a) (val b)) (@mkL RS (val (lstart o)) (val (lend o))) x -> shared val l o x).
    { intros x [H1 H2]. cbn [lstart lend] in H1, H2. split; [exists pre, a, b, post; auto|exact H2]. }
    destruct i as [p|s]; cbn [stands_for] in Hq.
    - destruct He as (r & Hr & Hw). exists r. split; [apply Sh, Hr; auto|]. subst q. eapply within_le; [|exact Hw]. lra.
    - destruct He as (x & y & _ & Hr & H1 & H2). destruct Hq as (t & Ht & ->). exists (lerp x y t). split; [apply Sh, Hr; exists t; auto|].
      apply within_lerp; auto. eapply within_le; [|exact H1]. lra.
  Qed.
  Lemma answered r : shared val l o r -> exists i q, In i (find_all_intersections l o) /\ stands_for val i q /\ within (2 * d) q r.
  Proof.
    intros [(pre & a & b & post & E & H1) H2]. pose proof (He pre a b post E) as H. cbv zeta in H.
    assert (C : common (@mkL RS (val a) (val b)) (@mkL RS (val (lstart o)) (val (lend o))) r) by (split; auto).
    destruct (intersection_point (mkL a b) o) as [i|] eqn:Ei; [|destruct (H r C)].
    assert (Hi : In i (find_all_intersections l o)) by (apply found_from; exists pre, a, b, post; auto).
    destruct i as [p|s].
    - destruct H as (x & Hx & Hw). apply Hx in C. subst x. exists (IPoint p), (val p). split; [exact Hi|]. split; [reflexivity|]. eapply within_le; [|exact Hw]. lra.
    - destruct H as (x & y & _ & Hx & W1 & W2). apply Hx in C as (t & Ht & ->). exists (IOverlap s), (lerp (val (lstart s)) (val (lend s)) t).
      split; [exact Hi|]. split; [exists t; auto|]. apply within_lerp; auto. eapply within_le; [|exact W1]. lra.
  Qed.
  Lemma some_point (i : Intersection S) : exists q, stands_for val i q.
  Proof. destruct i as [p|s]; [exists (val p); reflexivity|exists (lerp (val (lstart s)) (val (lend s)) 0), 0; split; [lra|auto]]. Qed.

  Theorem ls_grid : all_found val d l o.
  Proof.
    split; [exact real|]. split; [exact answered|]. destruct (C36_linestring_intersections S l o) as (C1 & C2 & C3). cbv zeta in C1, C2, C3.
    split; [|split].
    - split.
      + intros N. destruct (find_all_intersections l o) as [|i rest] eqn:E; [congruence|]. destruct (some_point i) as [q Hq].
        destruct (real i q) as (r & Hr & _); [rewrite E; left; auto|exact Hq|]. exists r. exact Hr.
      + intros [r Hr] E. destruct (answered r Hr) as (i & q & Hi & _). rewrite E in Hi. destruct Hi.
    - rewrite C1. exact C2.
    - rewrite C3, <- C1. set (points := fun i : Intersection S => match i with IPoint p => [p] | IOverlap s => [lstart s; lend s] end).
      assert (P : forall x, In x (flat_map points (find_all_intersections l o)) -> exists r, shared val l o r /\ within (2 * d) (val x) r).
      { intros x Hx. apply in_flat_map in Hx as (i & Hi & Hx). apply (real i (val x) Hi). destruct i as [p|s]; cbn [points In] in Hx; cbn [stands_for].
        - destruct Hx as [->|[]]. auto.
        - destruct Hx as [<-|[<-|[]]]; [exists 0|exists 1]; (split; [lra|]); unfold lerp; apply V2_ext; cbn [vx vy]; rring. }
      assert (Q : forall i, In i (find_all_intersections l o) -> forall c, (forall x, In x (points i) -> val x = c) -> forall q, stands_for val i q -> q = c).
      { intros i _ c Hc q Hq. destruct i as [p|s]; cbn [stands_for] in Hq; cbn [points In] in Hc.
        - subst q. apply Hc. auto.
        - destruct Hq as (t & _ & ->). rewrite (Hc (lstart s)), (Hc (lend s)) by auto. unfold lerp. apply V2_ext; cbn [vx vy]; rring. }
      assert (Pi : forall i : Intersection S, points i <> []) by (intros [p|s]; discriminate).
      destruct (flat_map points (find_all_intersections l o)) as [|p rest] eqn:E.
      + assert (N : forall r, ~ shared val l o r).
        { intros r Hr. destruct (answered r Hr) as (i & q & Hi & _). destruct (points i) as [|x xs] eqn:Ep; [destruct (Pi i Ep)|].
          assert (I : In x (flat_map points (find_all_intersections l o))) by (apply in_flat_map; exists i; rewrite Ep; split; [auto|left; auto]). rewrite E in I. destruct I. }
        split; [intros x [Hx|Hx]; discriminate Hx|]. split; [intros _; exact N|]. split; [intros _ r1 r2 H1; destruct (N r1 H1)|intros x y Hx; discriminate Hx].
      + split; [|split; [discriminate|split]].
        * intros x [Hx|Hx]; [injection Hx as <-; apply P; left; auto|]. apply find_some in Hx as [Hx _]. apply P. right. auto.
        * intros Hn r1 r2 H1 H2.
          assert (Al : forall x, In x (flat_map points (find_all_intersections l o)) -> val x = val p).
          { intros x Hx. rewrite E in Hx. destruct Hx as [->|Hx]; auto. pose proof (find_none _ _ Hn x Hx) as F. cbn beta in F. apply Bool.negb_false_iff in F. symmetry. apply Hv. exact F. }
          assert (W : forall r, shared val l o r -> within (2 * d) (val p) r).
          { intros r Hr. destruct (answered r Hr) as (i & q & Hi & Hq & Hw). assert (Eq' : q = val p) by (apply (Q i Hi); [intros x Hx; apply Al; apply in_flat_map; eauto|exact Hq]). rewrite Eq' in Hw. exact Hw. }
          replace (4 * d) with (2 * d + 2 * d) by ring. apply within_trans with (val p); [apply within_sym|]; auto.
        * intros x y Hx Hy. injection Hx as <-. apply find_some in Hy as [_ F]. cbn beta in F. apply Bool.negb_true_iff in F. exact F.
  Qed.
End Gen.

(* equal floats have equal values *)
Lemma eqb_value x y : SFeqb x y = true -> fvalue x = fvalue y.
Proof.
  unfold SFeqb, fvalue. destruct x as [sx|sx| |sx mx ex], y as [sy|sy| |sy my ey]; cbn; try discriminate; try (destruct sx; discriminate); try (destruct sy; discriminate); auto.
  destruct sx, sy; try discriminate; destruct (ex ?= ey)%Z eqn:E1; cbn; try discriminate; apply Z.compare_eq in E1; subst ey;
    destruct (Pos.compare_cont Eq mx my) eqn:E2; cbn; try discriminate; apply Pos.compare_eq in E2; subst my; auto.
Qed.
Lemma veqb_value prec emax epsexp at2 (p q : V2 (FloatS prec emax epsexp at2)) : veqb p q = true -> point_value p = point_value q.
Proof. intros H. unfold veqb in H. apply Bool.andb_true_iff in H as [H1 H2]. unfold point_value. f_equal; apply eqb_value; auto. Qed.

(* in exact arithmetic without any restriction and without any error; consecutive points may be equal and the line may be a single point *)
Theorem C131_line_string_exact : forall (l : list pt) (o : Line2 RS), all_found (fun p => p) 0 l o.
Proof.
  intros l o. apply ls_grid; [lra|exact (fun p q => proj1 (veqb_R p q))|]. intros pre a b post _. cbv zeta.
  pose proof (intersection_correct (mkL a b) o) as C. destruct o as [o1 o2]. cbn [lstart lend] in *.
  assert (W : forall (x : pt) e, e = 0 -> within e x x) by (intros x e ->; split; unfold Rminus; rewrite Rplus_opp_r, Rabs_R0; lra).
  destruct (intersection_point (mkL a b) (mkL o1 o2)) as [[p|s]|]; cbn [correct] in C.
  - exists p. split; [exact C|apply W; auto].
  - exists (lstart s), (lend s). destruct C as [C1 C2]. split; [exact C1|]. split; [exact C2|]. split; apply W; lra.
  - exact C.
Qed.
Print Assumptions C131_line_string_exact.

Theorem C131_line_string_f64 : forall at2 s (l : list (V2 (F64 at2))) (o : Line2 (F64 at2)), (-25 <= s)%Z ->
  Forall (grid64_to (2 ^ 24) s) (lstart o :: lend o :: l) -> value64 (lstart o) <> value64 (lend o) -> no_repeat value64 l ->
  all_found value64 (bpow radix2 (s - 26)) l o.
Proof.
  intros at2 s l o Hs HF No Nl. rewrite Forall_forall in HF. apply ls_grid; [apply bpow_ge_0|exact (fun p q => veqb_value _ _ _ at2 p q)|].
  intros pre a b post E. pose proof (C117_intersection_f64 at2 s (mkL a b) o Hs) as H.
  assert (Ia : In a l) by (rewrite E; apply in_or_app; right; left; auto). assert (Ib : In b l) by (rewrite E; apply in_or_app; right; right; left; auto).
  cbn [lstart lend] in H. apply H; [|apply (Nl pre a b post E)|exact No]. clear H.
  constructor; [apply HF; right; right; exact Ia|]. constructor; [apply HF; right; right; exact Ib|]. constructor; [apply HF; left; reflexivity|]. constructor; [apply HF; right; left; reflexivity|constructor].
Qed.
Print Assumptions C131_line_string_f64.

Theorem C131_line_string_f32 : forall at2 s (l : list (V2 (F32 at2))) (o : Line2 (F32 at2)), (-11 <= s)%Z ->
  Forall (grid32_to (2 ^ 10) s) (lstart o :: lend o :: l) -> value32 (lstart o) <> value32 (lend o) -> no_repeat value32 l ->
  all_found value32 (bpow radix2 (s - 11)) l o.
Proof.
  intros at2 s l o Hs HF No Nl. rewrite Forall_forall in HF. apply ls_grid; [apply bpow_ge_0|exact (fun p q => veqb_value _ _ _ at2 p q)|].
  intros pre a b post E. pose proof (C117_intersection_f32 at2 s (mkL a b) o Hs) as H.
  assert (Ia : In a l) by (rewrite E; apply in_or_app; right; left; auto). assert (Ib : In b l) by (rewrite E; apply in_or_app; right; right; left; auto).
  cbn [lstart lend] in H. apply H; [|apply (Nl pre a b post E)|exact No]. clear H.
  constructor; [apply HF; right; right; exact Ia|]. constructor; [apply HF; right; right; exact Ib|]. constructor; [apply HF; left; reflexivity|]. constructor; [apply HF; right; left; reflexivity|constructor].
Qed.
Print Assumptions C131_line_string_f32.

(* a zigzag that crosses the line twice and runs along it *)
Example C131_zigzag at2 : let l := [@I64 at2 0 0; I64 3 5; I64 4 (-1); I64 6 0; I64 9 0] in let o := mkL (@I64 at2 (-1) 0) (I64 7 0) in
  Forall (grid64_to (2 ^ 24) 0) (lstart o :: lend o :: l) /\ value64 (lstart o) <> value64 (lend o) /\ no_repeat value64 l.
Proof.
  intros l o.
  assert (G : forall x y, (Z.abs x <= 2 ^ 24)%Z -> (Z.abs y <= 2 ^ 24)%Z -> grid64_to (2 ^ 24) 0 (@I64 at2 x y)) by (intros; apply I64_to; auto).
  assert (V : forall x y, (Z.abs x <= 2 ^ 25)%Z -> (Z.abs y <= 2 ^ 25)%Z -> value64 (@I64 at2 x y) = @mkV2 RS (IZR x) (IZR y)) by (intros x y Hx Hy; apply (I64_grid at2 x y Hx Hy)).
  assert (D : forall x y z w, (Z.abs x <= 2 ^ 25)%Z -> (Z.abs y <= 2 ^ 25)%Z -> (Z.abs z <= 2 ^ 25)%Z -> (Z.abs w <= 2 ^ 25)%Z -> (x <> z \/ y <> w) -> value64 (@I64 at2 x y) <> value64 (@I64 at2 z w)).
  { intros x y z w Hx Hy Hz Hw N E. rewrite !V in E by auto. injection E as E1 E2. apply eq_IZR in E1, E2. tauto. }
  split; [|split].
  - repeat (apply Forall_cons; [apply G; cbn; lia|]). constructor.
  - apply D; try (cbn; lia).
  - intros pre a b post E. subst l.
    destruct pre as [|? pre]; cbn [app] in E; [injection E as <- <- _; apply D; cbn; lia|injection E as _ E].
    destruct pre as [|? pre]; cbn [app] in E; [injection E as <- <- _; apply D; cbn; lia|injection E as _ E].
    destruct pre as [|? pre]; cbn [app] in E; [injection E as <- <- _; apply D; cbn; lia|injection E as _ E].
    destruct pre as [|? pre]; cbn [app] in E; [injection E as <- <- _; apply D; cbn; lia|injection E as _ E].
    destruct pre as [|? pre]; cbn [app] in E; [discriminate|injection E as _ E]. destruct pre; discriminate.
Qed.
