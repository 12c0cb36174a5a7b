(* Three points: every hull function, over any scalar in which orientation is decided exactly. *)
From Coq Require Import Reals Lra.
From Verif Require Import Prelude Scalar RInst GeoSpec HullSpec Hull.
Local Open Scope R_scope.

Lemma orient_rot (a b c : pt) : orient b c a = orient a b c.
Proof. unfold orient. ring. Qed.
Lemma orient_swap (a b c : pt) : orient a c b = - orient a b c.
Proof. unfold orient. ring. Qed.
Lemma orient_same (a b : pt) : orient a a b = 0 /\ orient a b a = 0 /\ orient a b b = 0.
Proof. unfold orient. repeat split; ring. Qed.
Lemma left_turn_hull (a b c : pt) : 0 < orient a b c -> hull_of [a; b; c] [a; b; c].
Proof.
  intros H. assert (R1 := orient_rot a b c). assert (R2 := orient_rot b c a).
  assert (N : NoDup [a; b; c]).
  { assert (N1 : a <> b) by (intros ->; destruct (orient_same b c); lra). assert (N2 : a <> c) by (intros ->; destruct (orient_same c b) as (_ & X & _); lra).
    assert (N3 : b <> c) by (intros ->; destruct (orient_same a c) as (_ & _ & X); lra).
    apply NoDup_cons; [cbn; intuition congruence|]. apply NoDup_cons; [cbn; intuition congruence|]. apply NoDup_cons; [intros []|apply NoDup_nil]. }
  split; [apply incl_refl|]. split.
  - split; [cbn; lia|]. split; auto. intros x y z Hin Hz N1 N2. cbn in Hin, Hz.
    destruct Hin as [[= <- <-]|[[= <- <-]|[[= <- <-]|[]]]]; destruct Hz as [<-|[<-|[<-|[]]]]; congruence || lra.
  - intros p Hp x y Hin. cbn in Hin, Hp. destruct (orient_same a b) as (_ & A1 & A2), (orient_same b c) as (_ & B1 & B2), (orient_same c a) as (_ & C1 & C2).
    destruct Hin as [[= <- <-]|[[= <- <-]|[[= <- <-]|[]]]]; destruct Hp as [<-|[<-|[<-|[]]]]; lra.
Qed.
Lemma hull_of_perm (p q vs : list pt) : (forall x, In x p <-> In x q) -> hull_of p vs -> hull_of q vs.
Proof. intros H (A & B & C). split; [intros x Hx; apply H, A; auto|]. split; auto. intros x Hx. apply C, H. auto. Qed.

Section Three.
  Context {S : Scalar} (val : V2 S -> pt) (good : V2 S -> Prop).
  Hypothesis Hleft : forall a b c, good a -> good b -> good c -> (is_point_left a b c = true <-> 0 < orient (val a) (val b) (val c)).
  Hypothesis Heq : forall a b, good a -> good b -> (veqb a b = true <-> val a = val b).
  Lemma ccw3_hull {A} (pos : A -> V2 S) a b c : good (pos a) -> good (pos b) -> good (pos c) -> orient (val (pos a)) (val (pos b)) (val (pos c)) <> 0 ->
    hull_of (map (fun x => val (pos x)) [a; b; c]) (map (fun x => val (pos x)) (ccw3 (is_point_left (pos a) (pos b) (pos c)) a b c)).
  Proof.
    intros Ga Gb Gc H. pose proof (Hleft _ _ _ Ga Gb Gc) as E. destruct (is_point_left (pos a) (pos b) (pos c)); cbn [ccw3 map].
    - apply left_turn_hull. apply E. auto.
    - apply hull_of_perm with [val (pos a); val (pos c); val (pos b)]; [intros x; cbn; tauto|]. apply left_turn_hull. rewrite orient_swap.
      assert (~ 0 < orient (val (pos a)) (val (pos b)) (val (pos c))) by (intros X; apply E in X; discriminate). lra.
  Qed.
  (* three points, possibly closed *)
  Lemma drop_three pts a b c : ring_of pts [a; b; c] -> good a -> good c -> val a <> val c -> drop_loop_point pts = [a; b; c] \/ drop_loop_point pts = [b; c; a].
  Proof.
    intros H Ga Gc N. destruct H as [->|(x & m & [= <- <-] & ->)]; unfold drop_loop_point; cbn [app last].
    - left. destruct (veqb a c) eqn:E; auto. apply Heq in E; auto. contradiction.
    - right. rewrite (proj2 (Heq a a Ga Ga) eq_refl). reflexivity.
  Qed.
  Definition triangle (pts : list (V2 S)) (vs : list (V2 S)) : Prop := length vs = 3%nat /\ incl vs pts /\ hull_of (map val pts) (map val vs).
  Lemma ccw3_triangle pts x y z : good x -> good y -> good z -> orient (val x) (val y) (val z) <> 0 -> (forall p, In p pts <-> In p [x; y; z]) ->
    triangle pts (ccw3 (is_point_left x y z) x y z).
  Proof.
    intros Gx Gy Gz H Hp. split; [destruct (is_point_left x y z); reflexivity|]. split.
    - intros p Hin. apply Hp. destruct (is_point_left x y z); cbn in *; tauto.
    - eapply hull_of_perm; [|apply (ccw3_hull (fun p => p) x y z); auto]. intros p. cbn [map]. rewrite in_map_iff. split.
      + intros Hin. cbn in Hin. destruct Hin as [<-|[<-|[<-|[]]]]; eexists; (split; [reflexivity|]); apply Hp; cbn; auto.
      + intros (v & <- & Hin). apply Hp in Hin. cbn in *. destruct Hin as [->|[->|[->|[]]]]; auto.
  Qed.
  Lemma ring_in {A} (l : list A) a b c : ring_of l [a; b; c] -> forall x, In x l <-> In x [a; b; c].
  Proof. intros [->|(x & m & [= <- <-] & ->)] y; [tauto|]. cbn. tauto. Qed.
  Lemma gift_three fuel pts a b c : ring_of pts [a; b; c] -> good a -> good b -> good c -> orient (val a) (val b) (val c) <> 0 ->
    (exists vs, gift_wrap fuel pts = Val vs /\ triangle pts vs) /\
    (exists r, graham_scan pts r) /\ (forall r, graham_scan pts r -> exists vs, r = Val vs /\ triangle pts vs) /\
    (exists r, graham_scan_wo_atan2 pts r) /\ (forall r, graham_scan_wo_atan2 pts r -> exists vs, r = Val vs /\ triangle pts vs).
  Proof.
    intros Hr Ga Gb Gc H. assert (N : val a <> val c) by (intros E; destruct (orient_same (val a) (val b)) as (_ & E' & _); rewrite <- E in H; lra).
    assert (D : exists x y z, drop_loop_point pts = [x; y; z] /\ triangle pts (ccw3 (is_point_left x y z) x y z)).
    { pose proof (ring_in _ _ _ _ Hr) as Hin. destruct (drop_three pts a b c Hr Ga Gc N) as [E|E]; [exists a, b, c|exists b, c, a]; split; auto; apply ccw3_triangle; auto.
      - rewrite orient_rot. auto.
      - intros p. rewrite Hin. cbn. tauto. }
    destruct D as (x & y & z & E & T). assert (Hne : pts <> []) by (intros ->; discriminate).
    split; [|split; [|split; [|split]]].
    - exists (ccw3 (is_point_left x y z) x y z). split; auto. unfold gift_wrap. destruct pts; [contradiction|]. rewrite E. reflexivity.
    - eexists. apply gs_three; eauto.
    - intros r G. destruct G as [G|_ G|x' y' z' G|e G He|i s sorted G Hf Hs]; try contradiction; rewrite E in G; try (cbn in G; lia). injection G as <- <- <-. eauto.
    - eexists. apply wo_three; eauto.
    - intros r G. destruct G as [G|_ G|x' y' z' G|e G He|i s b' c' G Hf|i s sorted G Hf Hs rv]; try contradiction; rewrite E in G; try (cbn in G; lia). injection G as <- <- <-. eauto.
  Qed.
  (* indices *)
  Definition index_hull (vertices : list (V2 S)) (opn out : list nat) : Prop := incl out opn /\ exists ps vs, mapM (idx vertices) opn = Val ps /\ mapM (idx vertices) out = Val vs /\ length vs = 3%nat /\ hull_of (map val ps) (map val vs).
  Lemma drop_index_three indices (i j k : nat) : ring_of indices [i; j; k] -> i <> k -> drop_loop_index indices = [i; j; k] /\ (1 < length indices)%nat.
  Proof.
    intros [->|(x & m & [= <- <-] & ->)] N; unfold drop_loop_index; cbn [app last]; split; try (cbn; lia).
    - destruct (Nat.eqb_spec i k); congruence.
    - rewrite Nat.eqb_refl. reflexivity.
  Qed.
  Lemma indexed_three fuel vertices indices i j k a b c : ring_of indices [i; j; k] -> nth_error vertices i = Some a -> nth_error vertices j = Some b -> nth_error vertices k = Some c ->
    good a -> good b -> good c -> orient (val a) (val b) (val c) <> 0 ->
    exists out, index_hull vertices [i; j; k] out /\
    indexed_gift_wrap_no_loop fuel vertices indices = Val out /\ indexed_gift_wrap fuel vertices indices = Val (close_loop out) /\
    (forall start r, indexed_graham_no_loop vertices indices start r <-> r = Val out) /\
    (forall r, indexed_graham_scan vertices indices r <-> r = Val (close_loop out)) /\
    (forall chunk r, convex_hull_par fuel vertices indices chunk r <-> r = Val out).
  Proof.
    intros Hr Ei Ej Ek Ga Gb Gc H. assert (N : i <> k).
    { intros <-. assert (a = c) by congruence. subst c. destruct (orient_same (val a) (val b)) as (_ & E' & _). lra. }
    destruct (drop_index_three indices i j k Hr N) as [E L].
    assert (T : index_triangle vertices i j k = Val (ccw3 (is_point_left a b c) i j k)) by (unfold index_triangle, idx; rewrite Ei, Ej, Ek; reflexivity).
    assert (NL : forall start r, indexed_graham_no_loop vertices indices start r <-> r = Val (ccw3 (is_point_left a b c) i j k)).
    { intros start r. split.
      - intros G. destruct G as [[G|G]|x y z _ G|sorted G]; try lia; try (rewrite E in G; cbn in G; lia). rewrite E in G. injection G as <- <- <-. exact T.
      - intros ->. rewrite <- T. apply ig_three; auto. }
    exists (ccw3 (is_point_left a b c) i j k). split; [|split; [|split; [|split; [|split]]]].
    - split; [destruct (is_point_left a b c); intros x; cbn; tauto|]. exists [a; b; c], (ccw3 (is_point_left a b c) a b c).
      split; [cbn; unfold idx; rewrite Ei, Ej, Ek; reflexivity|]. split; [destruct (is_point_left a b c); cbn; unfold idx; rewrite Ei, Ej, Ek; reflexivity|].
      split; [destruct (is_point_left a b c); reflexivity|]. apply (ccw3_hull (fun p => p)); auto.
    - unfold indexed_gift_wrap_no_loop. rewrite (proj2 (Nat.leb_gt _ _)) by lia. rewrite E. exact T.
    - unfold indexed_gift_wrap, indexed_gift_wrap_no_loop. rewrite (proj2 (Nat.leb_gt _ _)) by lia. rewrite E, T. reflexivity.
    - exact NL.
    - intros r. split; [intros (r' & G & ->); apply NL in G; subst r'; reflexivity|]. intros ->. exists (Val (ccw3 (is_point_left a b c) i j k)). split; [apply NL|]; reflexivity.
    - intros chunk r. split.
      + intros G. destruct G as [[G|G]|x y z _ G|G|e G|G|start results t G]; try lia; try (rewrite E in G; cbn in G; lia). rewrite E in G. injection G as <- <- <-. exact T.
      + intros ->. rewrite <- T. apply cp_three; auto.
  Qed.
End Three.
