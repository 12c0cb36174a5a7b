(* The sweep-line finders in f64 and f32 when their maps are searched from the front (Sweep.v). Properties_Sweep3.v draws the
   conclusions for the maps of the code. *)
From Coq Require Import ZArith Reals Lra Lia Psatz Classical Permutation Bool Floats.SpecFloat.
From Flocq Require Import Core BinarySingleNaN.
From Verif Require Import Prelude Scalar RInst Flt FltOrd FloatSpec FloatLink FloatGrid Geo2 GeoSpec DistR IsectProofs FloatIsect Properties_Float Properties_Float2 Properties_Isect2 Properties_Point2
  Sweep SweepIdx SweepRun SweepFin SweepSpec Properties_Sweep Properties_Sweep2 SweepAny SweepFlt SweepFlt2 SweepGrid SweepQuiet SweepTerm FloatBound.
Local Open Scope R_scope.

(* both coordinates of both ends are finite numbers *)
Definition finite_line {S : Scalar} (l : Line2 S) : Prop := forall x, In x [vx (lstart l); vy (lstart l); vx (lend l); vy (lend l)] -> sfin x = true.
Definition finite_point {S : Scalar} (p : V2 S) : Prop := sfin (vx p) = true /\ sfin (vy p) = true.
Lemma finite_line_fin {S : Scalar} (l : Line2 S) : finite_line l <-> fin_line l.
Proof.
  unfold finite_line, fin_line, fin_pt. cbn [In]. split; [intros H; repeat split; apply H; auto|].
  intros [[H1 H2] [H3 H4]] x [<-|[<-|[<-|[<-|[]]]]]; auto.
Qed.
Lemma finite_all {S : Scalar} (ls : list (Line2 S)) : (forall l, In l ls -> finite_line l) <-> Forall fin_line ls.
Proof. rewrite Forall_forall. split; intros H l Hl; apply finite_line_fin; auto. Qed.

(* for C120, f64: the only error is InvalidData, and it is returned only when some coordinate of the input is not finite, or the
   intersection point computed for two of the lines is not *)
Lemma front_no_panic_f64 : forall at2 inf ord fuel stop ign (input : list (Line2 (F64 at2))), any_order ord ->
  match intersections inf ord fuel stop ign input with
  | Val r => (forall l, In l input -> finite_line l) /\
      forall p is, In (p, is) r -> finite_point p /\ forall i, In i is -> (i < length input)%nat
  | Fail e => e = InvalidData /\ ((exists l, In l input /\ ~ finite_line l) \/
      exists a b it, In a (map arrange input) /\ In b (map arrange input) /\ intersection_point a b = Some it /\ ~ finite_point (isingle it))
  | Panic => False
  | NoFuel => True
  end.
Proof.
  intros at2 inf ord fuel stop ign input Ho.
  pose proof (plain_finite (S := F64 at2) inf (comparable_float _ _ _ at2) (float_refl _ _ _ at2) ord fuel stop ign input Ho) as H.
  destruct (intersections inf ord fuel stop ign input) as [r|e| |]; auto.
  - destruct H as [H1 H2]. split; [apply finite_all; auto|]. rewrite Forall_forall in H2. intros p is Hin. destruct (H2 _ Hin) as [H3 H4]. split; auto.
    rewrite Forall_forall in H4. auto.
  - destruct H as [-> [H|(a & b & it & Ha & Hb & E & N)]]; split; auto; [left|right; exists a, b, it; auto].
    clear -H. induction input as [|l t IH]; [destruct H; constructor|]. destruct (classic (fin_line l)) as [F|F].
    + destruct IH as (l' & H1 & H2); [intros K; apply H; constructor; auto|]. exists l'. split; cbn; auto.
    + exists l. split; cbn; auto. rewrite finite_line_fin. auto.
Qed.
Lemma front_indexed_no_panic_f64 : forall at2 inf ord fuel stop ign (vertices : list (V2 (F64 at2))) edges, any_order ord ->
  in_range_edges vertices edges ->
  match indexed_intersections inf ord fuel stop ign vertices edges with
  | Val (vs, out) => (exists added, vs = vertices ++ added) /\
      forall x is, In (x, is) out -> (exists p, nth_error vs x = Some p /\ finite_point p) /\ forall i, In i is -> (i < length edges)%nat
  | Fail e => e = InvalidData
  | Panic => False
  | NoFuel => True
  end.
Proof.
  intros at2 inf ord fuel stop ign vertices edges Ho He. destruct (lines_of_exists vertices edges He) as (ls & Hl).
  pose proof (indexed_finite (S := F64 at2) inf (comparable_float _ _ _ at2) (float_refl _ _ _ at2) ord fuel stop ign vertices edges ls Ho Hl) as H.
  destruct (indexed_intersections inf ord fuel stop ign vertices edges) as [[vs out]|e| |]; auto; [|apply H].
  destruct H as (_ & H1 & H2). split; auto. rewrite Forall_forall in H2. intros x is Hin. destruct (H2 _ Hin) as [H3 H4]. split; auto.
  rewrite Forall_forall in H4. auto.
Qed.

(* for C120, f32: the only error is InvalidData, and it is returned only when some coordinate of the input is not finite, or the
   intersection point computed for two of the lines is not *)
Lemma front_no_panic_f32 : forall at2 inf ord fuel stop ign (input : list (Line2 (F32 at2))), any_order ord ->
  match intersections inf ord fuel stop ign input with
  | Val r => (forall l, In l input -> finite_line l) /\
      forall p is, In (p, is) r -> finite_point p /\ forall i, In i is -> (i < length input)%nat
  | Fail e => e = InvalidData /\ ((exists l, In l input /\ ~ finite_line l) \/
      exists a b it, In a (map arrange input) /\ In b (map arrange input) /\ intersection_point a b = Some it /\ ~ finite_point (isingle it))
  | Panic => False
  | NoFuel => True
  end.
Proof.
  intros at2 inf ord fuel stop ign input Ho.
  pose proof (plain_finite (S := F32 at2) inf (comparable_float _ _ _ at2) (float_refl _ _ _ at2) ord fuel stop ign input Ho) as H.
  destruct (intersections inf ord fuel stop ign input) as [r|e| |]; auto.
  - destruct H as [H1 H2]. split; [apply finite_all; auto|]. rewrite Forall_forall in H2. intros p is Hin. destruct (H2 _ Hin) as [H3 H4]. split; auto.
    rewrite Forall_forall in H4. auto.
  - destruct H as [-> [H|(a & b & it & Ha & Hb & E & N)]]; split; auto; [left|right; exists a, b, it; auto].
    clear -H. induction input as [|l t IH]; [destruct H; constructor|]. destruct (classic (fin_line l)) as [F|F].
    + destruct IH as (l' & H1 & H2); [intros K; apply H; constructor; auto|]. exists l'. split; cbn; auto.
    + exists l. split; cbn; auto. rewrite finite_line_fin. auto.
Qed.
Lemma front_indexed_no_panic_f32 : forall at2 inf ord fuel stop ign (vertices : list (V2 (F32 at2))) edges, any_order ord ->
  in_range_edges vertices edges ->
  match indexed_intersections inf ord fuel stop ign vertices edges with
  | Val (vs, out) => (exists added, vs = vertices ++ added) /\
      forall x is, In (x, is) out -> (exists p, nth_error vs x = Some p /\ finite_point p) /\ forall i, In i is -> (i < length edges)%nat
  | Fail e => e = InvalidData
  | Panic => False
  | NoFuel => True
  end.
Proof.
  intros at2 inf ord fuel stop ign vertices edges Ho He. destruct (lines_of_exists vertices edges He) as (ls & Hl).
  pose proof (indexed_finite (S := F32 at2) inf (comparable_float _ _ _ at2) (float_refl _ _ _ at2) ord fuel stop ign vertices edges ls Ho Hl) as H.
  destruct (indexed_intersections inf ord fuel stop ign vertices edges) as [[vs out]|e| |]; auto; [|apply H].
  destruct H as (_ & H1 & H2). split; auto. rewrite Forall_forall in H2. intros x is Hin. destruct (H2 _ Hin) as [H3 H4]. split; auto.
  rewrite Forall_forall in H4. auto.
Qed.

(* C121: coordinates of moderate size. [small64]: finite, and of absolute value at most 2^500; [small32]: at most 2^60 *)
Definition small64 {at2} (p : V2 (F64 at2)) : Prop := forall x, x = vx p \/ x = vy p -> finite_float 53 1024 x /\ Rabs (fvalue x) <= bpow radix2 500.
Definition small32 {at2} (p : V2 (F32 at2)) : Prop := forall x, x = vx p \/ x = vy p -> finite_float 24 128 x /\ Rabs (fvalue x) <= bpow radix2 60.

Lemma small_bd64 at2 (ls : list (Line2 (F64 at2))) : (forall l, In l ls -> small64 (lstart l) /\ small64 (lend l)) -> Forall (bdl 53 1024 (-52) at2 500) ls.
Proof. intros H. apply Forall_forall. intros l Hl. destruct (H l Hl) as [H1 H2]. split; split; first [apply H1; auto; fail|apply H2; auto; fail]. Qed.
Lemma small_no_bad64 at2 (ls : list (Line2 (F64 at2))) : Forall (bdl 53 1024 (-52) at2 500) ls -> ~ bad_pair ls.
Proof. apply (no_bad_pair 53 1024 (-52) at2 P53 M53 500); unfold scale_ok, SpecFloat.emin; lia. Qed.
Lemma small_arrange64 at2 (ls : list (Line2 (F64 at2))) : Forall (bdl 53 1024 (-52) at2 500) ls -> Forall (bdl 53 1024 (-52) at2 500) (map arrange ls).
Proof. intros H. apply Forall_map. eapply Forall_impl; [|exact H]. intros l Hl. apply arrange_bd; auto. Qed.
Lemma front_succeeds_f64 : forall at2 inf ord stop ign (input : list (Line2 (F64 at2))), any_order ord ->
  (forall l, In l input -> small64 (lstart l) /\ small64 (lend l)) ->
  exists bound, forall fuel, (bound <= fuel)%nat -> exists r, intersections inf ord fuel stop ign input = Val r.
Proof.
  intros at2 inf ord stop ign input Ho Hs. apply small_bd64 in Hs.
  destruct (plain_ends (S := F64 at2) inf (comparable_float _ _ _ at2) (float_ord _ _ _ at2) (float_eq _ _ _ at2 eps64) ord stop ign input) as (bound & Hb).
  exists bound. intros fuel Hf. specialize (Hb fuel Hf).
  pose proof (plain_finite (S := F64 at2) inf (comparable_float _ _ _ at2) (float_refl _ _ _ at2) ord fuel stop ign input Ho) as H.
  destruct (intersections inf ord fuel stop ign input) as [r|e| |]; eauto; [|destruct H|destruct Hb; auto]. exfalso.
  destruct H as [_ [H|H]]; [apply H; revert Hs; apply bounded_fin|]. revert H. apply small_no_bad64, small_arrange64, Hs.
Qed.
Lemma front_indexed_succeeds_f64 : forall at2 inf ord stop ign (vertices : list (V2 (F64 at2))) edges, any_order ord ->
  (forall p, In p vertices -> small64 p) -> in_range_edges vertices edges ->
  exists bound, forall fuel, (bound <= fuel)%nat -> exists r, indexed_intersections inf ord fuel stop ign vertices edges = Val r.
Proof.
  intros at2 inf ord stop ign vertices edges Ho Hs He. destruct (lines_of_exists vertices edges He) as (ls & Hl).
  assert (Hsm : Forall (bdl 53 1024 (-52) at2 500) ls).
  { apply small_bd64. clear -Hs Hl. induction Hl as [|[a b] l es ls [H1 H2] _ IH]; intros m [].
    - subst. cbn [fst snd] in *. split; apply Hs; eapply nth_error_In; eauto.
    - auto. }
  destruct (indexed_ends (S := F64 at2) inf (comparable_float _ _ _ at2) (float_ord _ _ _ at2) (float_eq _ _ _ at2 eps64) ord stop ign vertices edges ls Hl) as (bound & Hb).
  exists bound. intros fuel Hf. specialize (Hb fuel Hf).
  pose proof (indexed_finite (S := F64 at2) inf (comparable_float _ _ _ at2) (float_refl _ _ _ at2) ord fuel stop ign vertices edges ls Ho Hl) as H.
  destruct (indexed_intersections inf ord fuel stop ign vertices edges) as [r|e| |]; eauto; [|destruct H|destruct Hb; auto]. exfalso.
  destruct H as [_ [H|H]]; [apply H; revert Hsm; apply bounded_fin|]. revert H. apply small_no_bad64, Hsm.
Qed.
Lemma front_self_intersection_answers_f64 : forall at2 inf ord (l : list (V2 (F64 at2))), any_order ord ->
  (forall p, In p l -> small64 p) ->
  exists bound, forall fuel, (bound <= fuel)%nat -> exists b, is_self_intersecting inf ord fuel l = Val b.
Proof.
  intros at2 inf ord l Ho Hs. destruct (Nat.le_gt_cases 10 (length l)) as [H10|H10].
  - destruct (front_succeeds_f64 at2 inf ord true true (window_iter l) Ho) as (bound & Hb).
    + intros e He. apply In_nth_error in He as (i & He). apply window_nth in He as [H1 H2]. split; apply Hs; eapply nth_error_In; eauto.
    + exists bound. intros fuel Hf. rewrite long_run by auto. destruct (Hb fuel Hf) as (r & ->). cbn. eauto.
  - exists 0%nat. intros fuel _. unfold is_self_intersecting. destruct (Nat.leb_spec (length l) 2); eauto. destruct (Nat.ltb_spec (length l) 10); [eauto|lia].
Qed.

Lemma small_bd32 at2 (ls : list (Line2 (F32 at2))) : (forall l, In l ls -> small32 (lstart l) /\ small32 (lend l)) -> Forall (bdl 24 128 (-23) at2 60) ls.
Proof. intros H. apply Forall_forall. intros l Hl. destruct (H l Hl) as [H1 H2]. split; split; first [apply H1; auto; fail|apply H2; auto; fail]. Qed.
Lemma small_no_bad32 at2 (ls : list (Line2 (F32 at2))) : Forall (bdl 24 128 (-23) at2 60) ls -> ~ bad_pair ls.
Proof. apply (no_bad_pair 24 128 (-23) at2 P24 M24 60); unfold scale_ok, SpecFloat.emin; lia. Qed.
Lemma small_arrange32 at2 (ls : list (Line2 (F32 at2))) : Forall (bdl 24 128 (-23) at2 60) ls -> Forall (bdl 24 128 (-23) at2 60) (map arrange ls).
Proof. intros H. apply Forall_map. eapply Forall_impl; [|exact H]. intros l Hl. apply arrange_bd; auto. Qed.
Lemma front_succeeds_f32 : forall at2 inf ord stop ign (input : list (Line2 (F32 at2))), any_order ord ->
  (forall l, In l input -> small32 (lstart l) /\ small32 (lend l)) ->
  exists bound, forall fuel, (bound <= fuel)%nat -> exists r, intersections inf ord fuel stop ign input = Val r.
Proof.
  intros at2 inf ord stop ign input Ho Hs. apply small_bd32 in Hs.
  destruct (plain_ends (S := F32 at2) inf (comparable_float _ _ _ at2) (float_ord _ _ _ at2) (float_eq _ _ _ at2 eps32) ord stop ign input) as (bound & Hb).
  exists bound. intros fuel Hf. specialize (Hb fuel Hf).
  pose proof (plain_finite (S := F32 at2) inf (comparable_float _ _ _ at2) (float_refl _ _ _ at2) ord fuel stop ign input Ho) as H.
  destruct (intersections inf ord fuel stop ign input) as [r|e| |]; eauto; [|destruct H|destruct Hb; auto]. exfalso.
  destruct H as [_ [H|H]]; [apply H; revert Hs; apply bounded_fin|]. revert H. apply small_no_bad32, small_arrange32, Hs.
Qed.
Lemma front_indexed_succeeds_f32 : forall at2 inf ord stop ign (vertices : list (V2 (F32 at2))) edges, any_order ord ->
  (forall p, In p vertices -> small32 p) -> in_range_edges vertices edges ->
  exists bound, forall fuel, (bound <= fuel)%nat -> exists r, indexed_intersections inf ord fuel stop ign vertices edges = Val r.
Proof.
  intros at2 inf ord stop ign vertices edges Ho Hs He. destruct (lines_of_exists vertices edges He) as (ls & Hl).
  assert (Hsm : Forall (bdl 24 128 (-23) at2 60) ls).
  { apply small_bd32. clear -Hs Hl. induction Hl as [|[a b] l es ls [H1 H2] _ IH]; intros m [].
    - subst. cbn [fst snd] in *. split; apply Hs; eapply nth_error_In; eauto.
    - auto. }
  destruct (indexed_ends (S := F32 at2) inf (comparable_float _ _ _ at2) (float_ord _ _ _ at2) (float_eq _ _ _ at2 eps32) ord stop ign vertices edges ls Hl) as (bound & Hb).
  exists bound. intros fuel Hf. specialize (Hb fuel Hf).
  pose proof (indexed_finite (S := F32 at2) inf (comparable_float _ _ _ at2) (float_refl _ _ _ at2) ord fuel stop ign vertices edges ls Ho Hl) as H.
  destruct (indexed_intersections inf ord fuel stop ign vertices edges) as [r|e| |]; eauto; [|destruct H|destruct Hb; auto]. exfalso.
  destruct H as [_ [H|H]]; [apply H; revert Hsm; apply bounded_fin|]. revert H. apply small_no_bad32, Hsm.
Qed.
Lemma front_self_intersection_answers_f32 : forall at2 inf ord (l : list (V2 (F32 at2))), any_order ord ->
  (forall p, In p l -> small32 p) ->
  exists bound, forall fuel, (bound <= fuel)%nat -> exists b, is_self_intersecting inf ord fuel l = Val b.
Proof.
  intros at2 inf ord l Ho Hs. destruct (Nat.le_gt_cases 10 (length l)) as [H10|H10].
  - destruct (front_succeeds_f32 at2 inf ord true true (window_iter l) Ho) as (bound & Hb).
    + intros e He. apply In_nth_error in He as (i & He). apply window_nth in He as [H1 H2]. split; apply Hs; eapply nth_error_In; eauto.
    + exists bound. intros fuel Hf. rewrite long_run by auto. destruct (Hb fuel Hf) as (r & ->). cbn. eauto.
  - exists 0%nat. intros fuel _. unfold is_self_intersecting. destruct (Nat.leb_spec (length l) 2); eauto. destruct (Nat.ltb_spec (length l) 10); [eauto|lia].
Qed.

(* for C122, f64: the sweep ends on every input, finite or not *)
Lemma front_terminates_f64 : forall at2 inf ord stop ign (input : list (Line2 (F64 at2))),
  exists bound, forall fuel, (bound <= fuel)%nat -> intersections inf ord fuel stop ign input <> NoFuel.
Proof. intros at2 inf ord stop ign input. exact (plain_ends (S := F64 at2) inf (comparable_float _ _ _ at2) (float_ord _ _ _ at2) (float_eq _ _ _ at2 eps64) ord stop ign input). Qed.
Lemma front_indexed_terminates_f64 : forall at2 inf ord stop ign (vertices : list (V2 (F64 at2))) edges, in_range_edges vertices edges ->
  exists bound, forall fuel, (bound <= fuel)%nat -> indexed_intersections inf ord fuel stop ign vertices edges <> NoFuel.
Proof.
  intros at2 inf ord stop ign vertices edges He. destruct (lines_of_exists vertices edges He) as (ls & Hl).
  exact (indexed_ends (S := F64 at2) inf (comparable_float _ _ _ at2) (float_ord _ _ _ at2) (float_eq _ _ _ at2 eps64) ord stop ign vertices edges ls Hl).
Qed.

(* for C122, f32: the sweep ends on every input, finite or not *)
Lemma front_terminates_f32 : forall at2 inf ord stop ign (input : list (Line2 (F32 at2))),
  exists bound, forall fuel, (bound <= fuel)%nat -> intersections inf ord fuel stop ign input <> NoFuel.
Proof. intros at2 inf ord stop ign input. exact (plain_ends (S := F32 at2) inf (comparable_float _ _ _ at2) (float_ord _ _ _ at2) (float_eq _ _ _ at2 eps32) ord stop ign input). Qed.
Lemma front_indexed_terminates_f32 : forall at2 inf ord stop ign (vertices : list (V2 (F32 at2))) edges, in_range_edges vertices edges ->
  exists bound, forall fuel, (bound <= fuel)%nat -> indexed_intersections inf ord fuel stop ign vertices edges <> NoFuel.
Proof.
  intros at2 inf ord stop ign vertices edges He. destruct (lines_of_exists vertices edges He) as (ls & Hl).
  exact (indexed_ends (S := F32 at2) inf (comparable_float _ _ _ at2) (float_ord _ _ _ at2) (float_eq _ _ _ at2 eps32) ord stop ign vertices edges ls Hl).
Qed.

(* ---- on a grid: 2^24 steps (f64) or 2^10 steps (f32) around the origin, lines that are not single points ---- *)

Definition grid_lines64 {at2} (s : Z) (input : list (Line2 (F64 at2))) : Prop := (-25 <= s)%Z /\ forall l, In l input ->
  grid64_to (2 ^ 24) s (lstart l) /\ grid64_to (2 ^ 24) s (lend l) /\ value64 (lstart l) <> value64 (lend l).
Lemma grid_lines_ok64 at2 s (input : list (Line2 (F64 at2))) : grid_lines64 s input ->
  input = [] \/ ((-25 <= s <= 228)%Z /\ Forall (grid_line 53 1024 (-52) at2 s 24) input).
Proof.
  intros [Hs H]. destruct input as [|l t]; auto. right. split.
  - destruct (H l (or_introl eq_refl)) as [[H1 _] _]. lia.
  - apply Forall_forall. intros x Hx. destruct (H x Hx) as [[_ H1] [[_ H2] H3]]. split; auto.
Qed.
(* for C123, f64: every reported point is within 2^(s - 23) of every line listed with it, and two different lines are listed *)
Lemma front_reports_are_real_f64 : forall at2 inf ord fuel stop ign s (input : list (Line2 (F64 at2))), any_order ord -> grid_lines64 s input ->
  forall r, intersections inf ord fuel stop ign input = Val r -> forall p is, In (p, is) r ->
    (exists i j, i <> j /\ In i is /\ In j is) /\
    forall i, In i is -> exists l q, nth_error input i = Some l /\ on_segment q (value64 (lstart l)) (value64 (lend l)) /\ within (bpow radix2 (s - 23)) (value64 p) q.
Proof.
  intros at2 inf ord fuel stop ign s input Ho HG r E p is Hin. destruct (grid_lines_ok64 at2 s input HG) as [->|[Hs HF]].
  { assert (N : intersections inf ord fuel stop ign ([] : list (Line2 (F64 at2))) = Val []) by (destruct fuel; reflexivity).
    rewrite N in E. injection E as <-. destruct Hin. }
  pose proof (plain_grid 53 1024 (-52) at2 P53 M53 s 24 (isect_ok64 s Hs)) as H.
  do 3 (specialize (H ltac:(unfold SpecFloat.emin; lia))). specialize (H inf ord fuel stop ign input HF Ho).
  change (intersections (S := FloatS 53 1024 (-52) at2) inf ord fuel stop ign input = Val r) in E. rewrite E in H.
  destruct H as [H _]. destruct (H p is Hin) as (_ & (i & j & Hij) & Hall). split; [exists i, j; tauto|].
  intros k Hk. destruct (Hall k Hk) as (l & q & E1 & E2 & E3). exists l, q. split; auto. split; auto.
  replace (bpow radix2 (s - 23)) with (4 * bpow radix2 (24 + s + 4 - 53)); [exact E3|]. change 4 with (bpow radix2 2). rewrite <- bpow_plus. f_equal. lia.
Qed.
Lemma front_indexed_reports_are_real_f64 : forall at2 inf ord fuel stop ign s vertices edges (input : list (Line2 (F64 at2))), any_order ord ->
  lines_of vertices edges input -> grid_lines64 s input -> input <> [] ->
  forall vs out, indexed_intersections inf ord fuel stop ign vertices edges = Val (vs, out) -> forall x is, In (x, is) out ->
    (exists i j, i <> j /\ In i is /\ In j is) /\
    exists p, nth_error vs x = Some p /\
    forall i, In i is -> exists l q, nth_error input i = Some l /\ on_segment q (value64 (lstart l)) (value64 (lend l)) /\ within (bpow radix2 (s - 23)) (value64 p) q.
Proof.
  intros at2 inf ord fuel stop ign s vertices edges input Ho Hl HG Hne vs out E x is Hin. destruct (grid_lines_ok64 at2 s input HG) as [->|[Hs HF]]; [destruct Hne; auto|].
  pose proof (indexed_grid 53 1024 (-52) at2 P53 M53 s 24 (isect_ok64 s Hs)) as H.
  do 3 (specialize (H ltac:(unfold SpecFloat.emin; lia))). specialize (H inf ord fuel stop ign vertices edges input Hl HF Ho).
  change (indexed_intersections (S := FloatS 53 1024 (-52) at2) inf ord fuel stop ign vertices edges = Val (vs, out)) in E. rewrite E in H.
  destruct H as (_ & H & _). destruct (H x is Hin) as (p & Ep & (i & j & Hij) & Hall). split; [exists i, j; tauto|]. exists p. split; auto.
  intros k Hk. destruct (Hall k Hk) as (l & q & E1 & E2 & E3). exists l, q. split; auto. split; auto.
  replace (bpow radix2 (s - 23)) with (4 * bpow radix2 (24 + s + 4 - 53)); [exact E3|]. change 4 with (bpow radix2 2). rewrite <- bpow_plus. f_equal. lia.
Qed.
(* for C124, f64: a value that is an end of two lines is reported, up to 2^(s - 25), with all the lines that end there *)
Lemma front_shared_end_points_f64 : forall at2 inf ord fuel s (input : list (Line2 (F64 at2))), any_order ord -> grid_lines64 s input ->
  forall r, intersections inf ord fuel false false input = Val r ->
  forall v i j, i <> j -> line_ends_at (map segment64 input) i v -> line_ends_at (map segment64 input) j v ->
  exists p is, In (p, is) r /\ within (bpow radix2 (s - 25)) v (value64 p) /\ forall k, line_ends_at (map segment64 input) k v -> In k is.
Proof.
  intros at2 inf ord fuel s input Ho HG r E v i j Hij Hi Hj.
  assert (U : forall k, line_ends_at (map segment64 input) k v -> exists l, nth_error input k = Some l /\ (v = value64 (lstart l) \/ v = value64 (lend l))).
  { intros k (m & Hm & He). rewrite nth_error_map in Hm. destruct (nth_error input k) as [l|]; [|discriminate]. injection Hm as <-. exists l. auto. }
  destruct (grid_lines_ok64 at2 s input HG) as [->|[Hs HF]].
  { destruct (U i Hi) as (l & H & _). destruct i; discriminate. }
  pose proof (plain_grid 53 1024 (-52) at2 P53 M53 s 24 (isect_ok64 s Hs)) as H.
  do 3 (specialize (H ltac:(unfold SpecFloat.emin; lia))). specialize (H inf ord fuel false false input HF Ho).
  change (intersections (S := FloatS 53 1024 (-52) at2) inf ord fuel false false input = Val r) in E. rewrite E in H.
  destruct H as [_ H]. destruct (H eq_refl eq_refl v i j Hij) as (p & is & H1 & H2 & H3).
  { intros k [->| ->]; auto. }
  exists p, is. split; auto. split.
  - replace (s - 25)%Z with (24 + s + 4 - 53)%Z by lia. exact H2.
  - intros k Hk. destruct (U k Hk) as (l & E1 & E2). exact (H3 k l E1 E2).
Qed.
(* for C125, f64: long line strings. A positive answer is right: an interior point of one edge lies on another edge, exactly *)
Lemma front_ignore_ends_f64 : forall at2 inf ord fuel stop s (input : list (Line2 (F64 at2))), any_order ord -> grid_lines64 s input ->
  forall r, intersections inf ord fuel stop true input = Val r -> r <> [] ->
  exists i j p, i <> j /\ line_has (map segment64 input) i p /\ line_has (map segment64 input) j p /\ ~ line_ends_at (map segment64 input) i p.
Proof.
  intros at2 inf ord fuel stop s input Ho HG r E Hr. apply NNPP. intros N. destruct (grid_lines_ok64 at2 s input HG) as [->|[Hs HF]].
  { assert (N' : intersections inf ord fuel stop true ([] : list (Line2 (F64 at2))) = Val []) by (destruct fuel; reflexivity).
    rewrite N' in E. injection E as <-. auto. }
  pose proof (plain_quiet 53 1024 (-52) at2 P53 M53 s 24 (isect_ok64 s Hs) inf ord fuel stop input HF Ho) as H.
  change (intersections (S := FloatS 53 1024 (-52) at2) inf ord fuel stop true input = Val r) in E. rewrite E in H. apply Hr, H.
  intros i j l l' x Hij Hl Hl' Ox Ox'. apply NNPP. intros Nx. apply N. exists i, j, x. split; auto.
  pose proof (map_nth_error segment64 i input Hl) as Ml. pose proof (map_nth_error segment64 j input Hl') as Ml'.
  split; [exists (segment64 l); split; auto|]. split; [exists (segment64 l'); split; auto|].
  intros (m & Hm & He). rewrite Ml in Hm. injection Hm as <-. apply Nx. exact He.
Qed.
Lemma front_long_self_intersection_f64 : forall at2 inf ord fuel s (l : list (V2 (F64 at2))), any_order ord -> (10 <= length l)%nat ->
  (-25 <= s)%Z -> Forall (grid64_to (2 ^ 24) s) l -> (forall i a b, edge_of l i a b -> value64 a <> value64 b) ->
  is_self_intersecting inf ord fuel l = Val true ->
  exists i j a b c d p, i <> j /\ edge_of l i a b /\ edge_of l j c d /\ on_segment p (value64 a) (value64 b) /\ on_segment p (value64 c) (value64 d) /\ p <> value64 a /\ p <> value64 b.
Proof.
  intros at2 inf ord fuel s l Ho H10 Hs HF Hne E. rewrite long_run in E by auto.
  destruct (intersections inf ord fuel true true (window_iter l)) as [r|?| |] eqn:R; try discriminate. cbn [obind] in E.
  rewrite Forall_forall in HF.
  destruct (front_ignore_ends_f64 at2 inf ord fuel true s (window_iter l) Ho) with (r := r) as (i & j & p & Hij & (e & He & Oe) & (g & Hg & Og) & Ne); auto.
  - split; auto. intros e He. apply In_nth_error in He as (i & He). apply window_nth in He. split; [apply HF; eapply nth_error_In; apply He|].
    split; [apply HF; eapply nth_error_In; apply He|]. eapply Hne; eauto.
  - intros ->. discriminate E.
  - rewrite nth_error_map in He, Hg. destruct (nth_error (window_iter l) i) as [e'|] eqn:Ei; [|discriminate]. destruct (nth_error (window_iter l) j) as [g'|] eqn:Ej; [|discriminate].
    injection He as <-. injection Hg as <-. exists i, j, (lstart e'), (lend e'), (lstart g'), (lend g'), p.
    split; auto. split; [apply window_nth; auto|]. split; [apply window_nth; auto|]. split; [exact Oe|]. split; [exact Og|].
    split; intros ->; apply Ne; exists (segment64 e'); (split; [apply map_nth_error; exact Ei|]); [left|right]; reflexivity.
Qed.

Definition grid_lines32 {at2} (s : Z) (input : list (Line2 (F32 at2))) : Prop := (-11 <= s)%Z /\ forall l, In l input ->
  grid32_to (2 ^ 10) s (lstart l) /\ grid32_to (2 ^ 10) s (lend l) /\ value32 (lstart l) <> value32 (lend l).
Lemma grid_lines_ok32 at2 s (input : list (Line2 (F32 at2))) : grid_lines32 s input ->
  input = [] \/ ((-11 <= s <= 19)%Z /\ Forall (grid_line 24 128 (-23) at2 s 10) input).
Proof.
  intros [Hs H]. destruct input as [|l t]; auto. right. split.
  - destruct (H l (or_introl eq_refl)) as [[H1 _] _]. lia.
  - apply Forall_forall. intros x Hx. destruct (H x Hx) as [[_ H1] [[_ H2] H3]]. split; auto.
Qed.
(* for C123, f32: every reported point is within 2^(s - 8) of every line listed with it, and two different lines are listed *)
Lemma front_reports_are_real_f32 : forall at2 inf ord fuel stop ign s (input : list (Line2 (F32 at2))), any_order ord -> grid_lines32 s input ->
  forall r, intersections inf ord fuel stop ign input = Val r -> forall p is, In (p, is) r ->
    (exists i j, i <> j /\ In i is /\ In j is) /\
    forall i, In i is -> exists l q, nth_error input i = Some l /\ on_segment q (value32 (lstart l)) (value32 (lend l)) /\ within (bpow radix2 (s - 8)) (value32 p) q.
Proof.
  intros at2 inf ord fuel stop ign s input Ho HG r E p is Hin. destruct (grid_lines_ok32 at2 s input HG) as [->|[Hs HF]].
  { assert (N : intersections inf ord fuel stop ign ([] : list (Line2 (F32 at2))) = Val []) by (destruct fuel; reflexivity).
    rewrite N in E. injection E as <-. destruct Hin. }
  pose proof (plain_grid 24 128 (-23) at2 P24 M24 s 10 (isect_ok32 s Hs)) as H.
  do 3 (specialize (H ltac:(unfold SpecFloat.emin; lia))). specialize (H inf ord fuel stop ign input HF Ho).
  change (intersections (S := FloatS 24 128 (-23) at2) inf ord fuel stop ign input = Val r) in E. rewrite E in H.
  destruct H as [H _]. destruct (H p is Hin) as (_ & (i & j & Hij) & Hall). split; [exists i, j; tauto|].
  intros k Hk. destruct (Hall k Hk) as (l & q & E1 & E2 & E3). exists l, q. split; auto. split; auto.
  replace (bpow radix2 (s - 8)) with (4 * bpow radix2 (10 + s + 4 - 24)); [exact E3|]. change 4 with (bpow radix2 2). rewrite <- bpow_plus. f_equal. lia.
Qed.
Lemma front_indexed_reports_are_real_f32 : forall at2 inf ord fuel stop ign s vertices edges (input : list (Line2 (F32 at2))), any_order ord ->
  lines_of vertices edges input -> grid_lines32 s input -> input <> [] ->
  forall vs out, indexed_intersections inf ord fuel stop ign vertices edges = Val (vs, out) -> forall x is, In (x, is) out ->
    (exists i j, i <> j /\ In i is /\ In j is) /\
    exists p, nth_error vs x = Some p /\
    forall i, In i is -> exists l q, nth_error input i = Some l /\ on_segment q (value32 (lstart l)) (value32 (lend l)) /\ within (bpow radix2 (s - 8)) (value32 p) q.
Proof.
  intros at2 inf ord fuel stop ign s vertices edges input Ho Hl HG Hne vs out E x is Hin. destruct (grid_lines_ok32 at2 s input HG) as [->|[Hs HF]]; [destruct Hne; auto|].
  pose proof (indexed_grid 24 128 (-23) at2 P24 M24 s 10 (isect_ok32 s Hs)) as H.
  do 3 (specialize (H ltac:(unfold SpecFloat.emin; lia))). specialize (H inf ord fuel stop ign vertices edges input Hl HF Ho).
  change (indexed_intersections (S := FloatS 24 128 (-23) at2) inf ord fuel stop ign vertices edges = Val (vs, out)) in E. rewrite E in H.
  destruct H as (_ & H & _). destruct (H x is Hin) as (p & Ep & (i & j & Hij) & Hall). split; [exists i, j; tauto|]. exists p. split; auto.
  intros k Hk. destruct (Hall k Hk) as (l & q & E1 & E2 & E3). exists l, q. split; auto. split; auto.
  replace (bpow radix2 (s - 8)) with (4 * bpow radix2 (10 + s + 4 - 24)); [exact E3|]. change 4 with (bpow radix2 2). rewrite <- bpow_plus. f_equal. lia.
Qed.
(* for C124, f32: a value that is an end of two lines is reported, up to 2^(s - 10), with all the lines that end there *)
Lemma front_shared_end_points_f32 : forall at2 inf ord fuel s (input : list (Line2 (F32 at2))), any_order ord -> grid_lines32 s input ->
  forall r, intersections inf ord fuel false false input = Val r ->
  forall v i j, i <> j -> line_ends_at (map segment32 input) i v -> line_ends_at (map segment32 input) j v ->
  exists p is, In (p, is) r /\ within (bpow radix2 (s - 10)) v (value32 p) /\ forall k, line_ends_at (map segment32 input) k v -> In k is.
Proof.
  intros at2 inf ord fuel s input Ho HG r E v i j Hij Hi Hj.
  assert (U : forall k, line_ends_at (map segment32 input) k v -> exists l, nth_error input k = Some l /\ (v = value32 (lstart l) \/ v = value32 (lend l))).
  { intros k (m & Hm & He). rewrite nth_error_map in Hm. destruct (nth_error input k) as [l|]; [|discriminate]. injection Hm as <-. exists l. auto. }
  destruct (grid_lines_ok32 at2 s input HG) as [->|[Hs HF]].
  { destruct (U i Hi) as (l & H & _). destruct i; discriminate. }
  pose proof (plain_grid 24 128 (-23) at2 P24 M24 s 10 (isect_ok32 s Hs)) as H.
  do 3 (specialize (H ltac:(unfold SpecFloat.emin; lia))). specialize (H inf ord fuel false false input HF Ho).
  change (intersections (S := FloatS 24 128 (-23) at2) inf ord fuel false false input = Val r) in E. rewrite E in H.
  destruct H as [_ H]. destruct (H eq_refl eq_refl v i j Hij) as (p & is & H1 & H2 & H3).
  { intros k [->| ->]; auto. }
  exists p, is. split; auto. split.
  - replace (s - 10)%Z with (10 + s + 4 - 24)%Z by lia. exact H2.
  - intros k Hk. destruct (U k Hk) as (l & E1 & E2). exact (H3 k l E1 E2).
Qed.
(* for C125, f32: long line strings. A positive answer is right: an interior point of one edge lies on another edge, exactly *)
Lemma front_ignore_ends_f32 : forall at2 inf ord fuel stop s (input : list (Line2 (F32 at2))), any_order ord -> grid_lines32 s input ->
  forall r, intersections inf ord fuel stop true input = Val r -> r <> [] ->
  exists i j p, i <> j /\ line_has (map segment32 input) i p /\ line_has (map segment32 input) j p /\ ~ line_ends_at (map segment32 input) i p.
Proof.
  intros at2 inf ord fuel stop s input Ho HG r E Hr. apply NNPP. intros N. destruct (grid_lines_ok32 at2 s input HG) as [->|[Hs HF]].
  { assert (N' : intersections inf ord fuel stop true ([] : list (Line2 (F32 at2))) = Val []) by (destruct fuel; reflexivity).
    rewrite N' in E. injection E as <-. auto. }
  pose proof (plain_quiet 24 128 (-23) at2 P24 M24 s 10 (isect_ok32 s Hs) inf ord fuel stop input HF Ho) as H.
  change (intersections (S := FloatS 24 128 (-23) at2) inf ord fuel stop true input = Val r) in E. rewrite E in H. apply Hr, H.
  intros i j l l' x Hij Hl Hl' Ox Ox'. apply NNPP. intros Nx. apply N. exists i, j, x. split; auto.
  pose proof (map_nth_error segment32 i input Hl) as Ml. pose proof (map_nth_error segment32 j input Hl') as Ml'.
  split; [exists (segment32 l); split; auto|]. split; [exists (segment32 l'); split; auto|].
  intros (m & Hm & He). rewrite Ml in Hm. injection Hm as <-. apply Nx. exact He.
Qed.
Lemma front_long_self_intersection_f32 : forall at2 inf ord fuel s (l : list (V2 (F32 at2))), any_order ord -> (10 <= length l)%nat ->
  (-11 <= s)%Z -> Forall (grid32_to (2 ^ 10) s) l -> (forall i a b, edge_of l i a b -> value32 a <> value32 b) ->
  is_self_intersecting inf ord fuel l = Val true ->
  exists i j a b c d p, i <> j /\ edge_of l i a b /\ edge_of l j c d /\ on_segment p (value32 a) (value32 b) /\ on_segment p (value32 c) (value32 d) /\ p <> value32 a /\ p <> value32 b.
Proof.
  intros at2 inf ord fuel s l Ho H10 Hs HF Hne E. rewrite long_run in E by auto.
  destruct (intersections inf ord fuel true true (window_iter l)) as [r|?| |] eqn:R; try discriminate. cbn [obind] in E.
  rewrite Forall_forall in HF.
  destruct (front_ignore_ends_f32 at2 inf ord fuel true s (window_iter l) Ho) with (r := r) as (i & j & p & Hij & (e & He & Oe) & (g & Hg & Og) & Ne); auto.
  - split; auto. intros e He. apply In_nth_error in He as (i & He). apply window_nth in He. split; [apply HF; eapply nth_error_In; apply He|].
    split; [apply HF; eapply nth_error_In; apply He|]. eapply Hne; eauto.
  - intros ->. discriminate E.
  - rewrite nth_error_map in He, Hg. destruct (nth_error (window_iter l) i) as [e'|] eqn:Ei; [|discriminate]. destruct (nth_error (window_iter l) j) as [g'|] eqn:Ej; [|discriminate].
    injection He as <-. injection Hg as <-. exists i, j, (lstart e'), (lend e'), (lstart g'), (lend g'), p.
    split; auto. split; [apply window_nth; auto|]. split; [apply window_nth; auto|]. split; [exact Oe|]. split; [exact Og|].
    split; intros ->; apply Ne; exists (segment32 e'); (split; [apply map_nth_error; exact Ei|]); [left|right]; reflexivity.
Qed.

