(* The sweep-line finders in f64 and f32, over every ordered map the code could use: no panic (C120), success for coordinates
   of moderate size (C121), termination (C122), and, on a grid, real intersections only (C123), shared end points (C124) and
   self-intersection of long line strings (C125).
   Model: SweepTree.v ([tree_intersections], [tree_indexed_intersections], [tree_self_intersecting]), Sweep.v, Geo2.v; BTree.v is
   std's BTreeMap. Vocabulary: SweepTree.v ([lawful_maps]: the operations of the two maps do what every search tree does;
   [key_point]: a position that can become a key; [consistent]: the key comparison is a total order on these positions),
   SweepSpec.v ([any_order]), FloatSpec.v ([finite_float], [fvalue], [grid64_to], [value64]), GeoSpec.v ([on_segment]),
   Properties_Isect2.v ([within], [segment64]), SweepIdx.v ([in_range_edges]: every index in the edge list is the index of a
   vertex; [lines_of vs es ls]: ls lists the lines the edges stand for), SweepFront.v ([finite_line], [finite_point], [small64]:
   finite and at most 2^500, [grid_lines64]). *)
From Coq Require Import ZArith Reals Lra Lia Psatz Classical Permutation Bool Floats.SpecFloat.
From Flocq Require Import Core BinarySingleNaN.
From Verif Require Import Prelude Scalar RInst Flt FltOrd FloatSpec FloatLink FloatGrid Geo2 GeoSpec DistR IsectProofs FloatIsect Properties_Float Properties_Float2 Properties_Isect2 Properties_Point2
  Sweep SweepIdx SweepRun SweepFin SweepSpec Properties_Sweep Properties_Sweep2 SweepAny SweepFlt SweepFlt2 SweepGrid SweepQuiet SweepTerm FloatBound SweepTree BTree BTreeProofs SweepMapEq SweepCons SweepFront SweepAny2 SweepAny3 SweepAny4.
Local Open Scope R_scope.

(* evaluation of a run to an error or a panic *)
Ltac fail_at := match goal with |- ?x = Fail InvalidData =>
  assert (B : match x with Fail InvalidData => true | _ => false end = true) by (vm_compute; reflexivity);
  destruct x as [|[]| |]; try discriminate B; reflexivity end.
Ltac panic_at := match goal with |- ?x = Panic =>
  assert (B : match x with Panic => true | _ => false end = true) by (vm_compute; reflexivity);
  destruct x; try discriminate B; reflexivity end.
Ltac nofuel_at := match goal with |- ?x = NoFuel =>
  assert (B : match x with NoFuel => true | _ => false end = true) by (vm_compute; reflexivity);
  destruct x; try discriminate B; reflexivity end.
Lemma std_lawful (S : Scalar) : lawful_maps (std_map S SiteEvent) (std_map S (list nat)).
Proof. split; apply btree_lawful. Qed.
Lemma std_indexed_lawful (S : Scalar) : lawful_indexed_maps (std_indexed_map S SiteEvent) (std_indexed_map S (list nat)).
Proof. split; apply btree_lawful. Qed.
Notation std_run := (tree_intersections (S := F64_) sinf (std_map F64_ SiteEvent) (std_map F64_ (list nat)) (fun _ l => l)).
(* two crossing lines, keys consistent *)
Definition cross_lines : list (Line2 F64_) := [@mkL F64_ (P 0 0) (P 2 2); @mkL F64_ (P 0 2) (P 2 0)].
Example consistent_met : consistent (key_point (map arrange cross_lines)).
Proof. apply check_consistent. vm_compute. reflexivity. Qed.

(* ==== C120 ==== *)

(* C120, f64, when the keys are consistently ordered: the only error is InvalidData, and it is returned only when some
   coordinate of the input is not finite, or the intersection point computed for two of the lines is not *)
Theorem C120_no_panic_f64_partial : forall at2 inf ord fuel stop ign QM RM (input : list (Line2 (F64 at2))), any_order ord ->
  lawful_maps QM RM -> consistent (key_point (map arrange input)) ->
  match tree_intersections inf QM RM ord fuel stop ign input with
  | Val r => (forall l, In l input -> finite_line l) /\
      forall p is, In (p, is) r -> finite_point p /\ forall i, In i is -> (i < length input)%nat
  | Fail e => e = InvalidData /\ ((exists l, In l input /\ ~ finite_line l) \/
      exists a b it, In a (map arrange input) /\ In b (map arrange input) /\ intersection_point a b = Some it /\ ~ finite_point (isingle it))
  | Panic => False
  | NoFuel => True
  end.
Proof. intros at2 inf ord fuel stop ign QM RM input Ho HM HC. rewrite tree_same by auto. apply front_no_panic_f64; auto. Qed.
Print Assumptions C120_no_panic_f64_partial.
Theorem C120_indexed_no_panic_f64_partial : forall at2 inf ord fuel stop ign QM RM (vertices : list (V2 (F64 at2))) edges ls, any_order ord ->
  lawful_indexed_maps QM RM -> lines_of vertices edges ls -> consistent (key_point ls) ->
  match tree_indexed_intersections inf QM RM ord fuel stop ign vertices edges with
  | Val (vs, out) => (exists added, vs = vertices ++ added) /\
      forall x is, In (x, is) out -> (exists p, nth_error vs x = Some p /\ finite_point p) /\ forall i, In i is -> (i < length edges)%nat
  | Fail e => e = InvalidData
  | Panic => False
  | NoFuel => True
  end.
Proof. intros at2 inf ord fuel stop ign QM RM vertices edges ls Ho HM Hl HC. rewrite (tree_indexed_same inf QM RM) with (ls := ls) by auto. apply front_indexed_no_panic_f64; auto. eapply lines_of_range; eauto. Qed.
Print Assumptions C120_indexed_no_panic_f64_partial.

(* C120, f32, when the keys are consistently ordered: the only error is InvalidData, and it is returned only when some
   coordinate of the input is not finite, or the intersection point computed for two of the lines is not *)
Theorem C120_no_panic_f32_partial : forall at2 inf ord fuel stop ign QM RM (input : list (Line2 (F32 at2))), any_order ord ->
  lawful_maps QM RM -> consistent (key_point (map arrange input)) ->
  match tree_intersections inf QM RM ord fuel stop ign input with
  | Val r => (forall l, In l input -> finite_line l) /\
      forall p is, In (p, is) r -> finite_point p /\ forall i, In i is -> (i < length input)%nat
  | Fail e => e = InvalidData /\ ((exists l, In l input /\ ~ finite_line l) \/
      exists a b it, In a (map arrange input) /\ In b (map arrange input) /\ intersection_point a b = Some it /\ ~ finite_point (isingle it))
  | Panic => False
  | NoFuel => True
  end.
Proof. intros at2 inf ord fuel stop ign QM RM input Ho HM HC. rewrite tree_same by auto. apply front_no_panic_f32; auto. Qed.
Print Assumptions C120_no_panic_f32_partial.
Theorem C120_indexed_no_panic_f32_partial : forall at2 inf ord fuel stop ign QM RM (vertices : list (V2 (F32 at2))) edges ls, any_order ord ->
  lawful_indexed_maps QM RM -> lines_of vertices edges ls -> consistent (key_point ls) ->
  match tree_indexed_intersections inf QM RM ord fuel stop ign vertices edges with
  | Val (vs, out) => (exists added, vs = vertices ++ added) /\
      forall x is, In (x, is) out -> (exists p, nth_error vs x = Some p /\ finite_point p) /\ forall i, In i is -> (i < length edges)%nat
  | Fail e => e = InvalidData
  | Panic => False
  | NoFuel => True
  end.
Proof. intros at2 inf ord fuel stop ign QM RM vertices edges ls Ho HM Hl HC. rewrite (tree_indexed_same inf QM RM) with (ls := ls) by auto. apply front_indexed_no_panic_f32; auto. eapply lines_of_range; eauto. Qed.
Print Assumptions C120_indexed_no_panic_f32_partial.

(* whatever the map, f64: a successful run reports finite points and indices of lines only; the errors are InvalidData, with the
   causes above, and InternalError. What is missing is that a panic and InternalError do not happen: they do, see below *)
Theorem C120_any_map_f64_partial : forall at2 inf ord fuel stop ign QM RM (input : list (Line2 (F64 at2))), any_order ord -> lawful_maps QM RM ->
  match tree_intersections inf QM RM ord fuel stop ign input with
  | Val r => (forall l, In l input -> finite_line l) /\
      forall p is, In (p, is) r -> finite_point p /\ forall i, In i is -> (i < length input)%nat
  | Fail e => e = InternalError \/ e = InvalidData /\ ((exists l, In l input /\ ~ finite_line l) \/
      exists a b it, In a (map arrange input) /\ In b (map arrange input) /\ intersection_point a b = Some it /\ ~ finite_point (isingle it))
  | _ => True
  end.
Proof.
  intros at2 inf ord fuel stop ign QM RM input Ho [(okq & HQ) (okr & HR)].
  pose proof (tree_finite (S := F64 at2) inf (comparable_float _ _ _ at2) QM RM okq okr HQ HR ord fuel stop ign input Ho) as H.
  destruct (tree_intersections inf QM RM ord fuel stop ign input) as [r|e| |]; auto.
  - destruct H as [H1 H2]. split; [apply finite_all; auto|]. rewrite Forall_forall in H2. intros p is Hin. destruct (H2 _ Hin) as [H3 H4]. split; auto.
    rewrite Forall_forall in H4. auto.
  - destruct H as [H|[-> [H|(a & b & it & Ha & Hb & E & N)]]]; [auto|right; split; auto; left|right; split; auto; right; exists a, b, it; auto].
    apply NNPP. intros N. apply H, finite_all. intros l Hl. apply NNPP. intros F. apply N. exists l. auto.
Qed.
Print Assumptions C120_any_map_f64_partial.
Theorem C120_any_map_indexed_f64_partial : forall at2 inf ord fuel stop ign QM RM (vertices : list (V2 (F64 at2))) edges, any_order ord -> lawful_indexed_maps QM RM -> in_range_edges vertices edges ->
  match tree_indexed_intersections inf QM RM ord fuel stop ign vertices edges with
  | Val (vs, out) => (exists added, vs = vertices ++ added) /\
      forall x is, In (x, is) out -> (exists p, nth_error vs x = Some p /\ finite_point p) /\ forall i, In i is -> (i < length edges)%nat
  | Fail e => e = InternalError \/ e = InvalidData
  | _ => True
  end.
Proof.
  intros at2 inf ord fuel stop ign QM RM vertices edges Ho [(okq & HQ) (okr & HR)] He. destruct (lines_of_exists vertices edges He) as (ls & Hl).
  pose proof (tree_indexed_finite (S := F64 at2) inf (comparable_float _ _ _ at2) QM RM okq okr HQ HR ord fuel stop ign vertices edges ls Ho Hl) as H.
  destruct (tree_indexed_intersections inf QM RM ord fuel stop ign vertices edges) as [[vs out]|e| |]; auto; [|tauto].
  destruct H as (_ & H1 & H2). split; auto. rewrite Forall_forall in H2. intros x is Hin. destruct (H2 _ Hin) as [H3 H4]. split; auto.
  rewrite Forall_forall in H4. auto.
Qed.
Print Assumptions C120_any_map_indexed_f64_partial.
(* whatever the map, f32: a successful run reports finite points and indices of lines only; the errors are InvalidData, with the
   causes above, and InternalError. What is missing is that a panic and InternalError do not happen: they do, see below *)
Theorem C120_any_map_f32_partial : forall at2 inf ord fuel stop ign QM RM (input : list (Line2 (F32 at2))), any_order ord -> lawful_maps QM RM ->
  match tree_intersections inf QM RM ord fuel stop ign input with
  | Val r => (forall l, In l input -> finite_line l) /\
      forall p is, In (p, is) r -> finite_point p /\ forall i, In i is -> (i < length input)%nat
  | Fail e => e = InternalError \/ e = InvalidData /\ ((exists l, In l input /\ ~ finite_line l) \/
      exists a b it, In a (map arrange input) /\ In b (map arrange input) /\ intersection_point a b = Some it /\ ~ finite_point (isingle it))
  | _ => True
  end.
Proof.
  intros at2 inf ord fuel stop ign QM RM input Ho [(okq & HQ) (okr & HR)].
  pose proof (tree_finite (S := F32 at2) inf (comparable_float _ _ _ at2) QM RM okq okr HQ HR ord fuel stop ign input Ho) as H.
  destruct (tree_intersections inf QM RM ord fuel stop ign input) as [r|e| |]; auto.
  - destruct H as [H1 H2]. split; [apply finite_all; auto|]. rewrite Forall_forall in H2. intros p is Hin. destruct (H2 _ Hin) as [H3 H4]. split; auto.
    rewrite Forall_forall in H4. auto.
  - destruct H as [H|[-> [H|(a & b & it & Ha & Hb & E & N)]]]; [auto|right; split; auto; left|right; split; auto; right; exists a, b, it; auto].
    apply NNPP. intros N. apply H, finite_all. intros l Hl. apply NNPP. intros F. apply N. exists l. auto.
Qed.
Print Assumptions C120_any_map_f32_partial.
Theorem C120_any_map_indexed_f32_partial : forall at2 inf ord fuel stop ign QM RM (vertices : list (V2 (F32 at2))) edges, any_order ord -> lawful_indexed_maps QM RM -> in_range_edges vertices edges ->
  match tree_indexed_intersections inf QM RM ord fuel stop ign vertices edges with
  | Val (vs, out) => (exists added, vs = vertices ++ added) /\
      forall x is, In (x, is) out -> (exists p, nth_error vs x = Some p /\ finite_point p) /\ forall i, In i is -> (i < length edges)%nat
  | Fail e => e = InternalError \/ e = InvalidData
  | _ => True
  end.
Proof.
  intros at2 inf ord fuel stop ign QM RM vertices edges Ho [(okq & HQ) (okr & HR)] He. destruct (lines_of_exists vertices edges He) as (ls & Hl).
  pose proof (tree_indexed_finite (S := F32 at2) inf (comparable_float _ _ _ at2) QM RM okq okr HQ HR ord fuel stop ign vertices edges ls Ho Hl) as H.
  destruct (tree_indexed_intersections inf QM RM ord fuel stop ign vertices edges) as [[vs out]|e| |]; auto; [|tauto].
  destruct H as (_ & H1 & H2). split; auto. rewrite Forall_forall in H2. intros x is Hin. destruct (H2 _ Hin) as [H3 H4]. split; auto.
  rewrite Forall_forall in H4. auto.
Qed.
Print Assumptions C120_any_map_indexed_f32_partial.

(* Without consistent keys the call can panic: with std's map, for finite coordinates of ordinary size. Twelve points
   (i, 1 + a/2^52), joined by eleven lines, a line up from the first and one up from the last. Neighbours in this sequence are equal
   or in order for the key comparison, but it is not transitive: the key of a report is not found where it was inserted, and
   the unwrap after the search (intersection.rs:826) panics. *)
Definition above_one (a : Z) : spec_float := SpecFloat.binary_normalize 53 1024 (4503599627370496 + a)%Z (-52)%Z false.
Definition near_one (x a : Z) : V2 F64_ := @mkV2 F64_ (f64 x) (above_one a).
Fixpoint joined (l : list (V2 F64_)) : list (Line2 F64_) := match l with a :: (b :: _) as t => @mkL F64_ a b :: joined t | _ => [] end.
Definition slow_slope : list (V2 F64_) := map (fun z => near_one (fst z) (snd z))
  [(0, 5); (1, 4); (2, 3); (3, 2); (4, 1); (5, 0); (6, 0); (7, 0); (8, 0); (9, 0); (10, 0); (11, 0)]%Z.
Definition panic_lines : list (Line2 F64_) :=
  @mkL F64_ (near_one 11 0) (@mkV2 F64_ (f64 11) (f64 50)) :: rev (joined slow_slope) ++ [@mkL F64_ (near_one 0 5) (@mkV2 F64_ (f64 0) (f64 50))].
Theorem C120_panic_refuted : exists input : list (Line2 F64_),
  (forall l, In l input -> finite_line l) /\ std_run 100 false false input = Panic.
Proof.
  assert (F : forallb (fun l => line_finite (lstart l) (lend l)) panic_lines = true) by (vm_compute; reflexivity).
  exists panic_lines. split.
  - intros l Hl. rewrite forallb_forall in F. apply finite_line_fin, line_finite_spec, F, Hl.
  - panic_at.
Qed.
Print Assumptions C120_panic_refuted.
(* finite coordinates alone do not rule the error InvalidData out: near the largest float the computed intersection point overflows *)
Definition largest : spec_float := @smaxval F64_.
Definition near_max : list (Line2 F64_) :=
  [@mkL F64_ (@mkV2 F64_ (SpecFloat.binary_normalize 53 1024 3%Z 970%Z false) (f64 (-1))) (@mkV2 F64_ largest (f64 0));
   @mkL F64_ (@mkV2 F64_ largest (SpecFloat.binary_normalize 53 1024 (-1)%Z (-2)%Z false)) (@mkV2 F64_ largest (SpecFloat.binary_normalize 53 1024 1%Z (-2)%Z false))].
Theorem C120_finite_input_refuted : exists input : list (Line2 F64_),
  (forall l, In l input -> finite_line l) /\ consistent (key_point (map arrange input)) /\ std_run 60 false false input = Fail InvalidData.
Proof.
  assert (F : forallb (fun l => line_finite (lstart l) (lend l)) near_max = true) by (vm_compute; reflexivity).
  exists near_max. split; [|split].
  - intros l Hl. rewrite forallb_forall in F. apply finite_line_fin, line_finite_spec, F, Hl.
  - apply check_consistent. vm_compute. reflexivity.
  - fail_at.
Qed.
Print Assumptions C120_finite_input_refuted.
Example C120_run : any_order (fun _ l => l) /\ std_run 60 false false cross_lines = Val [(P 1 1, [0; 1]%nat)].
Proof. split; [intros n l; apply Permutation_refl|unfold cross_lines; fsweep]. Qed.

(* ==== C121: coordinates of moderate size. [small64]: finite, and of absolute value at most 2^500; [small32]: at most 2^60 ==== *)

Theorem C121_succeeds_f64_partial : forall at2 inf ord stop ign QM RM (input : list (Line2 (F64 at2))), any_order ord ->
  (forall l, In l input -> small64 (lstart l) /\ small64 (lend l)) -> lawful_maps QM RM -> consistent (key_point (map arrange input)) ->
  exists bound, forall fuel, (bound <= fuel)%nat -> exists r, tree_intersections inf QM RM ord fuel stop ign input = Val r.
Proof.
  intros at2 inf ord stop ign QM RM input Ho Hs HM HC. destruct (front_succeeds_f64 at2 inf ord stop ign input Ho Hs) as (bound & Hb).
  exists bound. intros fuel Hf. rewrite tree_same by auto. auto.
Qed.
Print Assumptions C121_succeeds_f64_partial.
Theorem C121_indexed_succeeds_f64_partial : forall at2 inf ord stop ign QM RM (vertices : list (V2 (F64 at2))) edges ls, any_order ord ->
  (forall p, In p vertices -> small64 p) -> lawful_indexed_maps QM RM -> lines_of vertices edges ls -> consistent (key_point ls) ->
  exists bound, forall fuel, (bound <= fuel)%nat -> exists r, tree_indexed_intersections inf QM RM ord fuel stop ign vertices edges = Val r.
Proof.
  intros at2 inf ord stop ign QM RM vertices edges ls Ho Hs HM Hl HC.
  destruct (front_indexed_succeeds_f64 at2 inf ord stop ign vertices edges Ho Hs ltac:(eapply lines_of_range; eauto)) as (bound & Hb).
  exists bound. intros fuel Hf. rewrite (tree_indexed_same inf QM RM) with (ls := ls) by auto. auto.
Qed.
Print Assumptions C121_indexed_succeeds_f64_partial.
Theorem C121_self_intersection_answers_f64_partial : forall at2 inf ord QM RM (l : list (V2 (F64 at2))), any_order ord ->
  (forall p, In p l -> small64 p) -> lawful_maps QM RM -> consistent (key_point (map arrange (window_iter l))) ->
  exists bound, forall fuel, (bound <= fuel)%nat -> exists b, tree_self_intersecting inf QM RM ord fuel l = Val b.
Proof.
  intros at2 inf ord QM RM l Ho Hs HM HC. destruct (front_self_intersection_answers_f64 at2 inf ord l Ho Hs) as (bound & Hb).
  exists bound. intros fuel Hf. rewrite tree_self_same by auto. auto.
Qed.
Print Assumptions C121_self_intersection_answers_f64_partial.

Theorem C121_succeeds_f32_partial : forall at2 inf ord stop ign QM RM (input : list (Line2 (F32 at2))), any_order ord ->
  (forall l, In l input -> small32 (lstart l) /\ small32 (lend l)) -> lawful_maps QM RM -> consistent (key_point (map arrange input)) ->
  exists bound, forall fuel, (bound <= fuel)%nat -> exists r, tree_intersections inf QM RM ord fuel stop ign input = Val r.
Proof.
  intros at2 inf ord stop ign QM RM input Ho Hs HM HC. destruct (front_succeeds_f32 at2 inf ord stop ign input Ho Hs) as (bound & Hb).
  exists bound. intros fuel Hf. rewrite tree_same by auto. auto.
Qed.
Print Assumptions C121_succeeds_f32_partial.
Theorem C121_indexed_succeeds_f32_partial : forall at2 inf ord stop ign QM RM (vertices : list (V2 (F32 at2))) edges ls, any_order ord ->
  (forall p, In p vertices -> small32 p) -> lawful_indexed_maps QM RM -> lines_of vertices edges ls -> consistent (key_point ls) ->
  exists bound, forall fuel, (bound <= fuel)%nat -> exists r, tree_indexed_intersections inf QM RM ord fuel stop ign vertices edges = Val r.
Proof.
  intros at2 inf ord stop ign QM RM vertices edges ls Ho Hs HM Hl HC.
  destruct (front_indexed_succeeds_f32 at2 inf ord stop ign vertices edges Ho Hs ltac:(eapply lines_of_range; eauto)) as (bound & Hb).
  exists bound. intros fuel Hf. rewrite (tree_indexed_same inf QM RM) with (ls := ls) by auto. auto.
Qed.
Print Assumptions C121_indexed_succeeds_f32_partial.
Theorem C121_self_intersection_answers_f32_partial : forall at2 inf ord QM RM (l : list (V2 (F32 at2))), any_order ord ->
  (forall p, In p l -> small32 p) -> lawful_maps QM RM -> consistent (key_point (map arrange (window_iter l))) ->
  exists bound, forall fuel, (bound <= fuel)%nat -> exists b, tree_self_intersecting inf QM RM ord fuel l = Val b.
Proof.
  intros at2 inf ord QM RM l Ho Hs HM HC. destruct (front_self_intersection_answers_f32 at2 inf ord l Ho Hs) as (bound & Hb).
  exists bound. intros fuel Hf. rewrite tree_self_same by auto. auto.
Qed.
Print Assumptions C121_self_intersection_answers_f32_partial.

(* without consistent keys a call on coordinates of at most 50 panics *)
Definition small_bool (x : spec_float) : bool := match x with S754_zero _ => true | S754_finite _ m e => (Z.pos m <=? 2 ^ 53)%Z && (e <=? 447)%Z | _ => false end.
Lemma small_bool_ok x : valid_binary 53 1024 x = true -> small_bool x = true -> finite_float 53 1024 x /\ Rabs (fvalue x) <= bpow radix2 500.
Proof.
  intros Hv Hs. destruct x as [s|s| |s m e]; try discriminate Hs.
  - split; [split; auto|]. unfold fvalue. cbn [SF2R]. rewrite Rabs_R0. apply bpow_ge_0.
  - cbn [small_bool] in Hs. apply andb_true_iff in Hs as [Hm He]. apply Z.leb_le in Hm, He. split; [split; auto|].
    unfold fvalue. cbn [SF2R]. rewrite <- F2R_Zabs. replace (Z.abs (cond_Zopp s (Z.pos m))) with (Z.pos m) by (destruct s; reflexivity).
    unfold F2R. cbn [Fnum Fexp]. replace 500%Z with (53 + 447)%Z by lia. rewrite bpow_plus. apply Rmult_le_compat; [apply IZR_le; lia|apply bpow_ge_0| |apply bpow_le; lia].
    change (bpow radix2 53) with (IZR (2 ^ 53)). apply IZR_le. exact Hm.
Qed.
Theorem C121_panic_refuted : (forall l, In l panic_lines -> small64 (at2 := no_atan2) (lstart l) /\ small64 (at2 := no_atan2) (lend l)) /\ std_run 100 false false panic_lines = Panic.
Proof.
  split; [|panic_at].
  assert (Hz : forall x : spec_float, In x (flat_map (fun l : Line2 F64_ => [vx (lstart l); vy (lstart l); vx (lend l); vy (lend l)]) panic_lines) ->
    valid_binary 53 1024 x && small_bool x = true).
  { apply (proj1 (forallb_forall (fun x : spec_float => valid_binary 53 1024 x && small_bool x) _)). vm_compute. reflexivity. }
  assert (K : forall x, valid_binary 53 1024 x && small_bool x = true -> finite_float 53 1024 x /\ Rabs (fvalue x) <= bpow radix2 500) by (intros x H; apply andb_true_iff in H as [H1 H2]; apply small_bool_ok; auto).
  intros l Hl. split; intros x Hx; apply K, Hz; apply in_flat_map; exists l; (split; [exact Hl|]); cbn; destruct Hx as [-> | ->]; auto.
Qed.
Print Assumptions C121_panic_refuted.
(* three lines whose coordinates are as large as allowed: the finder succeeds, and two of them meet *)
Definition huge64 (z : Z) : spec_float := SpecFloat.binary_normalize 53 1024 z 499%Z false.
Definition hugeP (x y : Z) : V2 F64_ := @mkV2 F64_ (huge64 x) (huge64 y).
Example C121_hypotheses_met : small64 (hugeP 2 (-2)) /\
  std_run 60 false false [@mkL F64_ (hugeP (-2) (-2)) (hugeP 2 2); @mkL F64_ (hugeP (-2) 2) (hugeP 2 (-2)); @mkL F64_ (P 5 0) (P 6 1)]
    = Val [(hugeP 0 0, [0; 1]%nat)].
Proof.
  split; [|fsweep].
  assert (E1 : huge64 2 = S754_finite false 4503599627370496 448) by (vm_compute; reflexivity).
  assert (E2 : huge64 (-2) = S754_finite true 4503599627370496 448) by (vm_compute; reflexivity).
  assert (B : bpow radix2 500 = bpow radix2 52 * bpow radix2 448) by (rewrite <- bpow_plus; reflexivity).
  assert (C : bpow radix2 52 = 4503599627370496) by (cbn; lra).
  intros x [->| ->]; cbn [hugeP vx vy]; rewrite ?E1, ?E2; (split; [split; reflexivity|]); rewrite B, C; unfold fvalue, SF2R, Defs.F2R; cbn [Defs.Fnum Defs.Fexp cond_Zopp].
  - rewrite Rabs_mult, (Rabs_pos_eq (bpow _ _)) by apply bpow_ge_0. apply Rmult_le_compat_r; [apply bpow_ge_0|]. rewrite Rabs_pos_eq; lra.
  - rewrite Rabs_mult, (Rabs_pos_eq (bpow _ _)) by apply bpow_ge_0. apply Rmult_le_compat_r; [apply bpow_ge_0|]. rewrite <- abs_IZR. apply IZR_le. cbn. lia.
Qed.

(* ==== C122: the sweep ends, on finite input or not ==== *)

Theorem C122_terminates_f64_partial : forall at2 inf ord stop ign QM RM (input : list (Line2 (F64 at2))), lawful_maps QM RM -> consistent (key_point (map arrange input)) ->
  exists bound, forall fuel, (bound <= fuel)%nat -> tree_intersections inf QM RM ord fuel stop ign input <> NoFuel.
Proof.
  intros at2 inf ord stop ign QM RM input HM HC. destruct (front_terminates_f64 at2 inf ord stop ign input) as (bound & Hb).
  exists bound. intros fuel Hf. rewrite tree_same by auto. auto.
Qed.
Print Assumptions C122_terminates_f64_partial.
Theorem C122_indexed_terminates_f64_partial : forall at2 inf ord stop ign QM RM (vertices : list (V2 (F64 at2))) edges ls, lawful_indexed_maps QM RM ->
  lines_of vertices edges ls -> consistent (key_point ls) ->
  exists bound, forall fuel, (bound <= fuel)%nat -> tree_indexed_intersections inf QM RM ord fuel stop ign vertices edges <> NoFuel.
Proof.
  intros at2 inf ord stop ign QM RM vertices edges ls HM Hl HC.
  destruct (front_indexed_terminates_f64 at2 inf ord stop ign vertices edges ltac:(eapply lines_of_range; eauto)) as (bound & Hb).
  exists bound. intros fuel Hf. rewrite (tree_indexed_same inf QM RM) with (ls := ls) by auto. auto.
Qed.
Print Assumptions C122_indexed_terminates_f64_partial.

Theorem C122_terminates_f32_partial : forall at2 inf ord stop ign QM RM (input : list (Line2 (F32 at2))), lawful_maps QM RM -> consistent (key_point (map arrange input)) ->
  exists bound, forall fuel, (bound <= fuel)%nat -> tree_intersections inf QM RM ord fuel stop ign input <> NoFuel.
Proof.
  intros at2 inf ord stop ign QM RM input HM HC. destruct (front_terminates_f32 at2 inf ord stop ign input) as (bound & Hb).
  exists bound. intros fuel Hf. rewrite tree_same by auto. auto.
Qed.
Print Assumptions C122_terminates_f32_partial.
Theorem C122_indexed_terminates_f32_partial : forall at2 inf ord stop ign QM RM (vertices : list (V2 (F32 at2))) edges ls, lawful_indexed_maps QM RM ->
  lines_of vertices edges ls -> consistent (key_point ls) ->
  exists bound, forall fuel, (bound <= fuel)%nat -> tree_indexed_intersections inf QM RM ord fuel stop ign vertices edges <> NoFuel.
Proof.
  intros at2 inf ord stop ign QM RM vertices edges ls HM Hl HC.
  destruct (front_indexed_terminates_f32 at2 inf ord stop ign vertices edges ltac:(eapply lines_of_range; eauto)) as (bound & Hb).
  exists bound. intros fuel Hf. rewrite (tree_indexed_same inf QM RM) with (ls := ls) by auto. auto.
Qed.
Print Assumptions C122_indexed_terminates_f32_partial.

(* a run that needs several rounds *)
Example C122_run : std_run 3 false false cross_lines = NoFuel /\ std_run 6 false false cross_lines = Val [(P 1 1, [0; 1]%nat)].
Proof. unfold cross_lines. split; [nofuel_at|fsweep]. Qed.

(* ==== C123-C125: on a grid: 2^24 steps (f64) or 2^10 steps (f32) around the origin, lines that are not single points ==== *)

Lemma any_reports_f64 : forall at2 inf ord fuel stop ign s QM RM (input : list (Line2 (F64 at2))), any_order ord -> grid_lines64 s input -> lawful_maps QM RM ->
  forall r, tree_intersections inf QM RM ord fuel stop ign input = Val r -> forall p is, In (p, is) r ->
    (is = [] \/ exists i j, i <> j /\ In i is /\ In j is) /\
    forall i, In i is -> exists l q, nth_error input i = Some l /\ on_segment q (value64 (lstart l)) (value64 (lend l)) /\ within (bpow radix2 (s - 23)) (value64 p) q.
Proof.
  intros at2 inf ord fuel stop ign s QM RM input Ho HG HM r E p is Hin. destruct (grid_lines_ok64 at2 s input HG) as [->|[Hs HF]].
  { assert (N : intersections inf ord fuel stop ign ([] : list (Line2 (F64 at2))) = Val []) by (destruct fuel; reflexivity).
    rewrite tree_same in E by (auto; apply check_consistent; reflexivity). rewrite N in E. injection E as <-. destruct Hin. }
  destruct HM as [(okq & HQ) (okr & HR)].
  pose proof (tree_grid 53 1024 (-52) at2 P53 M53 s 24 (isect_ok64 s Hs)) as H.
  do 3 (specialize (H ltac:(unfold SpecFloat.emin; lia))). specialize (H inf ign stop ord Ho QM RM okq okr HQ HR fuel input HF).
  change (tree_intersections (S := FloatS 53 1024 (-52) at2) inf QM RM ord fuel stop ign input = Val r) in E. rewrite E in H.
  destruct (H p is Hin) as [H2 Hall]. split; [destruct H2 as [H2|(i & j & Hij)]; [auto|right; exists i, j; tauto]|].
  intros k Hk. destruct (Hall k Hk) as (l & q & E1 & E2 & E3). exists l, q. split; auto. split; auto.
  replace (bpow radix2 (s - 23)) with (4 * bpow radix2 (24 + s + 4 - 53)); [exact E3|]. change 4 with (bpow radix2 2). rewrite <- bpow_plus. f_equal. lia.
Qed.
Lemma any_indexed_reports_f64 : forall at2 inf ord fuel stop ign s QM RM vertices edges (input : list (Line2 (F64 at2))), any_order ord ->
  lines_of vertices edges input -> grid_lines64 s input -> input <> [] -> lawful_indexed_maps QM RM ->
  forall vs out, tree_indexed_intersections inf QM RM ord fuel stop ign vertices edges = Val (vs, out) -> forall x is, In (x, is) out ->
    exists p, nth_error vs x = Some p /\ (is = [] \/ exists i j, i <> j /\ In i is /\ In j is) /\
    forall i, In i is -> exists l q, nth_error input i = Some l /\ on_segment q (value64 (lstart l)) (value64 (lend l)) /\ within (bpow radix2 (s - 23)) (value64 p) q.
Proof.
  intros at2 inf ord fuel stop ign s QM RM vertices edges input Ho Hl HG Hne HM vs out E x is Hin. destruct (grid_lines_ok64 at2 s input HG) as [->|[Hs HF]]; [destruct Hne; auto|].
  destruct HM as [(okq & HQ) (okr & HR)].
  pose proof (tree_indexed_grid 53 1024 (-52) at2 P53 M53 s 24 (isect_ok64 s Hs)) as H.
  do 3 (specialize (H ltac:(unfold SpecFloat.emin; lia))). specialize (H inf ign stop ord Ho QM RM okq okr HQ HR fuel vertices edges input Hl HF).
  change (tree_indexed_intersections (S := FloatS 53 1024 (-52) at2) inf QM RM ord fuel stop ign vertices edges = Val (vs, out)) in E. rewrite E in H.
  destruct H as (_ & H). destruct (H x is Hin) as (p & Ep & H2 & Hall). exists p. split; auto. split; [destruct H2 as [H2|(i & j & Hij)]; [auto|right; exists i, j; tauto]|].
  intros k Hk. destruct (Hall k Hk) as (l & q & E1 & E2 & E3). exists l, q. split; auto. split; auto.
  replace (bpow radix2 (s - 23)) with (4 * bpow radix2 (24 + s + 4 - 53)); [exact E3|]. change 4 with (bpow radix2 2). rewrite <- bpow_plus. f_equal. lia.
Qed.
(* C123, f64: every reported point is within 2^(s - 23) of every line listed with it, whatever the map *)
Theorem C123_reports_are_real_f64 : forall at2 inf ord fuel stop ign s QM RM (input : list (Line2 (F64 at2))), any_order ord -> grid_lines64 s input -> lawful_maps QM RM ->
  forall r, tree_intersections inf QM RM ord fuel stop ign input = Val r -> forall p is, In (p, is) r ->
    forall i, In i is -> exists l q, nth_error input i = Some l /\ on_segment q (value64 (lstart l)) (value64 (lend l)) /\ within (bpow radix2 (s - 23)) (value64 p) q.
Proof. intros at2 inf ord fuel stop ign s QM RM input Ho HG HM r E p is Hin. apply (any_reports_f64 at2 inf ord fuel stop ign s QM RM input Ho HG HM r E p is Hin). Qed.
Print Assumptions C123_reports_are_real_f64.
Theorem C123_indexed_reports_are_real_f64 : forall at2 inf ord fuel stop ign s QM RM vertices edges (input : list (Line2 (F64 at2))), any_order ord ->
  lines_of vertices edges input -> grid_lines64 s input -> input <> [] -> lawful_indexed_maps QM RM ->
  forall vs out, tree_indexed_intersections inf QM RM ord fuel stop ign vertices edges = Val (vs, out) -> forall x is, In (x, is) out ->
    exists p, nth_error vs x = Some p /\
    forall i, In i is -> exists l q, nth_error input i = Some l /\ on_segment q (value64 (lstart l)) (value64 (lend l)) /\ within (bpow radix2 (s - 23)) (value64 p) q.
Proof.
  intros at2 inf ord fuel stop ign s QM RM vertices edges input Ho Hl HG Hne HM vs out E x is Hin.
  destruct (any_indexed_reports_f64 at2 inf ord fuel stop ign s QM RM vertices edges input Ho Hl HG Hne HM vs out E x is Hin) as (p & Ep & _ & H). exists p. auto.
Qed.
Print Assumptions C123_indexed_reports_are_real_f64.
(* C124, f64: a value that is an end of two lines is reported, up to 2^(s - 24), with all the lines that end there, whatever
   the map *)
Theorem C124_shared_end_points_f64 : forall at2 inf ord fuel s QM RM (input : list (Line2 (F64 at2))), any_order ord -> grid_lines64 s input -> lawful_maps QM RM ->
  forall r, tree_intersections inf QM RM ord fuel false false input = Val r ->
  forall v i j, i <> j -> line_ends_at (map segment64 input) i v -> line_ends_at (map segment64 input) j v ->
  exists p is, In (p, is) r /\ within (bpow radix2 (s - 24)) v (value64 p) /\ forall k, line_ends_at (map segment64 input) k v -> In k is.
Proof.
  intros at2 inf ord fuel s QM RM input Ho HG HM r E v i j Hij Hi Hj.
  assert (U : forall k, line_ends_at (map segment64 input) k v -> ends_at 53 1024 (-52) at2 input k v).
  { intros k (m & Hm & He). rewrite nth_error_map in Hm. destruct (nth_error input k) as [l|] eqn:El; [|discriminate]. injection Hm as <-. exists l. split; [exact El|exact He]. }
  destruct (grid_lines_ok64 at2 s input HG) as [->|[Hs HF]].
  { destruct (U i Hi) as (l & H & _). destruct i; discriminate. }
  destruct HM as [(okq & HQ) (okr & HR)].
  pose proof (tree_grid_ends 53 1024 (-52) at2 P53 M53 s 24 (isect_ok64 s Hs)) as H.
  do 3 (specialize (H ltac:(unfold SpecFloat.emin; lia))). specialize (H inf ord Ho QM RM okq okr HQ HR fuel input r HF E v i j Hij (U i Hi) (U j Hj)).
  destruct H as (p & is & H1 & H2 & H3). exists p, is. split; auto. split.
  - replace (bpow radix2 (s - 24)) with (2 * bpow radix2 (24 + s + 4 - 53)); [exact H2|]. change 2 with (bpow radix2 1). rewrite <- bpow_plus. f_equal. lia.
  - intros k Hk. exact (H3 k (U k Hk)).
Qed.
Print Assumptions C124_shared_end_points_f64.
Theorem C124_indexed_shared_end_points_f64 : forall at2 inf ord fuel s QM RM vertices edges (input : list (Line2 (F64 at2))), any_order ord ->
  lines_of vertices edges input -> grid_lines64 s input -> lawful_indexed_maps QM RM ->
  forall vs out, tree_indexed_intersections inf QM RM ord fuel false false vertices edges = Val (vs, out) ->
  forall v i j, i <> j -> line_ends_at (map segment64 input) i v -> line_ends_at (map segment64 input) j v ->
  exists x p is, In (x, is) out /\ nth_error vs x = Some p /\ within (bpow radix2 (s - 24)) v (value64 p) /\ forall k, line_ends_at (map segment64 input) k v -> In k is.
Proof.
  intros at2 inf ord fuel s QM RM vertices edges input Ho Hl HG HM vs out E v i j Hij Hi Hj.
  assert (U : forall k, line_ends_at (map segment64 input) k v -> ends_at 53 1024 (-52) at2 input k v).
  { intros k (m & Hm & He). rewrite nth_error_map in Hm. destruct (nth_error input k) as [l|] eqn:El; [|discriminate]. injection Hm as <-. exists l. split; [exact El|exact He]. }
  destruct (grid_lines_ok64 at2 s input HG) as [->|[Hs HF]].
  { destruct (U i Hi) as (l & H & _). destruct i; discriminate. }
  destruct HM as [(okq & HQ) (okr & HR)].
  pose proof (tree_indexed_grid_ends 53 1024 (-52) at2 P53 M53 s 24 (isect_ok64 s Hs)) as H.
  do 3 (specialize (H ltac:(unfold SpecFloat.emin; lia))). specialize (H inf ord Ho QM RM okq okr HQ HR fuel vertices edges input vs out Hl HF E v i j Hij (U i Hi) (U j Hj)).
  destruct H as (x & p & is & H0 & H1 & H2 & H3). exists x, p, is. split; auto. split; auto. split.
  - replace (bpow radix2 (s - 24)) with (2 * bpow radix2 (24 + s + 4 - 53)); [exact H2|]. change 2 with (bpow radix2 1). rewrite <- bpow_plus. f_equal. lia.
  - intros k Hk. exact (H3 k (U k Hk)).
Qed.
Print Assumptions C124_indexed_shared_end_points_f64.
(* when the keys are consistently ordered the bound is 2^(s - 25) *)
Theorem C124_consistent_keys_f64 : forall at2 inf ord fuel s QM RM (input : list (Line2 (F64 at2))), any_order ord -> grid_lines64 s input ->
  lawful_maps QM RM -> consistent (key_point (map arrange input)) ->
  forall r, tree_intersections inf QM RM ord fuel false false input = Val r ->
  forall v i j, i <> j -> line_ends_at (map segment64 input) i v -> line_ends_at (map segment64 input) j v ->
  exists p is, In (p, is) r /\ within (bpow radix2 (s - 25)) v (value64 p) /\ forall k, line_ends_at (map segment64 input) k v -> In k is.
Proof. intros at2 inf ord fuel s QM RM input Ho HG HM HC r. rewrite tree_same by auto. apply front_shared_end_points_f64 with (s := s); auto. Qed.
Print Assumptions C124_consistent_keys_f64.
(* C125, f64: with end points ignored. When no interior point of one line lies on another line (in exact arithmetic) the keys are
   consistent, and the finder ends with the empty result, whatever the map *)
Definition apart64 {at2} (input : list (Line2 (F64 at2))) : Prop := forall i j p, i <> j -> line_has (map segment64 input) i p -> line_has (map segment64 input) j p -> line_ends_at (map segment64 input) i p.
Lemma apart_quiet64 at2 (input : list (Line2 (F64 at2))) : apart64 input -> quiet 53 1024 (-52) at2 input.
Proof.
  intros H i j l l' x Hij Hl Hl' Ox Ox'. pose proof (map_nth_error segment64 i input Hl) as Ml. pose proof (map_nth_error segment64 j input Hl') as Ml'.
  destruct (H i j x Hij) as (m & Hm & He); [exists (segment64 l); split; auto|exists (segment64 l'); split; auto|].
  rewrite Ml in Hm. injection Hm as <-. exact He.
Qed.
Theorem C125_apart_keys_f64 : forall at2 s (input : list (Line2 (F64 at2))), grid_lines64 s input -> apart64 input ->
  consistent (key_point (map arrange input)) /\ consistent (key_point input).
Proof.
  intros at2 s input HG HA. destruct (grid_lines_ok64 at2 s input HG) as [->|[Hs HF]].
  - split; apply check_consistent; reflexivity.
  - apply (quiet_consistent 53 1024 (-52) at2 P53 M53 s 24 (isect_ok64 s Hs)); auto. apply apart_quiet64; auto.
Qed.
Print Assumptions C125_apart_keys_f64.
Theorem C125_apart_reports_nothing_f64 : forall at2 inf ord stop s QM RM (input : list (Line2 (F64 at2))), any_order ord -> grid_lines64 s input ->
  lawful_maps QM RM -> apart64 input ->
  exists bound, forall fuel, (bound <= fuel)%nat -> tree_intersections inf QM RM ord fuel stop true input = Val [].
Proof.
  intros at2 inf ord stop s QM RM input Ho HG HM HA. destruct (front_terminates_f64 at2 inf ord stop true input) as (bound & Hb).
  exists bound. intros fuel Hf. specialize (Hb fuel Hf). rewrite tree_same by first [exact HM|exact (proj1 (C125_apart_keys_f64 _ _ _ HG HA))]. destruct (grid_lines_ok64 at2 s input HG) as [->|[Hs HF]].
  - destruct fuel; reflexivity.
  - pose proof (plain_quiet 53 1024 (-52) at2 P53 M53 s 24 (isect_ok64 s Hs) inf ord fuel stop input HF Ho (apart_quiet64 at2 input HA)) as H.
    change (intersections (S := FloatS 53 1024 (-52) at2) inf ord fuel stop true input <> NoFuel) in Hb. change (intersections (S := FloatS 53 1024 (-52) at2) inf ord fuel stop true input = Val []).
    destruct (intersections (S := FloatS 53 1024 (-52) at2) inf ord fuel stop true input) as [r|e| |]; [rewrite H; reflexivity|destruct H|destruct H|destruct Hb; auto].
Qed.
Print Assumptions C125_apart_reports_nothing_f64.
(* hence a report means that an interior point of one line lies on another one *)
Theorem C125_ignore_ends_f64 : forall at2 inf ord fuel stop s QM RM (input : list (Line2 (F64 at2))), any_order ord -> grid_lines64 s input -> lawful_maps QM RM ->
  forall r, tree_intersections inf QM RM ord fuel stop true input = Val r -> r <> [] ->
  exists i j p, i <> j /\ line_has (map segment64 input) i p /\ line_has (map segment64 input) j p /\ ~ line_ends_at (map segment64 input) i p.
Proof.
  intros at2 inf ord fuel stop s QM RM input Ho HG HM r E Hr. apply NNPP. intros N.
  assert (HA : apart64 input) by (intros i j p Hij Hi Hj; apply NNPP; intros Ne; apply N; exists i, j, p; auto).
  rewrite tree_same in E by first [exact HM|exact (proj1 (C125_apart_keys_f64 _ _ _ HG HA))].
  apply N. exact (front_ignore_ends_f64 at2 inf ord fuel stop s input Ho HG r E Hr).
Qed.
Print Assumptions C125_ignore_ends_f64.
(* long line strings: a positive answer is right, and a line string whose edges meet at common ends only gets a negative one *)
Theorem C125_long_self_intersection_f64 : forall at2 inf ord fuel s QM RM (l : list (V2 (F64 at2))), any_order ord -> (10 <= length l)%nat ->
  (-25 <= s)%Z -> Forall (grid64_to (2 ^ 24) s) l -> (forall i a b, edge_of l i a b -> value64 a <> value64 b) -> lawful_maps QM RM ->
  tree_self_intersecting inf QM RM ord fuel l = Val true ->
  exists i j a b c d p, i <> j /\ edge_of l i a b /\ edge_of l j c d /\ on_segment p (value64 a) (value64 b) /\ on_segment p (value64 c) (value64 d) /\ p <> value64 a /\ p <> value64 b.
Proof.
  intros at2 inf ord fuel s QM RM l Ho H10 Hs HF Hne HM E. unfold tree_self_intersecting in E.
  destruct (Nat.leb_spec (length l) 2); [lia|]. destruct (Nat.ltb_spec (length l) 10); [lia|].
  destruct (tree_intersections inf QM RM ord fuel true true (window_iter l)) as [r|?| |] eqn:R; try discriminate. cbn [obind] in E.
  rewrite Forall_forall in HF.
  destruct (C125_ignore_ends_f64 at2 inf ord fuel true s QM RM (window_iter l) Ho) with (r := r) as (i & j & p & Hij & (e & He & Oe) & (g & Hg & Og) & Ne); auto.
  - split; auto. intros e He. apply In_nth_error in He as (i & He). apply window_nth in He. split; [apply HF; eapply nth_error_In; apply He|].
    split; [apply HF; eapply nth_error_In; apply He|]. eapply Hne; eauto.
  - intros ->. discriminate E.
  - rewrite nth_error_map in He, Hg. destruct (nth_error (window_iter l) i) as [e'|] eqn:Ei; [|discriminate]. destruct (nth_error (window_iter l) j) as [g'|] eqn:Ej; [|discriminate].
    injection He as <-. injection Hg as <-. exists i, j, (lstart e'), (lend e'), (lstart g'), (lend g'), p.
    split; auto. split; [apply window_nth; auto|]. split; [apply window_nth; auto|]. split; [exact Oe|]. split; [exact Og|].
    split; intros ->; apply Ne; exists (segment64 e'); (split; [apply map_nth_error; exact Ei|]); [left|right]; reflexivity.
Qed.
Print Assumptions C125_long_self_intersection_f64.
Theorem C125_long_simple_f64 : forall at2 inf ord s QM RM (l : list (V2 (F64 at2))), any_order ord -> (10 <= length l)%nat ->
  (-25 <= s)%Z -> Forall (grid64_to (2 ^ 24) s) l -> (forall i a b, edge_of l i a b -> value64 a <> value64 b) -> lawful_maps QM RM ->
  (forall i j a b c d p, i <> j -> edge_of l i a b -> edge_of l j c d -> on_segment p (value64 a) (value64 b) -> on_segment p (value64 c) (value64 d) -> p = value64 a \/ p = value64 b) ->
  exists bound, forall fuel, (bound <= fuel)%nat -> tree_self_intersecting inf QM RM ord fuel l = Val false.
Proof.
  intros at2 inf ord s QM RM l Ho H10 Hs HF Hne HM HA. rewrite Forall_forall in HF.
  destruct (C125_apart_reports_nothing_f64 at2 inf ord true s QM RM (window_iter l) Ho) as (bound & Hb); auto.
  - split; auto. intros e He. apply In_nth_error in He as (i & He). apply window_nth in He. split; [apply HF; eapply nth_error_In; apply He|].
    split; [apply HF; eapply nth_error_In; apply He|]. eapply Hne; eauto.
  - intros i j p Hij (e & He & Oe) (g & Hg & Og). rewrite nth_error_map in He, Hg. destruct (nth_error (window_iter l) i) as [e'|] eqn:Ei; [|discriminate]. destruct (nth_error (window_iter l) j) as [g'|] eqn:Ej; [|discriminate].
    injection He as <-. injection Hg as <-. exists (segment64 e'). split; [apply map_nth_error; exact Ei|].
    apply window_nth in Ei, Ej. exact (HA i j _ _ _ _ p Hij Ei Ej Oe Og).
  - exists bound. intros fuel Hf. unfold tree_self_intersecting. destruct (Nat.leb_spec (length l) 2); [lia|]. destruct (Nat.ltb_spec (length l) 10); [lia|]. rewrite (Hb fuel Hf). reflexivity.
Qed.
Print Assumptions C125_long_simple_f64.

Lemma any_reports_f32 : forall at2 inf ord fuel stop ign s QM RM (input : list (Line2 (F32 at2))), any_order ord -> grid_lines32 s input -> lawful_maps QM RM ->
  forall r, tree_intersections inf QM RM ord fuel stop ign input = Val r -> forall p is, In (p, is) r ->
    (is = [] \/ exists i j, i <> j /\ In i is /\ In j is) /\
    forall i, In i is -> exists l q, nth_error input i = Some l /\ on_segment q (value32 (lstart l)) (value32 (lend l)) /\ within (bpow radix2 (s - 8)) (value32 p) q.
Proof.
  intros at2 inf ord fuel stop ign s QM RM input Ho HG HM r E p is Hin. destruct (grid_lines_ok32 at2 s input HG) as [->|[Hs HF]].
  { assert (N : intersections inf ord fuel stop ign ([] : list (Line2 (F32 at2))) = Val []) by (destruct fuel; reflexivity).
    rewrite tree_same in E by (auto; apply check_consistent; reflexivity). rewrite N in E. injection E as <-. destruct Hin. }
  destruct HM as [(okq & HQ) (okr & HR)].
  pose proof (tree_grid 24 128 (-23) at2 P24 M24 s 10 (isect_ok32 s Hs)) as H.
  do 3 (specialize (H ltac:(unfold SpecFloat.emin; lia))). specialize (H inf ign stop ord Ho QM RM okq okr HQ HR fuel input HF).
  change (tree_intersections (S := FloatS 24 128 (-23) at2) inf QM RM ord fuel stop ign input = Val r) in E. rewrite E in H.
  destruct (H p is Hin) as [H2 Hall]. split; [destruct H2 as [H2|(i & j & Hij)]; [auto|right; exists i, j; tauto]|].
  intros k Hk. destruct (Hall k Hk) as (l & q & E1 & E2 & E3). exists l, q. split; auto. split; auto.
  replace (bpow radix2 (s - 8)) with (4 * bpow radix2 (10 + s + 4 - 24)); [exact E3|]. change 4 with (bpow radix2 2). rewrite <- bpow_plus. f_equal. lia.
Qed.
Lemma any_indexed_reports_f32 : forall at2 inf ord fuel stop ign s QM RM vertices edges (input : list (Line2 (F32 at2))), any_order ord ->
  lines_of vertices edges input -> grid_lines32 s input -> input <> [] -> lawful_indexed_maps QM RM ->
  forall vs out, tree_indexed_intersections inf QM RM ord fuel stop ign vertices edges = Val (vs, out) -> forall x is, In (x, is) out ->
    exists p, nth_error vs x = Some p /\ (is = [] \/ exists i j, i <> j /\ In i is /\ In j is) /\
    forall i, In i is -> exists l q, nth_error input i = Some l /\ on_segment q (value32 (lstart l)) (value32 (lend l)) /\ within (bpow radix2 (s - 8)) (value32 p) q.
Proof.
  intros at2 inf ord fuel stop ign s QM RM vertices edges input Ho Hl HG Hne HM vs out E x is Hin. destruct (grid_lines_ok32 at2 s input HG) as [->|[Hs HF]]; [destruct Hne; auto|].
  destruct HM as [(okq & HQ) (okr & HR)].
  pose proof (tree_indexed_grid 24 128 (-23) at2 P24 M24 s 10 (isect_ok32 s Hs)) as H.
  do 3 (specialize (H ltac:(unfold SpecFloat.emin; lia))). specialize (H inf ign stop ord Ho QM RM okq okr HQ HR fuel vertices edges input Hl HF).
  change (tree_indexed_intersections (S := FloatS 24 128 (-23) at2) inf QM RM ord fuel stop ign vertices edges = Val (vs, out)) in E. rewrite E in H.
  destruct H as (_ & H). destruct (H x is Hin) as (p & Ep & H2 & Hall). exists p. split; auto. split; [destruct H2 as [H2|(i & j & Hij)]; [auto|right; exists i, j; tauto]|].
  intros k Hk. destruct (Hall k Hk) as (l & q & E1 & E2 & E3). exists l, q. split; auto. split; auto.
  replace (bpow radix2 (s - 8)) with (4 * bpow radix2 (10 + s + 4 - 24)); [exact E3|]. change 4 with (bpow radix2 2). rewrite <- bpow_plus. f_equal. lia.
Qed.
(* C123, f32: every reported point is within 2^(s - 8) of every line listed with it, whatever the map *)
Theorem C123_reports_are_real_f32 : forall at2 inf ord fuel stop ign s QM RM (input : list (Line2 (F32 at2))), any_order ord -> grid_lines32 s input -> lawful_maps QM RM ->
  forall r, tree_intersections inf QM RM ord fuel stop ign input = Val r -> forall p is, In (p, is) r ->
    forall i, In i is -> exists l q, nth_error input i = Some l /\ on_segment q (value32 (lstart l)) (value32 (lend l)) /\ within (bpow radix2 (s - 8)) (value32 p) q.
Proof. intros at2 inf ord fuel stop ign s QM RM input Ho HG HM r E p is Hin. apply (any_reports_f32 at2 inf ord fuel stop ign s QM RM input Ho HG HM r E p is Hin). Qed.
Print Assumptions C123_reports_are_real_f32.
Theorem C123_indexed_reports_are_real_f32 : forall at2 inf ord fuel stop ign s QM RM vertices edges (input : list (Line2 (F32 at2))), any_order ord ->
  lines_of vertices edges input -> grid_lines32 s input -> input <> [] -> lawful_indexed_maps QM RM ->
  forall vs out, tree_indexed_intersections inf QM RM ord fuel stop ign vertices edges = Val (vs, out) -> forall x is, In (x, is) out ->
    exists p, nth_error vs x = Some p /\
    forall i, In i is -> exists l q, nth_error input i = Some l /\ on_segment q (value32 (lstart l)) (value32 (lend l)) /\ within (bpow radix2 (s - 8)) (value32 p) q.
Proof.
  intros at2 inf ord fuel stop ign s QM RM vertices edges input Ho Hl HG Hne HM vs out E x is Hin.
  destruct (any_indexed_reports_f32 at2 inf ord fuel stop ign s QM RM vertices edges input Ho Hl HG Hne HM vs out E x is Hin) as (p & Ep & _ & H). exists p. auto.
Qed.
Print Assumptions C123_indexed_reports_are_real_f32.
(* C124, f32: a value that is an end of two lines is reported, up to 2^(s - 9), with all the lines that end there, whatever
   the map *)
Theorem C124_shared_end_points_f32 : forall at2 inf ord fuel s QM RM (input : list (Line2 (F32 at2))), any_order ord -> grid_lines32 s input -> lawful_maps QM RM ->
  forall r, tree_intersections inf QM RM ord fuel false false input = Val r ->
  forall v i j, i <> j -> line_ends_at (map segment32 input) i v -> line_ends_at (map segment32 input) j v ->
  exists p is, In (p, is) r /\ within (bpow radix2 (s - 9)) v (value32 p) /\ forall k, line_ends_at (map segment32 input) k v -> In k is.
Proof.
  intros at2 inf ord fuel s QM RM input Ho HG HM r E v i j Hij Hi Hj.
  assert (U : forall k, line_ends_at (map segment32 input) k v -> ends_at 24 128 (-23) at2 input k v).
  { intros k (m & Hm & He). rewrite nth_error_map in Hm. destruct (nth_error input k) as [l|] eqn:El; [|discriminate]. injection Hm as <-. exists l. split; [exact El|exact He]. }
  destruct (grid_lines_ok32 at2 s input HG) as [->|[Hs HF]].
  { destruct (U i Hi) as (l & H & _). destruct i; discriminate. }
  destruct HM as [(okq & HQ) (okr & HR)].
  pose proof (tree_grid_ends 24 128 (-23) at2 P24 M24 s 10 (isect_ok32 s Hs)) as H.
  do 3 (specialize (H ltac:(unfold SpecFloat.emin; lia))). specialize (H inf ord Ho QM RM okq okr HQ HR fuel input r HF E v i j Hij (U i Hi) (U j Hj)).
  destruct H as (p & is & H1 & H2 & H3). exists p, is. split; auto. split.
  - replace (bpow radix2 (s - 9)) with (2 * bpow radix2 (10 + s + 4 - 24)); [exact H2|]. change 2 with (bpow radix2 1). rewrite <- bpow_plus. f_equal. lia.
  - intros k Hk. exact (H3 k (U k Hk)).
Qed.
Print Assumptions C124_shared_end_points_f32.
Theorem C124_indexed_shared_end_points_f32 : forall at2 inf ord fuel s QM RM vertices edges (input : list (Line2 (F32 at2))), any_order ord ->
  lines_of vertices edges input -> grid_lines32 s input -> lawful_indexed_maps QM RM ->
  forall vs out, tree_indexed_intersections inf QM RM ord fuel false false vertices edges = Val (vs, out) ->
  forall v i j, i <> j -> line_ends_at (map segment32 input) i v -> line_ends_at (map segment32 input) j v ->
  exists x p is, In (x, is) out /\ nth_error vs x = Some p /\ within (bpow radix2 (s - 9)) v (value32 p) /\ forall k, line_ends_at (map segment32 input) k v -> In k is.
Proof.
  intros at2 inf ord fuel s QM RM vertices edges input Ho Hl HG HM vs out E v i j Hij Hi Hj.
  assert (U : forall k, line_ends_at (map segment32 input) k v -> ends_at 24 128 (-23) at2 input k v).
  { intros k (m & Hm & He). rewrite nth_error_map in Hm. destruct (nth_error input k) as [l|] eqn:El; [|discriminate]. injection Hm as <-. exists l. split; [exact El|exact He]. }
  destruct (grid_lines_ok32 at2 s input HG) as [->|[Hs HF]].
  { destruct (U i Hi) as (l & H & _). destruct i; discriminate. }
  destruct HM as [(okq & HQ) (okr & HR)].
  pose proof (tree_indexed_grid_ends 24 128 (-23) at2 P24 M24 s 10 (isect_ok32 s Hs)) as H.
  do 3 (specialize (H ltac:(unfold SpecFloat.emin; lia))). specialize (H inf ord Ho QM RM okq okr HQ HR fuel vertices edges input vs out Hl HF E v i j Hij (U i Hi) (U j Hj)).
  destruct H as (x & p & is & H0 & H1 & H2 & H3). exists x, p, is. split; auto. split; auto. split.
  - replace (bpow radix2 (s - 9)) with (2 * bpow radix2 (10 + s + 4 - 24)); [exact H2|]. change 2 with (bpow radix2 1). rewrite <- bpow_plus. f_equal. lia.
  - intros k Hk. exact (H3 k (U k Hk)).
Qed.
Print Assumptions C124_indexed_shared_end_points_f32.
(* when the keys are consistently ordered the bound is 2^(s - 10) *)
Theorem C124_consistent_keys_f32 : forall at2 inf ord fuel s QM RM (input : list (Line2 (F32 at2))), any_order ord -> grid_lines32 s input ->
  lawful_maps QM RM -> consistent (key_point (map arrange input)) ->
  forall r, tree_intersections inf QM RM ord fuel false false input = Val r ->
  forall v i j, i <> j -> line_ends_at (map segment32 input) i v -> line_ends_at (map segment32 input) j v ->
  exists p is, In (p, is) r /\ within (bpow radix2 (s - 10)) v (value32 p) /\ forall k, line_ends_at (map segment32 input) k v -> In k is.
Proof. intros at2 inf ord fuel s QM RM input Ho HG HM HC r. rewrite tree_same by auto. apply front_shared_end_points_f32 with (s := s); auto. Qed.
Print Assumptions C124_consistent_keys_f32.
(* C125, f32: with end points ignored. When no interior point of one line lies on another line (in exact arithmetic) the keys are
   consistent, and the finder ends with the empty result, whatever the map *)
Definition apart32 {at2} (input : list (Line2 (F32 at2))) : Prop := forall i j p, i <> j -> line_has (map segment32 input) i p -> line_has (map segment32 input) j p -> line_ends_at (map segment32 input) i p.
Lemma apart_quiet32 at2 (input : list (Line2 (F32 at2))) : apart32 input -> quiet 24 128 (-23) at2 input.
Proof.
  intros H i j l l' x Hij Hl Hl' Ox Ox'. pose proof (map_nth_error segment32 i input Hl) as Ml. pose proof (map_nth_error segment32 j input Hl') as Ml'.
  destruct (H i j x Hij) as (m & Hm & He); [exists (segment32 l); split; auto|exists (segment32 l'); split; auto|].
  rewrite Ml in Hm. injection Hm as <-. exact He.
Qed.
Theorem C125_apart_keys_f32 : forall at2 s (input : list (Line2 (F32 at2))), grid_lines32 s input -> apart32 input ->
  consistent (key_point (map arrange input)) /\ consistent (key_point input).
Proof.
  intros at2 s input HG HA. destruct (grid_lines_ok32 at2 s input HG) as [->|[Hs HF]].
  - split; apply check_consistent; reflexivity.
  - apply (quiet_consistent 24 128 (-23) at2 P24 M24 s 10 (isect_ok32 s Hs)); auto. apply apart_quiet32; auto.
Qed.
Print Assumptions C125_apart_keys_f32.
Theorem C125_apart_reports_nothing_f32 : forall at2 inf ord stop s QM RM (input : list (Line2 (F32 at2))), any_order ord -> grid_lines32 s input ->
  lawful_maps QM RM -> apart32 input ->
  exists bound, forall fuel, (bound <= fuel)%nat -> tree_intersections inf QM RM ord fuel stop true input = Val [].
Proof.
  intros at2 inf ord stop s QM RM input Ho HG HM HA. destruct (front_terminates_f32 at2 inf ord stop true input) as (bound & Hb).
  exists bound. intros fuel Hf. specialize (Hb fuel Hf). rewrite tree_same by first [exact HM|exact (proj1 (C125_apart_keys_f32 _ _ _ HG HA))]. destruct (grid_lines_ok32 at2 s input HG) as [->|[Hs HF]].
  - destruct fuel; reflexivity.
  - pose proof (plain_quiet 24 128 (-23) at2 P24 M24 s 10 (isect_ok32 s Hs) inf ord fuel stop input HF Ho (apart_quiet32 at2 input HA)) as H.
    change (intersections (S := FloatS 24 128 (-23) at2) inf ord fuel stop true input <> NoFuel) in Hb. change (intersections (S := FloatS 24 128 (-23) at2) inf ord fuel stop true input = Val []).
    destruct (intersections (S := FloatS 24 128 (-23) at2) inf ord fuel stop true input) as [r|e| |]; [rewrite H; reflexivity|destruct H|destruct H|destruct Hb; auto].
Qed.
Print Assumptions C125_apart_reports_nothing_f32.
(* hence a report means that an interior point of one line lies on another one *)
Theorem C125_ignore_ends_f32 : forall at2 inf ord fuel stop s QM RM (input : list (Line2 (F32 at2))), any_order ord -> grid_lines32 s input -> lawful_maps QM RM ->
  forall r, tree_intersections inf QM RM ord fuel stop true input = Val r -> r <> [] ->
  exists i j p, i <> j /\ line_has (map segment32 input) i p /\ line_has (map segment32 input) j p /\ ~ line_ends_at (map segment32 input) i p.
Proof.
  intros at2 inf ord fuel stop s QM RM input Ho HG HM r E Hr. apply NNPP. intros N.
  assert (HA : apart32 input) by (intros i j p Hij Hi Hj; apply NNPP; intros Ne; apply N; exists i, j, p; auto).
  rewrite tree_same in E by first [exact HM|exact (proj1 (C125_apart_keys_f32 _ _ _ HG HA))].
  apply N. exact (front_ignore_ends_f32 at2 inf ord fuel stop s input Ho HG r E Hr).
Qed.
Print Assumptions C125_ignore_ends_f32.
(* long line strings: a positive answer is right, and a line string whose edges meet at common ends only gets a negative one *)
Theorem C125_long_self_intersection_f32 : forall at2 inf ord fuel s QM RM (l : list (V2 (F32 at2))), any_order ord -> (10 <= length l)%nat ->
  (-11 <= s)%Z -> Forall (grid32_to (2 ^ 10) s) l -> (forall i a b, edge_of l i a b -> value32 a <> value32 b) -> lawful_maps QM RM ->
  tree_self_intersecting inf QM RM ord fuel l = Val true ->
  exists i j a b c d p, i <> j /\ edge_of l i a b /\ edge_of l j c d /\ on_segment p (value32 a) (value32 b) /\ on_segment p (value32 c) (value32 d) /\ p <> value32 a /\ p <> value32 b.
Proof.
  intros at2 inf ord fuel s QM RM l Ho H10 Hs HF Hne HM E. unfold tree_self_intersecting in E.
  destruct (Nat.leb_spec (length l) 2); [lia|]. destruct (Nat.ltb_spec (length l) 10); [lia|].
  destruct (tree_intersections inf QM RM ord fuel true true (window_iter l)) as [r|?| |] eqn:R; try discriminate. cbn [obind] in E.
  rewrite Forall_forall in HF.
  destruct (C125_ignore_ends_f32 at2 inf ord fuel true s QM RM (window_iter l) Ho) with (r := r) as (i & j & p & Hij & (e & He & Oe) & (g & Hg & Og) & Ne); auto.
  - split; auto. intros e He. apply In_nth_error in He as (i & He). apply window_nth in He. split; [apply HF; eapply nth_error_In; apply He|].
    split; [apply HF; eapply nth_error_In; apply He|]. eapply Hne; eauto.
  - intros ->. discriminate E.
  - rewrite nth_error_map in He, Hg. destruct (nth_error (window_iter l) i) as [e'|] eqn:Ei; [|discriminate]. destruct (nth_error (window_iter l) j) as [g'|] eqn:Ej; [|discriminate].
    injection He as <-. injection Hg as <-. exists i, j, (lstart e'), (lend e'), (lstart g'), (lend g'), p.
    split; auto. split; [apply window_nth; auto|]. split; [apply window_nth; auto|]. split; [exact Oe|]. split; [exact Og|].
    split; intros ->; apply Ne; exists (segment32 e'); (split; [apply map_nth_error; exact Ei|]); [left|right]; reflexivity.
Qed.
Print Assumptions C125_long_self_intersection_f32.
Theorem C125_long_simple_f32 : forall at2 inf ord s QM RM (l : list (V2 (F32 at2))), any_order ord -> (10 <= length l)%nat ->
  (-11 <= s)%Z -> Forall (grid32_to (2 ^ 10) s) l -> (forall i a b, edge_of l i a b -> value32 a <> value32 b) -> lawful_maps QM RM ->
  (forall i j a b c d p, i <> j -> edge_of l i a b -> edge_of l j c d -> on_segment p (value32 a) (value32 b) -> on_segment p (value32 c) (value32 d) -> p = value32 a \/ p = value32 b) ->
  exists bound, forall fuel, (bound <= fuel)%nat -> tree_self_intersecting inf QM RM ord fuel l = Val false.
Proof.
  intros at2 inf ord s QM RM l Ho H10 Hs HF Hne HM HA. rewrite Forall_forall in HF.
  destruct (C125_apart_reports_nothing_f32 at2 inf ord true s QM RM (window_iter l) Ho) as (bound & Hb); auto.
  - split; auto. intros e He. apply In_nth_error in He as (i & He). apply window_nth in He. split; [apply HF; eapply nth_error_In; apply He|].
    split; [apply HF; eapply nth_error_In; apply He|]. eapply Hne; eauto.
  - intros i j p Hij (e & He & Oe) (g & Hg & Og). rewrite nth_error_map in He, Hg. destruct (nth_error (window_iter l) i) as [e'|] eqn:Ei; [|discriminate]. destruct (nth_error (window_iter l) j) as [g'|] eqn:Ej; [|discriminate].
    injection He as <-. injection Hg as <-. exists (segment32 e'). split; [apply map_nth_error; exact Ei|].
    apply window_nth in Ei, Ej. exact (HA i j _ _ _ _ p Hij Ei Ej Oe Og).
  - exists bound. intros fuel Hf. unfold tree_self_intersecting. destruct (Nat.leb_spec (length l) 2); [lia|]. destruct (Nat.ltb_spec (length l) 10); [lia|]. rewrite (Hb fuel Hf). reflexivity.
Qed.
Print Assumptions C125_long_simple_f32.

(* the examples' lines are on the grid, and the reports are not empty *)
Definition gline (a b c d : Z) : Line2 F64_ := @mkL F64_ (@I64 no_atan2 a b) (@I64 no_atan2 c d).
Example C123_hypotheses_met : grid_lines64 0 [gline 0 0 7 3; gline 0 0 5 5; gline 0 16777216 3 1; gline 5 5 9 (-2)] /\
  (match std_run 60 false false
    [@mkL F64_ (P 0 0) (P 7 3); @mkL F64_ (P 0 0) (P 5 5); @mkL F64_ (P 0 16777216) (P 3 1); @mkL F64_ (P 5 5) (P 9 (-2))]
 with Val r => length r = 5%nat | _ => False end).
Proof.
  assert (S0 : scale_ok 53 1024 0) by (split; cbn; lia).
  assert (G : forall x y, (Z.abs x <= 2 ^ 24)%Z -> (Z.abs y <= 2 ^ 24)%Z -> grid64_to (2 ^ 24) 0 (@I64 no_atan2 x y)).
  { intros x y Hx Hy. split; [lia|]. split; apply (ong_of_Z 53 1024 P53 M53); auto; lia. }
  split; [|vm_compute; reflexivity].
  split; [lia|]. intros l [<-|[<-|[<-|[<-|[]]]]]; cbn [gline lstart lend]; (split; [apply G; lia|]); (split; [apply G; lia|]); rewrite !V64 by lia; intros E; injection E; lra.
Qed.
(* a line string of ten points at the limit of the grid: the first and the last but one edge cross *)
Definition path10 : list (Z * Z) := [(1, 0); (0, 1); (2, 16777216); (5, 3); (6, 5); (4, 7); (1, 8); (2, 6); (3, 2); (7, 1)]%Z.
Example C125_hypotheses_met : forall l, l = map (fun z => @I64 no_atan2 (fst z) (snd z)) path10 ->
  Forall (grid64_to (2 ^ 24) 0) l /\ (forall i a b, edge_of l i a b -> value64 a <> value64 b) /\
  tree_self_intersecting (S := F64_) sinf (std_map F64_ SiteEvent) (std_map F64_ (list nat)) (fun _ l => l) 80 (map fpoint path10) = Val true.
Proof.
  assert (S0 : scale_ok 53 1024 0) by (split; cbn; lia).
  assert (G : forall x y, (Z.abs x <= 2 ^ 24)%Z -> (Z.abs y <= 2 ^ 24)%Z -> grid64_to (2 ^ 24) 0 (@I64 no_atan2 x y)).
  { intros x y Hx Hy. split; [lia|]. split; apply (ong_of_Z 53 1024 P53 M53); auto; lia. }
  intros l ->. unfold path10 at 1 2. cbn [map fst snd]. split; [repeat (apply Forall_cons; [apply G; lia|]); apply Forall_nil|].
  split; [|vm_compute; reflexivity].
  intros i a b [H1 H2]. do 9 (destruct i as [|i]; [cbn [nth_error Nat.add] in H1, H2; injection H1 as <-; injection H2 as <-; rewrite !V64 by lia; intros E; injection E; lra|]).
  exfalso. rewrite Nat.add_1_r in H2. cbn [nth_error] in H2. destruct i; discriminate H2.
Qed.
