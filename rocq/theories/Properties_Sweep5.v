(* The sweep-line finders in f64 and f32: how many lines a report lists (C127) and how often a point is reported (C128); with std's
   map, what goes wrong for lines with small integer coordinates (also for C120 and C121).
   Model: SweepTree.v, BTree.v (std's BTreeMap), Sweep.v, Geo2.v. Vocabulary: as in Properties_Sweep3.v; [in_order] (SweepMapEq.v): of two
   indexed reports the position of the first comes before that of the second in the order of the sweep ([key_cmp], model of
   SiteEventKey::partial_cmp); [vulps]: the crate's own comparison of points, ulps_eq. *)
From Coq Require Import ZArith Reals Lra Lia Psatz Bool Sorting.Sorted Floats.SpecFloat.
From Flocq Require Import Core BinarySingleNaN.
From Verif Require Import Prelude Scalar RInst Flt FloatSpec FloatGrid Geo2 GeoSpec IsectProofs Properties_Float Properties_Float2 Properties_Isect2 Properties_Point2
  Sweep SweepIdx SweepRun SweepSpec SweepFlt2 Properties_Sweep Properties_Sweep2 SweepTree BTree BTreeProofs SweepMapEq SweepCons SweepFront Properties_Sweep3.
Local Open Scope R_scope.

(* lines with integer ends *)
Definition int_lines (zs : list (Z * Z * Z * Z)) : list (Line2 F64_) := map (fun z => let '(a, b, c, d) := z in gline a b c d) zs.
Definition small_line (z : Z * Z * Z * Z) : bool := let '(a, b, c, d) := z in
  (Z.abs a <=? 2 ^ 24)%Z && (Z.abs b <=? 2 ^ 24)%Z && (Z.abs c <=? 2 ^ 24)%Z && (Z.abs d <=? 2 ^ 24)%Z && negb ((a =? c)%Z && (b =? d)%Z).
Lemma int_lines_grid zs : forallb small_line zs = true -> grid_lines64 0 (int_lines zs).
Proof.
  intros H. rewrite forallb_forall in H. split; [lia|]. intros l Hl. apply in_map_iff in Hl as ([[[a b] c] d] & <- & Hz). specialize (H _ Hz). cbn [small_line] in H.
  apply andb_true_iff in H as [H H5]. apply andb_true_iff in H as [H H4]. apply andb_true_iff in H as [H H3]. apply andb_true_iff in H as [H1 H2]. apply Z.leb_le in H1, H2, H3, H4.
  cbn [gline lstart lend]. split; [apply I64_to; auto|]. split; [apply I64_to; auto|]. rewrite !V64 by auto. intros E. injection E as E1 E2. apply eq_IZR in E1, E2. subst c d. rewrite !Z.eqb_refl in H5. discriminate H5.
Qed.
Ltac internal_at := match goal with |- ?x = Fail InternalError =>
  assert (B : match x with Fail InternalError => true | _ => false end = true) by (vm_compute; reflexivity);
  destruct x as [|[]| |]; try discriminate B; reflexivity end.

(* ==== C120, C121 with small integers: std's map panics, and the call returns InternalError ==== *)
Definition panic_ints : list (Z * Z * Z * Z) := [(1, -3, 1, 1); (7, -5, -2, 3); (2, -1, 2, 5); (-19, 5, 26, -5); (11, 7, -1, -3); (-12, -13, 15, 11); (-1, -8, 8, 7); (5, 3, 2, -5); (1, -3, 7, 2); (7, -5, 4, 3); (8, -5, -1, 19); (0, -3, 18, 7); (5, 2, 11, -3); (14, 19, -1, -21); (6, 3, 12, -5); (-13, 5, 23, -3); (-7, -5, 17, 3); (-15, -5, 30, 5)]%Z.
Definition internal_ints : list (Z * Z * Z * Z) := [(-14, -3, 4, 1); (2, 1, -1, -1); (4, -3, 1, 2); (-13, -3, 14, 3); (9, -1, 0, 1); (1, 1, 7, -1); (4, -5, 4, 19); (0, -1, 12, 3); (-2, 19, 13, -21); (7, -3, -2, 12)]%Z.
Theorem C120_integer_panic_refuted : exists zs, (forall a b c d, In (a, b, c, d) zs -> forall z, In z [a; b; c; d] -> (Z.abs z <= 30)%Z) /\
  grid_lines64 0 (int_lines zs) /\ std_run 2000 false false (int_lines zs) = Panic.
Proof.
  exists panic_ints. split; [|split; [apply int_lines_grid; reflexivity|panic_at]].
  intros a b c d Hz z Hin. assert (B : forallb (fun w => let '(a, b, c, d) := w in forallb (fun z => Z.abs z <=? 30)%Z [a; b; c; d]) panic_ints = true) by reflexivity.
  rewrite forallb_forall in B. specialize (B _ Hz). cbv beta iota in B. rewrite forallb_forall in B. apply Z.leb_le, B, Hin.
Qed.
Print Assumptions C120_integer_panic_refuted.
Theorem C121_integer_error_refuted : exists zs, (forall a b c d, In (a, b, c, d) zs -> forall z, In z [a; b; c; d] -> (Z.abs z <= 21)%Z) /\
  grid_lines64 0 (int_lines zs) /\ std_run 2000 false false (int_lines zs) = Fail InternalError.
Proof.
  exists internal_ints. split; [|split; [apply int_lines_grid; reflexivity|internal_at]].
  intros a b c d Hz z Hin. assert (B : forallb (fun w => let '(a, b, c, d) := w in forallb (fun z => Z.abs z <=? 21)%Z [a; b; c; d]) internal_ints = true) by reflexivity.
  rewrite forallb_forall in B. specialize (B _ Hz). cbv beta iota in B. rewrite forallb_forall in B. apply Z.leb_le, B, Hin.
Qed.
Print Assumptions C121_integer_error_refuted.

(* ==== C127: a report lists two different lines, on a grid ==== *)
(* f64: whatever the map, a report lists two different lines or none *)
Theorem C127_some_or_none_f64 : forall at2 inf ord fuel stop ign s QM RM (input : list (Line2 (F64 at2))), any_order ord -> grid_lines64 s input -> lawful_maps QM RM ->
  forall r, tree_intersections inf QM RM ord fuel stop ign input = Val r -> forall p is, In (p, is) r -> is <> [] -> exists i j, i <> j /\ In i is /\ In j is.
Proof. intros at2 inf ord fuel stop ign s QM RM input Ho HG HM r E p is Hin Hne. destruct (any_reports_f64 at2 inf ord fuel stop ign s QM RM input Ho HG HM r E p is Hin) as [[H|H] _]; [destruct (Hne H)|exact H]. Qed.
Print Assumptions C127_some_or_none_f64.
Theorem C127_indexed_some_or_none_f64 : forall at2 inf ord fuel stop ign s QM RM vertices edges (input : list (Line2 (F64 at2))), any_order ord ->
  lines_of vertices edges input -> grid_lines64 s input -> input <> [] -> lawful_indexed_maps QM RM ->
  forall vs out, tree_indexed_intersections inf QM RM ord fuel stop ign vertices edges = Val (vs, out) -> forall x is, In (x, is) out -> is <> [] -> exists i j, i <> j /\ In i is /\ In j is.
Proof.
  intros at2 inf ord fuel stop ign s QM RM vertices edges input Ho Hl HG Hne HM vs out E x is Hin Hn.
  destruct (any_indexed_reports_f64 at2 inf ord fuel stop ign s QM RM vertices edges input Ho Hl HG Hne HM vs out E x is Hin) as (p & _ & [H|H] & _); [destruct (Hn H)|exact H].
Qed.
Print Assumptions C127_indexed_some_or_none_f64.
(* with consistent keys it lists two *)
Theorem C127_two_lines_f64_partial : forall at2 inf ord fuel stop ign s QM RM (input : list (Line2 (F64 at2))), any_order ord -> grid_lines64 s input ->
  lawful_maps QM RM -> consistent (key_point (map arrange input)) ->
  forall r, tree_intersections inf QM RM ord fuel stop ign input = Val r -> forall p is, In (p, is) r -> exists i j, i <> j /\ In i is /\ In j is.
Proof. intros at2 inf ord fuel stop ign s QM RM input Ho HG HM HC r. rewrite tree_same by auto. intros E p is Hin. apply (front_reports_are_real_f64 at2 inf ord fuel stop ign s input Ho HG r E p is Hin). Qed.
Print Assumptions C127_two_lines_f64_partial.
Theorem C127_indexed_two_lines_f64_partial : forall at2 inf ord fuel stop ign s QM RM vertices edges (input : list (Line2 (F64 at2))), any_order ord ->
  lines_of vertices edges input -> grid_lines64 s input -> input <> [] -> lawful_indexed_maps QM RM -> consistent (key_point input) ->
  forall vs out, tree_indexed_intersections inf QM RM ord fuel stop ign vertices edges = Val (vs, out) -> forall x is, In (x, is) out -> exists i j, i <> j /\ In i is /\ In j is.
Proof.
  intros at2 inf ord fuel stop ign s QM RM vertices edges input Ho Hl HG Hne HM HC vs out. rewrite (tree_indexed_same inf QM RM) with (ls := input) by auto. intros E x is Hin.
  apply (front_indexed_reports_are_real_f64 at2 inf ord fuel stop ign s vertices edges input Ho Hl HG Hne vs out E x is Hin).
Qed.
Print Assumptions C127_indexed_two_lines_f64_partial.
(* f32: whatever the map, a report lists two different lines or none *)
Theorem C127_some_or_none_f32 : forall at2 inf ord fuel stop ign s QM RM (input : list (Line2 (F32 at2))), any_order ord -> grid_lines32 s input -> lawful_maps QM RM ->
  forall r, tree_intersections inf QM RM ord fuel stop ign input = Val r -> forall p is, In (p, is) r -> is <> [] -> exists i j, i <> j /\ In i is /\ In j is.
Proof. intros at2 inf ord fuel stop ign s QM RM input Ho HG HM r E p is Hin Hne. destruct (any_reports_f32 at2 inf ord fuel stop ign s QM RM input Ho HG HM r E p is Hin) as [[H|H] _]; [destruct (Hne H)|exact H]. Qed.
Print Assumptions C127_some_or_none_f32.
Theorem C127_indexed_some_or_none_f32 : forall at2 inf ord fuel stop ign s QM RM vertices edges (input : list (Line2 (F32 at2))), any_order ord ->
  lines_of vertices edges input -> grid_lines32 s input -> input <> [] -> lawful_indexed_maps QM RM ->
  forall vs out, tree_indexed_intersections inf QM RM ord fuel stop ign vertices edges = Val (vs, out) -> forall x is, In (x, is) out -> is <> [] -> exists i j, i <> j /\ In i is /\ In j is.
Proof.
  intros at2 inf ord fuel stop ign s QM RM vertices edges input Ho Hl HG Hne HM vs out E x is Hin Hn.
  destruct (any_indexed_reports_f32 at2 inf ord fuel stop ign s QM RM vertices edges input Ho Hl HG Hne HM vs out E x is Hin) as (p & _ & [H|H] & _); [destruct (Hn H)|exact H].
Qed.
Print Assumptions C127_indexed_some_or_none_f32.
(* with consistent keys it lists two *)
Theorem C127_two_lines_f32_partial : forall at2 inf ord fuel stop ign s QM RM (input : list (Line2 (F32 at2))), any_order ord -> grid_lines32 s input ->
  lawful_maps QM RM -> consistent (key_point (map arrange input)) ->
  forall r, tree_intersections inf QM RM ord fuel stop ign input = Val r -> forall p is, In (p, is) r -> exists i j, i <> j /\ In i is /\ In j is.
Proof. intros at2 inf ord fuel stop ign s QM RM input Ho HG HM HC r. rewrite tree_same by auto. intros E p is Hin. apply (front_reports_are_real_f32 at2 inf ord fuel stop ign s input Ho HG r E p is Hin). Qed.
Print Assumptions C127_two_lines_f32_partial.
Theorem C127_indexed_two_lines_f32_partial : forall at2 inf ord fuel stop ign s QM RM vertices edges (input : list (Line2 (F32 at2))), any_order ord ->
  lines_of vertices edges input -> grid_lines32 s input -> input <> [] -> lawful_indexed_maps QM RM -> consistent (key_point input) ->
  forall vs out, tree_indexed_intersections inf QM RM ord fuel stop ign vertices edges = Val (vs, out) -> forall x is, In (x, is) out -> exists i j, i <> j /\ In i is /\ In j is.
Proof.
  intros at2 inf ord fuel stop ign s QM RM vertices edges input Ho Hl HG Hne HM HC vs out. rewrite (tree_indexed_same inf QM RM) with (ls := input) by auto. intros E x is Hin.
  apply (front_indexed_reports_are_real_f32 at2 inf ord fuel stop ign s vertices edges input Ho Hl HG Hne vs out E x is Hin).
Qed.
Print Assumptions C127_indexed_two_lines_f32_partial.
(* std's map, integer coordinates of at most 36: a report with no line at all *)
Definition empty_ints : list (Z * Z * Z * Z) := [(-3, 7, 3, -3); (-10, 7, 26, -13); (-7, -13, 17, 19); (-12, -8, 6, 2); (8, 3, -1, -3); (9, -8, -3, 12); (5, -3, 5, 1); (10, -5, -2, 11); (-1, 19, 8, -5); (5, 3, 11, -5); (31, -13, -14, 12); (8, -3, 8, 1); (22, 12, -2, -8); (13, 3, 7, -1); (-5, 5, 13, -1); (26, -5, -4, 5); (4, -1, 22, 3); (35, -5, -1, 3); (11, -5, 11, 3); (36, -21, -9, 19); (5, 19, 14, -5); (34, 5, -2, -3); (20, 19, 11, -5); (14, -21, 14, 19); (22, 3, -2, -5); (13, -3, 16, 2); (30, -3, 12, 1); (22, -5, -5, 19); (24, 3, 6, -3)]%Z.
Theorem C127_no_line_refuted : exists zs r, grid_lines64 0 (int_lines zs) /\ std_run 2000 false false (int_lines zs) = Val r /\ exists p, In (p, []) r.
Proof.
  exists empty_ints.
  assert (B : match std_run 2000 false false (int_lines empty_ints) with Val r => existsb (fun x => match snd x with [] => true | _ => false end) r | _ => false end = true) by (vm_compute; reflexivity).
  pose proof (int_lines_grid empty_ints ltac:(reflexivity)) as G. revert G B. generalize (int_lines empty_ints). intros ls G B. destruct (std_run 2000 false false ls) as [r|?| |]; try discriminate B.
  exists r. split; [exact G|]. split; [reflexivity|]. apply existsb_exists in B as ([p [|i is]] & Hin & H); [|discriminate H]. exists p. exact Hin.
Qed.
Print Assumptions C127_no_line_refuted.

(* ==== C128: no point is reported twice ==== *)
Lemma before_differ {S : Scalar} (p q : V2 S) : key_cmp p q = Some Lt -> key_lt p q = true /\ vulps p q = false.
Proof.
  intros H. split; [unfold key_lt; rewrite H; reflexivity|]. unfold key_cmp in H. unfold vulps. destruct (sulps (vy p) (vy q)); [|apply andb_false_r]. destruct (sulps (vx p) (vx q)); [discriminate H|reflexivity].
Qed.
Lemma sorted_nth {A} (R : A -> A -> Prop) l : StronglySorted R l -> forall i j a b, (i < j)%nat -> nth_error l i = Some a -> nth_error l j = Some b -> R a b.
Proof.
  induction 1 as [|x l H IH F]; intros i j a b Hij Hi Hj; [destruct i; discriminate|]. destruct i as [|i], j as [|j]; try lia; cbn [nth_error] in Hi, Hj.
  - injection Hi as <-. rewrite Forall_forall in F. apply F. eapply nth_error_In; eauto.
  - apply (IH i j); auto. lia.
Qed.
(* f64, consistent keys: of two reports the position of the first comes before that of the second in sweep order; in particular
   the crate's own comparison of points tells them apart *)
Theorem C128_no_repetition_f64_partial : forall at2 inf ord fuel stop ign QM RM (input : list (Line2 (F64 at2))), lawful_maps QM RM -> consistent (key_point (map arrange input)) ->
  forall r, tree_intersections inf QM RM ord fuel stop ign input = Val r ->
  forall i j p q is js, (i < j)%nat -> nth_error r i = Some (p, is) -> nth_error r j = Some (q, js) -> key_lt p q = true /\ vulps p q = false.
Proof.
  intros at2 inf ord fuel stop ign QM RM input HM HC r E i j p q is js Hij Hi Hj. pose proof (tree_sorted inf QM RM ord fuel stop ign input r HM HC E) as H.
  pose proof (sorted_nth _ _ H i j _ _ Hij Hi Hj) as K. cbn [fst] in K. apply before_differ. exact K.
Qed.
Print Assumptions C128_no_repetition_f64_partial.
Theorem C128_indexed_no_repetition_f64_partial : forall at2 inf ord fuel stop ign QM RM vertices edges (input : list (Line2 (F64 at2))), lawful_indexed_maps QM RM ->
  lines_of vertices edges input -> consistent (key_point input) ->
  forall vs out, tree_indexed_intersections inf QM RM ord fuel stop ign vertices edges = Val (vs, out) ->
  forall i j x y is js, (i < j)%nat -> nth_error out i = Some (x, is) -> nth_error out j = Some (y, js) ->
  exists p q, nth_error vs x = Some p /\ nth_error vs y = Some q /\ key_lt p q = true /\ vulps p q = false.
Proof.
  intros at2 inf ord fuel stop ign QM RM vertices edges input HM Hl HC vs out E i j x y is js Hij Hi Hj. pose proof (tree_indexed_sorted inf QM RM ord fuel stop ign vertices edges input vs out HM Hl HC E) as H.
  destruct (sorted_nth _ _ H i j _ _ Hij Hi Hj) as (p & q & E1 & E2 & K). exists p, q. split; [exact E1|]. split; [exact E2|]. apply before_differ. exact K.
Qed.
Print Assumptions C128_indexed_no_repetition_f64_partial.
(* f32, consistent keys: of two reports the position of the first comes before that of the second in sweep order; in particular
   the crate's own comparison of points tells them apart *)
Theorem C128_no_repetition_f32_partial : forall at2 inf ord fuel stop ign QM RM (input : list (Line2 (F32 at2))), lawful_maps QM RM -> consistent (key_point (map arrange input)) ->
  forall r, tree_intersections inf QM RM ord fuel stop ign input = Val r ->
  forall i j p q is js, (i < j)%nat -> nth_error r i = Some (p, is) -> nth_error r j = Some (q, js) -> key_lt p q = true /\ vulps p q = false.
Proof.
  intros at2 inf ord fuel stop ign QM RM input HM HC r E i j p q is js Hij Hi Hj. pose proof (tree_sorted inf QM RM ord fuel stop ign input r HM HC E) as H.
  pose proof (sorted_nth _ _ H i j _ _ Hij Hi Hj) as K. cbn [fst] in K. apply before_differ. exact K.
Qed.
Print Assumptions C128_no_repetition_f32_partial.
Theorem C128_indexed_no_repetition_f32_partial : forall at2 inf ord fuel stop ign QM RM vertices edges (input : list (Line2 (F32 at2))), lawful_indexed_maps QM RM ->
  lines_of vertices edges input -> consistent (key_point input) ->
  forall vs out, tree_indexed_intersections inf QM RM ord fuel stop ign vertices edges = Val (vs, out) ->
  forall i j x y is js, (i < j)%nat -> nth_error out i = Some (x, is) -> nth_error out j = Some (y, js) ->
  exists p q, nth_error vs x = Some p /\ nth_error vs y = Some q /\ key_lt p q = true /\ vulps p q = false.
Proof.
  intros at2 inf ord fuel stop ign QM RM vertices edges input HM Hl HC vs out E i j x y is js Hij Hi Hj. pose proof (tree_indexed_sorted inf QM RM ord fuel stop ign vertices edges input vs out HM Hl HC E) as H.
  destruct (sorted_nth _ _ H i j _ _ Hij Hi Hj) as (p & q & E1 & E2 & K). exists p, q. split; [exact E1|]. split; [exact E2|]. apply before_differ. exact K.
Qed.
Print Assumptions C128_indexed_no_repetition_f32_partial.
(* std's map, five lines with integer coordinates of at most 43: the very same point is reported twice, with the very same lines *)
Definition twice_ints : list (Z * Z * Z * Z) := [(-6, 12, 9, -13); (0, 2, 3, -3); (-6, 3, 30, -5); (13, 2, 19, -8); (7, 3, 43, -5)]%Z.
Definition same_report (a b : V2 F64_ * list nat) : bool :=
  SFeqb (vx (fst a)) (vx (fst b)) && SFeqb (vy (fst a)) (vy (fst b)) && (if list_eq_dec Nat.eq_dec (snd a) (snd b) then true else false).
Theorem C128_repetition_refuted : exists zs r, grid_lines64 0 (int_lines zs) /\ std_run 2000 false false (int_lines zs) = Val r /\
  exists i j p q is, (i < j)%nat /\ nth_error r i = Some (p, is) /\ nth_error r j = Some (q, is) /\ is <> [] /\ veqb p q = true.
Proof.
  exists twice_ints.
  assert (B : match std_run 2000 false false (int_lines twice_ints) with Val r => match nth_error r 1, nth_error r 4 with Some a, Some b => same_report a b && negb (Nat.eqb (length (snd a)) 0) | _, _ => false end | _ => false end = true) by (vm_compute; reflexivity).
  pose proof (int_lines_grid twice_ints ltac:(reflexivity)) as G. revert G B. generalize (int_lines twice_ints). intros ls G B. destruct (std_run 2000 false false ls) as [r|?| |]; try discriminate B.
  exists r. split; [exact G|]. split; [reflexivity|]. exists 1%nat, 4%nat. destruct (nth_error r 1) as [[p is]|]; [|discriminate B]. destruct (nth_error r 4) as [[q js]|]; [|discriminate B].
  apply andb_true_iff in B as [B Hn]. unfold same_report in B. cbn [fst snd] in B, Hn. apply andb_true_iff in B as [B B3]. apply andb_true_iff in B as [B1 B2].
  destruct (list_eq_dec Nat.eq_dec is js) as [<-|]; [|discriminate B3]. exists p, q, is. split; [lia|]. split; [reflexivity|]. split; [reflexivity|]. split; [intros ->; discriminate Hn|].
  unfold veqb. apply andb_true_iff. split; assumption.
Qed.
Print Assumptions C128_repetition_refuted.
(* lines with consistent keys and several reports *)
Definition star_ints : list (Z * Z * Z * Z) := [(0, 0, 7, 3); (0, 0, 5, 5); (0, 16, 3, 1); (5, 5, 9, -2)]%Z.
Example C128_hypotheses_met : consistent (key_point (map arrange (int_lines star_ints))) /\ grid_lines64 0 (int_lines star_ints) /\
  match std_run 60 false false (int_lines star_ints) with Val r => length r = 5%nat | _ => False end.
Proof. split; [apply check_consistent; vm_compute; reflexivity|]. split; [apply int_lines_grid; reflexivity|vm_compute; reflexivity]. Qed.
