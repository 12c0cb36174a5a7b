(* More about the sweep-line finders: is_self_intersecting on long line strings (C37, C85), completeness of the indexed
   finder (C86), repeated with_lines (C87), degenerate lines (C88). Vocabulary: SweepSpec.v;
   [edge_of l i a b]: a and b are points i and i + 1 of l. [window_iter l] is the list of edges of l (C41). *)
From Coq Require Import QArith Qreals Reals Lra Psatz Permutation Sorting.Sorted Floats.SpecFloat.
From Verif Require Import Prelude Scalar RInst Flt Geo2 GeoSpec DistR IsectProofs Sweep SweepMap SweepProofs SweepCand SweepLoop SweepLoop2 SweepIdx SweepRun SweepPts SweepSpec SweepGeo SweepComplete SweepComplete2 SweepSpecLink QInst SweepHom Properties_Sweep.
Local Open Scope R_scope.

(* ---- is_self_intersecting for ten or more points ---- *)
Lemma long_run (S : Scalar) inf ord fuel (l : list (V2 S)) : (10 <= length l)%nat ->
  is_self_intersecting inf ord fuel l = let* r := intersections inf ord fuel true true (window_iter l) in Val (Nat.ltb 0 (length r)).
Proof.
  intros H. unfold is_self_intersecting. destruct (Nat.leb_spec (length l) 2); [lia|]. destruct (Nat.ltb_spec (length l) 10); [lia|].
  unfold intersections. change (with_stop_at_first_intersection (with_ignore_end_point_intersections default_data true) true)
    with (with_ignore_end_point_intersections (with_stop_at_first_intersection (@default_data S) true) true).
  destruct (with_lines _ (window_iter l)); reflexivity.
Qed.
Lemma window_nth {S : Scalar} (l : list (V2 S)) i e : nth_error (window_iter l) i = Some e <-> edge_of l i (lstart e) (lend e).
Proof.
  unfold window_iter. rewrite nth_error_map, <- windows_nth. destruct (nth_error (windows l) i) as [[a b]|]; cbn; split; try discriminate.
  - intros [= <-]. auto. - intros [= -> ->]. destruct e; auto.
Qed.
Lemma edge_has (l : list pt) i p : line_has (window_iter l) i p <-> exists a b, edge_of l i a b /\ on_segment p a b.
Proof.
  split.
  - intros (e & He & Ho). apply window_nth in He. eauto.
  - intros (a & b & He & Ho). exists (mkL a b). split; auto. apply window_nth. auto.
Qed.
Lemma edge_fun {A} (l : list A) i a b c d : edge_of l i a b -> edge_of l i c d -> a = c /\ b = d.
Proof. intros [H1 H2] [H3 H4]. split; congruence. Qed.

Theorem C85_long_terminates : forall inf ord (l : list pt), any_order ord -> (10 <= length l)%nat ->
  forall fuel, (length l * (length l + 2) <= fuel)%nat -> exists b, is_self_intersecting inf ord fuel l = Val b.
Proof.
  intros inf ord l Ho H10 fuel Hf. rewrite long_run by auto. destruct (C64_points_exist (window_iter l)) as (pts & P1 & P2 & P3).
  destruct (C64_terminates inf ord fuel true true (window_iter l) pts Ho P1 P2) as (r & E).
  - etransitivity; [exact P3|]. etransitivity; [|exact Hf]. unfold window_iter. rewrite map_length, windows_length. nia.
  - rewrite E. cbn. eauto.
Qed.
Print Assumptions C85_long_terminates.
(* a positive answer is right: some edge has an interior point that lies on another edge *)
Theorem C85_long_sound : forall inf ord fuel (l : list pt), any_order ord -> (10 <= length l)%nat ->
  is_self_intersecting inf ord fuel l = Val true ->
  exists i j a b c d p, i <> j /\ edge_of l i a b /\ edge_of l j c d /\ on_segment p a b /\ on_segment p c d /\ p <> a /\ p <> b.
Proof.
  intros inf ord fuel l Ho H10 E. rewrite long_run in E by auto.
  destruct (intersections inf ord fuel true true (window_iter l)) as [r|?| |] eqn:R; try discriminate. cbn [obind] in E.
  destruct r as [|[p is] r]; [discriminate|].
  destruct (C63_reports_are_real _ _ _ _ _ _ _ Ho R p is (or_introl eq_refl)) as (H1 & _ & _ & H4).
  destruct (H4 eq_refl) as (i & j & Hij & Hi & Hj & Hne). pose proof (H1 i Hi) as Hhi. pose proof (H1 j Hj) as Hhj.
  apply edge_has in Hhi as (a & b & Ea & Oa). apply edge_has in Hhj as (c & d & Ec & Oc).
  exists i, j, a, b, c, d, p. repeat (split; auto); intros ->; apply Hne; [exists (mkL a b)|exists (mkL a b)]; split; auto; apply window_nth; auto.
Qed.
Print Assumptions C85_long_sound.
(* under the conditions of C68_complete_partial the answer is exact *)
Theorem C85_long_exact_partial : forall inf ord fuel (l : list pt) b, any_order ord -> (10 <= length l)%nat ->
  no_horizontal (window_iter l) -> meet_once (window_iter l) -> no_start_inside (window_iter l) -> clear_right (window_iter l) ->
  is_self_intersecting inf ord fuel l = Val b ->
  (b = true <-> exists i j a b c d p, i <> j /\ edge_of l i a b /\ edge_of l j c d /\ on_segment p a b /\ on_segment p c d /\ p <> a /\ p <> b).
Proof.
  intros inf ord fuel l b Ho H10 Hh Hm Hs Hc E. split; [intros ->; eapply C85_long_sound; eauto|].
  intros (i & j & a & b' & c & d & p & Hij & Ea & Ec & Oa & Oc & Na & Nb).
  rewrite long_run in E by auto.
  destruct (intersections inf ord fuel true true (window_iter l)) as [r|?| |] eqn:R; try discriminate. cbn [obind] in E.
  destruct (event_points_exist (window_iter l)) as (pts & Hp & _).
  destruct (C64_terminates inf ord (fuel + length pts) false true (window_iter l) pts Ho (proj1 Hp) (proj2 Hp) ltac:(lia)) as (full & F).
  pose proof (C69_stop_at_first inf ord _ true (window_iter l) full Ho F) as F1.
  apply (intersections_mono (S := RS) inf ord fuel (fuel + length pts)) in R; [|lia|discriminate].
  assert (Er : r = firstn 1 full) by congruence.
  destruct (C68_complete_partial inf ord _ true (window_iter l) full Ho Hh Hm Hs Hc F) as [C1 _].
  destruct (proj2 (C1 p)) as (is & His).
  { assert (Hi : line_has (window_iter l) i p) by (apply edge_has; eauto). split.
    - exists i, j. split; auto. split; auto. apply edge_has; eauto.
    - intros _. exists i. split; auto. intros (e & He & Hend). apply window_nth in He. destruct (edge_fun _ _ _ _ _ _ Ea He); subst. tauto. }
  destruct full as [|x full]; [destruct His|]. subst r. cbn in E. congruence.
Qed.
Print Assumptions C85_long_exact_partial.

(* C37 for ten or more points: straight line strings are not self-intersecting, whatever their direction *)
Theorem C37_straight_long : forall inf ord fuel (a b : pt) (ts : list R) r,
  any_order ord -> a <> b -> StronglySorted Rlt ts -> (10 <= length ts)%nat ->
  is_self_intersecting inf ord fuel (map (lerp a b) ts) = Val r -> r = false.
Proof.
  intros inf ord fuel a b ts r Ho Hab Hs H10 E. destruct r; auto. exfalso.
  apply C85_long_sound in E as (i & j & p1 & p2 & q1 & q2 & p & Hij & [Ha Hb] & [Hc Hd] & Oa & Oc & Na & Nb); auto; [|rewrite map_length; auto].
  rewrite nth_error_map in Ha, Hb, Hc, Hd.
  destruct (nth_error ts i) as [t1|] eqn:E1; [|discriminate]. destruct (nth_error ts (i + 1)) as [t2|] eqn:E2; [|discriminate].
  destruct (nth_error ts j) as [u1|] eqn:E3; [|discriminate]. destruct (nth_error ts (j + 1)) as [u2|] eqn:E4; [|discriminate].
  injection Ha as <-. injection Hb as <-. injection Hc as <-. injection Hd as <-.
  assert (Srt : forall i j x y, (i < j)%nat -> nth_error ts i = Some x -> nth_error ts j = Some y -> x < y).
  { clear -Hs. intros i j x y. revert i j. induction Hs as [|t ts _ IH Hf]; intros [|i] [|j] Hlt Hi Hj; try lia; try discriminate.
    - cbn in *. injection Hi as <-. rewrite Forall_forall in Hf. apply Hf. eapply nth_error_In; eauto.
    - cbn in *. apply (IH i j); auto. lia. }
  destruct Oa as (t & Ht & Ep). destruct Oc as (u & Hu & Eq). rewrite Ep in Eq.
  assert (T12 : t1 < t2) by (apply (Srt i (i + 1)%nat); auto; lia). assert (U12 : u1 < u2) by (apply (Srt j (j + 1)%nat); auto; lia).
  assert (Hu' : u1 + u * (u2 - u1) = t1 + t * (t2 - t1)).
  { pose proof (f_equal vx Eq) as X. pose proof (f_equal vy Eq) as Y. unfold lerp in X, Y. cbn in X, Y.
    destruct (Req_dec (vx a) (vx b)) as [Zx|Zx].
    - assert (Zy : vy a <> vy b) by (intros Zy; apply Hab, V2_ext; auto). apply (Rmult_eq_reg_r (vy b - vy a)); [|intros K; apply Zy; req; lra]. cbn in *; lra.
    - apply (Rmult_eq_reg_r (vx b - vx a)); [|intros K; apply Zx; req; lra]. cbn in *; lra. }
  assert (N0 : t <> 0). { intros ->. apply Na. rewrite Ep. unfold lerp. apply V2_ext; cbn; ring. }
  assert (N1 : t <> 1). { intros ->. apply Nb. rewrite Ep. unfold lerp. apply V2_ext; cbn; ring. }
  assert (Lt1 : t1 < t1 + t * (t2 - t1)) by nra. assert (Lt2 : t1 + t * (t2 - t1) < t2) by nra.
  assert (Le1 : u1 <= u1 + u * (u2 - u1)) by nra. assert (Le2 : u1 + u * (u2 - u1) <= u2) by nra.
  destruct (Nat.lt_trichotomy i j) as [K|[K|K]]; [|contradiction|].
  - destruct (Nat.eq_dec (i + 1) j) as [<-|N]; [assert (t2 = u1) by congruence; lra|]. pose proof (Srt (i + 1)%nat j t2 u1 ltac:(lia) E2 E3). lra.
  - destruct (Nat.eq_dec (j + 1) i) as [<-|N]; [assert (u2 = t1) by congruence; lra|]. pose proof (Srt (j + 1)%nat i u2 t1 ltac:(lia) E4 E1). lra.
Qed.
Print Assumptions C37_straight_long.

(* ---- C85: missed, in exact arithmetic and in f64: the first point (2,2) lies inside the edge from (2,6) to (2,1) ---- *)
Definition zpath : list (Z * Z) := [(2, 2); (4, 3); (5, 3); (6, 4); (5, 6); (4, 7); (3, 8); (2, 6); (2, 1); (1, 0)]%Z.
Definition rpoint (z : Z * Z) : pt := @mkV2 RS (IZR (fst z)) (IZR (snd z)).
Definition fpoint (z : Z * Z) : V2 F64_ := P (fst z) (snd z).
Definition zedges (l : list (Z * Z)) : list (Z * Z * Z * Z) := map (fun w => (fst (fst w), snd (fst w), fst (snd w), snd (snd w))) (windows l).
Lemma zedges_R l : window_iter (map rpoint l) = map rline (zedges l).
Proof.
  unfold window_iter, zedges. rewrite map_map. induction l as [|a [|b l] IH]; auto. cbn [map windows] in *. rewrite IH. destruct a, b. reflexivity.
Qed.
Theorem C85_long_refuted : (10 <= length zpath)%nat /\
  (exists i j a b c d p, i <> j /\ edge_of (map rpoint zpath) i a b /\ edge_of (map rpoint zpath) j c d /\ on_segment p a b /\ on_segment p c d /\ p <> a /\ p <> b) /\
  is_self_intersecting (S := RS) 1000 (fun _ l => l) 60 (map rpoint zpath) = Val false /\
  is_self_intersecting (S := F64_) sinf (fun _ l => l) 60 (map fpoint zpath) = Val false.
Proof.
  split; [cbn; lia|]. split; [|split].
  - exists 7%nat, 0%nat, (rpoint (2, 6)%Z), (rpoint (2, 1)%Z), (rpoint (2, 2)%Z), (rpoint (4, 3)%Z), (rpoint (2, 2)%Z).
    split; [discriminate|]. split; [split; reflexivity|]. split; [split; reflexivity|]. split; [|split; [|split]].
    + exists (4 / 5). split; [lra|]. unfold lerp, rpoint; cbn. apply V2_ext; cbn; lra.
    + exists 0. split; [lra|]. unfold lerp, rpoint; cbn. apply V2_ext; cbn; lra.
    + unfold rpoint. cbn. intros E. injection E. lra.
    + unfold rpoint. cbn. intros E. injection E. lra.
  - rewrite long_run by (cbn; lia). rewrite zedges_R. change 1000 with (IZR 1000). rewrite run_Z by reflexivity.
    assert (E : intersections (S := QS) (inject_Z 1000) (fun _ l => l) 60 true true (map qline (zedges zpath)) = Val []) by (vm_compute; reflexivity).
    rewrite E. reflexivity.
  - vm_compute. reflexivity.
Qed.
Print Assumptions C85_long_refuted.
Example C85_run : is_self_intersecting (S := F64_) sinf (fun _ l => l) 60 (map fpoint [(1, 0); (0, 1); (2, 4); (5, 3); (6, 5); (4, 7); (1, 8); (2, 6); (3, 2); (7, 1)]%Z) = Val true.
Proof. vm_compute. reflexivity. Qed.

(* ---- C89: adding a point ---- *)
Theorem C89_append_refuted : exists (l : list pt) (p : pt),
  (exists r fuel, is_self_intersecting (S := RS) 1000 (fun _ l => l) fuel l = Val r /\ r = true) /\
  (exists r fuel, is_self_intersecting (S := RS) 1000 (fun _ l => l) fuel (l ++ [p]) = Val r /\ r = false).
Proof.
  set (ts := [0; 1; 2; 3; 4; 5; 6; 7; 8]). set (o := @mkV2 RS 0 0). set (d := @mkV2 RS 1 1).
  exists (map (lerp o d) ts), (lerp o d 9). split.
  - exists true, 0%nat. split; auto. unfold is_self_intersecting. rewrite map_length. cbn [length ts Nat.leb Nat.ltb]. f_equal.
    apply self_short_spec. exists 0%nat, 1%nat, (lerp o d 0), (lerp o d 1), (lerp o d 1), (lerp o d 2).
    split; [lia|]. split; [split; reflexivity|]. split; [split; reflexivity|].
    unfold self_pair. cbn [Nat.eqb Nat.add lstart lend].
    destruct (intersection_point3 _ _ _) eqn:E; auto.
    apply intersection_point3_R in E; unfold lerp, o, d; rsimp; try lra. destruct E. unfold lerp, o, d; rsimp. lra.
  - change [lerp o d 9] with (map (lerp o d) [9]). rewrite <- map_app.
    destruct (C85_long_terminates 1000 (fun _ l => l) (map (lerp o d) (ts ++ [9])) any_order_id) with (fuel := 120%nat) as (b & E); [cbn; lia|cbn; lia|].
    exists b, 120%nat. split; auto. apply (C37_straight_long 1000 (fun _ l => l) 120 o d (ts ++ [9])); auto.
    + apply any_order_id.
    + intros K. injection K. lra.
    + cbn. repeat (constructor; [|repeat (constructor; [lra|]); constructor]). constructor.
Qed.
Print Assumptions C89_append_refuted.
(* it does hold among long line strings, where the answer is right in the conditions of C85_long_exact_partial *)
Theorem C89_append_partial : forall inf ord fuel fuel' (l : list pt) p b, any_order ord -> (10 <= length l)%nat ->
  no_horizontal (window_iter (l ++ [p])) -> meet_once (window_iter (l ++ [p])) -> no_start_inside (window_iter (l ++ [p])) -> clear_right (window_iter (l ++ [p])) ->
  is_self_intersecting inf ord fuel l = Val true -> is_self_intersecting inf ord fuel' (l ++ [p]) = Val b -> b = true.
Proof.
  intros inf ord fuel fuel' l p b Ho H10 Hh Hm Hs Hc E E'.
  apply (C85_long_exact_partial inf ord fuel' (l ++ [p])); auto; [rewrite app_length; lia|].
  apply C85_long_sound in E as (i & j & p1 & p2 & q1 & q2 & r & Hij & [Ha Hb] & [Hc' Hd] & Z); auto.
  assert (A : forall k x, nth_error l k = Some x -> nth_error (l ++ [p]) k = Some x).
  { intros k x K. rewrite nth_error_app1; auto. apply nth_error_Some. congruence. }
  exists i, j, p1, p2, q1, q2, r. split; auto. split; [split; auto|]. split; [split; auto|]. auto.
Qed.

(* ---- C86 ---- *)
Lemma Forall2_In_r {A B} (R : A -> B -> Prop) l m b : Forall2 R l m -> In b m -> exists a, In a l /\ R a b.
Proof. intros H. induction H as [|x y l m Hxy H IH]; intros []; [subst; exists x; split; auto; left; auto|destruct (IH H0) as (a & ? & ?); exists a; split; auto; right; auto]. Qed.
Theorem C86_indexed_complete_partial : forall inf ord fuel ign (vertices : list pt) (edges : list (nat * nat)) (ls : list (Line2 RS)),
  any_order ord ->
  Forall2 (fun ab l => nth_error vertices (fst ab) = Some (lstart l) /\ nth_error vertices (snd ab) = Some (lend l)) edges ls ->
  no_horizontal ls -> meet_once ls -> no_start_inside ls -> clear_right ls ->
  (length ls * (length ls + 2) <= fuel)%nat ->
  exists vs out, indexed_intersections inf ord fuel false ign vertices edges = Val (vs, out) /\
    (forall p, (exists v is, In (v, is) out /\ nth_error vs v = Some p) <->
               meeting ls p /\ (ign = true -> exists i, line_has ls i p /\ ~ line_ends_at ls i p)) /\
    (forall v is p, In (v, is) out -> nth_error vs v = Some p -> forall i, In i is <-> line_has ls i p).
Proof.
  intros inf ord fuel ign vertices edges ls Ho Hl Hh Hm Hs Hc Hf. destruct (event_points_exist ls) as (pts & Hp & Hlen).
  destruct (run_indexed inf ord Ho J (J_step inf) J_start) with (pts := pts) (vertices := vertices) (edges := edges) (ls := ls) (ign := ign) (stop := false) (fuel := fuel)
    as (vs & out & pos & st & E & Hv & F2 & HI & HJ & [Hq|[? _]]); auto; try lia; try discriminate.
  { replace ls with (map (fun l : line => l) ls) by apply map_id. apply event_points_cands; auto. }
  exists vs, out. split; auto.
  assert (G : general (map (fun l : line => l) ls)) by (apply general_f; auto).
  assert (R : reports_exactly ls ign (st_result st)).
  { apply (complete_reports (fun l => l) ltac:(auto) ls ign pos); auto; rewrite map_id; auto. apply HJ. rewrite map_id in G. auto. }
  destruct R as [R1 R2]. split.
  - intros p. rewrite <- R1. split.
    + intros (v & is & Hin & Hn). destruct (Forall2_In_l _ _ _ _ F2 Hin) as ([k ls'] & Hk & K1 & K2). cbn [fst snd] in *. exists ls'.
      assert (k = p) by congruence. subst k. auto.
    + intros (is & Hin). destruct (Forall2_In_r _ _ _ _ F2 Hin) as ([v ls'] & Hk & K1 & K2). cbn [fst snd] in *. exists v, ls'. auto.
  - intros v is p Hin Hn i. destruct (Forall2_In_l _ _ _ _ F2 Hin) as ([k ls'] & Hk & K1 & K2). cbn [fst snd] in *.
    assert (k = p) by congruence. subst k ls'. apply R2; auto.
Qed.
Print Assumptions C86_indexed_complete_partial.
(* the second edge starts inside the first: nothing is reported *)
Theorem C86_indexed_refuted :
  match indexed_intersections (S := F64_) sinf (fun _ l => l) 30 false false [P 0 0; P 4 4; P 2 2; P 0 4] [(0, 1); (2, 3)]%nat with
  | Val (_, out) => out = []
  | _ => False
  end.
Proof.
  assert (K : match indexed_intersections (S := F64_) sinf (fun _ l => l) 30 false false [P 0 0; P 4 4; P 2 2; P 0 4] [(0, 1); (2, 3)]%nat with Val (_, o) => Nat.eqb (length o) 0 | _ => false end = true) by (vm_compute; reflexivity).
  destruct (indexed_intersections _ _ _ _ _ _ _) as [[vs [|x out]]|?| |]; auto; discriminate.
Qed.

(* ---- C87: adding lines in two calls ---- *)
Definition two_calls {S : Scalar} (inf : car S) ord fuel (a b : list (Line2 S)) : outcome (Result (S := S)) :=
  let* d := with_lines default_data a in let* d' := with_lines d b in compute inf ord fuel d'.
Theorem C87_two_calls_refuted : let a := map fline [(0, 0, 2, 2)]%Z in let b := map fline [(0, 2, 2, 0)]%Z in
  intersections (S := F64_) sinf (fun _ l => l) 30 false false (a ++ b) = Val [(P 1 1, [0; 1]%nat)] /\
  two_calls (S := F64_) sinf (fun _ l => l) 30 a b = Val [].
Proof. split; fsweep. Qed.
(* options can be given before or after the lines *)
Theorem C87_options_partial : forall (S : Scalar) inf ord fuel stop ign (input : list (Line2 S)),
  (let* d := with_lines default_data input in
   compute inf ord fuel (with_ignore_end_point_intersections (with_stop_at_first_intersection d stop) ign)) =
  intersections inf ord fuel stop ign input.
Proof.
  intros S inf ord fuel stop ign input. unfold intersections, with_lines. cbn [d_events d_lines d_stop d_ign default_data with_ignore_end_point_intersections with_stop_at_first_intersection].
  destruct (with_lines_loop 0 input [] []) as [[q ls]|?| |]; reflexivity.
Qed.

(* ---- C88: a line that is a single point is reported as meeting itself ---- *)
Theorem C88_two_lines_refuted : intersections (S := F64_) sinf (fun _ l => l) 30 false false (map fline [(1, 1, 1, 1)]%Z) = Val [(P 1 1, [0; 0]%nat)].
Proof. fsweep. Qed.
Theorem C88_two_lines_partial : forall inf ord fuel stop ign (input : list (Line2 RS)) r,
  any_order ord -> proper_lines input \/ ign = true -> intersections inf ord fuel stop ign input = Val r ->
  forall p is, In (p, is) r -> exists i j, i <> j /\ In i is /\ In j is /\ line_has input i p /\ line_has input j p.
Proof.
  intros inf ord fuel stop ign input r Ho Hp E p is Hin. destruct (C63_reports_are_real _ _ _ _ _ _ _ Ho E p is Hin) as (H1 & H2 & H3 & H4).
  destruct Hp as [Hp|Hp].
  - specialize (H3 Hp). destruct is as [|i [|j t]]; cbn in H2; try lia. exists i, j. split; [|split; [left; auto|split; [right; left; auto|split; apply H1; [left|right; left]; auto]]].
    intros ->. inversion H3 as [|? ? Hn _]. apply Hn. left; auto.
  - destruct (H4 Hp) as (i & j & Hij & Hi & Hj & _). exists i, j. repeat (split; auto).
Qed.
Print Assumptions C88_two_lines_partial.
