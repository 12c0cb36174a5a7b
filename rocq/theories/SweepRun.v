(* Whole calls: with_lines then compute, with_edges then compute. *)
From Coq Require Import Reals Lra Permutation Sorting.Sorted.
From Verif Require Import Prelude Scalar RInst Geo2 GeoSpec DistR IsectProofs Sweep SweepMap SweepProofs SweepCand SweepLoop SweepLoop2 SweepIdx.

(* IntersectionData::default().with_stop_at_first_intersection(stop)?.with_ignore_end_point_intersections(ign)?
   .with_lines(input)?.compute()?  (src/linestring_2d/intersection.rs:424-616) *)
Definition intersections {S : Scalar} (inf : car S) (ord : nat -> list nat -> list nat) (fuel : nat) (stop ign : bool) (input : list (Line2 S)) : outcome (Result (S := S)) :=
  let* d := with_lines (with_ignore_end_point_intersections (with_stop_at_first_intersection default_data stop) ign) input in
  compute inf ord fuel d.
(* IntersectionTester::new(vertices) ... .with_edges(edges)?.compute()?  (src/linestring_2d/indexed_intersection.rs:459-694) *)
Definition indexed_intersections {S : Scalar} (inf : car S) (ord : nat -> list nat -> list nat) (fuel : nat) (stop ign : bool) (vertices : list (V2 S)) (edges : list (nat * nat)) :
  outcome (list (V2 S) * list (nat * list nat)) :=
  let* t := with_edges (tester_ign (tester_stop (tester_new vertices) stop) ign) edges in
  icompute inf ord fuel t.

Section Mono.
  Context {S : Scalar} (inf : car S).
  Lemma event_loop_mono (lines : list (Line2 S)) ign stop ord : forall fuel fuel' n st r, (fuel <= fuel')%nat ->
    event_loop inf lines ign stop ord fuel n st = r -> r <> NoFuel -> event_loop inf lines ign stop ord fuel' n st = r.
  Proof.
    induction fuel as [|fuel IH]; intros fuel' n st r Hle E Hr.
    - destruct fuel' as [|f']; cbn [event_loop] in *; destruct (st_queue st) as [|[k e] q]; congruence.
    - destruct fuel' as [|f']; [lia|]. cbn [event_loop] in *. destruct (st_queue st) as [|[k e] q]; auto.
      destruct (handle_event inf lines ign (ord n) k e (mkSt (st_active st) q (st_result st))) as [st'|?| |]; cbn [obind] in *; auto.
      destruct (st_result st') as [|x t]; [apply (IH f' _ _ _ ltac:(lia) E Hr)|]. destruct stop; auto. apply (IH f' _ _ _ ltac:(lia) E Hr).
  Qed.
  Lemma intersections_mono ord fuel fuel' stop ign input r : (fuel <= fuel')%nat ->
    intersections inf ord fuel stop ign input = r -> r <> NoFuel -> intersections inf ord fuel' stop ign input = r.
  Proof.
    unfold intersections, compute. intros Hle. destruct (with_lines _ input); cbn [obind]; auto. apply event_loop_mono; auto.
  Qed.
  (* stopping early needs no more events *)
  Lemma event_loop_stop (lines : list (Line2 S)) ign ord : forall fuel n st r, event_loop inf lines ign false ord fuel n st = Val r ->
    exists r', event_loop inf lines ign true ord fuel n st = Val r'.
  Proof.
    induction fuel as [|fuel IH]; intros n st r E; cbn [event_loop] in *; destruct (st_queue st) as [|[k e] q]; eauto; try discriminate.
    destruct (handle_event inf lines ign (ord n) k e (mkSt (st_active st) q (st_result st))) as [st'|?| |]; cbn [obind] in *; try discriminate.
    destruct (st_result st') as [|x t]; eauto.
  Qed.
  Lemma intersections_stop ord fuel ign input r : intersections inf ord fuel false ign input = Val r ->
    exists r', intersections inf ord fuel true ign input = Val r'.
  Proof.
    unfold intersections, with_lines, compute. cbn [d_events d_lines d_stop d_ign default_data with_ignore_end_point_intersections with_stop_at_first_intersection].
    destruct (with_lines_loop 0 input [] []) as [[q ls]|?| |]; cbn [obind d_events d_lines d_stop d_ign]; try discriminate. apply event_loop_stop.
  Qed.
End Mono.

  Lemma mapM_unwrap {S : Scalar} (vs : list (V2 S)) (m : IResult (S := S)) : keys_ok vs m -> exists out, mapM unwrap_index m = Val out /\
    Forall2 (fun x k => snd x = snd k /\ nth_error vs (fst x) = Some (fst k)) out (plain m).
  Proof.
    induction m as [|[[p o] l] m IH]; intros H; [exists []; split; auto; constructor|].
    inversion H as [|? ? (i & Hi1 & Hi2) Hm]; subst. cbn [fst snd] in *. subst o. destruct (IH Hm) as (out & Eo & Fo).
    exists ((i, l) :: out). cbn [mapM unwrap_index fst snd obind]. rewrite Eo. cbn [obind]. split; auto. constructor; auto.
  Qed.

(* the events of the lines ls, from an initial queue *)
Section Run.
  Variable inf : R.
  Variable ord : nat -> list nat -> list nat.
  Hypothesis Hord : forall n l, Permutation (ord n l) l.
  Variable J : list line -> bool -> option pt -> State (S := RS) -> Prop.
  Hypothesis HJ : forall lines ign, preserved inf lines ign (J lines ign).
  Hypothesis HJ0 : forall lines ign q, q_ok lines None q -> J lines ign None (mkSt [] q []).

  Lemma loop_run pts lines q ign stop fuel : q_ok lines None q -> incl (cands lines) pts -> (length pts <= fuel)%nat ->
    exists pos st, event_loop (S := RS) inf lines ign stop ord fuel 0 (mkSt [] q []) = Val (st_result st) /\
      Inv lines ign pos st /\ J lines ign pos st /\ (st_queue st = [] \/ (stop = true /\ st_result st <> [])).
  Proof.
    intros Hq Hp Hf. apply (loop_ok inf lines ign ord Hord pts Hp stop (J lines ign) (HJ lines ign)) with (pos := None); auto.
    - apply init_ok; auto.
    - etransitivity; [apply ahead_bound|auto].
  Qed.
  Lemma run_plain pts input ign stop fuel : incl (cands (map (@arrange RS) input)) pts -> (length pts <= fuel)%nat ->
    exists pos st, intersections (S := RS) inf ord fuel stop ign input = Val (st_result st) /\
      Inv (map (@arrange RS) input) ign pos st /\ J (map (@arrange RS) input) ign pos st /\ (st_queue st = [] \/ (stop = true /\ st_result st <> [])).
  Proof.
    intros Hp Hf. unfold intersections, with_lines, compute. cbn [d_events d_lines d_stop d_ign default_data with_ignore_end_point_intersections with_stop_at_first_intersection].
    destruct (with_lines_loop_ok (@arrange RS)) with (input := input) (lines := @nil line) (acc := @nil line) (q := @nil (pt * SiteEvent)) as (q & E & Hq).
    { intros l. split; [apply lo_arrange|apply hi_arrange]. } { apply q_ok_nil. } { intros k e; discriminate. }
    cbn [length] in E. rewrite E. cbn [obind app d_lines d_ign d_stop d_events] in *.
    apply (loop_run pts); auto.
  Qed.

  Lemma run_indexed pts vertices edges ls ign stop fuel : lines_of (S := RS) vertices edges ls -> incl (cands ls) pts -> (length pts <= fuel)%nat ->
    exists vs out pos st, indexed_intersections (S := RS) inf ord fuel stop ign vertices edges = Val (vs, out) /\
      (exists added, vs = vertices ++ added) /\
      Forall2 (fun x k => snd x = snd k /\ nth_error vs (fst x) = Some (fst k)) out (st_result st) /\
      Inv ls ign pos st /\ J ls ign pos st /\ (st_queue st = [] \/ (stop = true /\ st_result st <> [])).
  Proof.
    intros Hl Hp Hf. unfold indexed_intersections, with_edges, icompute. cbn [t_events t_lines t_stop t_ign t_vertices tester_new tester_ign tester_stop].
    pose proof (lines_of_edge_lines _ _ _ Hl) as HE.
    pose proof (with_edges_sim vertices edges ls Hl 0 [] [] [] (Forall_nil _)) as W. cbn [plain map] in W.
    destruct (with_lines_loop_ok (fun l => l)) with (input := ls) (lines := @nil line) (acc := @nil line) (q := @nil (pt * SiteEvent)) as (q & E & Hq).
    { auto. } { apply q_ok_nil. } { intros k e; discriminate. }
    cbn [length] in E. rewrite E in W. rewrite map_id in Hq. cbn [app] in *.
    destruct (with_edges_loop vertices 0 edges [] []) as [[iq es]|?| |]; cbn in W; try contradiction. destruct W as (K1 & K2 & K3 & _). subst es.
    cbn [obind t_events t_lines t_stop t_ign t_vertices].
    destruct (loop_run pts ls q ign stop fuel Hq Hp Hf) as (pos & st & E1 & HI & Hj & Hs).
    assert (SR : st_rel vertices (mkISt [] vertices iq []) (mkSt [] q [])).
    { split; [auto|]. split; [exists []; rewrite app_nil_r; auto|]. cbn. repeat split; auto. constructor. }
    pose proof (iloop_sim (S := RS) inf edges vertices ls HE ign stop ord fuel 0 (mkISt [] vertices iq []) (mkSt [] q []) SR) as Sm.
    destruct (ievent_loop (S := RS) inf edges ign stop ord fuel 0 (mkISt [] vertices iq [])) as [[vs ir]|?| |];
      rewrite E1 in Sm; cbn in Sm; try contradiction. destruct Sm as (G1 & G2 & G3).
    cbn [obind]. destruct (mapM_unwrap vs ir G2) as (out & Eo & Fo). rewrite Eo. cbn [obind].
    exists vs, out, pos, st. split; auto. split; [destruct G1 as (w & ->); eauto|]. split; [rewrite <- G3; auto|]. auto.
  Qed.
End Run.

Lemma run_stop inf ord : (forall n l, Permutation (ord n l) l) -> forall pts input ign fuel, incl (cands (map (@arrange RS) input)) pts -> (length pts <= fuel)%nat ->
  exists r, intersections (S := RS) inf ord fuel false ign input = Val r /\ intersections (S := RS) inf ord fuel true ign input = Val (firstn 1 r).
Proof.
  intros Hord pts input ign fuel Hp Hf. unfold intersections, with_lines, compute. cbn [d_events d_lines d_stop d_ign default_data with_ignore_end_point_intersections with_stop_at_first_intersection].
  destruct (with_lines_loop_ok (@arrange RS)) with (input := input) (lines := @nil line) (acc := @nil line) (q := @nil (pt * SiteEvent)) as (q & E & Hq).
  { intros l. split; [apply lo_arrange|apply hi_arrange]. } { apply q_ok_nil. } { intros k e; discriminate. }
  cbn [length] in E. rewrite E. cbn [obind app d_lines d_ign d_stop d_events] in *.
  apply (loop_stop inf (map (@arrange RS) input) ign ord Hord pts Hp) with (pos := None); auto.
  - apply init_ok; auto.
  - etransitivity; [apply ahead_bound|auto].
Qed.
