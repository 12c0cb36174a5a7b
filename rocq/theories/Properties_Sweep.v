(* The sweep-line intersection finders (C63-C71, C85-...). Model: Sweep.v; whole calls: SweepRun.v.
   [intersections inf ord fuel stop ign input] is a complete run of IntersectionData on the lines [input]: options stop
   (stop at first intersection) and ign (ignore end point intersections), any iteration order [ord] of the hash set,
   [fuel] a bound on the number of events handled (NoFuel when it is exceeded), [inf] the value used for INFINITY.
   [indexed_intersections] is the same for IntersectionTester. Vocabulary: SweepSpec.v. *)
From Coq Require Import QArith Qreals Reals Lra Psatz Permutation Sorting.Sorted Floats.SpecFloat.
From Verif Require Import Prelude Scalar RInst Flt Geo2 GeoSpec DistR IsectProofs Sweep SweepMap SweepProofs SweepCand SweepLoop SweepLoop2 SweepIdx SweepRun SweepPts SweepFin SweepSpec SweepGeo SweepComplete SweepComplete2 SweepSpecLink QInst SweepHom.
Local Open Scope R_scope.

(* ---- from the invariant to the statements below ---- *)
Lemma ln_arr input i l : ln (map (@arrange RS) input) i l <-> exists l0, nth_error input i = Some l0 /\ l = arrange l0.
Proof.
  unfold ln. rewrite nth_error_map. destruct (nth_error input i) as [l0|]; cbn; split; try discriminate; intros H.
  - injection H as <-. eauto.
  - destruct H as (l1 & [= <-] & ->). auto.
  - destruct H as (l1 & H & _). discriminate.
Qed.
Lemma run_any inf ord fuel stop ign input r : any_order ord -> intersections (S := RS) inf ord fuel stop ign input = Val r ->
  exists pos st, r = st_result st /\ Inv (map (@arrange RS) input) ign pos st /\ (st_queue st = [] \/ (stop = true /\ st_result st <> [])).
Proof.
  intros Ho E. destruct (event_points_exist input) as (pts & Hp & _).
  assert (Hc : incl (cands (map (@arrange RS) input)) pts) by (apply event_points_cands; auto).
  apply (intersections_mono inf ord fuel (fuel + length pts)) in E; [|lia|discriminate].
  destruct (run_plain inf ord Ho (fun _ _ _ _ => True)) with (pts := pts) (input := input) (ign := ign) (stop := stop) (fuel := (fuel + length pts)%nat) as (pos & st & E' & HI & _ & Hs);
    auto; try lia. { intros lines ign0 pos key e q act res st' _ _ _ _. exact I. }
  exists pos, st. split; [congruence|]. auto.
Qed.
Lemma get_of_In pos lines ign (st : State (S := RS)) p is : Inv lines ign pos st -> In (p, is) (st_result st) -> get (st_result st) p = Some is.
Proof. intros HI H. apply In_get; auto. apply (i_rs _ _ _ _ HI). Qed.
Lemma ends_arr l p : ends_of p (arrange l) <-> p = lstart l \/ p = lend l.
Proof. unfold arrange. destruct (key_lt _ _); unfold ends_of; cbn; tauto. Qed.

Lemma Forall2_In_l {A B} (R : A -> B -> Prop) l m a : Forall2 R l m -> In a l -> exists b, In b m /\ R a b.
Proof. intros H. induction H as [|x y l m Hxy H IH]; intros []; [subst; exists y; split; auto; left; auto|destruct (IH H0) as (b & ? & ?); exists b; split; auto; right; auto]. Qed.

(* ---- C63 ---- *)
Theorem C63_reports_are_real : forall inf ord fuel stop ign (input : list (Line2 RS)) r,
  any_order ord -> intersections inf ord fuel stop ign input = Val r ->
  forall p is, In (p, is) r ->
    (forall i, In i is -> line_has input i p) /\ (2 <= length is)%nat /\ (proper_lines input -> NoDup is) /\
    (ign = true -> exists i j, i <> j /\ In i is /\ In j is /\ ~ line_ends_at input i p).
Proof.
  intros inf ord fuel stop ign input r Ho E p is Hin. destruct (run_any _ _ _ _ _ _ _ Ho E) as (pos & st & -> & HI & _).
  pose proof (get_of_In _ _ _ _ _ _ HI Hin) as G. destruct (i_res _ _ _ _ HI p is G) as [_ R].
  split; [|split; [|split]].
  - intros i Hi. destruct (r_on _ _ _ _ R i Hi) as (l & Hl & Hon). apply ln_arr in Hl as (l0 & Hl0 & ->). rewrite on_line_arrange in Hon. exists l0. auto.
  - apply (r_two _ _ _ _ R).
  - intros Hp. apply (r_nodup _ _ _ _ R). intros i l Hl. apply ln_arr in Hl as (l0 & Hl0 & ->). apply nth_error_In, Hp in Hl0.
    unfold arrange. destruct (key_lt _ _); cbn; congruence.
  - intros Hig. destruct (r_ign _ _ _ _ R Hig) as (i & j & l & Hij & Hi & Hj & Hl & _ & Hne). exists i, j. split; auto. split; auto. split; auto.
    apply ln_arr in Hl as (l0 & Hl0 & ->). intros (l1 & Hl1 & He). apply Hne, ends_arr. congruence.
Qed.
Print Assumptions C63_reports_are_real.

(* ---- C64: the number of events is bounded by the number of end points and crossing points ---- *)
Theorem C64_terminates : forall inf ord fuel stop ign (input : list (Line2 RS)) (points : list pt),
  any_order ord ->
  (forall l, In l input -> In (lstart l) points /\ In (lend l) points) ->
  (forall a b p, In a input -> In b input ->
     (forall q, (on_segment q (lstart a) (lend a) /\ on_segment q (lstart b) (lend b)) <-> q = p) -> In p points) ->
  (length points <= fuel)%nat ->
  exists r, intersections inf ord fuel stop ign input = Val r.
Proof.
  intros inf ord fuel stop ign input pts Ho H1 H2 Hf.
  destruct (run_plain inf ord Ho (fun _ _ _ _ => True)) with (pts := pts) (input := input) (ign := ign) (stop := stop) (fuel := fuel) as (pos & st & E' & _);
    eauto. { intros lines ign0 pos key e q act res st' _ _ _ _. exact I. } { apply event_points_cands; auto. split; auto. }
Qed.
Print Assumptions C64_terminates.
(* such a list of points always exists, with at most n (n + 2) elements: compute always terminates *)
Theorem C64_points_exist : forall input : list (Line2 RS), exists points,
  (forall l, In l input -> In (lstart l) points /\ In (lend l) points) /\
  (forall a b p, In a input -> In b input ->
     (forall q, (on_segment q (lstart a) (lend a) /\ on_segment q (lstart b) (lend b)) <-> q = p) -> In p points) /\
  (length points <= length input * (length input + 2))%nat.
Proof. intros input. destruct (event_points_exist input) as (pts & [H1 H2] & H3). exists pts. split; auto. Qed.

(* ---- C65 ---- *)
Theorem C65_output_order : forall inf ord fuel stop ign (input : list (Line2 RS)) r,
  any_order ord -> intersections inf ord fuel stop ign input = Val r ->
  StronglySorted before (map fst r) /\ forall p is, In (p, is) r -> StronglySorted le is.
Proof.
  intros inf ord fuel stop ign input r Ho E. destruct (run_any _ _ _ _ _ _ _ Ho E) as (pos & st & -> & HI & _). split.
  - exact (i_rs _ _ _ _ HI).
  - intros p is Hin. pose proof (get_of_In _ _ _ _ _ _ HI Hin) as G. destruct (i_res _ _ _ _ HI p is G) as [_ R]. apply (r_sorted _ _ _ _ R).
Qed.
Print Assumptions C65_output_order.

(* ---- C66 ---- *)
Theorem C66_shared_end_points : forall inf ord fuel (input : list (Line2 RS)) r,
  any_order ord -> intersections inf ord fuel false false input = Val r ->
  forall p i j, i <> j -> line_ends_at input i p -> line_ends_at input j p ->
  exists is, In (p, is) r /\ forall k, line_ends_at input k p -> In k is.
Proof.
  intros inf ord fuel input r Ho E p i j Hij (li & Hi & Ei) (lj & Hj & Ej).
  destruct (run_any _ _ _ _ _ _ _ Ho E) as (pos & st & -> & HI & [Hq|[Hs _]]); [|discriminate].
  assert (Li : ln (map (@arrange RS) input) i (arrange li)) by (apply ln_arr; eauto).
  assert (Lj : ln (map (@arrange RS) input) j (arrange lj)) by (apply ln_arr; eauto).
  assert (Hpast : ~ after pos p).
  { intros Ha. assert (Ei' : p = lo (arrange li) \/ p = hi (arrange li)) by (rewrite <- end_cases; apply (proj2 (ends_arr li p)); exact Ei).
    pose proof (i_q _ _ _ _ HI) as Q. rewrite Hq in Q. destruct Ei' as [E'|E']; rewrite E' in Ha.
    - apply (q_lo _ _ _ Q _ _ Li Ha). auto. - apply (q_hi _ _ _ Q _ _ Li Ha). auto. }
  pose proof (i_miss _ _ _ _ HI eq_refl p i j _ _ Hpast Hij Li Lj) as G. rewrite !ends_arr in G. specialize (G Ei Ej).
  destruct (get (st_result st) p) as [is|] eqn:Gp; [|congruence]. exists is. split; [apply get_In; auto|].
  intros k (lk & Hk & Ek). destruct (i_res _ _ _ _ HI p is Gp) as [_ R]. apply (r_ends _ _ _ _ R k (arrange lk)); [apply ln_arr; eauto|]. apply ends_arr; auto.
Qed.
Print Assumptions C66_shared_end_points.

(* ---- C67, C68: completeness ---- *)
Lemma ends_or (l : line) : arrange l = l \/ arrange l = arrange l.
Proof. auto. Qed.
(* every point reported is a meeting point, every meeting point is reported, with exactly the lines through it *)
Definition reports_exactly (input : list (Line2 RS)) (ign : bool) (r : list (pt * list nat)) : Prop :=
  (forall p, (exists is, In (p, is) r) <-> meeting input p /\ (ign = true -> exists i, line_has input i p /\ ~ line_ends_at input i p)) /\
  (forall p is, In (p, is) r -> forall i, In i is <-> line_has input i p).
Lemma complete_reports (f : line -> line) (Hf : forall l, f l = l \/ f l = arrange l) input ign pos st :
  no_horizontal input -> general (map f input) -> Inv (map f input) ign pos st -> complete (map f input) ign pos st -> st_queue st = [] ->
  reports_exactly input ign (st_result st).
Proof.
  intros Hh G HI HC Hq. pose proof (complete_end _ _ _ _ G HI HC Hq) as HE. split.
  - intros p. rewrite <- (wanted_f f Hf). split.
    + intros (is & Hin). pose proof (get_of_In _ _ _ _ _ _ HI Hin) as Hg. destruct (i_res _ _ _ _ HI p is Hg) as [_ R]. split.
      * pose proof (r_two _ _ _ _ R) as H2. assert (ND : NoDup is).
        { apply (r_nodup _ _ _ _ R). intros i l Hl E. pose proof (g_steep _ G _ _ Hl) as K. unfold steep in K. destruct (lohi l) as [[E1 E2]|[E1 E2]]; rewrite E1, E2, E in K; lra. }
        pose proof (r_on _ _ _ _ R) as Ro. destruct is as [|i [|j t]]; cbn in H2; try lia.
        destruct (Ro i) as (a & Ha & Oa); [left; auto|]. destruct (Ro j) as (b & Hb & Ob); [right; left; auto|].
        exists i, j, a, b. split; auto. intros ->. inversion ND as [|? ? Hn _]. apply Hn. left; auto.
      * intros Hi. destruct (r_ign _ _ _ _ R Hi) as (i & j & l & _ & _ & _ & Hl & Ho & Hn). exists i, l. split; auto. split; auto.
        split; intros E; apply Hn, end_cases; auto.
    + intros Hw. destruct (HE p Hw) as (ls & Hg & _). exists ls. apply get_In; auto.
  - intros p is Hin i. pose proof (get_of_In _ _ _ _ _ _ HI Hin) as Hg. destruct (i_res _ _ _ _ HI p is Hg) as [_ R]. rewrite (has_f f Hf). split.
    + apply (r_on _ _ _ _ R).
    + intros (l & Hl & Ho). eapply (k_all _ _ _ _ HC); eauto.
Qed.
Theorem C68_complete_partial : forall inf ord fuel ign (input : list (Line2 RS)) r,
  any_order ord -> no_horizontal input -> meet_once input -> no_start_inside input -> clear_right input ->
  intersections inf ord fuel false ign input = Val r ->
  (forall p, (exists is, In (p, is) r) <-> meeting input p /\ (ign = true -> exists i, line_has input i p /\ ~ line_ends_at input i p)) /\
  (forall p is, In (p, is) r -> forall i, In i is <-> line_has input i p).
Proof.
  intros inf ord fuel ign input r Ho Hh Hm Hs Hc E. destruct (event_points_exist input) as (pts & Hp & _).
  assert (Hcd : incl (cands (map (@arrange RS) input)) pts) by (apply event_points_cands; auto).
  apply (intersections_mono (S := RS) inf ord fuel (fuel + length pts)) in E; [|lia|discriminate].
  destruct (run_plain inf ord Ho J (J_step inf) J_start) with (pts := pts) (input := input) (ign := ign) (stop := false) (fuel := (fuel + length pts)%nat)
    as (pos & st & E' & HI & HJ & [Hq|[? _]]); auto; try lia; try discriminate.
  assert (r = st_result st) by congruence. subst r.
  assert (G : general (map (@arrange RS) input)) by (apply general_f; auto).
  apply (complete_reports (@arrange RS) ltac:(auto) input ign pos); auto.
Qed.
Print Assumptions C68_complete_partial.
(* general position, with the additional condition that no two corners have the same height *)
Theorem C67_general_position_partial : forall inf ord fuel (input : list (Line2 RS)) r,
  any_order ord -> no_horizontal input -> no_touching input -> heights_differ input ->
  intersections inf ord fuel false false input = Val r ->
  forall i j p, i <> j -> line_has input i p -> line_has input j p -> exists is, In (p, is) r /\ In i is /\ In j is.
Proof.
  intros inf ord fuel input r Ho Hh Ht Hd E i j p Hij Hi Hj. destruct (plain_position input Hh Ht Hd) as (P1 & P2 & P3).
  destruct (C68_complete_partial inf ord fuel false input r Ho Hh P1 P2 P3 E) as [C1 C2].
  destruct (proj2 (C1 p)) as (is & His). { split; [exists i, j; auto|discriminate]. } exists is. split; auto. split; apply (C2 p is His); auto.
Qed.
Print Assumptions C67_general_position_partial.

(* ---- C67, C68: what is missed. Lines with integer coordinates, in exact arithmetic and in f64 ---- *)
Definition rline (z : Z * Z * Z * Z) : Line2 RS := let '(x1, y1, x2, y2) := z in @mkL RS (@mkV2 RS (IZR x1) (IZR y1)) (@mkV2 RS (IZR x2) (IZR y2)).
Definition qline (z : Z * Z * Z * Z) : Line2 QS := let '(x1, y1, x2, y2) := z in @mkL QS (@mkV2 QS (inject_Z x1) (inject_Z y1)) (@mkV2 QS (inject_Z x2) (inject_Z y2)).
Lemma Q2R_Z z : Q2R (inject_Z z) = IZR z.
Proof. unfold Q2R. cbn. lra. Qed.
Lemma run_Z inf ord fuel stop ign zs : forallb (fun z => negb (vulps (lstart (qline z)) (lend (qline z))) && negb (vulps (lend (qline z)) (lstart (qline z)))) zs = true ->
  intersections (S := RS) (IZR inf) ord fuel stop ign (map rline zs) = omap (@hm QS RS Q2R (list nat)) (intersections (S := QS) (inject_Z inf) ord fuel stop ign (map qline zs)).
Proof.
  intros Hp. rewrite <- (h_intersections Q2R_hom (inject_Z inf)).
  - rewrite Q2R_Z, map_map. f_equal. apply map_ext. intros [[[x1 y1] x2] y2]. cbn [qline rline hl lstart lend hv vx vy].
    unfold hl, hv. cbn [lstart lend vx vy]. rewrite !Q2R_Z. auto.
  - rewrite Forall_map. apply Forall_forall. intros z Hz. rewrite forallb_forall in Hp. apply Hp in Hz. apply andb_prop in Hz as [H1 H2].
    apply negb_true_iff in H1, H2. split; auto.
Qed.

Definition fline (z : Z * Z * Z * Z) : Line2 F64_ := let '(x1, y1, x2, y2) := z in mkL (P x1 y1) (P x2 y2).
Definition res_same (a b : V2 F64_ * list nat) : bool := (v2_same (fst a) (fst b) && list_same Nat.eqb (snd a) (snd b))%bool.
Lemma res_same_eq a b : res_same a b = true -> a = b.
Proof.
  destruct a as [a1 a2], b as [b1 b2]. unfold res_same. cbn [fst snd]. intros H. apply andb_prop in H as [H1 H2].
  apply v2_same_eq in H1. apply (list_same_eq Nat.eqb) in H2; [congruence|]. intros; apply Nat.eqb_eq; auto.
Qed.
(* the lines of a concrete input, in coordinates *)
Lemma has_coords zs i p : line_has (map rline zs) i p <-> exists x1 y1 x2 y2 t, nth_error zs i = Some (x1, y1, x2, y2) /\ 0 <= t <= 1 /\
  vx p = IZR x1 + t * (IZR x2 - IZR x1) /\ vy p = IZR y1 + t * (IZR y2 - IZR y1).
Proof.
  unfold line_has. rewrite nth_error_map. split.
  - intros (l & Hl & t & Ht & E). destruct (nth_error zs i) as [[[[x1 y1] x2] y2]|]; [|discriminate]. injection Hl as <-.
    exists x1, y1, x2, y2, t. rewrite E. cbn. auto.
  - intros (x1 & y1 & x2 & y2 & t & Hz & Ht & Ex & Ey). rewrite Hz. eexists. split; [reflexivity|]. exists t. split; auto. apply V2_ext; auto.
Qed.
Lemma ends_coords zs i p : line_ends_at (map rline zs) i p <-> exists x1 y1 x2 y2, nth_error zs i = Some (x1, y1, x2, y2) /\
  ((vx p = IZR x1 /\ vy p = IZR y1) \/ (vx p = IZR x2 /\ vy p = IZR y2)).
Proof.
  unfold line_ends_at. rewrite nth_error_map. split.
  - intros (l & Hl & E). destruct (nth_error zs i) as [[[[x1 y1] x2] y2]|]; [|discriminate]. injection Hl as <-.
    exists x1, y1, x2, y2. split; auto. destruct E as [-> | ->]; cbn; auto.
  - intros (x1 & y1 & x2 & y2 & Hz & E). rewrite Hz. eexists. split; [reflexivity|]. destruct E as [[E1 E2]|[E1 E2]]; [left|right]; apply V2_ext; auto.
Qed.
Ltac coords :=
  repeat match goal with
  | H : line_has (map rline _) ?i _ |- _ => apply (proj1 (has_coords _ _ _)) in H as (? & ? & ? & ? & ? & ? & ? & ? & ?)
  | H : line_ends_at (map rline _) ?i _ |- _ => apply (proj1 (ends_coords _ _ _)) in H as (? & ? & ? & ? & ? & ?)
  | H : meeting _ _ |- _ => destruct H as (? & ? & ? & ? & ?)
  | H : corner _ _ |- _ => destruct H as [(? & ?)|?]
  | H : goes_up _ _ _ |- _ => destruct H as [? (? & ? & ?)]
  end;
  repeat match goal with
  | H : nth_error (_ :: _) ?i = Some _ |- _ => first [is_var i; destruct i as [|i] | progress cbn [nth_error] in H]
  | H : nth_error [] ?i = Some _ |- _ => destruct i; discriminate H
  | H : Some _ = Some _ |- _ => injection H as <- <- <- <-
  end;
  try (exfalso; congruence);
  repeat match goal with H : _ \/ _ |- _ => destruct H end;
  repeat match goal with H : _ /\ _ |- _ => destruct H end.
Lemma concrete_no_horizontal zs : forallb (fun z : Z * Z * Z * Z => let '(_, y1, _, y2) := z in negb (Z.eqb y1 y2)) zs = true -> no_horizontal (map rline zs).
Proof.
  intros H l Hl. apply in_map_iff in Hl as (z & <- & Hz). rewrite forallb_forall in H. apply H in Hz. destruct z as [[[x1 y1] x2] y2].
  apply negb_true_iff, Z.eqb_neq in Hz. cbn. intros E. apply Hz, eq_IZR. auto.
Qed.
(* lines i and j meet in p, but the run reports nothing at p, in exact arithmetic; in f64 it returns the list [f] *)
Definition missed (zs : list (Z * Z * Z * Z)) (i j : nat) (p : pt) (f : list (V2 F64_ * list nat)) : Prop :=
  i <> j /\ line_has (map rline zs) i p /\ line_has (map rline zs) j p /\
  (exists r, intersections (S := RS) 1000 (fun _ l => l) 30 false false (map rline zs) = Val r /\ forall is, ~ In (p, is) r) /\
  intersections (S := F64_) sinf (fun _ l => l) 30 false false (map fline zs) = Val f.
Ltac qsweep := rewrite run_Z by reflexivity; match goal with |- _ = Val (hm ?l) => change (Val (@hm QS RS Q2R (list nat) l)) with (omap (@hm QS RS Q2R (list nat)) (Val l)) end; f_equal; vm_compute; reflexivity.
Ltac fsweep := apply (out_same_eq (list_same res_same) (list_same_eq res_same res_same_eq)); vm_compute; reflexivity.

Definition lines67 : list (Z * Z * Z * Z) := [(-2, -2, 6, 6); (2, -2, -6, 6); (2, 0, 1, 6)]%Z.
Lemma missed67 : missed lines67 0 2 (@mkV2 RS (12 / 7) (12 / 7)) [(P 0 0, [0; 1]%nat)].
Proof.
  split; [discriminate|]. split; [|split; [|split]].
  - apply has_coords. exists (-2)%Z, (-2)%Z, 6%Z, 6%Z, (13 / 28). split; [reflexivity|]. cbn [vx vy]. lra.
  - apply has_coords. exists 2%Z, 0%Z, 1%Z, 6%Z, (2 / 7). split; [reflexivity|]. cbn [vx vy]. lra.
  - exists (@hm QS RS Q2R (list nat) [(@mkV2 QS 0%Q 0%Q, [0; 1]%nat)]). split.
    + change 1000 with (IZR 1000). qsweep.
    + cbn. intros is [E|[]]. injection E as E _. unfold Q2R in E. cbn in E. lra.
  - fsweep.
Qed.
Theorem C67_general_position_refuted : exists p : pt,
  no_horizontal (map rline lines67) /\ no_touching (map rline lines67) /\ no_triple (map rline lines67) /\
  missed lines67 0 2 p [(P 0 0, [0; 1]%nat)].
Proof.
  exists (@mkV2 RS (12 / 7) (12 / 7)). split; [apply concrete_no_horizontal; reflexivity|]. split; [|split].
  - intros i j p He Hp. unfold lines67 in *. coords; auto; exfalso; lra.
  - intros i j k p H1 H2 H3. unfold lines67 in *. coords; auto; exfalso; lra.
  - exact missed67.
Qed.
Print Assumptions C67_general_position_refuted.
(* each of the four conditions of C68_complete_partial is needed: an input that violates only that one *)
Theorem C68_horizontal_refuted : let zs := [(1, 2, 3, 2); (1, 0, 1, 3)]%Z in
  meet_once (map rline zs) /\ no_start_inside (map rline zs) /\ clear_right (map rline zs) /\ missed zs 0 1 (@mkV2 RS 1 2) [].
Proof.
  cbv zeta. split; [|split; [|split]].
  - intros i j p q Hij P1 P2 Q1 Q2. apply V2_ext; req; coords; try lra.
  - intros i j p H1 H2 H3. apply ends_coords. coords; try (exfalso; lra); cbn [nth_error]; repeat eexists; lra.
  - intros i j p r Hij H1 H2 H3 Hy. coords; exfalso; lra.
  - split; [discriminate|]. split; [|split; [|split]].
    + apply has_coords. exists 1%Z, 2%Z, 3%Z, 2%Z, 0. split; [reflexivity|]. cbn [vx vy]. lra.
    + apply has_coords. exists 1%Z, 0%Z, 1%Z, 3%Z, (2 / 3). split; [reflexivity|]. cbn [vx vy]. lra.
    + exists (@hm QS RS Q2R (list nat) []). split; [change 1000 with (IZR 1000); qsweep|]. intros is [].
    + fsweep.
Qed.
Theorem C68_overlap_refuted : let zs := [(0, 0, 4, 4); (1, 1, 5, 5)]%Z in
  no_horizontal (map rline zs) /\ clear_right (map rline zs) /\ forall x, 1 <= x <= 4 -> missed zs 0 1 (@mkV2 RS x x) [].
Proof.
  cbv zeta. split; [apply concrete_no_horizontal; reflexivity|]. split.
  - intros i j p r Hij H1 H2 H3 Hy. coords; lra.
  - intros x Hx. split; [discriminate|]. split; [|split; [|split]].
    + apply has_coords. exists 0%Z, 0%Z, 4%Z, 4%Z, (x / 4). split; [reflexivity|]. cbn [vx vy]. lra.
    + apply has_coords. exists 1%Z, 1%Z, 5%Z, 5%Z, ((x - 1) / 4). split; [reflexivity|]. cbn [vx vy]. lra.
    + exists (@hm QS RS Q2R (list nat) []). split; [change 1000 with (IZR 1000); qsweep|]. intros is [].
    + fsweep.
Qed.
Theorem C68_start_inside_refuted : let zs := [(0, 0, 4, 4); (2, 2, 0, 4)]%Z in
  no_horizontal (map rline zs) /\ meet_once (map rline zs) /\ clear_right (map rline zs) /\ missed zs 0 1 (@mkV2 RS 2 2) [].
Proof.
  cbv zeta. split; [apply concrete_no_horizontal; reflexivity|]. split; [|split].
  - intros i j p q Hij P1 P2 Q1 Q2. apply V2_ext; req; coords; try lra.
  - intros i j p r Hij H1 H2 H3 Hy. coords; lra.
  - split; [discriminate|]. split; [|split; [|split]].
    + apply has_coords. exists 0%Z, 0%Z, 4%Z, 4%Z, (1 / 2). split; [reflexivity|]. cbn [vx vy]. lra.
    + apply has_coords. exists 2%Z, 2%Z, 0%Z, 4%Z, 0. split; [reflexivity|]. cbn [vx vy]. lra.
    + exists (@hm QS RS Q2R (list nat) []). split; [change 1000 with (IZR 1000); qsweep|]. intros is [].
    + fsweep.
Qed.
(* the fourth: C67_general_position_refuted *)
Theorem C68_row_refuted : no_horizontal (map rline lines67) /\ meet_once (map rline lines67) /\ no_start_inside (map rline lines67) /\
  missed lines67 0 2 (@mkV2 RS (12 / 7) (12 / 7)) [(P 0 0, [0; 1]%nat)].
Proof.
  split; [apply concrete_no_horizontal; reflexivity|]. split; [|split].
  - intros i j p q Hij P1 P2 Q1 Q2. unfold lines67 in *. apply V2_ext; req; coords; try lra.
  - intros i j p H1 H2 H3. apply ends_coords. unfold lines67 in *. coords; try (exfalso; lra); cbn [nth_error]; repeat eexists; lra.
  - exact missed67.
Qed.
Print Assumptions C68_row_refuted.
(* the hypotheses of the positive theorems hold of inputs with crossings: three lines, two crossings *)
Definition lines68 : list (Z * Z * Z * Z) := [(-2, -3, 6, 5); (2, -2, -6, 6); (3, 0, 1, 7)]%Z.
Example C67_hypotheses : no_horizontal (map rline lines68) /\ no_touching (map rline lines68) /\ heights_differ (map rline lines68).
Proof.
  split; [apply concrete_no_horizontal; reflexivity|]. split.
  - intros i j p He Hp. unfold lines68 in *. coords; auto; exfalso; lra.
  - intros p q Hp Hq Hy. unfold lines68 in *. apply V2_ext; req; auto. coords; lra.
Qed.

(* ---- C69 ---- *)
Theorem C69_stop_at_first : forall inf ord fuel ign (input : list (Line2 RS)) full,
  any_order ord -> intersections inf ord fuel false ign input = Val full ->
  intersections inf ord fuel true ign input = Val (firstn 1 full).
Proof.
  intros inf ord fuel ign input full Ho E. destruct (event_points_exist input) as (pts & Hp & _).
  assert (Hc : incl (cands (map (@arrange RS) input)) pts) by (apply event_points_cands; auto).
  assert (E1 : exists r, intersections (S := RS) inf ord fuel true ign input = Val r) by (eapply intersections_stop; eauto).
  destruct E1 as (r & E1). rewrite E1. f_equal.
  apply (intersections_mono (S := RS) inf ord fuel (fuel + length pts)) in E; [|lia|discriminate].
  apply (intersections_mono (S := RS) inf ord fuel (fuel + length pts)) in E1; [|lia|discriminate].
  destruct (run_stop inf ord Ho pts input ign (fuel + length pts)) as (r' & K1 & K2); auto; [lia|]. congruence.
Qed.
Print Assumptions C69_stop_at_first.

(* ---- C70 ---- *)
(* for every scalar whose finite numbers are comparable *)
Theorem C70_non_finite_rejected : forall (S : Scalar), (forall a b : car S, sfin a = true -> sfin b = true -> spcmp a b <> None) ->
  let finite (p : V2 S) := sfin (vx p) = true /\ sfin (vy p) = true in
  let all_finite := Forall (fun l : Line2 S => finite (lstart l) /\ finite (lend l)) in
  (* lines *)
  (forall stop ign (input : list (Line2 S)),
     let d := with_ignore_end_point_intersections (with_stop_at_first_intersection default_data stop) ign in
     (all_finite input -> exists d', with_lines d input = Val d' /\ forall k e, In (k, e) (d_events d') -> finite k) /\
     (~ all_finite input -> with_lines d input = Fail InvalidData)) /\
  (* edges: [ls] are the lines that the edges stand for *)
  (forall stop ign (vertices : list (V2 S)) (edges : list (nat * nat)) (ls : list (Line2 S)),
     Forall2 (fun ab l => nth_error vertices (fst ab) = Some (lstart l) /\ nth_error vertices (snd ab) = Some (lend l)) edges ls ->
     let t := tester_ign (tester_stop (tester_new vertices) stop) ign in
     (all_finite ls -> exists t', with_edges t edges = Val t' /\ forall k e, In (k, e) (t_events t') -> finite (fst k)) /\
     (~ all_finite ls -> with_edges t edges = Fail InvalidData)).
Proof.
  intros S Hc finite all_finite. split.
  - intros stop ign input d. pose proof (with_lines_fin Hc input 0 [] [] ltac:(intros k e []) (Forall_nil _)) as F.
    unfold with_lines. change (d_events d) with (@nil (V2 S * SiteEvent)). change (d_lines d) with (@nil (Line2 S)).
    destruct (with_lines_loop 0 input [] []) as [[q ls]|e| |]; try contradiction; cbn [obind].
    + destruct F as (F1 & F2 & _). split; [|intros K; contradiction]. intros _. eexists. split; [reflexivity|]. exact F2.
    + destruct F as (-> & F2). split; [intros K; contradiction|auto].
  - intros stop ign vertices edges ls Hl t. pose proof (with_edges_fin Hc vertices edges ls stop ign Hl) as F. fold t in F.
    destruct (with_edges t edges) as [t'|e| |]; try contradiction.
    + destruct F as (F1 & F2 & _). split; [|intros K; contradiction]. intros _. eexists. split; [reflexivity|]. exact F2.
    + destruct F as (-> & F2). split; [intros K; contradiction|auto].
Qed.
Print Assumptions C70_non_finite_rejected.
(* the hypothesis holds for f32, f64 and exact arithmetic *)
Example C70_scalars : forall S, S = RS \/ (exists prec emax eps at2, S = FloatS prec emax eps at2) ->
  forall a b : car S, sfin a = true -> sfin b = true -> spcmp a b <> None.
Proof. intros S [->|(p & e & eps & a & ->)]; [apply comparable_R|apply comparable_float]. Qed.
Example C70_nan : with_lines default_data [mkL (P 0 0) (P 1 1); mkL (@mkV2 F64_ S754_nan (f64 0)) (P 1 2)] = Fail InvalidData.
Proof.
  apply (proj1 (C70_non_finite_rejected F64_ (C70_scalars F64_ (or_intror (ex_intro _ _ (ex_intro _ _ (ex_intro _ _ (ex_intro _ _ eq_refl)))))))) with (stop := false) (ign := false).
  intros H. inversion H as [|? ? _ H2]; subst. inversion H2 as [|? ? [[H3 _] _] _]; subst. discriminate H3.
Qed.

(* ---- C71 ---- *)
Theorem C71_indexed_sweep : forall inf ord fuel stop ign (vertices : list pt) (edges : list (nat * nat)) (ls : list (Line2 RS)) points,
  any_order ord ->
  (* every edge names two vertices; ls are the lines they stand for *)
  Forall2 (fun ab l => nth_error vertices (fst ab) = Some (lstart l) /\ nth_error vertices (snd ab) = Some (lend l)) edges ls ->
  (forall l, In l ls -> In (lstart l) points /\ In (lend l) points) ->
  (forall a b p, In a ls -> In b ls -> (forall q, (on_segment q (lstart a) (lend a) /\ on_segment q (lstart b) (lend b)) <-> q = p) -> In p points) ->
  (length points <= fuel)%nat ->
  exists vs out, indexed_intersections inf ord fuel stop ign vertices edges = Val (vs, out) /\
    (exists added, vs = vertices ++ added) /\
    forall v is, In (v, is) out -> exists p, nth_error vs v = Some p /\ (2 <= length is)%nat /\ forall i, In i is -> line_has ls i p.
Proof.
  intros inf ord fuel stop ign vertices edges ls pts Ho Hl H1 H2 Hf.
  destruct (run_indexed inf ord Ho (fun _ _ _ _ => True)) with (pts := pts) (vertices := vertices) (edges := edges) (ls := ls) (ign := ign) (stop := stop) (fuel := fuel)
    as (vs & out & pos & st & E & Hv & F2 & HI & _); eauto. { intros lines ign0 pos key e q act res st' _ _ _ _. exact I. }
  { replace ls with (map (fun l : line => l) ls) by apply map_id. apply event_points_cands; auto. split; auto. }
  exists vs, out. split; auto. split; auto. intros v is Hin.
  assert (Hx : exists k, In k (st_result st) /\ is = snd k /\ nth_error vs v = Some (fst k)).
  { destruct (Forall2_In_l _ _ _ _ F2 Hin) as (k & Hk & K1 & K2). exists k. auto. }
  destruct Hx as ([p is'] & Hk & -> & Hn). cbn [fst snd] in *. exists p. split; auto.
  pose proof (get_of_In _ _ _ _ _ _ HI Hk) as G. destruct (i_res _ _ _ _ HI p is' G) as [_ R]. split; [apply (r_two _ _ _ _ R)|].
  intros i Hi. destruct (r_on _ _ _ _ R i Hi) as (l & Hl' & Hon). exists l. auto.
Qed.
Print Assumptions C71_indexed_sweep.
(* over every scalar the two finders do the same work: same outcome, same line lists, positions at the reported indices *)
Theorem C71_same_as_unindexed : forall (S : Scalar) inf ord fuel stop ign (vertices : list (V2 S)) (edges : list (nat * nat)) (ls : list (Line2 S)),
  Forall2 (fun ab l => nth_error vertices (fst ab) = Some (lstart l) /\ nth_error vertices (snd ab) = Some (lend l)) edges ls ->
  Forall (fun l => arrange l = l) ls ->
  match intersections inf ord fuel stop ign ls, indexed_intersections inf ord fuel stop ign vertices edges with
  | Val r, Val (vs, out) => (exists added, vs = vertices ++ added) /\
      Forall2 (fun x k => snd x = snd k /\ nth_error vs (fst x) = Some (fst k)) out r
  | Fail e, Fail e' => e = e'
  | Panic, Panic => True
  | NoFuel, NoFuel => True
  | _, _ => False
  end.
Proof.
  intros S inf ord fuel stop ign vertices edges ls Hl Ha.
  assert (Em : map arrange ls = ls) by (clear Hl; induction Ha; cbn; congruence).
  unfold intersections, indexed_intersections, with_lines, with_edges, compute, icompute.
  cbn [t_events t_lines t_stop t_ign t_vertices tester_new tester_ign tester_stop d_events d_lines d_stop d_ign default_data with_ignore_end_point_intersections with_stop_at_first_intersection].
  pose proof (lines_of_edge_lines _ _ _ Hl) as HE.
  pose proof (with_edges_sim vertices edges ls Hl 0 [] [] [] (Forall_nil _)) as W. cbn [plain map] in W.
  destruct (with_edges_loop vertices 0 edges [] []) as [[iq es]|?| |], (with_lines_loop 0 ls [] []) as [[q ls']|?| |]; cbn [sim] in W; try contradiction; cbn [obind]; auto.
  destruct W as (K1 & K2 & K3 & K4). cbn [fst snd app] in *. rewrite Em in K4. subst es ls'.
  cbn [obind t_events t_lines t_stop t_ign t_vertices d_lines d_ign d_stop d_events].
  assert (SR : st_rel vertices (mkISt [] vertices iq []) (mkSt [] q [])).
  { split; [auto|]. split; [exists []; rewrite app_nil_r; auto|]. cbn. repeat split; auto. constructor. }
  pose proof (iloop_sim inf edges vertices ls HE ign stop ord fuel 0 (mkISt [] vertices iq []) (mkSt [] q []) SR) as Sm.
  destruct (ievent_loop inf edges ign stop ord fuel 0 (mkISt [] vertices iq [])) as [[vs ir]|?| |], (event_loop inf ls ign stop ord fuel 0 (mkSt [] q [])) as [r|?| |];
    cbn [sim] in Sm; try contradiction; cbn [obind]; auto.
  destruct Sm as (G1 & G2 & G3). cbn [fst snd] in *. destruct (mapM_unwrap vs ir G2) as (out & Eo & Fo). rewrite Eo. cbn [obind].
  split; [exact G1|]. rewrite <- G3. auto.
Qed.
Print Assumptions C71_same_as_unindexed.

(* a run in f64: a shared end point and a crossing *)
Example C63_run : intersections (S := F64_) sinf (fun _ l => l) 15 false false (map fline [(0, 0, 4, 4); (0, 4, 4, 0); (0, 0, 0, -1)]%Z) = Val [(P 0 0, [0; 2]%nat); (P 2 2, [0; 1]%nat)].
Proof. apply (out_same_eq (list_same res_same) (list_same_eq res_same res_same_eq)). vm_compute. reflexivity. Qed.
Example C63_run_ignoring_ends : intersections (S := F64_) sinf (fun _ l => l) 15 false true (map fline [(0, 0, 4, 4); (0, 4, 4, 0); (0, 0, 0, -1)]%Z) = Val [(P 2 2, [0; 1]%nat)].
Proof. apply (out_same_eq (list_same res_same) (list_same_eq res_same res_same_eq)). vm_compute. reflexivity. Qed.
Example C69_run : intersections (S := F64_) sinf (fun _ l => l) 15 true false (map fline [(0, 0, 4, 4); (0, 4, 4, 0); (0, 0, 0, -1)]%Z) = Val [(P 0 0, [0; 2]%nat)].
Proof. apply (out_same_eq (list_same res_same) (list_same_eq res_same res_same_eq)). vm_compute. reflexivity. Qed.
Example any_order_id : any_order (fun _ l => l).
Proof. intros n l. apply Permutation_refl. Qed.
Example any_order_rev : any_order (fun n l => if Nat.even n then rev l else l).
Proof. intros n l. destruct (Nat.even n); [symmetry; apply Permutation_rev|apply Permutation_refl]. Qed.
