(* Convex hulls and outlines, continued: lists with repeated points (C50, C52), degenerate boxes (C24). Model: Hull.v.
   Vocabulary: HullSpec.v (see the head of Properties_Hull.v); [covered pts p]: p is a convex combination of points of the
   list other than p, so it is not a corner of the hull. *)
From Coq Require Import Reals Lra Psatz Floats.SpecFloat Sorting.Sorted Sorting.Permutation.
From Verif Require Import Prelude Scalar RInst Flt Geo2 GeoSpec DistR HullSpec HullGeo Hull HullAny GrahamProofs GrahamProofs2 GrahamProofs3 HullUniq GiftProofs GiftProofs2 IndexedProofs WoProofs ContainProofs ContainExact HullMisc HullMisc2 HullDup Properties_Hull.
Local Open Scope R_scope.

(* ---- C50: repetitions other than of the lowest point are harmless ---- *)
Theorem C50_duplicates_partial : forall vertices indices pts r,
  picks vertices indices pts -> enough indices ->
  (forall i j p, In i indices -> In j indices -> nth_error vertices i = Some p -> nth_error vertices j = Some p ->
     (forall q, In q pts -> lex_le p q) -> i = j) ->
  indexed_graham_scan vertices indices r ->
  exists out vs, r = Val out /\ picks vertices out vs /\ hull_result pts vs.
Proof. exact indexed_graham_dup. Qed.
Print Assumptions C50_duplicates_partial.
(* indices and points repeated, also the closing index *)
Example C50_partial_input :
  let vertices := [at_ 0 0; at_ 2 0; at_ 2 2; at_ 2 0; at_ 0 2] in let indices := [1; 0; 3; 0; 2; 4; 2; 1]%nat in
  (exists pts, picks vertices indices pts) /\ enough indices /\
  (forall i j p, In i indices -> In j indices -> nth_error vertices i = Some p -> nth_error vertices j = Some p ->
     (forall q, In q vertices -> lex_le p q) -> i = j).
Proof.
  cbv zeta. split; [eexists; repeat constructor|]. split.
  - exists 1%nat, [0; 3; 0; 2; 4; 2]%nat, 1%nat. split; auto. right. cbn. lia.
  - assert (K : forall i p, nth_error [at_ 0 0; at_ 2 0; at_ 2 2; at_ 2 0; at_ 0 2] i = Some p -> lex_le p (at_ 0 0) -> i = 0%nat).
    { intros i p Hi Hl. unfold lex_le in Hl. destruct i as [|[|[|[|[|[|i]]]]]]; cbn in Hi; try discriminate; auto; injection Hi as <-; cbn in Hl; lra. }
    intros i j p _ _ Hi Hj Hm. rewrite (K i p), (K j p); auto; apply Hm; left; auto.
Qed.

(* ---- C52: repetitions of points that are not corners of the hull are harmless ---- *)
Theorem C52_duplicates_partial : forall fuel (pts opn : list pt), ring_of pts opn -> enough pts -> (length pts <= fuel)%nat ->
  (forall i j p, i <> j -> nth_error opn i = Some p -> nth_error opn j = Some p -> covered opn p) ->
  exists vs, gift_wrap fuel pts = Val vs /\ hull_result pts vs.
Proof. intros fuel pts opn Hr He Hf Hc. apply (gift_wrap_dup fuel pts opn); auto. Qed.
Print Assumptions C52_duplicates_partial.
Theorem C52_indexed_duplicates_partial : forall fuel vertices indices opn pts, ring_of indices opn -> picks vertices opn pts -> enough indices -> (length pts <= fuel)%nat ->
  (forall i j p, i <> j -> nth_error pts i = Some p -> nth_error pts j = Some p -> covered pts p) ->
  exists out vs, indexed_gift_wrap fuel vertices indices = Val out /\ picks vertices out vs /\ hull_result pts vs.
Proof. intros fuel vertices indices opn pts Hr Hp He Hf Hc. apply (indexed_gift_dup fuel vertices indices opn pts); auto. Qed.
Print Assumptions C52_indexed_duplicates_partial.
Definition dup_inside : list pt := [at_ 1 1; at_ 0 0; at_ 4 0; at_ 1 1; at_ 0 4].
Example C52_partial_input : enough dup_inside /\
  (forall i j p, i <> j -> nth_error dup_inside i = Some p -> nth_error dup_inside j = Some p -> covered dup_inside p).
Proof.
  split; [exists (at_ 1 1), [at_ 0 0; at_ 4 0; at_ 1 1], (at_ 0 4); split; auto; left; split; [ptne|cbn; lia]|].
  assert (C : covered dup_inside (at_ 1 1)).
  { exists (at_ 0 0), (at_ 4 0), (at_ 0 4), (1/2), (1/4), (1/4). unfold dup_inside. cbn [In vx vy]. repeat split; auto 8; try lra; try ptne. }
  intros i j p Hij Hi Hj. assert (K : forall k q, nth_error dup_inside k = Some q -> q = at_ 1 1 \/ (k = 1%nat /\ q = at_ 0 0) \/ (k = 2%nat /\ q = at_ 4 0) \/ (k = 4%nat /\ q = at_ 0 4)).
  { intros k q. destruct k as [|[|[|[|[|k]]]]]; cbn; try (intros E; injection E as <-; auto); try (destruct k; discriminate). }
  destruct (K i p Hi) as [->|[[-> ->]|[[-> ->]|[-> ->]]]]; auto; destruct (K j _ Hj) as [E|[[-> E]|[[-> E]|[-> E]]]]; auto; try congruence; exfalso; injection E; intros; lra.
Qed.
(* ... but a repeated corner is lost, even when the start point occurs once (f64): the hull of these points has the
   corner (1,2), the returned list does not contain it *)
Theorem C52_corner_lost_refuted :
  (exists pts vs : list (V2 F64_), gift_wrap 20 pts = Val vs /\
     pts = [P 1 2; P 0 2; P 1 2; P 2 1; P 1 1] /\ vs = [P 0 2; P 1 1; P 2 1; P 0 2]) /\
  ~ hull_result [at_ 1 2; at_ 0 2; at_ 1 2; at_ 2 1; at_ 1 1] [at_ 0 2; at_ 1 1; at_ 2 1; at_ 0 2].
Proof.
  split.
  - exists [P 1 2; P 0 2; P 1 2; P 2 1; P 1 1], [P 0 2; P 1 1; P 2 1; P 0 2]. split; [fcomp2|auto].
  - intros H. remember [at_ 0 2; at_ 1 1; at_ 2 1; at_ 0 2] as l eqn:El. destruct H as [v vs (_ & _ & Hin) _|a b _ _ _ _ _|a _ _]; try discriminate.
    assert (Ev : v :: vs = [at_ 0 2; at_ 1 1; at_ 2 1]).
    { change (v :: vs ++ [v]) with ((v :: vs) ++ [v]) in El. change [at_ 0 2; at_ 1 1; at_ 2 1; at_ 0 2] with ([at_ 0 2; at_ 1 1; at_ 2 1] ++ [at_ 0 2]) in El.
      apply app_inj_tail in El. apply El. }
    rewrite Ev in Hin. specialize (Hin (at_ 1 2) ltac:(left; auto) (at_ 2 1) (at_ 0 2)). unfold orient in Hin. cbn in Hin. assert (0 <= -1) by (assert (K := Hin ltac:(auto)); lra). lra.
Qed.
Print Assumptions C52_corner_lost_refuted.

Lemma outline5 (v0 v1 v2 v3 p : pt) : ls_contains_inclusive [v0; v1; v2; v3; v0] p =
  Val (is_point_left_allow_collinear v2 v3 p &&
       if is_point_left_allow_collinear v1 v3 p then is_point_left_allow_collinear v3 v0 p && is_point_left_allow_collinear v0 v1 p
       else is_point_left_allow_collinear v1 v2 p && is_point_left_allow_collinear v3 v1 p)%bool.
Proof.
  assert (Ev : veqb v0 v0 = true) by (apply veqb_R; auto). unfold ls_contains_inclusive, is_connected. cbn [last]. rewrite Ev.
  unfold contains_point_inclusive, contains_with. cbn [last]. rewrite Ev. cbn [length Nat.eqb andb].
  change (idx [v0; v1; v2; v3; v0] 1) with (Val v1). cbn [obind search length Nat.ltb Nat.leb orb andb Nat.div Nat.divmod fst snd Nat.sub].
  change (idx [v1; v2; v3; v0] 1) with (Val v2). change (idx [v1; v2; v3; v0] 2) with (Val v3). change (idx [v1; v2; v3; v0] 0) with (Val v1). cbn [obind negb andb orb].
  destruct (is_point_left_allow_collinear v2 v3 p) eqn:E1; cbn [negb andb]; auto.
  destruct (is_point_left_allow_collinear v1 v3 p) eqn:E2.
  - cbn [skipn search length Nat.ltb Nat.leb orb andb obind final_test last windows forallb fst snd]. rewrite E2. rewrite andb_true_r. auto.
  - cbn [firstn search length Nat.ltb Nat.leb orb andb obind final_test last windows forallb fst snd]. rewrite E1. rewrite andb_true_r. auto.
Qed.
(* ---- C24: what containment in the outline of a degenerate box is ---- *)
Theorem C24_degenerate_outline_partial : forall (lo hi p : pt), vx lo <= vx hi -> vy lo <= vy hi -> vx lo = vx hi \/ vy lo = vy hi ->
  exists outline r, aabb2_convex_hull (Some (lo, hi)) = Some outline /\ ls_contains_inclusive outline p = Val r /\
    (r = true <-> (vx lo < vx hi -> vy p = vy lo) /\ (vy lo < vy hi -> vx p = vx lo)) /\
    (aabb2_contains_point (Some (lo, hi)) p = true -> r = true).
Proof.
  intros [x0 y0] [x1 y1] p Hx Hy Hdeg. cbn [vx vy] in *. exists [at_ x0 y0; at_ x1 y0; at_ x1 y1; at_ x0 y1; at_ x0 y0].
  assert (Hbox : aabb2_contains_point (Some (at_ x0 y0, at_ x1 y1)) p = true -> x0 <= vx p <= x1 /\ y0 <= vy p <= y1).
  { cbn [aabb2_contains_point]. unfold aabb2_contains_. cbn [fst snd vx vy sltb sulps RS]. rewrite !andb_true_iff, !orb_true_iff, !Rltb_true, !Reqb_true. intros [[[]]]; rsimp; repeat split; dlra. }
  rewrite outline5. eexists. split; [reflexivity|]. split; [reflexivity|].
  assert (G : forall a b q : pt, is_point_left_allow_collinear a b q = if Rle_dec 0 (orient a b q) then true else false).
  { intros a b q. apply eq_true_iff_eq. rewrite left_c_R. destruct (Rle_dec _ _); split; auto; discriminate. }
  rewrite !G. unfold orient. cbn [vx vy].
  match goal with |- (?r = true <-> ?A) /\ _ => assert (HR : r = true <-> A) end; [|split; [exact HR|intros Hb; apply HR; apply Hbox in Hb; destruct Hdeg; lra]].
  (* the sign of a difference times a positive number *)
  assert (K : forall d u, 0 < d -> (0 <= d * u <-> 0 <= u)).
  { intros d u Hd. split; intros H; [|apply Rmult_le_pos; lra]. apply Rnot_lt_le. intros Hc. assert (0 < d * - u) by (apply Rmult_lt_0_compat; lra). lra. }
  destruct Hdeg as [<-|<-].
  - destruct Hy as [Hy| <-].
    + pose proof (K (y1 - y0) (x0 - vx p) ltac:(lra)). pose proof (K (y1 - y0) (vx p - x0) ltac:(lra)).
      repeat (destruct (Rle_dec _ _); cbn [andb]); (split; [intros Hr; try discriminate Hr; split; intros; try lra|intros [H1 H2]; try reflexivity; exfalso; try specialize (H2 Hy); try lra]).
    + repeat (destruct (Rle_dec _ _); cbn [andb]); (split; [intros Hr; try discriminate Hr; split; intros; try lra|intros [H1 H2]; try reflexivity; exfalso; lra]).
  - destruct Hx as [Hx| <-].
    + pose proof (K (x1 - x0) (y0 - vy p) ltac:(lra)). pose proof (K (x1 - x0) (vy p - y0) ltac:(lra)).
      repeat (destruct (Rle_dec _ _); cbn [andb]); (split; [intros Hr; try discriminate Hr; split; intros; try lra|intros [H1 H2]; try reflexivity; exfalso; try specialize (H1 Hx); try lra]).
    + repeat (destruct (Rle_dec _ _); cbn [andb]); (split; [intros Hr; try discriminate Hr; split; intros; try lra|intros [H1 H2]; try reflexivity; exfalso; lra]).
Qed.
Print Assumptions C24_degenerate_outline_partial.
