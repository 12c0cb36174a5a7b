(* Convex hulls, containment, box outlines (C23, C24, C46-C62, C78, C82-C84). Model: Hull.v.
   Vocabulary (HullSpec.v, GeoSpec.v):
   [orient a b c]: twice the signed area of the triangle; [edges vs]: directed edges of the closed polygon vs;
   [inside vs p]: p is left of or on every edge; [convex_polygon vs]: strictly convex, counter-clockwise;
   [hull_of pts vs], [hull_result pts out]: vs / out is the (closed) convex hull of pts, first vertex lowest in (x, y);
   [picks vertices is ps]: ps are the vertices with the indices is;
   [ring_of l opn]: l is opn, possibly with its first element repeated at the end;
   [enough l]: at least four points, not counting a closing point. *)
From Coq Require Import Reals Lra Psatz Floats.SpecFloat Sorting.Sorted Sorting.Permutation.
From Verif Require Import Prelude Scalar RInst Flt Geo2 GeoSpec DistR HullSpec HullGeo Hull HullAny GrahamProofs GrahamProofs2 GrahamProofs3 HullUniq GiftProofs GiftProofs2 IndexedProofs WoProofs ContainProofs ContainExact HullMisc HullMisc2 HullPar HullMerge3.
Local Open Scope R_scope.

Notation at_ x y := (@mkV2 RS x y) (only parsing).
(* concrete points are pairwise distinct *)
Ltac nodup := repeat (apply NoDup_cons; [let K := fresh in cbn; intros K; repeat (destruct K as [K|K]; [injection K; intros; lra|]); destruct K|]); apply NoDup_nil.
(* decide distinctness of concrete points *)
Ltac ptne := let H := fresh in intros H; injection H; intros; lra.
Lemma ne_x (p q : pt) : vx p <> vx q -> p <> q. Proof. congruence. Qed.

(* ---- C46 ---- *)
Theorem C46_graham_scan_is_hull : forall (pts : list pt) r, enough pts -> graham_scan pts r ->
  exists vs, r = Val vs /\ hull_result pts vs.
Proof. intros pts r He. apply graham_scan_hull, enough_drop; auto. Qed.
Print Assumptions C46_graham_scan_is_hull.
(* the relation is not empty: every call has some outcome, whatever the scalar *)
Theorem C46_some_result : forall (S : Scalar) (pts : list (V2 S)), (exists r, graham_scan pts r) /\ (exists r, graham_scan_wo_atan2 pts r).
Proof. intros S pts. split; [apply graham_scan_total|apply wo_total]. Qed.
Definition square : list pt := [at_ 0 0; at_ 2 0; at_ 1 1; at_ 2 2; at_ 0 2].
Example C46_input : enough square.
Proof. exists (at_ 0 0), [at_ 2 0; at_ 1 1; at_ 2 2], (at_ 0 2). split; auto. left. split; [ptne|cbn; lia]. Qed.
Example C46_hull : hull_result square [at_ 0 0; at_ 2 0; at_ 2 2; at_ 0 2; at_ 0 0].
Proof.
  apply (hull_proper square (at_ 0 0) [at_ 2 0; at_ 2 2; at_ 0 2]).
  - split; [intros x Hx; cbn in *; tauto|]. split; [apply rectangle_convex; lra|].
    intros p Hp. apply rectangle_inside; try lra. unfold square in Hp. cbn in Hp. repeat (destruct Hp as [<-|Hp]); try destruct Hp; cbn; lra.
  - intros p Hp. unfold square in Hp. cbn in Hp. unfold lex_le. repeat (destruct Hp as [<-|Hp]); try destruct Hp; cbn; lra.
Qed.

(* ---- C47 ---- *)
Theorem C47_hull_of_input_points : forall (S : Scalar) fuel (pts : list (V2 S)) (vertices : list (V2 S)) (indices : list nat),
  Forall (fun i => (i < length vertices)%nat) indices ->
  (gift_wrap fuel pts <> Panic /\ forall vs, gift_wrap fuel pts = Val vs -> incl vs pts) /\
  (forall r, graham_scan pts r -> r <> Panic /\ r <> NoFuel /\ forall vs, r = Val vs -> incl vs pts) /\
  (forall r, graham_scan_wo_atan2 pts r ->
     (r = Panic -> exists a b c, In a pts /\ In b pts /\ In c pts /\ spcmp s0 (cross_2d a b c) = None) /\
     forall vs, r = Val vs -> incl vs pts) /\
  (indexed_gift_wrap fuel vertices indices <> Panic /\ forall out, indexed_gift_wrap fuel vertices indices = Val out -> incl out indices) /\
  (forall r, indexed_graham_scan vertices indices r -> r <> Panic /\ r <> NoFuel /\ forall out, r = Val out -> incl out indices).
Proof.
  intros S fuel pts vertices indices Hv.
  assert (Z : forall A (P : A -> Prop) o, safe P o -> o <> Panic /\ forall a, o = Val a -> P a).
  { intros A P o H. split; [intros ->; exact H|intros a ->; exact H]. }
  split; [|split; [|split; [|split]]].
  - apply (Z _ (fun vs => incl vs pts)), gift_wrap_safe.
  - intros r H. apply graham_scan_safe in H as [H1 H2]. apply Z in H2 as [H2 H3]. auto.
  - intros r H. apply wo_safe in H. split; [intros ->; exact H|intros vs ->; exact H].
  - apply (Z _ (fun out => incl out indices)), indexed_gift_wrap_safe; auto.
  - intros r (r0 & H & ->). apply indexed_graham_safe in H as [H1 H2]; auto; [|discriminate].
    destruct r0 as [out|e| |]; cbn in *; try tauto; repeat split; try discriminate.
    intros o E. injection E as <-. eapply incl_tran; [apply close_incl|auto].
Qed.
Print Assumptions C47_hull_of_input_points.
(* f64 with a NaN y coordinate: the scan without atan2 does panic, the others return input points *)
Example C47_nan : gift_wrap (S := F64_) 10 [P 0 0; @mkV2 F64_ (f64 1) S754_nan; P 4 0; P 4 4; P 0 4] <> Panic.
Proof. assert (H : is_panic (gift_wrap (S := F64_) 10 [P 0 0; @mkV2 F64_ (f64 1) S754_nan; P 4 0; P 4 4; P 0 4]) = false) by (vm_compute; reflexivity). intros E. rewrite E in H. discriminate. Qed.
(* the panic of the scan without atan2, for an input with a NaN: line 572 *)
Theorem C47_wo_atan2_can_panic : exists pts, graham_scan_wo_atan2 (S := F64_) pts Panic.
Proof.
  set (pts := [P 0 0; @mkV2 F64_ (f64 1) S754_nan; P 4 0; P 4 4; P 0 4]).
  assert (E : (match find_lowest_x pts with Val (i, p) => Nat.eqb i 0 && v2_same p (P 0 0) | _ => false end
               && match wo_cmp (P 0 0) (@mkV2 F64_ (f64 1) S754_nan) (P 4 0) with None => true | _ => false end
               && Nat.ltb 3 (length (drop_loop_point pts)) && list_same v2_same (drop_loop_point pts) pts)%bool = true) by (vm_compute; reflexivity).
  apply andb_true_iff in E as [E E4]. apply andb_true_iff in E as [E E3]. apply andb_true_iff in E as [E1 E2].
  apply (list_same_eq v2_same v2_same_eq) in E4. apply Nat.ltb_lt in E3.
  exists pts. destruct (find_lowest_x pts) as [[i p]|e| |] eqn:Ef; try discriminate.
  apply andb_true_iff in E1 as [E1 E5]. apply v2_same_eq in E5. subst p.
  apply (wo_panic pts i (P 0 0) (@mkV2 F64_ (f64 1) S754_nan) (P 4 0)).
  - exact E3.
  - rewrite E4. exact Ef.
  - rewrite E4. right; left; reflexivity.
  - rewrite E4. right; right; left; reflexivity.
  - destruct (wo_cmp (P 0 0) (@mkV2 F64_ (f64 1) S754_nan) (P 4 0)); [discriminate|reflexivity].
Qed.
Print Assumptions C47_wo_atan2_can_panic.

(* ---- C48: refuted for three points, true from four on ---- *)
Theorem C48_hull_closed_refuted : forall a b c : pt, a <> b -> b <> c -> a <> c ->
  (exists r, graham_scan [a; b; c] r) /\
  forall r, graham_scan [a; b; c] r -> exists x y z, r = Val [x; y; z] /\ x <> z.
Proof.
  intros a b c H1 H2 H3. assert (E : drop_loop_point [a; b; c] = [a; b; c]).
  { unfold drop_loop_point. cbn [last]. destruct (veqb a c) eqn:E; auto. apply veqb_R in E. congruence. }
  split; [eexists; apply gs_three; eauto|]. intros r H.
  destruct H as [H|_ H|x y z H|e H He|i s sorted H Hf Hs]; try discriminate; rewrite E in H; try (cbn in H; lia).
  injection H as <- <- <-. destruct (is_point_left a b c); cbn; repeat eexists; auto.
Qed.
Print Assumptions C48_hull_closed_refuted.
(* any scalar; missing from the full claim: fewer than four points *)
Theorem C48_hull_closed_partial : forall (S : Scalar) (pts vs : list (V2 S)), (5 <= length pts)%nat ->
  graham_scan pts (Val vs) -> exists a, hd_error vs = Some a /\ last vs a = a.
Proof.
  intros S pts vs Hl H. remember (Val vs) as r eqn:Er. pose proof (drop_length pts) as Hd.
  destruct H as [->|Hne H|a b c H|e H He|i start sorted H Hf Hs]; try discriminate.
  - cbn in Hl. lia.
  - lia.
  - rewrite H in Hd. cbn in Hd. lia.
  - injection Er as <-. apply close_closed. intros E.
    assert (G : forall (l h : list (V2 S)), h <> [] -> graham_loop (fun p => p) (fun p => veqb p start) l h <> []).
    { clear. induction l as [|p l IH]; intros h Hh; cbn [graham_loop]; auto. destruct (veqb p start); apply IH; auto. discriminate. }
    apply (G (map unkey sorted) [start]); [discriminate|]. apply (f_equal (@rev _)) in E. rewrite rev_involutive in E. auto.
Qed.
Print Assumptions C48_hull_closed_partial.

(* ---- C49, C50 ---- *)
Theorem C49_indexed_graham_is_hull : forall vertices indices opn pts r,
  ring_of indices opn -> picks vertices opn pts -> NoDup pts -> (4 <= length pts)%nat ->
  indexed_graham_scan vertices indices r ->
  exists out vs, r = Val out /\ picks vertices out vs /\ hull_result pts vs.
Proof.
  intros vertices indices opn pts r Hr Hp Hn Hl. assert (Hlen := picks_length _ _ _ Hp).
  assert (Hno : NoDup opn). { eapply picks_NoDup; eauto. }
  rewrite <- (ring_drop_index indices opn) in Hp by (auto; lia). apply indexed_graham_hull; auto.
Qed.
Print Assumptions C49_indexed_graham_is_hull.
Example C49_input : picks square [4; 0; 1; 2; 3]%nat [at_ 0 2; at_ 0 0; at_ 2 0; at_ 1 1; at_ 2 2] /\ NoDup [at_ 0 2; at_ 0 0; at_ 2 0; at_ 1 1; at_ 2 2].
Proof.
  split; [repeat constructor|nodup].
Qed.

Definition dup4 : list pt := [at_ 1 1; at_ 2 0; at_ 1 1; at_ 2 2].
Lemma atan2_pos y x : 0 < x -> Ratan2 y x = atan (y / x).
Proof. intros H. unfold Ratan2. destruct (Rlt_dec 0 x); auto; lra. Qed.
Theorem C50_duplicates_refuted :
  exists out, indexed_graham_scan dup4 [0; 1; 2; 3]%nat (Val out) /\ ~ exists vs, picks dup4 out vs /\ hull_result dup4 vs.
Proof.
  exists [0; 3; 0]%nat. split.
  - exists (Val [0; 3]%nat). split; [|reflexivity].
    set (key := fun i p => (((i, p), satan2 (vy (vsub p (at_ 1 1))) (vx (vsub p (at_ 1 1)))), vdist2 (at_ 1 1) p) : nat * pt * R * R).
    set (sorted := [key 1%nat (at_ 2 0); key 0%nat (at_ 1 1); key 2%nat (at_ 1 1); key 3%nat (at_ 2 2)]).
    assert (Hlow : indexed_find_lowest_x dup4 [0; 1; 2; 3]%nat = Val (0%nat, at_ 1 1)).
    { unfold indexed_find_lowest_x, dup4, idx. cbn [nth_error obind lowest_loop]. rewrite !spcmp_R. cbn [vx vy].
      repeat (destruct (Rlt_dec _ _); try lra). cbn [sltb RS]. destruct (Rltb_spec 1 1); [lra|]. auto. }
    assert (Hd : drop_loop_index [0; 1; 2; 3]%nat = [0; 1; 2; 3]%nat) by reflexivity.
    assert (Hc : forall p q x : pt, (sltb (cross_2d p q x) s0 || sulps (cross_2d p q x) s0)%bool = if Rle_dec (orient p q x) 0 then true else false).
    { intros p q x. rewrite cross_orient. cbn [sltb sulps s0 RS]. destruct (Rle_dec _ _), (Rltb_spec (orient p q x) 0), (Reqb_spec (orient p q x) 0); auto; lra. }
    assert (Hres : Val [0; 3]%nat = (let* (si, sp) := Val (0%nat, at_ 1 1) in
         let* pts := mapM (idx dup4) [0; 1; 2; 3]%nat in
         Val (map fst (rev (graham_loop snd (fun ip => Nat.eqb (fst ip) si) (map (unkey (S := RS)) sorted) [(si, sp)]))))).
    { cbn [obind mapM idx dup4 nth_error]. f_equal. unfold sorted, key. cbn [map unkey fst snd graham_loop Nat.eqb pop_right].
      repeat (rewrite Hc; unfold orient; cbn [vx vy]; destruct (Rle_dec _ _); [|exfalso; lra]; cbn [graham_loop pop_right map unkey fst snd Nat.eqb]).
      reflexivity. }
    rewrite Hres.
    pose proof (ig_scan dup4 [0; 1; 2; 3]%nat None sorted) as G. cbv zeta in G. rewrite Hd in G. rewrite Hlow in G.
    change (let* (ii, p) := Val (0%nat, at_ 1 1) in let* i := idx [0; 1; 2; 3]%nat ii in Val (i, p)) with (Val (0%nat, at_ 1 1)) in G.
    apply G; [cbn; lia|]. clear G Hres. intros si sp pts Ef Em. injection Ef as <- <-. 
    change (mapM (idx dup4) [0; 1; 2; 3]%nat) with (Val dup4) in Em. injection Em as <-. cbn [combine dup4 map]. 
    change (Permutation [key 0%nat (at_ 1 1); key 1%nat (at_ 2 0); key 2%nat (at_ 1 1); key 3%nat (at_ 2 2)] sorted /\
      (total_on (key_cmp (S := RS)) [key 0%nat (at_ 1 1); key 1%nat (at_ 2 0); key 2%nat (at_ 1 1); key 3%nat (at_ 2 2)] ->
       Sorted (fun a b => key_cmp (S := RS) a b <> Gt \/ a = b) sorted)). split.
    { apply perm_swap. }
    intros _. assert (K0 : forall i, key i (at_ 1 1) = ((i, at_ 1 1), 0, 0)).
    { intros i. unfold key. cbn [vsub vx vy satan2 RS ssub]. replace (1 - 1) with 0 by lra. unfold Ratan2.
      repeat (destruct (Rlt_dec _ _); try lra). f_equal. unfold vdist2, vmag2, vdot, vsub. cbn. lra. }
    assert (K1 : exists d, key 1%nat (at_ 2 0) = ((1%nat, at_ 2 0), atan (-1), d)).
    { eexists. unfold key. cbn [vsub vx vy satan2 RS ssub]. replace (2 - 1) with 1 by lra. replace (0 - 1) with (-1) by lra.
      rewrite atan2_pos by lra. replace (-1 / 1) with (-1) by lra. reflexivity. }
    assert (K3 : exists d, key 3%nat (at_ 2 2) = ((3%nat, at_ 2 2), atan 1, d)).
    { eexists. unfold key. cbn [vsub vx vy satan2 RS ssub]. replace (2 - 1) with 1 by lra.
      rewrite atan2_pos by lra. replace (1 / 1) with 1 by lra. reflexivity. }
    destruct K1 as (d1 & K1), K3 as (d3 & K3). unfold sorted. rewrite !K0, K1, K3.
    assert (A1 : atan (-1) < 0) by (rewrite <- atan_0; apply atan_increasing; lra).
    assert (A2 : 0 < atan 1) by (rewrite <- atan_0; apply atan_increasing; lra).
    repeat apply Sorted_cons; try apply Sorted_nil; try apply HdRel_nil; apply HdRel_cons; left; unfold key_cmp, pcmp_or_eq; cbn [fst snd]; rewrite !spcmp_R; repeat (destruct (Rlt_dec _ _); try lra); discriminate.
  - intros (vs & Hp & Hh). assert (vs = [at_ 1 1; at_ 2 2; at_ 1 1]).
    { inversion Hp as [|? p0 ? ? E0 H0]; subst. inversion H0 as [|? p1 ? ? E1 H1]; subst. inversion H1 as [|? p2 ? ? E2 H2]; subst. inversion H2; subst.
      cbn in *. congruence. }
    subst vs. clear Hp.
    assert (Hin : In (at_ 2 0) dup4) by (cbn; auto).
    inversion Hh as [v vs Ho Hlx E|a b Hab Ha Hb Hs Hlx E|a Ha Hall E]; subst.
    + destruct vs as [|x [|y [|]]]; cbn in *; try discriminate. destruct Ho as (_ & (Hl & _) & _). cbn in Hl. lia.
    + destruct (Hs _ Hin) as (t & Ht & E). unfold lerp in E. cbn [vx vy] in E. injection E as E1 E2. lra.
Qed.
Print Assumptions C50_duplicates_refuted.

(* ---- C51, C52 ---- *)
Theorem C51_gift_wrap_is_hull : forall fuel (pts opn : list pt), ring_of pts opn -> NoDup opn -> (4 <= length opn)%nat -> (length pts <= fuel)%nat ->
  exists vs, gift_wrap fuel pts = Val vs /\ hull_result pts vs.
Proof.
  intros fuel pts opn Hr Hn Hl Hf. destruct (ring_drop pts opn Hr Hn ltac:(lia)) as (D1 & D2 & _). apply gift_wrap_hull; auto. lia.
Qed.
Print Assumptions C51_gift_wrap_is_hull.
Theorem C51_indexed_gift_wrap_is_hull : forall fuel vertices indices opn pts,
  ring_of indices opn -> picks vertices opn pts -> NoDup pts -> (4 <= length pts)%nat -> (length pts <= fuel)%nat ->
  exists out vs, indexed_gift_wrap fuel vertices indices = Val out /\ picks vertices out vs /\ hull_result pts vs.
Proof.
  intros fuel vertices indices opn pts Hr Hp Hn Hl Hf. assert (Hlen := picks_length _ _ _ Hp).
  assert (Hno : NoDup opn). { eapply picks_NoDup; eauto. }
  rewrite <- (ring_drop_index indices opn) in Hp by (auto; lia). apply indexed_gift_hull; auto.
Qed.
Print Assumptions C51_indexed_gift_wrap_is_hull.
Example C51_input : NoDup square /\ (4 <= length square)%nat.
Proof. split; [|cbn; lia]. unfold square. nodup. Qed.
(* the start point occurs twice: the result repeats a vertex (f64; the real hull is (0,3) (1,1) (3,1)) *)
Theorem C52_duplicates_refuted : exists pts vs : list (V2 F64_),
  gift_wrap 20 pts = Val vs /\ indexed_gift_wrap 20 pts [0; 1; 2; 3]%nat = Val [0; 3; 1; 2; 3; 0]%nat /\
  vs = [P 0 3; P 1 1; P 3 1; P 0 3; P 1 1; P 0 3] /\ pts = [P 0 3; P 3 1; P 0 3; P 1 1].
Proof.
  exists [P 0 3; P 3 1; P 0 3; P 1 1], [P 0 3; P 1 1; P 3 1; P 0 3; P 1 1; P 0 3]. split; [fcomp2|]. split; [|auto].
  apply (out_same_eq (list_same Nat.eqb)); [apply list_same_eq; intros a b; apply Nat.eqb_eq|]. vm_compute. reflexivity.
Qed.
Print Assumptions C52_duplicates_refuted.

(* ---- C53 ---- *)
Theorem C53_hulls_agree : forall fuel (pts opn : list pt) r1 r2, ring_of pts opn -> NoDup opn -> (4 <= length opn)%nat -> (length pts <= fuel)%nat ->
  graham_scan pts r1 -> graham_scan_wo_atan2 pts r2 -> r1 = gift_wrap fuel pts /\ r2 = gift_wrap fuel pts.
Proof.
  intros fuel pts opn r1 r2 Hr Hn Hl Hf H1 H2.
  destruct (C51_gift_wrap_is_hull fuel pts opn Hr Hn Hl Hf) as (vs & E & Hh).
  destruct (C46_graham_scan_is_hull pts r1) as (vs1 & -> & Hh1); auto; [eapply ring_enough; eauto|].
  destruct (wo_hull pts opn r2 Hr Hn Hl H2) as (vs2 & -> & Hh2).
  rewrite E. split; f_equal; eapply hull_result_unique; eauto.
Qed.
Print Assumptions C53_hulls_agree.
Theorem C53_indexed_hulls_agree : forall fuel vertices indices opn pts r,
  ring_of indices opn -> picks vertices opn pts -> NoDup pts -> (4 <= length pts)%nat -> (length pts <= fuel)%nat ->
  indexed_graham_scan vertices indices r -> r = indexed_gift_wrap fuel vertices indices.
Proof.
  intros fuel vertices indices opn pts r Hr Hp Hn Hl Hf H.
  destruct (C51_indexed_gift_wrap_is_hull fuel vertices indices opn pts) as (o1 & v1 & E1 & P1 & Hh1); auto.
  destruct (C49_indexed_graham_is_hull vertices indices opn pts r) as (o2 & v2 & -> & P2 & Hh2); auto.
  rewrite E1. f_equal. assert (v1 = v2) by (eapply hull_result_unique; eauto). subst v2.
  assert (Hi1 : incl o1 indices /\ incl o2 indices).
  { assert (Hv : Forall (fun i => (i < length vertices)%nat) indices).
    { apply Forall_forall. intros i Hi. apply (ring_In _ _ _ Hr) in Hi. apply In_nth_error in Hi as (k & Hk).
      destruct (picks_nth _ _ _ _ _ Hp Hk) as (p & _ & E). apply nth_error_Some. congruence. }
    destruct (C47_hull_of_input_points RS fuel [] vertices indices Hv) as (_ & _ & _ & [_ G1] & G2).
    split; [apply G1; auto|]. destruct (G2 _ H) as (_ & _ & G3). auto. }
  destruct Hi1 as [I1 I2]. clear - P1 P2 I1 I2 Hp Hn Hr. revert o2 P2 I2. induction P1 as [|i p is ps Hi P1 IH]; intros o2 P2 I2; inversion P2 as [|j q js qs Hj P2']; subst; auto.
  f_equal.
  - eapply (picks_inj vertices opn opn pts Hn Hp j p); eauto; apply (ring_In _ _ _ Hr); [apply I2|apply I1]; left; auto.
  - apply IH; auto; intros x Hx; [apply I1|apply I2]; right; auto.
Qed.
Print Assumptions C53_indexed_hulls_agree.

(* ---- C54: refuted; true when all points are in one chunk ---- *)
Theorem C54_parallel_hull_refuted : exists vertices : list (V2 F64_),
  vertices = [P 2 0; P 0 5; P 4 5; P 2 3; P 4 4] /\
  (* the vertex (4,5), index 2, is outside the returned triangle (0,5) (2,0) (4,4) *)
  convex_hull_par 20 vertices [0; 1; 2; 3; 4]%nat 3 (Val [1; 0; 4; 1]%nat).
Proof.
  exists [P 2 0; P 0 5; P 4 5; P 2 3; P 4 4]. split; auto. set (vs := [P 2 0; P 0 5; P 4 5; P 2 3; P 4 4]).
  assert (N : forall x y : outcome (list nat), out_same (list_same Nat.eqb) x y = true -> x = y).
  { apply out_same_eq, list_same_eq. intros a b. apply Nat.eqb_eq. }
  assert (N1 : forall (x : outcome nat) y, out_same Nat.eqb x (Val y) = true -> x = Val y).
  { intros. apply (out_same_eq Nat.eqb); auto. intros a b. apply Nat.eqb_eq. }
  assert (E1 : index_triangle vs 0 1 2 = Val [0; 2; 1]%nat) by (apply N; vm_compute; reflexivity).
  assert (E2 : Val [1; 0; 4; 1]%nat = omap close_loop (reduce (combine_hulls 20 vs) [1]%nat (Leaf [[0; 2; 1]; [3; 4]]%nat))).
  { apply N. vm_compute. reflexivity. }
  rewrite E2. apply (cp_run 20 vs [0; 1; 2; 3; 4]%nat 3 1%nat [[0; 2; 1]; [3; 4]]%nat (Leaf [[0; 2; 1]; [3; 4]]%nat)).
  - cbn. lia.
  - lia.
  - apply N1. vm_compute. reflexivity.
  - change (chunks (length (drop_loop_index [0; 1; 2; 3; 4]%nat)) 3 (drop_loop_index [0; 1; 2; 3; 4]%nat)) with [[0; 1; 2]; [3; 4]]%nat.
    constructor; [|constructor; [|constructor]].
    + rewrite <- E1. apply ig_three; [cbn; lia|reflexivity].
    + apply (ig_small vs [3; 4]%nat None). right. cbn. lia.
  - reflexivity.
Qed.
Print Assumptions C54_parallel_hull_refuted.
(* (4,5) is strictly outside the triangle (0,5) (2,0) (4,4), which is counter-clockwise *)
Example C54_outside : orient (at_ 4 4) (at_ 0 5) (at_ 4 5) < 0 /\ 0 < orient (at_ 0 5) (at_ 2 0) (at_ 4 4).
Proof. unfold orient; cbn [vx vy]; lra. Qed.
(* the reduction need not even terminate: no amount of fuel is enough for three equal points and a fourth one *)
Lemma combine_cycle {S : Scalar} (v : list (V2 S)) ia ib start (C : VertexIndex -> Prop) :
  (forall cur, C cur -> exists e, C e /\ vindex e <> start /\
     (let* e0 := combine_next ia ib cur in combine_inner v (negb (from_a cur)) cur (if from_a cur then ib else ia) 0 e0 false) = Val e) ->
  forall fuel cur h, C cur -> combine_loop fuel v ia ib start cur h = NoFuel.
Proof.
  intros Hc. induction fuel as [|fuel IH]; intros cur h H; [reflexivity|]. cbn [combine_loop].
  destruct (Hc cur H) as (e & He & Hn & E). destruct (combine_next ia ib cur) as [e0| | |]; cbn [obind] in *; try discriminate. rewrite E. cbn [obind].
  destruct (Nat.eqb_spec (vindex e) start); [congruence|]. apply IH. auto.
Qed.
Definition vi_eqb (a b : VertexIndex) : bool := (Bool.eqb (from_a a) (from_a b) && Nat.eqb (vindex a) (vindex b) && Nat.eqb (index_index a) (index_index b))%bool.
Lemma vi_eqb_eq a b : vi_eqb a b = true -> a = b.
Proof.
  destruct a as [a1 a2 a3], b as [b1 b2 b3]. unfold vi_eqb. cbn. intros H. apply andb_true_iff in H as [H H3]. apply andb_true_iff in H as [H1 H2].
  apply eqb_prop in H1. apply Nat.eqb_eq in H2, H3. subst. auto.
Qed.
Theorem C54_parallel_hull_loops_refuted : exists vertices : list (V2 F64_), vertices = [P 1 0; P 1 0; P 1 0; P 2 0] /\
  forall fuel, convex_hull_par fuel vertices [0; 1; 2; 3]%nat 2 NoFuel.
Proof.
  exists [P 1 0; P 1 0; P 1 0; P 2 0]. split; auto. set (vs := [P 1 0; P 1 0; P 1 0; P 2 0]). intros fuel.
  assert (N1 : forall (x : outcome nat) y, out_same Nat.eqb x (Val y) = true -> x = Val y).
  { intros. apply (out_same_eq Nat.eqb); auto. intros a b. apply Nat.eqb_eq. }
  assert (NV : forall (x : outcome VertexIndex) y, out_same vi_eqb x (Val y) = true -> x = Val y).
  { intros. apply (out_same_eq vi_eqb); auto. apply vi_eqb_eq. }
  assert (L : combine_hulls fuel vs [0]%nat [2; 3]%nat = NoFuel).
  { cbn [combine_hulls]. apply (combine_cycle vs [0]%nat [2; 3]%nat 0%nat (fun c => c = mkVI true 0 0 \/ c = mkVI false 2 0 \/ c = mkVI false 3 1)); auto.
    intros cur [->|[->| ->]].
    - exists (mkVI false 3 1). split; auto. split; [cbn; lia|]. apply NV. vm_compute. reflexivity.
    - exists (mkVI false 3 1). split; auto. split; [cbn; lia|]. apply NV. vm_compute. reflexivity.
    - exists (mkVI false 2 0). split; auto. split; [cbn; lia|]. apply NV. vm_compute. reflexivity. }
  assert (E3 : NoFuel = omap close_loop (reduce (combine_hulls fuel vs) [0]%nat (Node (Leaf [[0; 1]]%nat) (Leaf [[2; 3]]%nat)))).
  { cbn [reduce fold_left obind]. rewrite L. destruct (combine_hulls fuel vs [0]%nat [0; 1]%nat) as [x|e| |] eqn:E; cbn [obind omap]; auto; exfalso.
    - destruct fuel as [|fuel]; [discriminate|]. revert E. cbn [combine_hulls combine_loop].
      assert (Es : (let* e0 := combine_next [0]%nat [0; 1]%nat (mkVI true 0 0) in combine_inner vs false (mkVI true 0 0) [0; 1]%nat 0 e0 false) = Val (mkVI false 0 0)) by (apply NV; vm_compute; reflexivity).
      cbn [from_a negb]. destruct (combine_next [0]%nat [0; 1]%nat (mkVI true 0 0)) as [e0| | |]; cbn [obind] in *; try discriminate. rewrite Es. cbn. discriminate.
    - destruct fuel as [|fuel]; [discriminate|]. revert E. cbn [combine_hulls combine_loop].
      assert (Es : (let* e0 := combine_next [0]%nat [0; 1]%nat (mkVI true 0 0) in combine_inner vs false (mkVI true 0 0) [0; 1]%nat 0 e0 false) = Val (mkVI false 0 0)) by (apply NV; vm_compute; reflexivity).
      cbn [from_a negb]. destruct (combine_next [0]%nat [0; 1]%nat (mkVI true 0 0)) as [e0| | |]; cbn [obind] in *; try discriminate. rewrite Es. cbn. discriminate. }
  rewrite E3.
  apply (cp_run fuel vs [0; 1; 2; 3]%nat 2 0%nat [[0; 1]; [2; 3]]%nat (Node (Leaf [[0; 1]]%nat) (Leaf [[2; 3]]%nat))).
  - cbn. lia.
  - lia.
  - apply N1. vm_compute. reflexivity.
  - change (chunks (length (drop_loop_index [0; 1; 2; 3]%nat)) 2 (drop_loop_index [0; 1; 2; 3]%nat)) with [[0; 1]; [2; 3]]%nat.
    constructor; [|constructor; [|constructor]].
    + apply (ig_small vs [0; 1]%nat None). right. cbn. lia.
    + apply (ig_small vs [2; 3]%nat None). right. cbn. lia.
  - reflexivity.
Qed.
Print Assumptions C54_parallel_hull_loops_refuted.
Theorem C54_one_chunk_partial : forall fuel (opn : list pt) chunk r,
  NoDup opn -> (4 <= length opn)%nat -> (length opn <= fuel)%nat -> (length opn <= chunk)%nat ->
  ls_convex_hull_par fuel opn chunk r -> exists vs, r = Val vs /\ hull_result opn vs.
Proof.
  intros fuel opn chunk r Hn Hl Hf Hc H. destruct H as [H|r H1 H]; [lia|].
  assert (Hd : drop_loop_index (seq 0 (length opn)) = seq 0 (length opn)).
  { apply ring_drop_index; [left; auto|apply seq_NoDup|rewrite seq_length; lia]. }
  assert (Hp : picks opn (seq 0 (length opn)) opn).
  { clear. assert (G : forall (pre l : list pt), picks (pre ++ l) (seq (length pre) (length l)) l).
    { intros pre l. revert pre. induction l as [|a l IH]; intros pre; cbn; [constructor|]. constructor.
      - rewrite nth_error_app2, Nat.sub_diag by auto. auto.
      - specialize (IH (pre ++ [a])). rewrite <- app_assoc, app_length, Nat.add_comm in IH. exact IH. }
    apply (G []). }
  destruct (par_single opn (seq 0 (length opn)) opn fuel chunk r) as (out & vs & -> & Hpo & Hh); auto.
  - rewrite Hd. auto.
  - rewrite Hd. apply seq_NoDup.
  - exists vs. split; auto. cbn [obind]. apply picks_mapM. auto.
Qed.
Print Assumptions C54_one_chunk_partial.
(* The early exit of the merge is only wrong when one task of the reduction folds several chunks one after the other.
   [convex_hull_par_by t]: the run whose reduction tree is t; [one_each t]: every task gets at most one chunk.
   In every such run, for pairwise different points and no chunk being just three collinear points, the result is the
   exact hull. Every result of convex_hull_par is the result of some tree (second theorem). *)
Theorem C54_one_chunk_per_task_partial : forall (vertices : list pt) indices (pts : list pt) fuel chunk t r,
  picks vertices (drop_loop_index indices) pts -> NoDup pts -> (length pts <= fuel)%nat ->
  (forall c a b d, In c (chunks (length (drop_loop_index indices)) chunk (drop_loop_index indices)) -> picks vertices c [a; b; d] -> orient a b d <> 0) ->
  one_each t -> convex_hull_par_by t fuel vertices indices chunk r ->
  exists out vs, r = Val out /\ picks vertices out vs /\ hull_result pts vs.
Proof. intros *. apply par_one_each. Qed.
Print Assumptions C54_one_chunk_per_task_partial.
Theorem C54_every_run_is_a_tree : forall fuel (vertices : list pt) indices (pts : list pt) chunk r,
  picks vertices (drop_loop_index indices) pts -> (3 < length pts)%nat -> chunk <> 0%nat ->
  (convex_hull_par fuel vertices indices chunk r <-> exists t, convex_hull_par_by t fuel vertices indices chunk r).
Proof.
  intros fuel v indices pts chunk r Hp Hl Hc. assert (E := picks_length _ _ _ Hp). apply par_by_iff; auto; [lia|].
  destruct (chunks_spec chunk Hc (length (drop_loop_index indices)) (drop_loop_index indices) (le_n _)) as [Ecc Hne].
  set (cs := chunks _ chunk _) in *. rewrite <- Ecc in Hp. apply picks_concat in Hp as (Ds & _ & HF). apply (par_start_some v cs Ds); auto.
  intros E0. rewrite E0 in Ecc. cbn in Ecc. rewrite <- Ecc in E. cbn in E. lia.
Qed.
Print Assumptions C54_every_run_is_a_tree.
(* three chunks of two, two and one points, each its own task: the hull of the square drops the middle point *)
Example C54_three_tasks : exists t r, one_each t /\ leaves t = [[0; 1]; [2; 3]; [4]]%nat /\ convex_hull_par_by t 5 square [0; 1; 2; 3; 4]%nat 2 r /\
  exists out vs, r = Val out /\ picks square out vs /\ hull_result square vs.
Proof.
  set (t := (Node (Leaf [[0; 1]]) (Node (Leaf [[2; 3]]) (Leaf [[4]])))%nat). change (drop_loop_index [0; 1; 2; 3; 4]%nat) with [0; 1; 2; 3; 4]%nat.
  assert (Hp : picks square [0; 1; 2; 3; 4]%nat square) by (unfold picks, square; repeat (apply Forall2_cons; [reflexivity|]); apply Forall2_nil).
  destruct (par_start_some square [[0; 1]; [2; 3]; [4]]%nat [[at_ 0 0; at_ 2 0]; [at_ 1 1; at_ 2 2]; [at_ 0 2]]) as (st & Est); [| |discriminate|].
  { unfold square. repeat (apply Forall2_cons; [repeat (apply Forall2_cons; [reflexivity|]); apply Forall2_nil|]). apply Forall2_nil. }
  { repeat (apply Forall_cons; [discriminate|]). apply Forall_nil. }
  assert (Hby : convex_hull_par_by t 5 square [0; 1; 2; 3; 4]%nat 2 (omap close_loop (reduce (combine_hulls 5 square) [st] t))).
  { split; [cbn; lia|]. split; [lia|]. exists st. change (drop_loop_index [0; 1; 2; 3; 4]%nat) with [0; 1; 2; 3; 4]%nat. split; [exact Est|]. split; auto. cbn.
    apply Forall2_cons; [apply (ig_small square [0; 1]%nat None); right; cbn; lia|].
    apply Forall2_cons; [apply (ig_small square [2; 3]%nat None); right; cbn; lia|].
    apply Forall2_cons; [apply (ig_small square [4]%nat None); left; cbn; lia|]. apply Forall2_nil. }
  assert (Ho : one_each t) by (cbn; lia).
  exists t. eexists. split; [exact Ho|]. split; [reflexivity|]. split; [exact Hby|].
  eapply (C54_one_chunk_per_task_partial square [0; 1; 2; 3; 4]%nat square 5 2 t); auto; [nodup|].
  intros c a b d Hin Hpc. assert (L := picks_length _ _ _ Hpc). cbn in Hin. repeat (destruct Hin as [<-|Hin]; [cbn in L; lia|]). destruct Hin.
Qed.

(* ---- C55 ---- *)
Theorem C55_parallel_hull_indices : forall (S : Scalar) fuel (vertices : list (V2 S)) indices chunk r,
  Forall (fun i => (i < length vertices)%nat) indices -> chunk <> 0%nat -> convex_hull_par fuel vertices indices chunk r ->
  r <> Panic /\ forall out, r = Val out -> incl out indices /\
    ((5 <= length indices)%nat -> exists a, hd_error out = Some a /\ last out a = a).
Proof.
  intros S fuel vertices indices chunk r Hv Hc H. pose proof (par_safe vertices fuel indices chunk r Hv Hc H) as Hs.
  split; [intros ->; exact Hs|]. intros out ->. split; [exact Hs|]. intros Hl.
  apply (par_closed vertices fuel indices chunk); auto. unfold drop_loop_index. destruct indices as [|i t]; [cbn in Hl; lia|].
  destruct (Nat.eqb _ _); [rewrite removelast_firstn_len, firstn_length; lia|lia].
Qed.
Print Assumptions C55_parallel_hull_indices.

(* ---- C56 - C59 ---- *)
Theorem C56_contains_inclusive : forall (vs input : list pt) (p : pt), convex_polygon vs -> ring_of input vs ->
  exists r, contains_point_inclusive input p = Val r /\ (r = true <-> inside vs p).
Proof. apply inclusive_spec. Qed.
Print Assumptions C56_contains_inclusive.
Example C56_polygon : convex_polygon [at_ 0 0; at_ 2 0; at_ 2 2; at_ 0 2] /\ inside [at_ 0 0; at_ 2 0; at_ 2 2; at_ 0 2] (at_ 2 1) /\
  ~ inside [at_ 0 0; at_ 2 0; at_ 2 2; at_ 0 2] (at_ 3 1).
Proof. rewrite !rectangle_inside by lra. cbn [vx vy]. split; [apply rectangle_convex; lra|]. lra. Qed.
Theorem C57_contains_exclusive_sound : forall (vs input : list pt) (p : pt), convex_polygon vs -> ring_of input vs ->
  exists r, contains_point_exclusive input p = Val r /\ (r = true -> strictly_inside vs p).
Proof. apply exclusive_sound. Qed.
Print Assumptions C57_contains_exclusive_sound.

Definition quad : list pt := [at_ 0 1; at_ 2 0; at_ 2 2; at_ 0 2].
Lemma quad_convex : convex_polygon quad.
Proof.
  unfold quad. split; [cbn; lia|]. split.
  - nodup.
  - intros a b c He Hc Ha Hb.
    cbn in He. repeat (destruct He as [He|He]; [injection He as <- <-|]); try destruct He;
      cbn in Hc; repeat (destruct Hc as [<-|Hc]); try congruence; try destruct Hc; unfold orient; cbn [vx vy]; lra.
Qed.
Theorem C58_contains_exclusive_complete_refuted : convex_polygon quad /\ strictly_inside quad (at_ 1 1) /\
  contains_point_exclusive (quad ++ [at_ 0 1]) (at_ 1 1) = Val false.
Proof.
  split; [apply quad_convex|]. split.
  - intros a b He. unfold quad in He. cbn in He. repeat (destruct He as [He|He]; [injection He as <- <-|]); try destruct He; unfold orient; cbn [vx vy]; lra.
  - unfold quad, contains_point_exclusive, contains_with. cbn [app last length Nat.eqb andb].
    assert (E : veqb (at_ 0 1) (at_ 0 1) = true) by (apply veqb_R; auto). rewrite E.
    change (idx [at_ 0 1; at_ 2 0; at_ 2 2; at_ 0 2; at_ 0 1] 1) with (Val (at_ 2 0)). cbn [obind length].
    cbn [search length Nat.ltb Nat.leb orb andb Nat.div Nat.divmod fst snd Nat.sub].
    change (idx [at_ 2 0; at_ 2 2; at_ 0 2; at_ 0 1] 1) with (Val (at_ 2 2)). change (idx [at_ 2 0; at_ 2 2; at_ 0 2; at_ 0 1] 2) with (Val (at_ 0 2)).
    change (idx [at_ 2 0; at_ 2 2; at_ 0 2; at_ 0 1] 0) with (Val (at_ 2 0)). cbn [obind negb].
    assert (E1 : is_point_left_allow_collinear (at_ 2 2) (at_ 0 2) (at_ 1 1) = true) by (apply left_c_R; unfold orient; cbn [vx vy]; lra).
    assert (E2 : is_point_left_allow_collinear (at_ 2 0) (at_ 0 2) (at_ 1 1) = true) by (apply left_c_R; unfold orient; cbn [vx vy]; lra).
    rewrite E1, E2. cbn [negb andb orb skipn search length Nat.ltb Nat.leb obind final_test].
    assert (E3 : is_point_left (at_ 2 0) (at_ 0 2) (at_ 1 1) = false).
    { apply not_true_iff_false. rewrite left_R. unfold orient; cbn [vx vy]; lra. }
    rewrite E3. reflexivity.
Qed.
Print Assumptions C58_contains_exclusive_complete_refuted.
(* what does hold: an interior point is found exactly when it is on no line from the pivot of the search (the first
   vertex of an open polygon, the second of a closed one) to another vertex; in particular always for triangles *)
Theorem C58_contains_exclusive_partial : forall (p : pt),
  (forall o t, convex_polygon (o :: t) -> exists r, contains_point_exclusive (o :: t) p = Val r /\
     (r = true <-> strictly_inside (o :: t) p /\ forall v, In v (o :: t) -> v <> o -> orient o v p <> 0)) /\
  (forall v o t, convex_polygon (v :: o :: t) -> exists r, contains_point_exclusive ((v :: o :: t) ++ [v]) p = Val r /\
     (r = true <-> strictly_inside (v :: o :: t) p /\ forall w, In w (v :: o :: t) -> w <> o -> orient o w p <> 0)) /\
  (forall a b c input, convex_polygon [a; b; c] -> ring_of input [a; b; c] -> exists r, contains_point_exclusive input p = Val r /\
     (r = true <-> strictly_inside [a; b; c] p)).
Proof.
  intros p. split; [intros; apply exclusive_open; auto|]. split; [intros; apply exclusive_closed; auto|].
  intros a b c input Hc [->|(x & m & E & ->)].
  - destruct (exclusive_open a [b; c] p Hc) as (r & E & H). exists r. split; auto. rewrite H. split; [tauto|]. intros Hs. split; auto.
    intros v [<-|[<-|[<-|[]]]] Hv; [congruence| |].
    + assert (0 < orient a b p) by (apply Hs; cbn; auto). lra.
    + assert (0 < orient c a p) by (apply Hs; cbn; auto). rewrite orient_swap. lra.
  - injection E as <- <-. destruct (exclusive_closed a b [c] p Hc) as (r & E & H). exists r. split; auto. rewrite H. split; [tauto|]. intros Hs. split; auto.
    intros v [<-|[<-|[<-|[]]]] Hv; [|congruence|].
    + assert (0 < orient a b p) by (apply Hs; cbn; auto). rewrite orient_swap. lra.
    + assert (0 < orient b c p) by (apply Hs; cbn; auto). lra.
Qed.
Print Assumptions C58_contains_exclusive_partial.
Example C58_found : contains_point_exclusive (quad ++ [at_ 0 1]) (at_ 1.5 1) = Val true.
Proof.
  destruct (C58_contains_exclusive_partial (at_ 1.5 1)) as (_ & H & _). destruct (H (at_ 0 1) (at_ 2 0) [at_ 2 2; at_ 0 2] quad_convex) as (r & E & Hr).
  unfold quad. rewrite E. f_equal. apply Hr. split.
  - intros a b He. cbn in He. repeat (destruct He as [He|He]; [injection He as <- <-|]); try destruct He; unfold orient; cbn [vx vy]; lra.
  - intros w Hw Hne. cbn in Hw. repeat (destruct Hw as [<-|Hw]); try congruence; try destruct Hw; unfold orient; cbn [vx vy]; lra.
Qed.

(* degenerate hulls: a repeated point contains everything; a segment there and back contains its whole line *)
Lemma contains_double (a p : pt) : contains_point_inclusive [a; a] p = Val true.
Proof.
  unfold contains_point_inclusive, contains_with. cbn [last length Nat.eqb].
  assert (E : veqb a a = true) by (apply veqb_R; auto). rewrite E. cbn [negb andb]. change (idx [a; a] 1) with (Val a). cbn [obind length search Nat.ltb Nat.leb orb andb final_test last windows forallb].
  assert (L : is_point_left_allow_collinear a a p = true) by (apply left_c_R; rewrite orient_aab; lra). rewrite L. auto.
Qed.
Lemma contains_segment (a b p : pt) : a <> b -> contains_point_inclusive [a; b; a] p =
  Val (is_point_left_allow_collinear b a p && is_point_left_allow_collinear a b p)%bool.
Proof.
  intros Hab. unfold contains_point_inclusive, contains_with. cbn [last length Nat.eqb andb].
  assert (E : veqb a a = true) by (apply veqb_R; auto). rewrite E. change (idx [a; b; a] 1) with (Val b).
  cbn [obind length search Nat.ltb Nat.leb orb andb final_test last windows forallb fst snd]. rewrite andb_true_r. auto.
Qed.
Theorem C59_degenerate_refuted : (forall a p : pt, contains_point_inclusive [a; a] p = Val true) /\
  (forall (a b : pt) t, a <> b -> contains_point_inclusive [a; b; a] (lerp a b t) = Val true).
Proof.
  split; [apply contains_double|]. intros a b t Hab. rewrite contains_segment by auto.
  assert (O : orient a b (lerp a b t) = 0) by apply orient_lerp.
  rewrite (proj2 (left_c_R a b _)) by lra. rewrite (proj2 (left_c_R b a _)) by (rewrite orient_swap; lra). auto.
Qed.
Print Assumptions C59_degenerate_refuted.
(* what remains true: a point reported to be in a segment hull is on its line *)
Theorem C59_degenerate_partial : forall a b p : pt, a <> b -> exists r, contains_point_inclusive [a; b; a] p = Val r /\ (r = true <-> orient a b p = 0).
Proof.
  intros a b p Hab. rewrite contains_segment by auto. eexists. split; [reflexivity|]. rewrite andb_true_iff, !left_c_R, (orient_swap b a). lra.
Qed.
Print Assumptions C59_degenerate_partial.

(* ---- C60 ---- *)
Theorem C60_hull_in_hull : forall (vs a b order : list pt), convex_polygon vs -> ring_of a vs -> Permutation b order ->
  exists r, contains_convex_hull a b = Val r /\ contains_convex_hull_par a b order = Val r /\ (r = true <-> forall p, In p b -> inside vs p).
Proof.
  intros vs a b order Hc Hr Hp. destruct (hull_in_hull vs a b Hc Hr) as (r1 & E1 & H1). destruct (hull_in_hull_par vs a b order Hc Hr Hp) as (r2 & E2 & H2).
  exists r1. split; auto. split; auto. rewrite E2. f_equal. apply eq_true_iff_eq. rewrite H1, H2. tauto.
Qed.
Print Assumptions C60_hull_in_hull.

(* ---- C61 ---- *)
Definition mirror (o : Orientation) : Orientation := match o with OLeft => ORight | ORight => OLeft | OCollinear => OCollinear end.
Lemma orientation_sign (a b c : pt) : (point_orientation a b c = OLeft <-> 0 < orient a b c) /\ (point_orientation a b c = ORight <-> orient a b c < 0) /\
  (point_orientation a b c = OCollinear <-> orient a b c = 0).
Proof. destruct (orientation_cases a b c) as [[-> H]|[[-> H]|[-> H]]]; repeat split; intros; try discriminate; try lra; auto. Qed.
Theorem C61_orientation : forall a b c : pt,
  (point_orientation a b c = OLeft <-> 0 < orient a b c) /\ (point_orientation a b c = ORight <-> orient a b c < 0) /\
  (point_orientation a b c = OCollinear <-> orient a b c = 0) /\
  (is_point_left a b c = true <-> 0 < orient a b c) /\ (is_point_left_allow_collinear a b c = true <-> 0 <= orient a b c) /\
  point_orientation b c a = point_orientation a b c /\ point_orientation b a c = mirror (point_orientation a b c) /\
  point_orientation a c b = mirror (point_orientation a b c).
Proof.
  intros a b c. destruct (orientation_sign a b c) as (H1 & H2 & H3). split; auto. split; auto. split; auto.
  split; [apply left_R|]. split; [apply left_c_R|].
  assert (R1 : orient b c a = orient a b c) by (unfold orient; destruct a, b, c; cbn; ring).
  assert (R2 : orient b a c = - orient a b c) by (unfold orient; destruct a, b, c; cbn; ring).
  assert (R3 : orient a c b = - orient a b c) by (unfold orient; destruct a, b, c; cbn; ring).
  destruct (orientation_cases a b c) as [[-> H]|[[-> H]|[-> H]]]; cbn [mirror]; repeat split; apply orientation_sign; lra.
Qed.
Print Assumptions C61_orientation.

(* ---- C62: distinct points; with duplicates the comparator is inconsistent ---- *)
Theorem C62_scan_without_atan2_partial : forall (pts opn : list pt) r, ring_of pts opn -> NoDup opn -> (4 <= length opn)%nat ->
  graham_scan_wo_atan2 pts r -> exists vs, r = Val vs /\ hull_result pts vs.
Proof. apply wo_hull. Qed.
Print Assumptions C62_scan_without_atan2_partial.
(* equal points compare Less both ways, so that no sort is promised *)
Theorem C62_comparator_inconsistent_refuted : forall (start p : pt) l1 l2 l3,
  wo_cmp start p p = Some Lt /\ ~ total_on (fun b c => match wo_cmp start b c with Some o => o | None => Eq end) (l1 ++ p :: l2 ++ p :: l3).
Proof.
  intros start p l1 l2 l3. assert (E : wo_cmp start p p = Some Lt).
  { unfold wo_cmp. rewrite cross_orient, spcmp_R. assert (O : orient start p p = 0) by apply orient_abb. rewrite O. cbn [s0 RS].
    destruct (Rlt_dec 0 0); [lra|]. cbn [sltb RS]. destruct (Rltb_spec (vdist2 start p) (vdist2 start p)); [lra|auto]. }
  split; auto. intros [H _]. specialize (H l1 p l2 p l3 eq_refl). cbv beta in H. rewrite E in H. discriminate.
Qed.
Print Assumptions C62_comparator_inconsistent_refuted.

(* ---- C78 ---- *)
Theorem C78_lowest_point : forall pts : list pt, pts <> [] -> exists k s, find_lowest_x pts = Val (k, s) /\ nth_error pts k = Some s /\ forall p, In p pts -> lex_le s p.
Proof. apply find_lowest_R. Qed.
Print Assumptions C78_lowest_point.
Theorem C78_nan_rejected : forall (S : Scalar) fuel (pts : list (V2 S)) p, (5 <= length pts)%nat -> In p pts ->
  (forall y, spcmp (vx p) y = None /\ spcmp y (vx p) = None) ->
  gift_wrap fuel pts = Fail InvalidData /\ (forall r, graham_scan pts r -> r = Fail InvalidData) /\
  (forall r, graham_scan_wo_atan2 pts r -> r = Fail InvalidData).
Proof. intros S fuel pts p. apply nan_rejected. Qed.
Print Assumptions C78_nan_rejected.
Example C78_nan_f64 : forall y, spcmp (S := F64_) S754_nan y = None /\ spcmp (S := F64_) y S754_nan = None.
Proof. intros y. unfold spcmp. cbn. destruct y as [[]|[]| |[] m e]; auto. Qed.

(* ---- C82: the hull depends only on the set of points ---- *)
Theorem C82_hull_depends_on_set : forall (pts1 pts2 : list pt) r1 r2, enough pts1 -> enough pts2 -> (forall p, In p pts1 <-> In p pts2) ->
  graham_scan pts1 r1 -> graham_scan pts2 r2 -> r1 = r2.
Proof.
  intros pts1 pts2 r1 r2 E1 E2 Hs H1 H2. destruct (C46_graham_scan_is_hull pts1 r1 E1 H1) as (v1 & -> & Hh1).
  destruct (C46_graham_scan_is_hull pts2 r2 E2 H2) as (v2 & -> & Hh2). f_equal. eapply hull_result_unique; [|exact Hh2].
  eapply hull_result_ext; eauto.
Qed.
Print Assumptions C82_hull_depends_on_set.

(* ---- C83: a hull contains its points ---- *)
Theorem C83_hull_contains_input : forall (pts : list pt) r, enough pts -> (exists a b c, In a pts /\ In b pts /\ In c pts /\ orient a b c <> 0) ->
  graham_scan pts r -> exists vs, r = Val vs /\ forall p, In p pts -> ls_contains_inclusive vs p = Val true.
Proof.
  intros pts r He (a & b & c & Ha & Hb & Hc & Ho) H. destruct (C46_graham_scan_is_hull pts r He H) as (vs & -> & Hh). exists vs. split; auto.
  intros p Hp. inversion Hh as [v vs' (Hi & Hcv & Hin) Hl E|x y Hxy Hx Hy Hs Hl E|x Hx Hall E]; subst.
  - unfold ls_contains_inclusive. assert (Ec : is_connected (v :: vs' ++ [v]) = true) by (unfold is_connected; rewrite last_cons_snoc; apply veqb_R; auto).
    rewrite Ec. destruct (inclusive_spec (v :: vs') (v :: vs' ++ [v]) p Hcv) as (rr & -> & Hr); [right; exists v, vs'; auto|].
    f_equal. apply Hr. apply Hin. auto.
  - exfalso. destruct (Hs a Ha) as (t1 & _ & ->), (Hs b Hb) as (t2 & _ & ->), (Hs c Hc) as (t3 & _ & ->). apply Ho. unfold orient, lerp. cbn. ring.
  - exfalso. rewrite (Hall a Ha), (Hall b Hb), (Hall c Hc) in Ho. rewrite orient_aab in Ho. lra.
Qed.
Print Assumptions C83_hull_contains_input.

(* ---- C84: the hull is the smallest convex region: every half plane that contains the input contains it ---- *)
Theorem C84_hull_is_smallest : forall (pts : list pt) v vs a b p, graham_scan pts (Val (v :: vs ++ [v])) -> enough pts -> (3 <= length (v :: vs))%nat ->
  inside (v :: vs) p -> (forall q, In q pts -> 0 <= orient a b q) -> 0 <= orient a b p.
Proof.
  intros pts v vs a b p H He Hl Hin Hh. destruct (C46_graham_scan_is_hull pts _ He H) as (w & E & Hr). injection E as <-.
  inversion Hr as [v' vs' (Hi & Hcv & _) _ E|x y Hxy Hx Hy Hs _ E|x Hx Hall E].
  - assert (vs' = vs) by (match goal with K : vs' ++ _ = vs ++ _ |- _ => apply app_inj_tail in K; apply K end). subst.
    apply (inside_minimal (v :: vs)); auto.
  - exfalso. assert (K : vs ++ [v] = [y; x]) by congruence. apply (f_equal (@length _)) in K. rewrite app_length in K. cbn in *. lia.
  - exfalso. destruct vs; discriminate.
Qed.
Print Assumptions C84_hull_is_smallest.

(* ---- C23, C24 ---- *)
Theorem C23_aabb_outline : forall (lo hi p : pt), vx lo < vx hi -> vy lo < vy hi ->
  exists outline, aabb2_convex_hull (Some (lo, hi)) = Some outline /\ aabb2_to_linestring (Some (lo, hi)) = outline /\
    outline = [lo; at_ (vx hi) (vy lo); hi; at_ (vx lo) (vy hi); lo] /\
    convex_polygon [lo; at_ (vx hi) (vy lo); hi; at_ (vx lo) (vy hi)] /\
    ls_contains_inclusive outline p = Val (aabb2_contains_point (Some (lo, hi)) p) /\
    (aabb2_contains_point (Some (lo, hi)) p = true <-> vx lo <= vx p <= vx hi /\ vy lo <= vy p <= vy hi).
Proof.
  intros [x0 y0] [x1 y1] p Hx Hy. cbn [vx vy] in *. exists [at_ x0 y0; at_ x1 y0; at_ x1 y1; at_ x0 y1; at_ x0 y0].
  assert (Hb : aabb2_contains_point (Some (at_ x0 y0, at_ x1 y1)) p = true <-> x0 <= vx p <= x1 /\ y0 <= vy p <= y1).
  { cbn [aabb2_contains_point]. unfold aabb2_contains_. cbn [fst snd vx vy sltb sulps RS]. rewrite !andb_true_iff, !orb_true_iff, !Rltb_true, !Reqb_true. split; [intros [[[]]]|intros [[] []]]; rsimp; repeat split; dlra. }
  split; auto. split; auto. split; auto. split; [apply rectangle_convex; auto|]. split; auto.
  unfold ls_contains_inclusive. assert (Ec : is_connected [at_ x0 y0; at_ x1 y0; at_ x1 y1; at_ x0 y1; at_ x0 y0] = true) by (unfold is_connected; cbn [last]; apply veqb_R; auto).
  rewrite Ec. destruct (inclusive_spec [at_ x0 y0; at_ x1 y0; at_ x1 y1; at_ x0 y1] [at_ x0 y0; at_ x1 y0; at_ x1 y1; at_ x0 y1; at_ x0 y0] p) as (r & -> & Hr).
  - apply rectangle_convex; auto.
  - right. exists (at_ x0 y0), [at_ x1 y0; at_ x1 y1; at_ x0 y1]. auto.
  - f_equal. apply eq_true_iff_eq. rewrite Hr, Hb. apply rectangle_inside; auto.
Qed.
Print Assumptions C23_aabb_outline.
Theorem C24_degenerate_outline_refuted : forall a p : pt, p <> a ->
  exists outline, aabb2_convex_hull (aabb2_new a) = Some outline /\
    ls_contains_inclusive outline p = Val true /\ aabb2_contains_point (aabb2_new a) p = false.
Proof.
  intros a p Hp. exists [a; a; a; a; a]. split; [destruct a; reflexivity|]. split.
  - assert (E : veqb a a = true) by (apply veqb_R; auto). unfold ls_contains_inclusive, is_connected, contains_point_inclusive, contains_with. cbn [last length Nat.eqb andb]. rewrite E.
    change (idx [a; a; a; a; a] 1) with (Val a). cbn [obind length search Nat.ltb Nat.leb orb andb Nat.div Nat.divmod fst snd Nat.sub].
    change (idx [a; a; a; a] 1) with (Val a). change (idx [a; a; a; a] 2) with (Val a). change (idx [a; a; a; a] 0) with (Val a). cbn [obind].
    assert (L : is_point_left_allow_collinear a a p = true) by (apply left_c_R; rewrite orient_aab; lra). rewrite L.
    cbn [negb andb orb skipn search length Nat.ltb Nat.leb obind final_test windows forallb last fst snd]. rewrite L. auto.
  - apply not_true_iff_false. intros H. apply Hp. unfold aabb2_new in H. cbn [aabb2_contains_point] in H. unfold aabb2_contains_ in H.
    cbn [fst snd sltb sulps RS] in H. rewrite !andb_true_iff, !orb_true_iff, !Rltb_true, !Reqb_true in H. destruct H as [[[H1 H2] H3] H4].
    apply V2_ext; rsimp; dlra.
Qed.
Print Assumptions C24_degenerate_outline_refuted.
