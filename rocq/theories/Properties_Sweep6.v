(* The sweep: the same input gives the same reports, and the reports do not depend on how the lines are numbered, directed, placed or
   scaled (C136, C137); other movements (C138); self-intersection of the same line string, moved, scaled or reversed (C139).
   Models: Sweep.v, Geo2.v. Vocabulary: SweepSpec.v. *)
From Coq Require Import ZArith Reals Lra Lia Psatz Sorting.Sorted Sorting.Permutation Floats.SpecFloat.
From Verif Require Import Prelude Scalar RInst Geo2 GeoSpec DistR IsectProofs Sweep SweepSpec SweepRun SweepMap SweepGeo SweepProofs SweepIdx SweepSym2 SweepSym3 Flt Properties_Float Properties_Sweep Properties_Sweep2 SweepFront SweepTree BTree Properties_Sweep3.
Local Open Scope R_scope.

(* the lines in another order and possibly reversed: [f i] is the new number of line i *)
Definition renumbered (input input' : list (Line2 RS)) (f : nat -> nat) : Prop :=
  length input' = length input /\ (forall i, (i < length input)%nat -> (f i < length input)%nat) /\
  (forall i j, (i < length input)%nat -> (j < length input)%nat -> f i = f j -> i = j) /\
  forall i l, nth_error input i = Some l -> nth_error input' (f i) = Some l \/ nth_error input' (f i) = Some (@mkL RS (lend l) (lstart l)).
(* x scaled by a, y by c, moved by (b, d) *)
Definition moved (a b c d : R) (p : pt) : pt := @mkV2 RS (a * vx p + b) (c * vy p + d).
Definition moved_line (T : pt -> pt) (l : Line2 RS) : Line2 RS := @mkL RS (T (lstart l)) (T (lend l)).
(* the number used as infinity is greater than every slope, dy/dx and dx/dy *)
Definition below (inf : R) (input : list (Line2 RS)) : Prop := 0 < inf /\ forall l, In l input ->
  (vx (lstart l) <> vx (lend l) -> (vy (lend l) - vy (lstart l)) / (vx (lend l) - vx (lstart l)) < inf) /\
  (vy (lstart l) <> vy (lend l) -> (vx (lend l) - vx (lstart l)) / (vy (lend l) - vy (lstart l)) < inf).
(* edge i of a vertex list has these end points *)
Definition edge_ends (vertices : list pt) (edges : list (nat * nat)) (i : nat) (p q : pt) : Prop :=
  exists a b, nth_error edges i = Some (a, b) /\ nth_error vertices a = Some p /\ nth_error vertices b = Some q.

(* ---- lemmas ---- *)
Lemma inj_sur n f : (forall i, (i < n)%nat -> (f i < n)%nat) -> (forall i j, (i < n)%nat -> (j < n)%nat -> f i = f j -> i = j) ->
  forall j, (j < n)%nat -> exists i, (i < n)%nat /\ f i = j.
Proof.
  intros H1 H2 j Hj.
  assert (N : NoDup (map f (seq 0 n))).
  { assert (B : forall i, In i (seq 0 n) -> (i < n)%nat) by (intros i Hi; apply in_seq in Hi; lia). revert B. assert (N := seq_NoDup n 0). revert N. generalize (seq 0 n).
    intros l N. induction N as [|i l Hi N IH]; cbn; intros B; constructor; auto. rewrite in_map_iff. intros (x & Q & Hx). apply H2 in Q; auto. congruence. }
  assert (I : incl (map f (seq 0 n)) (seq 0 n)). { intros x Hx. apply in_map_iff in Hx as (i & <- & Hi). rewrite in_seq in *. specialize (H1 i). lia. }
  assert (K : incl (seq 0 n) (map f (seq 0 n))) by (apply NoDup_length_incl; auto; rewrite map_length; lia).
  assert (J : In j (map f (seq 0 n))) by (apply K, in_seq; lia). apply in_map_iff in J as (i & <- & Hi). rewrite in_seq in Hi. exists i. split; auto; lia.
Qed.
Lemma sorted_perm_eq : forall l l' : list nat, StronglySorted le l -> StronglySorted le l' -> Permutation l l' -> l = l'.
Proof.
  induction l as [|a l IH]; intros l' S1 S2 P; [apply Permutation_nil in P; auto|].
  destruct l' as [|b l']; [apply Permutation_sym, Permutation_nil in P; discriminate|].
  apply StronglySorted_inv in S1 as [S1 F1]. apply StronglySorted_inv in S2 as [S2 F2]. rewrite Forall_forall in F1, F2.
  assert (a = b).
  { assert (I1 : In a (b :: l')) by (apply (Permutation_in _ P); left; auto). assert (I2 : In b (a :: l)) by (apply (Permutation_in _ (Permutation_sym P)); left; auto).
    destruct I1 as [|I1]; auto. destruct I2 as [|I2]; auto. specialize (F1 _ I2). specialize (F2 _ I1). lia. }
  subst b. f_equal. apply IH; auto. eapply Permutation_cons_inv; eauto.
Qed.
Lemma map_idn (l : list nat) : map (fun i => i) l = l.
Proof. induction l as [|i l IH]; cbn; congruence. Qed.
Lemma Tl_one l : Tl (scaled 1 0 1 0) l = l.
Proof. assert (E : forall p, scaled 1 0 1 0 p = p) by (intros p; unfold scaled; apply V2_ext; rsimp; lra). unfold Tl. rewrite !E. destruct l; auto. Qed.
Lemma arrange_scaled a b c d l : 0 < a -> 0 < c -> arrange (S := RS) (Tl (scaled a b c d) l) = Tl (scaled a b c d) (arrange l).
Proof.
  intros Ha Hc. unfold arrange. cbn [lstart lend Tl]. destruct (key_lt (S := RS) (lstart l) (lend l)) eqn:E.
  - apply key_lt_R, (scaled_klt a b c d Ha Hc), key_lt_R in E. rewrite E. auto.
  - destruct (key_lt (S := RS) (scaled a b c d (lstart l)) (scaled a b c d (lend l))) eqn:F; auto. apply key_lt_R in F.
    destruct (klt_total (lstart l) (lend l)) as [H|[H|H]].
    + apply key_lt_R in H. congruence.
    + rewrite H in F. exfalso. unfold klt in F. lra.
    + apply (scaled_klt a b c d Ha Hc) in H. exfalso. unfold klt in *. lra.
Qed.
Lemma arrange_rev (l : Line2 RS) : arrange (S := RS) (@mkL RS (lend l) (lstart l)) = arrange l.
Proof.
  unfold arrange. cbn [lstart lend]. destruct (key_lt (S := RS) (lstart l) (lend l)) eqn:E, (key_lt (S := RS) (lend l) (lstart l)) eqn:F; auto; [| |].
  - apply key_lt_R in E, F. exfalso. unfold klt in *. lra.
  - destruct l; auto.
  - destruct (klt_total (lstart l) (lend l)) as [H|[H|H]]; [apply key_lt_R in H; congruence| |apply key_lt_R in H; congruence]. destruct l as [s e]. cbn in H. subst. auto.
Qed.
Lemma ratio_rev (x y : R) : (- x) / (- y) = x / y.
Proof. destruct (Req_dec y 0) as [->|N]; [unfold Rdiv; rewrite Ropp_0, Rinv_0; lra|field; lra]. Qed.
Lemma over_arrange a c inf inf' l : over a c inf inf' l -> over a c inf inf' (arrange l).
Proof.
  unfold arrange. destruct (key_lt _ _); auto. intros [O|(O1 & O2 & O3 & O4)]; [left; auto|right]. cbn [lstart lend]. split; auto. split; auto.
  assert (X : forall p q : pt, (vy p - vy q) / (vx p - vx q) = (vy q - vy p) / (vx q - vx p) /\ (vx p - vx q) / (vy p - vy q) = (vx q - vx p) / (vy q - vy p)).
  { intros p q. split; rewrite <- ratio_rev; f_equal; rring. }
  destruct (X (lstart l) (lend l)) as [E1 E2]. rewrite E1, E2. split; intros N; [apply O3|apply O4]; auto.
Qed.
Lemma paired_input inf inf' f a b c d input input' : 0 < a -> 0 < c -> length input' = length input ->
  (forall i, (i < length input)%nat -> (f i < length input)%nat) ->
  (forall i j, (i < length input)%nat -> (j < length input)%nat -> f i = f j -> i = j) ->
  (forall i l, nth_error input i = Some l -> nth_error input' (f i) = Some (Tl (scaled a b c d) l) \/ nth_error input' (f i) = Some (Tl (scaled a b c d) (@mkL RS (lend l) (lstart l)))) ->
  (forall l, In l input -> over a c inf inf' l) ->
  paired inf inf' f a b c d (map (@arrange RS) input) (map (@arrange RS) input').
Proof.
  intros Ha Hc H1 H2 H3 H4 H5.
  assert (G : forall i l, nth_error input i = Some l -> nth_error (map (@arrange RS) input') (f i) = Some (Tl (scaled a b c d) (arrange l))).
  { intros i l E. rewrite <- arrange_scaled by auto. destruct (H4 i l E) as [K|K]; [apply map_nth_error; auto|].
    rewrite (map_nth_error (@arrange RS) _ _ K), arrange_scaled, arrange_scaled, arrange_rev by auto. auto. }
  unfold paired, ln. split; [|split; [|split]].
  - intros i j li lj Hi Hj. apply H3; rewrite <- (map_length (@arrange RS)); apply nth_error_Some; congruence.
  - intros i l Hi. rewrite nth_error_map in Hi. destruct (nth_error input i) as [m|] eqn:E; [|discriminate]. injection Hi as <-. auto.
  - intros j l' Hj. assert (Hlt : (j < length input)%nat) by (rewrite <- H1, <- (map_length (@arrange RS)); apply nth_error_Some; congruence).
    destruct (inj_sur _ f H2 H3 j Hlt) as (i & Hi & <-). destruct (nth_error input i) as [m|] eqn:E; [|apply nth_error_None in E; lia].
    exists i, (arrange m). split; auto. split; [apply map_nth_error; auto|]. rewrite (G i m E) in Hj. congruence.
  - intros i l Hi. rewrite nth_error_map in Hi. destruct (nth_error input i) as [m|] eqn:E; [|discriminate]. injection Hi as <-. apply over_arrange, H5. eapply nth_error_In; eauto.
Qed.
Lemma over_same c inf l : over c c inf inf l.
Proof. left. auto. Qed.
Lemma over_below inf inf' a b c d input : 0 < a -> 0 < c -> below inf input -> below inf' (map (moved_line (moved a b c d)) input) -> forall l, In l input -> over a c inf inf' l.
Proof.
  intros Ha Hc [H1 H2] [K1 K2] l Hl. right. split; auto. split; auto. specialize (H2 l Hl). specialize (K2 _ (in_map (moved_line (moved a b c d)) _ _ Hl)).
  destruct H2 as [H2 H3], K2 as [K2 K3]. unfold moved_line, moved in K2, K3. cbn [lstart lend vx vy] in K2, K3. split; intros N; (split; [auto|]).
  - replace (c / a * ((vy (lend l) - vy (lstart l)) / (vx (lend l) - vx (lstart l)))) with ((c * vy (lend l) + d - (c * vy (lstart l) + d)) / (a * vx (lend l) + b - (a * vx (lstart l) + b))).
    + apply K2. intros E. apply N. apply Rmult_eq_reg_l with a; lra.
    + replace (a * vx (lend l) + b - (a * vx (lstart l) + b)) with (a * (vx (lend l) - vx (lstart l))) by rring. replace (c * vy (lend l) + d - (c * vy (lstart l) + d)) with (c * (vy (lend l) - vy (lstart l))) by rring.
      field. split; [intros E; apply N; lra|lra].
  - replace (a / c * ((vx (lend l) - vx (lstart l)) / (vy (lend l) - vy (lstart l)))) with ((a * vx (lend l) + b - (a * vx (lstart l) + b)) / (c * vy (lend l) + d - (c * vy (lstart l) + d))).
    + apply K3. intros E. apply N. apply Rmult_eq_reg_l with c; lra.
    + replace (a * vx (lend l) + b - (a * vx (lstart l) + b)) with (a * (vx (lend l) - vx (lstart l))) by rring. replace (c * vy (lend l) + d - (c * vy (lstart l) + d)) with (c * (vy (lend l) - vy (lstart l))) by rring.
      field. split; [intros E; apply N; lra|lra].
Qed.
Lemma same_moved inf inf' ord ord' fuel fuel' stop ign (input : list (Line2 RS)) a b c d r r' : any_order ord -> any_order ord' -> 0 < a -> 0 < c ->
  (forall l, In l input -> over a c inf inf' l) ->
  intersections (S := RS) inf ord fuel stop ign input = Val r -> intersections (S := RS) inf' ord' fuel' stop ign (map (moved_line (moved a b c d)) input) = Val r' ->
  r' = map (fun x => (moved a b c d (fst x), snd x)) r.
Proof.
  intros Ho Ho' Ha Hc Hv E E'.
  assert (P : paired inf inf' (fun i => i) a b c d (map (@arrange RS) input) (map (@arrange RS) (map (moved_line (moved a b c d)) input))).
  { apply paired_input; auto; [apply map_length|]. intros i l Ei. left. rewrite nth_error_map, Ei. auto. }
  pose proof (plain_same inf inf' ord ord' Ho Ho' (fun i => i) a b c d Ha Hc _ _ _ _ _ _ _ _ P E E') as F.
  destruct (C65_output_order _ _ _ _ _ _ _ Ho E) as [_ S1]. destruct (C65_output_order _ _ _ _ _ _ _ Ho' E') as [_ S2]. clear E E'.
  unfold same_reports in F. induction F as [|[p is] [p' is'] r r' [H1 H2] F IH]; auto. cbn [map fst snd] in *. f_equal.
  - rewrite map_idn in H2. subst p'. f_equal. apply sorted_perm_eq; auto; [eapply S2|eapply S1]; left; reflexivity.
  - apply IH; intros q js Hq; [apply (S1 q)|apply (S2 q)]; right; auto.
Qed.
Lemma moved_one p : moved 1 0 1 0 p = p.
Proof. unfold moved. apply V2_ext; rsimp; lra. Qed.
Lemma moved_lines_one input : map (moved_line (moved 1 0 1 0)) input = input.
Proof. rewrite (map_ext _ (fun l => l)); [apply map_id|]. intros l. unfold moved_line. rewrite !moved_one. destruct l; auto. Qed.

(* ==== C136: reports and the representation of the lines, in exact arithmetic ==== *)
(* the lines in another order and with start and end exchanged: the same points in the same order, each with the new numbers of its lines *)
Theorem C136_order_of_lines : forall inf ord ord' fuel fuel' stop ign (input input' : list (Line2 RS)) f r r',
  any_order ord -> any_order ord' -> renumbered input input' f ->
  intersections inf ord fuel stop ign input = Val r -> intersections inf ord' fuel' stop ign input' = Val r' ->
  Forall2 (fun x x' => fst x' = fst x /\ Permutation (snd x') (map f (snd x))) r r'.
Proof.
  intros inf ord ord' fuel fuel' stop ign input input' f r r' Ho Ho' (H1 & H2 & H3 & H4) E E'.
  assert (P : paired inf inf f 1 0 1 0 (map (@arrange RS) input) (map (@arrange RS) input')).
  { apply paired_input; auto using Rlt_0_1, over_same. intros i l Ei. rewrite !Tl_one. auto. }
  pose proof (plain_same inf inf ord ord' Ho Ho' f 1 0 1 0 Rlt_0_1 Rlt_0_1 _ _ _ _ _ _ _ _ P E E') as F. unfold same_reports in F. clear E E'.
  induction F as [|x x' l l' [K1 K2] F IH]; constructor; auto. change (scaled 1 0 1 0) with (moved 1 0 1 0) in K1. rewrite moved_one in K1. auto.
Qed.
Print Assumptions C136_order_of_lines.
(* all lines scaled by c > 0 and moved by (b, d): the reported points move along, the lists of lines stay *)
Theorem C136_scaled_lines : forall inf ord ord' fuel fuel' stop ign (input : list (Line2 RS)) c b d r r',
  any_order ord -> any_order ord' -> 0 < c ->
  intersections inf ord fuel stop ign input = Val r ->
  intersections inf ord' fuel' stop ign (map (moved_line (moved c b c d)) input) = Val r' ->
  r' = map (fun x => (moved c b c d (fst x), snd x)) r.
Proof. intros inf ord ord' fuel fuel' stop ign input c b d r r' Ho Ho' Hc E E'. eapply (same_moved inf inf ord ord'); eauto using over_same. Qed.
Print Assumptions C136_scaled_lines.
(* x and y scaled by different positive factors; the number used as infinity need not be the same either *)
Theorem C136_stretched_lines : forall inf inf' ord ord' fuel fuel' stop ign (input : list (Line2 RS)) a b c d r r',
  any_order ord -> any_order ord' -> 0 < a -> 0 < c ->
  below inf input -> below inf' (map (moved_line (moved a b c d)) input) ->
  intersections (S := RS) inf ord fuel stop ign input = Val r ->
  intersections (S := RS) inf' ord' fuel' stop ign (map (moved_line (moved a b c d)) input) = Val r' ->
  r' = map (fun x => (moved a b c d (fst x), snd x)) r.
Proof. intros inf inf' ord ord' fuel fuel' stop ign input a b c d r r' Ho Ho' Ha Hc B B' E E'. eapply (same_moved inf inf' ord ord'); eauto using over_below. Qed.
Print Assumptions C136_stretched_lines.
(* edges of a vertex list: the edges in another order, over any vertex list that gives edge [f i] the scaled and moved end points of edge i *)
Lemma lines_nth : forall (vertices : list pt) edges ls i, lines_of (S := RS) vertices edges ls ->
  forall l, nth_error ls i = Some l <-> edge_ends vertices edges i (lstart l) (lend l).
Proof.
  intros vertices edges ls i L. revert i. induction L as [|[a0 b0] l0 edges ls [H1 H2] L IH]; intros [|i] l; cbn [nth_error].
  - split; [discriminate|intros (a & b & K & _); discriminate].
  - split; [discriminate|intros (a & b & K & _); discriminate].
  - split; [intros [= <-]; exists a0, b0; auto|]. intros (a & b & K & Ka & Kb). injection K as <- <-. cbn in H1, H2. f_equal. destruct l0, l; cbn in *. congruence.
  - apply IH.
Qed.
Lemma f2_len {A B} (Q : A -> B -> Prop) l l' : Forall2 Q l l' -> length l' = length l.
Proof. intros F. induction F; cbn; congruence. Qed.
Theorem C136_indexed : forall inf ord ord' fuel fuel' stop ign vertices edges vertices' edges' f c b d vs out vs' out',
  any_order ord -> any_order ord' -> 0 < c -> let move := moved c b c d in
  (forall e, In e edges -> (fst e < length vertices)%nat /\ (snd e < length vertices)%nat) ->
  length edges' = length edges -> (forall i, (i < length edges)%nat -> (f i < length edges)%nat) ->
  (forall i j, (i < length edges)%nat -> (j < length edges)%nat -> f i = f j -> i = j) ->
  (forall i p q, edge_ends vertices edges i p q -> edge_ends vertices' edges' (f i) (move p) (move q)) ->
  indexed_intersections inf ord fuel stop ign vertices edges = Val (vs, out) ->
  indexed_intersections inf ord' fuel' stop ign vertices' edges' = Val (vs', out') ->
  Forall2 (fun x x' => Permutation (snd x') (map f (snd x)) /\ exists p, nth_error vs (fst x) = Some p /\ nth_error vs' (fst x') = Some (move p)) out out'.
Proof.
  intros inf ord ord' fuel fuel' stop ign vertices edges vertices' edges' f c b d vs out vs' out' Ho Ho' Hc move R1 H1 H2 H3 H4 E E'.
  destruct (lines_of_exists (S := RS) vertices edges) as (ls & L). { intros a0 b0 Hi. apply (R1 (a0, b0) Hi). }
  assert (Len : length ls = length edges) by (eapply f2_len; exact L).
  assert (X : forall i, (i < length edges)%nat -> exists l, nth_error ls i = Some l) by (intros i Hi; rewrite <- Len in Hi; apply nth_error_Some in Hi; destruct (nth_error ls i); eauto; congruence).
  destruct (lines_of_exists (S := RS) vertices' edges') as (ls' & L').
  { intros a0 b0 Hi. apply In_nth_error in Hi as (j & Hj). assert (Hlt : (j < length edges)%nat) by (rewrite <- H1; apply nth_error_Some; congruence).
    destruct (inj_sur _ f H2 H3 j Hlt) as (i & Hi & <-). destruct (X i Hi) as (l & El). apply (lines_nth _ _ _ _ L) in El. apply H4 in El as (a1 & b1 & K1 & K2 & K3).
    assert (a1 = a0 /\ b1 = b0) as [-> ->] by (split; congruence). split; apply nth_error_Some; congruence. }
  assert (P : paired inf inf f c b c d ls ls').
  { assert (G : forall i l, nth_error ls i = Some l -> nth_error ls' (f i) = Some (Tl (scaled c b c d) l)).
    { intros i l El. apply (lines_nth _ _ _ _ L'). apply (lines_nth _ _ _ _ L) in El. apply H4 in El. exact El. }
    assert (Len' : length ls' = length edges') by (eapply f2_len; exact L').
    unfold paired, ln. split; [|split; [exact G|split; [|intros; apply over_same]]].
    - intros i j li lj Hi Hj. apply H3; rewrite <- Len; apply nth_error_Some; congruence.
    - intros j l' Hj. assert (Hlt : (j < length edges)%nat) by (rewrite <- H1, <- Len'; apply nth_error_Some; congruence).
      destruct (inj_sur _ f H2 H3 j Hlt) as (i & Hi & <-). destruct (X i Hi) as (l & El). exists i, l. split; auto. split; auto. rewrite (G i l El) in Hj. congruence. }
  destruct (indexed_same inf inf ord ord' Ho Ho' f c b c d Hc Hc _ _ _ _ _ _ _ _ _ _ _ _ _ _ L L' P E E') as (r & r' & F & F1 & F2). clear E E' P.
  unfold same_reports in F. revert out out' F1 F2. induction F as [|k k' r r' [K1 K2] F IH]; intros out out' F1 F2.
  - inversion F1; inversion F2; subst. constructor.
  - inversion F1 as [|x ? o ? [A1 A2] Fo]. inversion F2 as [|x' ? o' ? [B1 B2] Fo']. subst. constructor; auto.
    rewrite A1, B1. split; auto. exists (fst k). split; auto. rewrite B2, K1. auto.
Qed.
Print Assumptions C136_indexed.

(* ==== C137: two runs on the same input ==== *)
Theorem C137_deterministic_partial : forall inf ord ord' fuel fuel' stop ign (input : list (Line2 RS)) r r',
  any_order ord -> any_order ord' ->
  intersections inf ord fuel stop ign input = Val r -> intersections inf ord' fuel' stop ign input = Val r' -> r' = r.
Proof.
  intros inf ord ord' fuel fuel' stop ign input r r' Ho Ho' E E'. rewrite <- (moved_lines_one input) in E'.
  rewrite (same_moved inf inf ord ord' fuel fuel' stop ign input 1 0 1 0 r r' Ho Ho' Rlt_0_1 Rlt_0_1 (fun l _ => over_same 1 inf l) E E').
  rewrite (map_ext _ (fun x => x)); [apply map_id|]. intros [p is]. cbn [fst snd]. rewrite moved_one. auto.
Qed.
Print Assumptions C137_deterministic_partial.
(* f64: three upright lines x = 1, 1 + 4u, 1 + 8u and a slanted line across them, u the distance of the floats at 1. Neighbours are grouped by
   ulps_eq, which is not transitive: it depends on the iteration order of the hash set which of the three lines count as neighbours *)
Definition step4 (k : positive) : spec_float := S754_finite false (4503599627370496 + k)%positive (-52).
Definition upright : list (Line2 F64_) :=
  [mkL (P 1 (-3)) (P 1 9);
   mkL (@mkV2 F64_ (step4 4) (f64 (-2))) (@mkV2 F64_ (step4 4) (f64 8));
   mkL (@mkV2 F64_ (step4 8) (f64 (-1))) (@mkV2 F64_ (step4 8) (f64 7));
   mkL (P 4 0) (P (-2) 3)].
Definition first_last (n : nat) (l : list nat) : list nat := skipn 1 l ++ firstn 1 l.
Lemma first_last_any : any_order first_last.
Proof. intros n l. unfold first_last. rewrite Permutation_app_comm, firstn_skipn. reflexivity. Qed.
Theorem C137_deterministic_refuted : any_order (fun _ l => l) /\ any_order first_last /\
  let run ord := tree_intersections (S := F64_) sinf (std_map F64_ SiteEvent) (std_map F64_ (list nat)) ord 60 false false upright in
  exists r r', run (fun _ l => l) = Val r /\ run first_last = Val r' /\ map snd r = [[0; 3]; [2; 3]]%nat /\ map snd r' = [[0; 1; 2; 3]]%nat.
Proof.
  split; [apply any_order_id|]. split; [apply first_last_any|]. cbv zeta.
  assert (A : match tree_intersections (S := F64_) sinf (std_map F64_ SiteEvent) (std_map F64_ (list nat)) (fun _ l => l) 60 false false upright with
              | Val r => list_same (list_same Nat.eqb) (map snd r) [[0; 3]; [2; 3]]%nat | _ => false end = true) by (vm_compute; reflexivity).
  assert (B : match tree_intersections (S := F64_) sinf (std_map F64_ SiteEvent) (std_map F64_ (list nat)) first_last 60 false false upright with
              | Val r => list_same (list_same Nat.eqb) (map snd r) [[0; 1; 2; 3]]%nat | _ => false end = true) by (vm_compute; reflexivity).
  revert A B. generalize upright. intros ls A B.
  destruct (tree_intersections sinf _ _ (fun _ l => l) 60 false false ls) as [r|?| |]; try discriminate A.
  destruct (tree_intersections sinf _ _ first_last 60 false false ls) as [r'|?| |]; try discriminate B.
  exists r, r'. split; [reflexivity|]. split; [reflexivity|].
  assert (N : forall x y, Nat.eqb x y = true -> x = y) by (intros x y; apply Nat.eqb_eq).
  split; apply (list_same_eq _ (list_same_eq _ N)); assumption.
Qed.
Print Assumptions C137_deterministic_refuted.
(* f64, lines on a grid that meet at end points only, end points ignored: every run ends with the same (empty) result *)
Theorem C137_apart_f64_partial : forall at2 inf ord ord' stop s QM RM (input : list (Line2 (F64 at2))), any_order ord -> any_order ord' ->
  grid_lines64 s input -> lawful_maps QM RM -> apart64 input ->
  exists bound, forall fuel fuel', (bound <= fuel)%nat -> (bound <= fuel')%nat ->
    tree_intersections inf QM RM ord fuel stop true input = tree_intersections inf QM RM ord' fuel' stop true input.
Proof.
  intros at2 inf ord ord' stop s QM RM input Ho Ho' HG HM HA.
  destruct (C125_apart_reports_nothing_f64 at2 inf ord stop s QM RM input Ho HG HM HA) as (b & Hb). destruct (C125_apart_reports_nothing_f64 at2 inf ord' stop s QM RM input Ho' HG HM HA) as (b' & Hb').
  exists (b + b')%nat. intros fuel fuel' H H'. rewrite Hb, Hb' by lia. reflexivity.
Qed.
Print Assumptions C137_apart_f64_partial.

(* ==== C138: mirrored, turned and sheared lines ==== *)
Definition zmap (T : Z * Z -> Z * Z) (z : Z * Z * Z * Z) : Z * Z * Z * Z := let '(a, b, c, d) := z in (fst (T (a, b)), snd (T (a, b)), fst (T (c, d)), snd (T (c, d))).
Notation run64 zs := (intersections (S := F64_) sinf (fun _ l => l) 30 false false (map fline zs)).
Theorem C138_mirrored_refuted : let zs := [(0, 4, 0, 0); (0, 3, 4, 3)]%Z in
  run64 zs = Val [] /\ run64 (map (zmap (fun p => (- fst p, snd p)%Z)) zs) = Val [(P 0 3, [0; 1]%nat)].
Proof. split; fsweep. Qed.
Print Assumptions C138_mirrored_refuted.
(* a quarter turn *)
Theorem C138_turned_refuted : let zs := [(2, 1, 0, 3); (1, 2, 2, 0)]%Z in
  run64 zs = Val [(P 1 2, [0; 1]%nat)] /\ run64 (map (zmap (fun p => (- snd p, fst p)%Z)) zs) = Val [].
Proof. split; fsweep. Qed.
Print Assumptions C138_turned_refuted.
Theorem C138_sheared_refuted : let zs := [(2, 0, 2, 1); (1, 0, 4, 3); (0, 3, 1, 0)]%Z in
  run64 zs = Val [(P 1 0, [1; 2]%nat)] /\ run64 (map (zmap (fun p => (fst p + snd p, snd p)%Z)) zs) = Val [(P 1 0, [1; 2]%nat); (P 3 1, [0; 1]%nat)].
Proof. split; fsweep. Qed.
Print Assumptions C138_sheared_refuted.
(* with edges of a vertex list, already exchanging the ends of one edge changes the reports *)
Theorem C138_reversed_edge_refuted : let vertices := [P 0 2; P 4 2; P 1 2; P 6 2; P 5 0; P 5 4] in
  let points edges := match indexed_intersections (S := F64_) sinf (fun _ l => l) 40 false false vertices edges with Val (_, out) => Some (map snd out) | _ => None end in
  points [(0, 1); (2, 3); (4, 5)]%nat = Some [] /\ points [(1, 0); (2, 3); (4, 5)]%nat = Some [[1; 2]]%nat.
Proof. split; vm_compute; reflexivity. Qed.
Print Assumptions C138_reversed_edge_refuted.
(* any linear map: under the conditions of C68 on both sets of lines *)
Definition mapped (a k m c b d : R) (p : pt) : pt := @mkV2 RS (a * vx p + k * vy p + b) (m * vx p + c * vy p + d).
Definition general (input : list (Line2 RS)) : Prop := no_horizontal input /\ meet_once input /\ no_start_inside input /\ clear_right input.
Section Mapped.
  Variables (a k m c b d : R).
  Hypothesis det : a * c - k * m <> 0.
  Notation T := (mapped a k m c b d).
  Lemma T_lerp s e t : T (lerp s e t) = lerp (T s) (T e) t.
  Proof. unfold mapped, lerp. apply V2_ext; rsimp; rring. Qed.
  Lemma T_inj p q : T p = T q -> p = q.
  Proof.
    intros E. assert (Ex := f_equal (fun v : pt => vx v) E). assert (Ey := f_equal (fun v : pt => vy v) E). unfold mapped in Ex, Ey. cbn [vx vy] in Ex, Ey.
    assert (X : (a * c - k * m) * (vx p - vx q) = 0).
    { replace ((a * c - k * m) * (vx p - vx q)) with (c * (a * vx p + k * vy p + b - (a * vx q + k * vy q + b)) - k * (m * vx p + c * vy p + d - (m * vx q + c * vy q + d))) by rring. rewrite Ex, Ey. rring. }
    assert (Y : (a * c - k * m) * (vy p - vy q) = 0).
    { replace ((a * c - k * m) * (vy p - vy q)) with (a * (m * vx p + c * vy p + d - (m * vx q + c * vy q + d)) - m * (a * vx p + k * vy p + b - (a * vx q + k * vy q + b))) by rring. rewrite Ex, Ey. rring. }
    apply Rmult_integral in X as [X|X]; [lra|]. apply Rmult_integral in Y as [Y|Y]; [lra|]. apply V2_ext; lra.
  Qed.
  Lemma T_has input i p : line_has (map (moved_line T) input) i (T p) <-> line_has input i p.
  Proof.
    unfold line_has. rewrite nth_error_map. split.
    - intros (l' & E & t & Ht & Q). destruct (nth_error input i) as [l|]; [|discriminate]. injection E as <-. exists l. split; auto. exists t. split; auto. apply T_inj. rewrite T_lerp. auto.
    - intros (l & E & t & Ht & Q). rewrite E. exists (moved_line T l). split; auto. exists t. split; auto. rewrite Q, T_lerp. auto.
  Qed.
  Lemma T_ends input i p : line_ends_at (map (moved_line T) input) i (T p) <-> line_ends_at input i p.
  Proof.
    unfold line_ends_at. rewrite nth_error_map. split.
    - intros (l' & E & H). destruct (nth_error input i) as [l|]; [|discriminate]. injection E as <-. exists l. split; auto. destruct H as [H|H]; apply T_inj in H; auto.
    - intros (l & E & H). rewrite E. exists (moved_line T l). split; auto. destruct H as [-> | ->]; auto.
  Qed.
  Lemma T_sur q : exists p, T p = q.
  Proof.
    exists (@mkV2 RS ((c * (vx q - b) - k * (vy q - d)) / (a * c - k * m)) ((a * (vy q - d) - m * (vx q - b)) / (a * c - k * m))). unfold mapped. apply V2_ext; rsimp; field; auto.
  Qed.
End Mapped.
Theorem C138_general_position_partial : forall inf ord ord' fuel fuel' ign (input : list (Line2 RS)) a k m c b d r r',
  any_order ord -> any_order ord' -> a * c - k * m <> 0 -> let T := mapped a k m c b d in
  general input -> general (map (moved_line T) input) ->
  intersections inf ord fuel false ign input = Val r -> intersections inf ord' fuel' false ign (map (moved_line T) input) = Val r' ->
  (forall p, In p (map fst r) <-> In (T p) (map fst r')) /\ (forall q, In q (map fst r') -> exists p, q = T p /\ In p (map fst r)) /\
  forall p is is', In (p, is) r -> In (T p, is') r' -> is' = is.
Proof.
  intros inf ord ord' fuel fuel' ign input a k m c b d r r' Ho Ho' det T (C1 & C2 & C3 & C4) (D1 & D2 & D3 & D4) E E'.
  destruct (C68_complete_partial inf ord fuel ign input r Ho C1 C2 C3 C4 E) as [A1 A2]. destruct (C68_complete_partial inf ord' fuel' ign _ r' Ho' D1 D2 D3 D4 E') as [B1 B2].
  assert (Fst : forall (A : Type) (l : list (pt * A)) p, In p (map fst l) <-> exists x, In (p, x) l).
  { intros A l p. rewrite in_map_iff. split; [intros ([q x] & <- & H); eauto|intros (x & H); exists (p, x); auto]. }
  assert (Has : forall i p, line_has (map (moved_line T) input) i (T p) <-> line_has input i p) by (intros; apply T_has; auto).
  assert (Pts : forall p, In p (map fst r) <-> In (T p) (map fst r')).
  { intros p. rewrite !Fst, A1, B1. assert (Ends : forall i, line_ends_at (map (moved_line T) input) i (T p) <-> line_ends_at input i p) by (intros; apply T_ends; auto).
    split; intros [(i & j & Hij & Hi & Hj) I]; (split; [exists i, j; rewrite ?Has in *; auto|]); intros Hg; destruct (I Hg) as (i0 & K1 & K2); exists i0; rewrite ?Has, ?Ends in *; auto. }
  split; [exact Pts|]. split.
  - intros q Hq. destruct (T_sur a k m c b d det q) as (p & <-). exists p. split; auto. apply Pts. auto.
  - intros p is is' H H'.
    assert (Pr : proper_lines input) by (intros l Il Q; apply (C1 l Il); congruence). assert (Pr' : proper_lines (map (moved_line T) input)) by (intros l Il Q; apply (D1 l Il); congruence).
    destruct (C63_reports_are_real _ _ _ _ _ _ _ Ho E p is H) as (_ & _ & N & _). destruct (C63_reports_are_real _ _ _ _ _ _ _ Ho' E' _ is' H') as (_ & _ & N' & _). specialize (N Pr). specialize (N' Pr').
    destruct (C65_output_order _ _ _ _ _ _ _ Ho E) as [_ S1]. destruct (C65_output_order _ _ _ _ _ _ _ Ho' E') as [_ S2].
    apply sorted_perm_eq; eauto. apply NoDup_Permutation; auto. intros i. rewrite (B2 _ _ H' i), (A2 _ _ H i). apply Has.
Qed.
Print Assumptions C138_general_position_partial.
(* a cross, and the same cross turned by a quarter: both meet the conditions *)
Example C138_hypotheses : let T := mapped 0 (-1) 1 0 0 0 in 0 * 0 - (-1) * 1 <> 0 /\
  general (map rline [(0, 0, 4, 5); (3, 0, 0, 4)]%Z) /\ general (map (moved_line T) (map rline [(0, 0, 4, 5); (3, 0, 0, 4)]%Z)).
Proof.
  intros T. split; [lra|].
  assert (E : map (moved_line T) (map rline [(0, 0, 4, 5); (3, 0, 0, 4)]%Z) = map rline [(0, 0, -5, 4); (0, 3, -4, 0)]%Z).
  { cbn [map rline]. unfold moved_line, T, mapped. cbn [lstart lend vx vy]. repeat (f_equal; try (rsimp; lra)). }
  rewrite E. split; (split; [apply concrete_no_horizontal; reflexivity|]; split; [|split]).
  - intros i j p q Hij P1 P2 Q1 Q2. apply V2_ext; req; coords; try lra.
  - intros i j p H1 H2 H3. apply ends_coords. coords; try (exfalso; lra); cbn [nth_error]; repeat eexists; lra.
  - intros i j p r Hij H1 H2 H3 Hy. coords; lra.
  - intros i j p q Hij P1 P2 Q1 Q2. apply V2_ext; req; coords; try lra.
  - intros i j p H1 H2 H3. apply ends_coords. coords; try (exfalso; lra); cbn [nth_error]; repeat eexists; lra.
  - intros i j p r Hij H1 H2 H3 Hy. coords; lra.
Qed.

(* ==== C139: is_self_intersecting of the same line string, moved, scaled or reversed ==== *)
Lemma nth_rev {A} (l : list A) k : (k < length l)%nat -> nth_error (rev l) (length l - 1 - k) = nth_error l k.
Proof.
  intros H. destruct l as [|a0 t] eqn:E; [cbn in H; lia|]. rewrite <- E in *. clear E t.
  rewrite (nth_error_nth' (rev l) a0) by (rewrite rev_length; lia). rewrite (nth_error_nth' l a0) by lia. rewrite rev_nth by lia. f_equal. f_equal. lia.
Qed.
Lemma edge_rev {A} (l : list A) i a b : edge_of l i a b -> edge_of (rev l) (length l - 2 - i) b a.
Proof.
  intros [H1 H2]. assert (L : (i + 1 < length l)%nat) by (apply nth_error_Some; congruence). split.
  - rewrite <- H2, <- (nth_rev l (i + 1)) by auto. f_equal. lia.
  - rewrite <- H1, <- (nth_rev l i) by lia. f_equal. lia.
Qed.
Lemma window_len {S : Scalar} (l : list (V2 S)) : length (window_iter l) = (length l - 1)%nat.
Proof. unfold window_iter. rewrite map_length. apply windows_length. Qed.
Lemma window_map (T : pt -> pt) (l : list pt) : window_iter (map T l) = map (moved_line T) (window_iter l).
Proof.
  assert (W : forall l : list pt, windows (map T l) = map (fun w => (T (fst w), T (snd w))) (windows l)).
  { clear l. induction l as [|x [|y t] IH]; cbn; auto. cbn in IH. f_equal. exact IH. }
  unfold window_iter. rewrite W, !map_map. apply map_ext. intros w. reflexivity.
Qed.
Lemma same_len {A B} (Q : A -> B -> Prop) r r' : Forall2 Q r r' -> Nat.ltb 0 (length r') = Nat.ltb 0 (length r).
Proof. intros F. rewrite (f2_len _ _ _ F). auto. Qed.
(* ten points and more, exact arithmetic: one answer, whatever the iteration order of the hash set; the line string moved, or scaled in x and y,
   or reversed, gets the same answer *)
Theorem C139_long_partial : forall inf ord ord' fuel fuel' (l : list pt) x x', any_order ord -> any_order ord' -> (10 <= length l)%nat ->
  is_self_intersecting inf ord fuel l = Val x ->
  (is_self_intersecting inf ord' fuel' l = Val x' -> x' = x) /\
  (is_self_intersecting inf ord' fuel' (rev l) = Val x' -> x' = x) /\
  (forall b c d, 0 < c -> is_self_intersecting inf ord' fuel' (map (moved c b c d) l) = Val x' -> x' = x).
Proof.
  intros inf ord ord' fuel fuel' l x x' Ho Ho' H10 E. rewrite long_run in E by auto.
  destruct (intersections (S := RS) inf ord fuel true true (window_iter l)) as [r|?| |] eqn:R; try discriminate. injection E as <-.
  assert (Mv : forall b c d, 0 < c -> is_self_intersecting (S := RS) inf ord' fuel' (map (moved c b c d) l) = Val x' -> x' = Nat.ltb 0 (length r)).
  { intros b c d Hc E'. rewrite long_run, window_map in E' by (rewrite map_length; auto).
    destruct (intersections (S := RS) inf ord' fuel' true true (map (moved_line (moved c b c d)) (window_iter l))) as [r'|?| |] eqn:R'; try discriminate. injection E' as <-.
    rewrite (C136_scaled_lines _ _ _ _ _ _ _ _ _ _ _ _ _ Ho Ho' Hc R R'), map_length. auto. }
  split; [|split; [|exact Mv]].
  - intros E'. apply (Mv 0 1 0 Rlt_0_1). rewrite (map_ext _ (fun p => p)), map_id; auto. apply moved_one.
  - intros E'. rewrite long_run in E' by (rewrite rev_length; auto).
    destruct (intersections (S := RS) inf ord' fuel' true true (window_iter (rev l))) as [r'|?| |] eqn:R'; try discriminate. injection E' as <-.
    assert (Rn : renumbered (window_iter l) (window_iter (rev l)) (fun i => (length l - 2 - i)%nat)).
    { unfold renumbered. rewrite !window_len, rev_length. split; auto. split; [intros; lia|]. split; [intros; lia|].
      intros i e He. right. apply window_nth in He. apply window_nth. cbn [lstart lend]. apply edge_rev. auto. }
    exact (same_len _ _ _ (C136_order_of_lines _ _ _ _ _ _ _ _ _ _ _ _ Ho Ho' Rn R R')).
Qed.
Print Assumptions C139_long_partial.
(* fewer than ten points: scaled by c > 0 and moved by the same amount in x and y *)
Lemma moved_eqb c x : 0 < c -> Reqb (c * x) 0 = Reqb x 0.
Proof. intros Hc. destruct (Reqb_spec x 0) as [N|N]; destruct (Reqb_spec (c * x) 0) as [H|H]; auto; exfalso; [apply H; rewrite N; lra|apply Rmult_integral in H as [H|H]; lra]. Qed.
Lemma moved_neg c x : 0 < c -> Rltb (c * x) 0 = Rltb x 0.
Proof. intros Hc. destruct (Rltb_spec x 0) as [N|N]; destruct (Rltb_spec (c * x) 0) as [H|H]; auto; exfalso; [apply H; replace 0 with (c * 0) by lra; apply Rmult_lt_compat_l; auto|apply N; apply Rmult_lt_reg_l with c; lra]. Qed.
Lemma ratio_moved c x y : 0 < c -> c * x / (c * y) = x / y.
Proof. intros Hc. destruct (Req_dec y 0) as [->|N]; [rewrite Rmult_0_r; unfold Rdiv; rewrite Rinv_0; lra|field; lra]. Qed.
Lemma ip3_moved b c (p q s : pt) : 0 < c ->
  (match intersection_point3 (S := RS) (moved c b c b p) (moved c b c b q) (moved c b c b s) with Some _ => true | None => false end) =
  (match intersection_point3 (S := RS) p q s with Some _ => true | None => false end).
Proof.
  intros Hc. unfold intersection_point3, moved. cbn [vx vy]. cbn [RS ssub ssignneg sulps smul sadd sltb sdiv s0 car].
  replace (c * vx q + b - (c * vx p + b)) with (c * (vx q - vx p)) by rring. replace (c * vy q + b - (c * vx p + b)) with (c * (vy q - vx p)) by rring.
  replace (c * vx q + b - (c * vx s + b)) with (c * (vx q - vx s)) by rring. replace (c * vy q + b - (c * vy s + b)) with (c * (vy q - vy s)) by rring.
  rewrite !moved_eqb, !moved_neg, !ratio_moved by auto.
  destruct (Reqb (vx q - vx p) 0), (Reqb (vx q - vx s) 0); cbn [andb orb]; auto.
  - destruct (Rltb (vy q - vx p) 0 && negb (Rltb (vy q - vy s) 0))%bool; auto. destruct (Rltb _ _), (Rltb (_ + _) _); auto.
  - destruct (negb (Reqb ((vx q - vx p) / (vy q - vx p)) ((vx q - vx s) / (vy q - vy s)))); auto. destruct (Rltb _ _), (Rltb (_ + _) _); auto.
Qed.
Lemma self_pair_moved b c i j (p q s t : pt) : 0 < c ->
  self_pair (S := RS) i (mkL (moved c b c b p) (moved c b c b q)) j (mkL (moved c b c b s) (moved c b c b t)) = self_pair (S := RS) i (mkL p q) j (mkL s t).
Proof.
  intros Hc. unfold self_pair. destruct (Nat.eqb i j); auto. destruct (Nat.eqb (i + 1) j); [apply ip3_moved; auto|].
  pose proof (scaled_ix c b c b Hc Hc (mkL p q) (mkL s t)) as H. change (Tl (scaled c b c b) (mkL p q)) with (mkL (S := RS) (moved c b c b p) (moved c b c b q)) in H.
  change (Tl (scaled c b c b) (mkL s t)) with (mkL (S := RS) (moved c b c b s) (moved c b c b t)) in H.
  destruct (intersection_point (mkL p q) (mkL s t)) as [it|]; [|rewrite H; auto]. destruct H as (it' & -> & ->). change (scaled c b c b) with (moved c b c b). cbn [lstart lend].
  assert (V : forall u v : pt, vulps (moved c b c b u) (moved c b c b v) = vulps u v).
  { intros u v. unfold vulps, moved. cbn [vx vy]. cbn [RS sulps]. f_equal; apply eqb_scaled; auto. }
  rewrite !V. auto.
Qed.
Theorem C139_short_partial : forall inf ord ord' fuel fuel' (l : list pt) b c, (length l < 10)%nat -> 0 < c ->
  is_self_intersecting inf ord fuel (map (moved c b c b) l) = is_self_intersecting inf ord' fuel' l.
Proof.
  intros inf ord ord' fuel fuel' l b c H Hc. unfold is_self_intersecting. rewrite map_length. destruct (Nat.leb (length l) 2); auto.
  destruct (Nat.ltb_spec (length l) 10); [|lia]. f_equal.
  assert (G : self_intersecting_short (map (moved c b c b) l) = true <-> self_intersecting_short l = true).
  { rewrite !self_short_spec.
    assert (Ed : forall i p q, edge_of (map (moved c b c b) l) i p q <-> exists p0 q0, p = moved c b c b p0 /\ q = moved c b c b q0 /\ edge_of l i p0 q0).
    { intros i p q. unfold edge_of. rewrite !nth_error_map. destruct (nth_error l i) as [u|], (nth_error l (i + 1)) as [v|]; cbn [option_map]; split.
      - intros [[= <-] [= <-]]. exists u, v. auto.
      - intros (p0 & q0 & -> & -> & [= ->] & [= ->]). auto.
      - intros [_ K]; discriminate. - intros (p0 & q0 & _ & _ & _ & K); discriminate.
      - intros [K _]; discriminate. - intros (p0 & q0 & _ & _ & K & _); discriminate.
      - intros [K _]; discriminate. - intros (p0 & q0 & _ & _ & K & _); discriminate. }
    split.
    - intros (i & j & p & q & s & t & Hij & E1 & E2 & K). apply Ed in E1 as (p0 & q0 & -> & -> & E1). apply Ed in E2 as (s0 & t0 & -> & -> & E2).
      rewrite self_pair_moved in K by auto. exists i, j, p0, q0, s0, t0. auto.
    - intros (i & j & p & q & s & t & Hij & E1 & E2 & K). exists i, j, (moved c b c b p), (moved c b c b q), (moved c b c b s), (moved c b c b t).
      split; auto. split; [apply Ed; eauto|]. split; [apply Ed; eauto|]. rewrite self_pair_moved by auto. auto. }
  destruct (self_intersecting_short (map (moved c b c b) l)) eqn:E1, (self_intersecting_short l) eqn:E2; auto; exfalso; [assert (true = true) by auto; apply G in H1; discriminate|destruct G as [_ G]; discriminate G; auto].
Qed.
Print Assumptions C139_short_partial.
(* f64, three points: moved to the right by 2, or reversed, another answer *)
Notation self64 ps := (is_self_intersecting (S := F64_) sinf (fun _ l => l) 0 ps).
Theorem C139_moved_refuted : self64 [P 0 0; P 1 1; P 2 2] = Val true /\ self64 [P 2 0; P 3 1; P 4 2] = Val false.
Proof. split; vm_compute; reflexivity. Qed.
Print Assumptions C139_moved_refuted.
Theorem C139_reversed_refuted : self64 [P 0 0; P 1 0; P 0 1] = Val false /\ self64 (rev [P 0 0; P 1 0; P 0 1]) = Val true.
Proof. split; vm_compute; reflexivity. Qed.
Print Assumptions C139_reversed_refuted.

(* ---- the hypotheses are met ---- *)
Example C136_hypotheses : let input := map rline [(0, 0, 4, 5); (3, 0, 0, 4); (0, 1, 5, 1)]%Z in
  renumbered input (map rline [(0, 1, 5, 1); (4, 5, 0, 0); (0, 4, 3, 0)]%Z) (fun i => match i with 0 => 1 | 1 => 2 | _ => 0 end)%nat /\
  below 10 input /\ below 100 (map (moved_line (moved 2 0 (1/3) 1)) input) /\
  forall inf ord, any_order ord -> exists r, intersections inf ord 60 false false input = Val r.
Proof.
  intros input. split; [|split; [|split]].
  - unfold renumbered, input. cbn [map length]. split; auto. split; [intros [|[|i]]; lia|]. split; [intros [|[|i]] [|[|j]]; lia|].
    intros [|[|[|i]]] l; cbn [nth_error]; intros E; [injection E as <-|injection E as <-|injection E as <-|destruct i; discriminate]; cbn [rline lstart lend nth_error]; auto.
  - split; [lra|]. intros l [<-|[<-|[<-|[]]]]; cbn [rline lstart lend vx vy]; split; intros; lra.
  - split; [lra|]. intros l [<-|[<-|[<-|[]]]]; unfold moved_line, moved; cbn [rline lstart lend vx vy]; split; intros; lra.
  - intros inf ord Ho. destruct (C64_points_exist input) as (pts & P1 & P2 & P3). apply (C64_terminates inf ord 60 false false input pts Ho P1 P2). etransitivity; [exact P3|]. unfold input. cbn. lia.
Qed.
Example C139_hypotheses : any_order (fun _ l => l) /\ (length (map (fun z => @mkV2 RS (IZR (fst z)) (IZR (snd z))) [(1, 0); (0, 1); (2, 4); (5, 3); (6, 5); (4, 7); (1, 8); (2, 6); (3, 2); (7, 1)]%Z) = 10)%nat.
Proof. split; [apply any_order_id|reflexivity]. Qed.
Example C136_indexed_hypotheses : let vertices := [@mkV2 RS 0 0; @mkV2 RS 4 5; @mkV2 RS 3 0; @mkV2 RS 0 4] in
  let vertices' := map (moved 2 1 2 0) [@mkV2 RS 3 0; @mkV2 RS 0 4; @mkV2 RS 0 0; @mkV2 RS 4 5] in
  let edges := [(0, 1); (2, 3)]%nat in let f i := (1 - i)%nat in
  forall i p q, edge_ends vertices edges i p q -> edge_ends vertices' edges (f i) (moved 2 1 2 0 p) (moved 2 1 2 0 q).
Proof.
  intros vertices vertices' edges f i p q (a & b & E & Ea & Eb). destruct i as [|[|i]]; cbn in E; [injection E as <- <-|injection E as <- <-|destruct i; discriminate]; cbn in Ea, Eb; injection Ea as <-; injection Eb as <-.
  - exists 2%nat, 3%nat. cbn. auto.
  - exists 0%nat, 1%nat. cbn. auto.
Qed.
