(* Intersections of a line string with additional points on its edges with a line or a ray, in exact arithmetic. *)
From Coq Require Import Reals Lra Psatz.
From Verif Require Import Prelude Scalar RInst Geo2 GeoSpec DistR DiscSpec IsectProofs IsectSym Rdp1 RdpRefine DiscSym Properties_Isect4.
Local Open Scope R_scope.

Definition between (u x y : R) : Prop := x <= u <= y \/ y <= u <= x.
Lemma windows_chain {A} (a : A) ins b m : windows (a :: ins ++ b :: m) = windows (a :: ins ++ [b]) ++ windows (b :: m).
Proof.
  revert a. induction ins as [|x ins IH]; intros a; [reflexivity|].
  change ((a, x) :: windows (x :: ins ++ b :: m) = ((a, x) :: windows (x :: ins ++ [b])) ++ windows (b :: m)). rewrite IH. reflexivity.
Qed.
(* a walk from s to e passes over every u between them *)
Lemma walk_over ts : forall s e u, between u s e -> exists x y, In (x, y) (windows (s :: ts ++ [e])) /\ between u x y.
Proof.
  induction ts as [|t ts IH]; intros s e u H.
  - exists s, e. split; [left; auto|auto].
  - assert (D : between u s t \/ between u t e) by (unfold between in *; destruct (Rle_dec u t); lra).
    destruct D as [D|D].
    + exists s, t. split; [left; auto|auto].
    + destruct (IH t e u D) as (x & y & Hi & B). exists x, y. split; [right; exact Hi|auto].
Qed.
Lemma windows_ends {A} (P : A -> Prop) (l : list A) x y : (forall z, In z l -> P z) -> In (x, y) (windows l) -> P x /\ P y.
Proof.
  intros H Hi. apply windows_In in Hi as (i & E1 & E2). split; apply H; eapply nth_error_In; eauto.
Qed.
(* the steps of such a walk that starts at 0 and ends at 1 *)
Definition steps01 (ts : list R) : list (R * R) := windows (0 :: ts ++ [1]).
Lemma steps01_range ts x y : Forall (fun t => 0 < t < 1) ts -> In (x, y) (steps01 ts) -> 0 <= x <= 1 /\ 0 <= y <= 1.
Proof.
  intros F. apply (windows_ends (fun z => 0 <= z <= 1)). intros z [<-|Hz]; [lra|]. apply in_app_iff in Hz as [Hz|[<-|[]]]; [|lra].
  rewrite Forall_forall in F. specialize (F z Hz). lra.
Qed.
Definition sub (a b : pt) (w : R * R) : pt * pt := (lerp a b (fst w), lerp a b (snd w)).
(* a line with added points edge by edge *)
Lemma denser_parts a b rest m : denser lerp (a :: b :: rest) m -> exists ts m', Forall (fun t => 0 < t < 1) ts /\
  m = a :: map (lerp a b) ts ++ b :: m' /\ denser lerp (b :: rest) (b :: m') /\ windows m = map (sub a b) (steps01 ts) ++ windows (b :: m').
Proof.
  intros H. inversion H as [| |a0 b0 rest0 ins m0 Hi Hd]; subst. destruct (denser_hd _ _ _ _ Hd) as (m' & ->).
  assert (exists ts, Forall (fun t => 0 < t < 1) ts /\ ins = map (lerp a b) ts) as (ts & F & ->).
  { clear H Hd. induction Hi as [|x ins (t & Ht & ->) _ (ts & F & ->)]; [exists []; auto|]. exists (t :: ts). auto. }
  exists ts, m'. split; auto. split; auto. split; auto. rewrite windows_chain. f_equal.
  replace (a :: map (lerp a b) ts ++ [b]) with (map (lerp a b) (0 :: ts ++ [1])).
  - rewrite windows_map. reflexivity.
  - cbn [map]. rewrite map_app. cbn [map]. rewrite (proj1 (lerp_ends a b)). rewrite (proj2 (lerp_ends a b)). reflexivity.
Qed.
Lemma sub_on (a b : pt) x y q : 0 <= x <= 1 -> 0 <= y <= 1 -> on_segment q (lerp a b x) (lerp a b y) -> on_segment q a b.
Proof.
  intros Hx Hy (t & Ht & ->). exists (x + t * (y - x)). split.
  - assert (0 <= t * y) by (apply Rmult_le_pos; lra). assert (0 <= (1 - t) * x) by (apply Rmult_le_pos; lra).
    assert (0 <= t * (1 - y)) by (apply Rmult_le_pos; lra). assert (0 <= (1 - t) * (1 - x)) by (apply Rmult_le_pos; lra). lra.
  - unfold lerp. cbn [vx vy]. f_equal; cbn [car RS] in *; ring.
Qed.
Lemma on_sub (a b : pt) x y u : between u x y -> on_segment (lerp a b u) (lerp a b x) (lerp a b y).
Proof.
  intros B. destruct (Req_dec x y) as [->|N].
  - assert (u = y) as -> by (unfold between in B; lra). apply on_segment_start.
  - exists ((u - x) / (y - x)). assert (Hy : y - x <> 0) by lra. split.
    + unfold between in B. destruct (Rlt_dec x y).
      * split; [apply Rmult_le_pos; [lra|left; apply Rinv_0_lt_compat; lra]|]. apply Rmult_le_reg_r with (y - x); [lra|]. unfold Rdiv. rewrite Rmult_assoc, Rinv_l by lra. lra.
      * replace ((u - x) / (y - x)) with ((x - u) / (x - y)) by (field; lra). split; [apply Rmult_le_pos; [lra|left; apply Rinv_0_lt_compat; lra]|].
        apply Rmult_le_reg_r with (x - y); [lra|]. unfold Rdiv. rewrite Rmult_assoc, Rinv_l by lra. lra.
    + unfold lerp. cbn [vx vy]. f_equal; cbn [car RS] in *; field; lra.
Qed.
(* the same points *)
Definition on_line_string (l : list pt) (q : pt) : Prop := exists a b, In (a, b) (windows l) /\ on_segment q a b.
Lemma denser_points l m q : denser lerp l m -> (on_line_string m q <-> on_line_string l q).
Proof.
  revert m; induction l as [|a l IH]; intros m D; [inversion D; subst; tauto|]. destruct l as [|b rest]; [inversion D; subst; tauto|].
  destruct (denser_parts _ _ _ _ D) as (ts & m' & F & -> & D' & W). specialize (IH _ D'). unfold on_line_string in *. rewrite W.
  change (windows (a :: b :: rest)) with ((a, b) :: windows (b :: rest)). split.
  - intros (x & y & Hi & Hq). apply in_app_iff in Hi as [Hi|Hi].
    + apply in_map_iff in Hi as ([u v] & E & Hi). injection E as <- <-. destruct (steps01_range ts u v F Hi). exists a, b. split; [left; auto|]. eapply sub_on; [| |exact Hq]; auto.
    + destruct (proj1 IH) as (x' & y' & Hi' & Hq'); [exists x, y; auto|]. exists x', y'. split; [right|]; auto.
  - intros (x & y & [E|Hi] & Hq).
    + injection E as <- <-. destruct Hq as (u & Hu & ->). destruct (walk_over ts 0 1 u (or_introl Hu)) as (s & e & Hi & B).
      exists (lerp a b s), (lerp a b e). split; [|apply on_sub; auto]. apply in_app_iff. left. apply in_map_iff. exists (s, e). auto.
    + destruct (proj2 IH) as (x' & y' & Hi' & Hq'); [exists x, y; auto|]. exists x', y'. split; [apply in_app_iff; right|]; auto.
Qed.

(* ---- one edge against a line ---- *)
Notation seg w := (mkL (fst w) (snd w)).
Lemma described_common (e o : Line2 RS) q : described (intersection_point e o) q <-> common e o q.
Proof.
  pose proof (intersection_correct e o) as C. destruct (intersection_point e o) as [[p|s]|]; cbn [correct described] in *.
  - symmetry. apply C.
  - symmetry. apply C.
  - split; [tauto|]. intros H. exact (C q H).
Qed.
Lemma chain_point (a b : pt) ts o p : Forall (fun t => 0 < t < 1) ts -> intersection_point (mkL a b) o = Some (IPoint p) ->
  exists n, (1 <= n)%nat /\ filter_some (fun e => intersection_point e o) (map (fun w => seg w) (map (sub a b) (steps01 ts))) = repeat (IPoint p) n.
Proof.
  intros F E.
  assert (C : forall q, common (mkL a b) o q <-> q = p) by (intros q; rewrite <- described_common, E; cbn [described]; tauto).
  assert (One : forall w, In w (steps01 ts) -> intersection_point (seg (sub a b w)) o = None \/ intersection_point (seg (sub a b w)) o = Some (IPoint p)).
  { intros [x y] Hi. destruct (steps01_range ts x y F Hi) as [Hx Hy].
    assert (K : forall q, described (intersection_point (seg (sub a b (x, y))) o) q -> q = p).
    { intros q Hq. apply described_common in Hq as [Q1 Q2]. apply C. split; auto. cbn [lstart lend sub fst snd] in *. eapply sub_on; [| |exact Q1]; auto. }
    pose proof (intersection_correct (seg (sub a b (x, y))) o) as Ic.
    destruct (intersection_point (seg (sub a b (x, y))) o) as [[r|s]|]; auto; cbn [described correct] in *.
    - right. rewrite (K r eq_refl). reflexivity.
    - exfalso. destruct Ic as [Ne _]. apply Ne. rewrite (K (lstart s) (on_segment_start _ _)), (K (lend s) (on_segment_end _ _)). reflexivity. }
  assert (Some_one : exists w, In w (steps01 ts) /\ intersection_point (seg (sub a b w)) o = Some (IPoint p)).
  { destruct (proj2 (C p) eq_refl) as [P1 P2]. destruct P1 as (u & Hu & Ep). cbn [lstart lend] in Ep. destruct (walk_over ts 0 1 u (or_introl Hu)) as (x & y & Hi & B).
    exists (x, y). split; [exact Hi|]. destruct (One (x, y) Hi) as [N|]; auto. exfalso.
    assert (Q : described (intersection_point (seg (sub a b (x, y))) o) p). { apply described_common. split; auto. cbn [lstart lend sub fst snd]. rewrite Ep. apply on_sub. auto. }
    rewrite N in Q. exact Q. }
  revert One Some_one. clear. generalize (steps01 ts) as ws. induction ws as [|w ws IH]; intros One (w0 & Hw & Ew); [destruct Hw|].
  cbn [map filter_some].
  assert (All : (forall w, In w ws -> intersection_point (seg (sub a b w)) o = None \/ intersection_point (seg (sub a b w)) o = Some (IPoint p)) ->
    exists n, filter_some (fun e => intersection_point e o) (map (fun w => seg w) (map (sub a b) ws)) = repeat (IPoint p) n).
  { clear. induction ws as [|w ws IH]; intros H; [exists 0%nat; reflexivity|]. destruct (IH (fun w Hw => H w (or_intror Hw))) as (n & En). cbn [map filter_some].
    destruct (H w (or_introl eq_refl)) as [-> | ->]; rewrite En; [exists n|exists (Datatypes.S n)]; reflexivity. }
  destruct (One w (or_introl eq_refl)) as [E|E]; rewrite E.
  - destruct Hw as [<-|Hw]; [rewrite E in Ew; discriminate|]. apply IH; [intros; apply One; right; auto|exists w0; auto].
  - destruct All as (n & En); [intros; apply One; right; auto|]. rewrite En. exists (Datatypes.S n). split; [lia|reflexivity].
Qed.
Lemma chain_none (a b : pt) ts o : Forall (fun t => 0 < t < 1) ts -> intersection_point (mkL a b) o = None ->
  filter_some (fun e => intersection_point e o) (map (fun w => seg w) (map (sub a b) (steps01 ts))) = [].
Proof.
  intros F E. assert (One : forall w, In w (steps01 ts) -> intersection_point (seg (sub a b w)) o = None).
  { intros [x y] Hi. destruct (steps01_range ts x y F Hi) as [Hx Hy].
    assert (K : forall q, ~ described (intersection_point (seg (sub a b (x, y))) o) q).
    { intros q Hq. apply described_common in Hq as [Q1 Q2]. assert (D : described (intersection_point (mkL a b) o) q).
      { apply described_common. split; auto. cbn [lstart lend sub fst snd] in *. eapply sub_on; [| |exact Q1]; auto. }
      rewrite E in D. exact D. }
    destruct (intersection_point (seg (sub a b (x, y))) o) as [[r|s]|]; auto; exfalso.
    - exact (K r eq_refl).
    - exact (K (lstart s) (on_segment_start _ _)). }
  revert One. generalize (steps01 ts) as ws. induction ws as [|w ws IH]; intros One; [reflexivity|]. cbn [map filter_some]. rewrite (One w (or_introl eq_refl)). apply IH. intros; apply One; right; auto.
Qed.

(* [repeated l m]: m is l with every entry repeated, at least once *)
Inductive repeated {A} : list A -> list A -> Prop :=
| rp_nil : repeated [] []
| rp_cons x n l m : (1 <= n)%nat -> repeated l m -> repeated (x :: l) (repeat x n ++ m).
Definition meets_in_points (l : list pt) (o : Line2 RS) : Prop := forall i, In i (find_all_intersections l o) -> exists p, i = IPoint p.
Lemma window_iter_cons (a b : pt) l : window_iter (a :: b :: l) = mkL a b :: window_iter (b :: l).
Proof. reflexivity. Qed.
Lemma denser_all l m o : denser lerp l m -> meets_in_points l o -> repeated (find_all_intersections l o) (find_all_intersections m o).
Proof.
  revert m; induction l as [|a l IH]; intros m D H; [inversion D; subst; constructor|]. destruct l as [|b rest]; [inversion D; subst; constructor|].
  destruct (denser_parts _ _ _ _ D) as (ts & m' & F & -> & D' & W).
  assert (Em : find_all_intersections (a :: map (lerp a b) ts ++ b :: m') o =
    filter_some (fun e => intersection_point e o) (map (fun w => seg w) (map (sub a b) (steps01 ts))) ++ find_all_intersections (b :: m') o).
  { unfold find_all_intersections at 1, window_iter. match type of W with windows ?x = _ => match goal with |- filter_some _ (map _ (windows ?y)) = _ => change y with x end end. rewrite W, map_app, filter_some_app. reflexivity. }
  rewrite Em. unfold find_all_intersections at 1. rewrite window_iter_cons. cbn [filter_some].
  unfold meets_in_points in H. unfold find_all_intersections in H. rewrite window_iter_cons in H. cbn [filter_some] in H.
  destruct (intersection_point (mkL a b) o) as [i|] eqn:E.
  - destruct (H i (or_introl eq_refl)) as (p & ->). destruct (chain_point a b ts o p F E) as (n & Hn & ->). constructor; auto. apply IH; auto. intros j Hj. apply H. right. exact Hj.
  - rewrite (chain_none a b ts o F E). cbn [app]. apply IH; auto.
Qed.
Lemma repeated_hd {A} (l m : list A) : repeated l m -> hd_error m = hd_error l.
Proof. intros H; inversion H as [|x n l' m' Hn]; subst; auto. destruct n; [lia|reflexivity]. Qed.
(* find_two_intersections looks at the list of intersections only *)
Fixpoint two_list (is : list (Intersection RS)) (acc : list pt) : list pt :=
  match is with
  | [] => acc
  | i :: t =>
      let acc' := match i with
        | IPoint p => push_new acc p
        | IOverlap l => let acc1 := push_new acc (lstart l) in if (Nat.ltb (length acc1) 2)%bool then push_new acc1 (lend l) else acc1
        end in
      if Nat.eqb (length acc') 2 then acc' else two_list t acc'
  end.
Lemma two_loop_list es o : forall acc, length acc <> 2%nat -> two_loop es o acc = two_list (filter_some (fun e => intersection_point e o) es) acc.
Proof.
  induction es as [|e es IH]; intros acc H; [reflexivity|]. cbn [two_loop filter_some].
  destruct (intersection_point e o) as [i|].
  - cbn [two_list]. cbv zeta. match goal with |- (if Nat.eqb (length ?x) 2 then _ else _) = (if Nat.eqb (length ?y) 2 then _ else _) => replace x with y by (destruct i; reflexivity); destruct (Nat.eqb (length y) 2) eqn:E end; auto.
    apply IH. apply Nat.eqb_neq. exact E.
  - cbv zeta. apply Nat.eqb_neq in H as H'. rewrite H'. apply IH. auto.
Qed.
Lemma push_again (acc : list pt) p : push_new (push_new acc p) p = push_new acc p.
Proof.
  unfold push_new at 2. destruct (vmem p acc) eqn:E; [unfold push_new; rewrite E; reflexivity|].
  unfold push_new. rewrite E. unfold vmem. rewrite existsb_app. cbn [existsb]. rewrite (proj2 (veqb_R p p) eq_refl). rewrite orb_true_r. reflexivity.
Qed.
Lemma two_list_repeated is js : repeated is js -> (forall i, In i is -> exists p, i = IPoint p) -> forall acc, two_list js acc = two_list is acc.
Proof.
  induction 1 as [|x n l m Hn Hr IH]; intros H acc; [reflexivity|]. destruct (H x (or_introl eq_refl)) as (p & ->).
  destruct n as [|n]; [lia|]. cbn [repeat app two_list]. cbv zeta. destruct (Nat.eqb (length (push_new acc p)) 2) eqn:E; auto.
  rewrite <- IH by (intros; apply H; right; auto).
  clear Hn IH H. revert E. generalize (push_again acc p). generalize (push_new acc p) as a'. intros a' P E. induction n as [|n IHn]; [reflexivity|].
  cbn [repeat app two_list]. cbv zeta. rewrite P, E. exact IHn.
Qed.

(* ---- rays ---- *)
Lemma ray_fold_eq (o v : pt) (ws ws' : list (V2 RS * V2 RS)) :
  (forall w t, In w ws -> ray_edge_intersection o v (fst w) (snd w) = Some t -> 0 < t -> exists w' t', In w' ws' /\ ray_edge_intersection o v (fst w') (snd w') = Some t' /\ 0 < t' <= t) ->
  (forall w t, In w ws' -> ray_edge_intersection o v (fst w) (snd w) = Some t -> 0 < t -> exists w' t', In w' ws /\ ray_edge_intersection o v (fst w') (snd w') = Some t' /\ 0 < t' <= t) ->
  fold_left (ray_step o v) ws' None = fold_left (ray_step o v) ws None.
Proof.
  intros H H'. pose proof (ray_fold_least _ o v ws (fun w => eq_refl) None I) as F. pose proof (ray_fold_least _ o v ws' (fun w => eq_refl) None I) as F'.
  match type of F with context [fold_left ?x ws ?y] => change (fold_left x ws y) with (fold_left (ray_step o v) ws None) in F end.
  match type of F' with context [fold_left ?x ws' ?y] => change (fold_left x ws' y) with (fold_left (ray_step o v) ws' None) in F' end.
  destruct (fold_left (ray_step o v) ws None) as [t|]; destruct (fold_left (ray_step o v) ws' None) as [t'|]; auto.
  - destruct F as (P & [F1|(w & Hw & Ew)] & _ & F3); [discriminate|]. destruct F' as (P' & [F1|(w' & Hw' & Ew')] & _ & F3'); [discriminate|]. f_equal.
    destruct (H w t Hw Ew P) as (x & u & Hx & Ex & Pu). destruct (H' w' t' Hw' Ew' P') as (x' & u' & Hx' & Ex' & Pu').
    assert (A : t' <= u) by (apply (F3' x); auto; lra). assert (B : t <= u') by (apply (F3 x'); auto; lra). cbn [car RS] in *. lra.
  - destruct F as (P & [F1|(w & Hw & Ew)] & _ & F3); [discriminate|]. destruct F' as (_ & F'). destruct (H w t Hw Ew P) as (x & u & Hx & Ex & Pu). specialize (F' x u Hx Ex). lra.
  - destruct F' as (P & [F1|(w & Hw & Ew)] & _ & _); [discriminate|]. destruct F as (_ & F). destruct (H' w t' Hw Ew P) as (x & u & Hx & Ex & Pu). specialize (F x u Hx Ex). lra.
Qed.
(* the edge a-b does not run along the ray with the origin on it, short of its end *)
Definition leaves_no_edge (o v a b : pt) : Prop := forall s t, a = ray_at o v s -> b = ray_at o v t -> ~ (Rmin s t <= 0 < Rmax s t).
Lemma sub_dir (v a b : pt) x y : vx v * (vy (lerp a b y) - vy (lerp a b x)) - vy v * (vx (lerp a b y) - vx (lerp a b x)) = (y - x) * (vx v * (vy b - vy a) - vy v * (vx b - vx a)).
Proof. unfold lerp. cbn [vx vy]. cbn [car RS] in *. ring. Qed.
Lemma ray_lerp (o v : pt) s t x : lerp (ray_at o v s) (ray_at o v t) x = ray_at o v (s + x * (t - s)).
Proof. unfold lerp, ray_at. cbn [vx vy]. apply V2_ext; cbn [vx vy car RS] in *; ring. Qed.
Lemma sub_ray (o v a b : pt) x y t : vx v <> 0 \/ vy v <> 0 -> leaves_no_edge o v a b -> 0 <= x <= 1 -> 0 <= y <= 1 ->
  ray_edge_intersection o v (lerp a b x) (lerp a b y) = Some t -> 0 < t -> exists t', ray_edge_intersection o v a b = Some t' /\ 0 < t' <= t.
Proof.
  intros Hv Hl Hx Hy E Ht. destruct (Req_dec (vx v * (vy b - vy a) - vy v * (vx b - vx a)) 0) as [P|P].
  - (* along the ray *)
    assert (P' : vx v * (vy (lerp a b y) - vy (lerp a b x)) - vy v * (vx (lerp a b y) - vx (lerp a b x)) = 0) by (rewrite sub_dir, P; ring).
    pose proof (ray_edge_parallel o v _ _ Hv P') as G'. rewrite E in G'. destruct G' as (t0 & t1 & E0 & E1 & Et).
    pose proof (ray_edge_parallel o v a b Hv P) as G. destruct (ray_edge_intersection o v a b) as [u|].
    + destruct G as (s0 & s1 & A0 & A1 & ->). specialize (Hl s0 s1 A0 A1). exists (Rmin s0 s1). split; auto.
      rewrite A0, A1, ray_lerp in E0, E1. apply ray_inj in E0, E1; auto.
      assert (Q : forall z, 0 <= z <= 1 -> Rmin s0 s1 <= s0 + z * (s1 - s0) <= Rmax s0 s1).
      { intros z Hz. assert (0 <= z * (Rmax s0 s1 - s1)) by (apply Rmult_le_pos; [lra|]; pose proof (Rmax_r s0 s1); lra).
        assert (0 <= (1 - z) * (Rmax s0 s1 - s0)) by (apply Rmult_le_pos; [lra|]; pose proof (Rmax_l s0 s1); lra).
        assert (0 <= z * (s1 - Rmin s0 s1)) by (apply Rmult_le_pos; [lra|]; pose proof (Rmin_r s0 s1); lra).
        assert (0 <= (1 - z) * (s0 - Rmin s0 s1)) by (apply Rmult_le_pos; [lra|]; pose proof (Rmin_l s0 s1); lra). lra. }
      pose proof (Q x Hx) as Qx. pose proof (Q y Hy) as Qy. rewrite E0 in Qx. rewrite E1 in Qy. subst t.
      assert (Rmin s0 s1 <= Rmin t0 t1) by (apply Rmin_glb; lra). assert (0 < Rmax s0 s1) by (pose proof (Rmin_l t0 t1); lra).
      destruct (Rle_dec (Rmin s0 s1) 0); [exfalso; apply Hl; lra|]. lra.
    + exfalso. apply (G t0). rewrite <- E0. exists x. auto.
  - destruct (Req_dec x y) as [->|N].
    + (* a repeated point *)
      assert (P' : vx v * (vy (lerp a b y) - vy (lerp a b y)) - vy v * (vx (lerp a b y) - vx (lerp a b y)) = 0) by (cbn [car RS] in *; ring).
      pose proof (ray_edge_parallel o v _ _ Hv P') as G'. rewrite E in G'. destruct G' as (t0 & t1 & E0 & E1 & Et).
      assert (t1 = t0) as -> by (rewrite E0 in E1; apply ray_inj in E1; auto). rewrite Rmin_left in Et by lra. subst t0. exists t. split; [|lra]. apply ray_edge_cross; auto. split; [lra|]. exists y. split; auto.
    + assert (P' : vx v * (vy (lerp a b y) - vy (lerp a b x)) - vy v * (vx (lerp a b y) - vx (lerp a b x)) <> 0).
      { rewrite sub_dir. intros Z. apply Rmult_integral in Z as [Z|Z]; [lra|auto]. }
      apply ray_edge_cross in E; auto. destruct E as [E1 E2]. exists t. split; [|lra]. apply ray_edge_cross; auto. split; auto. eapply sub_on; [| |exact E2]; auto.
Qed.
Lemma ray_sub (o v a b : pt) ts t : vx v <> 0 \/ vy v <> 0 -> leaves_no_edge o v a b -> Forall (fun t => 0 < t < 1) ts ->
  ray_edge_intersection o v a b = Some t -> 0 < t -> exists w, In w (map (sub a b) (steps01 ts)) /\ exists t', ray_edge_intersection o v (fst w) (snd w) = Some t' /\ 0 < t' <= t.
Proof.
  intros Hv Hl F E Ht. destruct (Req_dec (vx v * (vy b - vy a) - vy v * (vx b - vx a)) 0) as [P|P].
  - pose proof (ray_edge_parallel o v a b Hv P) as G. rewrite E in G. destruct G as (s0 & s1 & A0 & A1 & ->). specialize (Hl s0 s1 A0 A1).
    assert (S : forall x y, In (x, y) (steps01 ts) -> exists t', ray_edge_intersection o v (lerp a b x) (lerp a b y) = Some t' /\ t' = Rmin (s0 + x * (s1 - s0)) (s0 + y * (s1 - s0))).
    { intros x y Hi. assert (P' : vx v * (vy (lerp a b y) - vy (lerp a b x)) - vy v * (vx (lerp a b y) - vx (lerp a b x)) = 0) by (rewrite sub_dir, P; ring).
      pose proof (ray_edge_parallel o v _ _ Hv P') as G'. destruct (ray_edge_intersection o v (lerp a b x) (lerp a b y)) as [t'|].
      - destruct G' as (t0 & t1 & E0 & E1 & ->). rewrite A0, A1, ray_lerp in E0, E1. apply ray_inj in E0, E1; auto. subst. eauto.
      - exfalso. apply (G' (s0 + x * (s1 - s0))). rewrite <- ray_lerp, <- A0, <- A1. apply on_segment_start. }
    assert (R0 : exists x y u, In (x, y) (steps01 ts) /\ between u x y /\ s0 + u * (s1 - s0) = Rmin s0 s1 /\ (u = x \/ u = y)).
    { destruct (Rle_dec s0 s1) as [L|L].
      - assert (exists y, In (0, y) (steps01 ts)) as (y & Hy) by (unfold steps01; destruct ts; cbn; eauto).
        exists 0, y, 0. split; [exact Hy|]. destruct (steps01_range ts 0 y F Hy). split; [left; lra|]. split; [|auto]. rewrite Rmin_left by lra. ring.
      - assert (exists x, In (x, 1) (steps01 ts)) as (x & Hx).
        { unfold steps01. clear. generalize 0 as s. induction ts as [|t ts IH]; intros s; [exists s; left; auto|]. destruct (IH t) as (x & Hx). exists x. right. exact Hx. }
        exists x, 1, 1. split; [exact Hx|]. destruct (steps01_range ts x 1 F Hx). split; [left; lra|]. split; [|auto]. rewrite Rmin_right by lra. ring. }
    destruct R0 as (x & y & u & Hi & B & Eu & Exy). exists (sub a b (x, y)). split; [apply in_map_iff; eauto|]. destruct (S x y Hi) as (t' & E' & Et').
    cbn [sub fst snd]. exists t'. split; auto. destruct (steps01_range ts x y F Hi) as [Hx Hy].
    assert (Q : forall z, 0 <= z <= 1 -> Rmin s0 s1 <= s0 + z * (s1 - s0)).
    { intros z Hz. assert (0 <= z * (s1 - Rmin s0 s1)) by (apply Rmult_le_pos; [lra|]; pose proof (Rmin_r s0 s1); lra).
      assert (0 <= (1 - z) * (s0 - Rmin s0 s1)) by (apply Rmult_le_pos; [lra|]; pose proof (Rmin_l s0 s1); lra). lra. }
    pose proof (Q x Hx). pose proof (Q y Hy). assert (Rmin s0 s1 <= t') by (subst t'; apply Rmin_glb; auto).
    assert (t' <= Rmin s0 s1). { subst t'. rewrite <- Eu. destruct Exy as [-> | ->]; [apply Rmin_l|apply Rmin_r]. } lra.
  - apply ray_edge_cross in E; auto. destruct E as [E1 (u & Hu & Eu)]. destruct (walk_over ts 0 1 u (or_introl Hu)) as (x & y & Hi & B).
    exists (sub a b (x, y)). split; [apply in_map_iff; eauto|]. cbn [sub fst snd]. exists t. split; [|lra]. destruct (Req_dec x y) as [->|N].
    + assert (P' : vx v * (vy (lerp a b y) - vy (lerp a b y)) - vy v * (vx (lerp a b y) - vx (lerp a b y)) = 0) by (cbn [car RS] in *; ring).
      assert (u = y) as -> by (unfold between in B; lra). pose proof (ray_edge_parallel o v _ _ Hv P') as G'. destruct (ray_edge_intersection o v (lerp a b y) (lerp a b y)) as [t'|].
      * destruct G' as (t0 & t1 & F0 & F1 & ->). rewrite <- Eu in F0, F1. apply ray_inj in F0, F1; auto. subst. rewrite Rmin_left by lra. reflexivity.
      * exfalso. apply (G' t). rewrite <- Eu. apply on_segment_start.
    + apply ray_edge_cross.
      * rewrite sub_dir. intros Z. apply Rmult_integral in Z as [Z|Z]; [lra|auto].
      * split; auto. rewrite Eu. apply on_sub. auto.
Qed.
Lemma denser_ray l m (o v : pt) : vx v <> 0 \/ vy v <> 0 -> (forall a b, In (a, b) (windows l) -> leaves_no_edge o v a b) -> denser lerp l m ->
  closest_ray_intersection m v o = closest_ray_intersection l v o.
Proof.
  intros Hv Hl D. pose proof (denser_length _ _ _ D) as Len. unfold closest_ray_intersection.
  destruct (Nat.leb (length l) 1) eqn:E1.
  - apply Nat.leb_le in E1. destruct l as [|a [|b l]]; [inversion D; subst; reflexivity|inversion D; subst; reflexivity|cbn [length] in E1; lia].
  - apply Nat.leb_gt in E1. replace (Nat.leb (length m) 1) with false by (symmetry; apply Nat.leb_gt; lia). f_equal. clear Len E1.
    apply ray_fold_eq; revert m D; induction l as [|a l IH]; intros m D w t Hw Ew Ht; try (inversion D; subst; destruct Hw; fail); (destruct l as [|b rest]; [inversion D; subst; destruct Hw|]);
      destruct (denser_parts _ _ _ _ D) as (ts & m' & F & -> & D' & W).
    + assert (Hab : leaves_no_edge o v a b) by (apply Hl; left; auto). match goal with |- context [In _ ?y] => idtac end.
      destruct Hw as [<-|Hw].
      * cbn [fst snd] in Ew. destruct (ray_sub o v a b ts t Hv Hab F Ew Ht) as (x & Hx & t' & Ex & Ht'). exists x, t'. split; [|auto]. refine (eq_ind_r (fun z => In x z) _ W). apply in_app_iff. auto.
      * destruct (IH (fun x y Hi => Hl x y (or_intror Hi)) _ D' w t Hw Ew Ht) as (x & t' & Hx & Ex & Ht'). exists x, t'. split; [|auto]. refine (eq_ind_r (fun z => In x z) _ W). apply in_app_iff. auto.
    + assert (Hab : leaves_no_edge o v a b) by (apply Hl; left; auto).
      assert (Hw' := eq_ind _ (fun z => In w z) Hw _ W). cbn beta in Hw'. apply in_app_iff in Hw' as [Hi|Hi].
      * apply in_map_iff in Hi as ([x y] & <- & Hi). cbn [sub fst snd] in Ew. destruct (steps01_range ts x y F Hi) as [Hx Hy].
        destruct (sub_ray o v a b x y t Hv Hab Hx Hy Ew Ht) as (t' & Et' & Ht'). exists (a, b), t'. split; [left; reflexivity|auto].
      * destruct (IH (fun x y Hi => Hl x y (or_intror Hi)) _ D' w t Hi Ew Ht) as (x & t' & Hx & Ex & Ht'). exists x, t'. split; [right; exact Hx|auto].
Qed.
