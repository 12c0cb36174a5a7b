(* Parabolic arc sampling under changes of the arc: the segment moved along its line, similarities, start and end exchanged. *)
From Coq Require Import Reals Lra Psatz.
From Verif Require Import Prelude Scalar RInst Geo2 GeoSpec DistR Parabola ParaSpec ParaProofs.
Local Open Scope R_scope.

(* each point of the list differs from the next one *)
Fixpoint chain (l : list R) : Prop := match l with x :: (y :: _) as t => x <> y /\ chain t | _ => True end.
Lemma chain_tail x l : chain (x :: l) -> chain l.
Proof. destruct l; cbn; tauto. Qed.

Section Step.
  Variable c : Arc RS.
  Variable T : R.
  Hypothesis Hb : (rot_y c : R) <> 0.
  Notation b := (rot_y c).
  Notation id := (fun p : pt => p).
  Definition close (u v : R) : bool := Rleb ((v - u) ^ 4) (64 * (b * b) * (1 + slope c u v * slope c u v) * T).
  Lemma one_step u v k rv : u <> v ->
    pstep id c T (@mkP RS pt (v :: k) u (fy c u) rv) =
    if close u v then @mkP RS pt k v (fy c v) (rv ++ [sample c id v]) else @mkP RS pt ((u + v) / 2 :: v :: k) u (fy c u) rv.
  Proof.
    intros H. unfold pstep. cbn [pstack cur_x cur_y prv]. fold (fy c v). pose proof (test_acc c T Hb u v H) as G.
    assert (E : @sleb RS (@dist_of RS c u (fy c u) v (fy c v) (@mid_of RS c u (fy c u) v (fy c v)) (@parabola_y RS (@mid_of RS c u (fy c u) v (fy c v)) (rot_x c) (rot_y c))) T = close u v).
    { unfold close. fold (fy c (@mid_of RS c u (fy c u) v (fy c v))). unfold sleb; cbn [sleb RS].
      match goal with |- ?x = ?y => destruct x eqn:E1; destruct y eqn:E2; try reflexivity; exfalso end.
      - apply Rleb_true in E1. apply G in E1. apply Rleb_true in E1. congruence.
      - apply Rleb_true in E2. apply G in E2. apply Rleb_true in E2. congruence. }
    rewrite E, (mid_eq c Hb u v H). reflexivity.
  Qed.
  (* the points emitted strictly between u and v, and the number of steps that takes *)
  Inductive split_at : R -> R -> list R -> nat -> Prop :=
  | split_close u v : u <> v -> close u v = true -> split_at u v [] 1
  | split_mid u v l1 n1 l2 n2 : u <> v -> close u v = false -> split_at u ((u + v) / 2) l1 n1 -> split_at ((u + v) / 2) v l2 n2 ->
      split_at u v (l1 ++ (u + v) / 2 :: l2) (1 + n1 + n2).
  Lemma split_run u v l n : split_at u v l n -> forall fuel k rv,
    ploop id c T (n + fuel) (@mkP RS pt (v :: k) u (fy c u) rv) = ploop id c T fuel (@mkP RS pt k v (fy c v) (rv ++ map (sample c id) (l ++ [v]))).
  Proof.
    induction 1 as [u v Hn Hc|u v l1 n1 l2 n2 Hn Hc _ IH1 _ IH2]; intros fuel k rv.
    - cbn [Nat.add ploop pstack]. rewrite one_step, Hc by auto. reflexivity.
    - change (1 + n1 + n2 + fuel)%nat with (Datatypes.S (n1 + n2 + fuel)). cbn [ploop pstack]. rewrite one_step, Hc by auto.
      rewrite <- Nat.add_assoc, IH1, IH2. f_equal. f_equal. rewrite <- !app_assoc, !map_app. cbn [map app]. rewrite <- !app_assoc. reflexivity.
  Qed.
  Lemma run_split fuel : forall u v k rv out, u <> v -> ploop id c T fuel (@mkP RS pt (v :: k) u (fy c u) rv) = Val out -> exists l n, split_at u v l n /\ (n <= fuel)%nat.
  Proof.
    induction fuel as [fuel IH] using (well_founded_induction Wf_nat.lt_wf). intros u v k rv out Hn H.
    destruct fuel as [|f]; [cbn in H; discriminate|]. cbn [ploop pstack] in H. rewrite one_step in H by auto. destruct (close u v) eqn:Hc.
    - exists [], 1%nat. split; [constructor; auto|lia].
    - destruct (IH f ltac:(lia) u ((u + v) / 2) (v :: k) rv out) as (l1 & n1 & S1 & L1); auto; [lra|].
      replace f with (n1 + (f - n1))%nat in H by lia. rewrite (split_run _ _ _ _ S1) in H.
      destruct (IH (f - n1)%nat) with (3 := H) as (l2 & n2 & S2 & L2); [pose proof (split_pos := S1); inversion S1; lia|lra|].
      eexists. eexists. split; [apply split_mid; eauto|lia].
  Qed.
  Lemma split_det u v l n : split_at u v l n -> forall l' n', split_at u v l' n' -> l' = l /\ n' = n.
  Proof.
    induction 1 as [u v Hn Hc|u v l1 n1 l2 n2 Hn Hc S1 IH1 S2 IH2]; intros l' n' H; inversion H as [? ? Hn' Hc'|? ? k1 m1 k2 m2 Hn' Hc' K1 K2]; subst; try congruence; auto.
    destruct (IH1 _ _ K1) as [-> ->]. destruct (IH2 _ _ K2) as [-> ->]. auto.
  Qed.
  Lemma close_sym u v : close u v = close v u.
  Proof.
    unfold close. assert (E1 : (v - u) ^ 4 = (u - v) ^ 4) by ring. assert (E2 : slope c u v = slope c v u) by (unfold slope; f_equal; rsimp; ring).
    rewrite E1, E2. reflexivity.
  Qed.
  Lemma split_rev u v l n : split_at u v l n -> split_at v u (rev l) n.
  Proof.
    induction 1 as [u v Hn Hc|u v l1 n1 l2 n2 Hn Hc S1 IH1 S2 IH2]; [constructor; auto; rewrite close_sym; auto|].
    rewrite rev_app_distr. cbn [rev]. rewrite <- app_assoc. cbn [app]. replace (1 + n1 + n2)%nat with (1 + n2 + n1)%nat by lia.
    replace ((u + v) / 2) with ((v + u) / 2) in * by lra. apply split_mid; auto. rewrite close_sym. auto.
  Qed.
End Step.

Section Sim.
  Variables c c' : Arc RS.
  Variables lam mu nu T T' : R.
  Variable g : pt -> pt.
  Notation id := (fun p : pt => p).
  Notation h := (fun x : R => lam * x + mu).
  Hypothesis Hb : (rot_y c : R) <> 0.
  Hypothesis Hl : lam <> 0.
  Hypothesis Hnu : nu * nu = lam * lam.
  Hypothesis HT : T' = lam * lam * T.
  Hypothesis Ha' : (rot_x c' : R) = h (rot_x c).
  Hypothesis Hb' : (rot_y c' : R) = nu * rot_y c.
  Hypothesis Hg : forall x y, @untransform RS c' (h x) (nu * y) = g (@untransform RS c x y).
  Lemma nu_0 : nu <> 0.
  Proof. intros ->. apply Hl. rewrite Rmult_0_l in Hnu. symmetry in Hnu. apply Rmult_integral in Hnu. tauto. Qed.
  Lemma b'_0 : (rot_y c' : R) <> 0.
  Proof. rewrite Hb'. apply Rmult_integral_contrapositive_currified; [apply nu_0|auto]. Qed.
  Lemma fy_sim x : fy c' (h x) = nu * fy c x.
  Proof.
    pose proof nu_0 as N. rewrite (fy_eq c' b'_0), (fy_eq c Hb), Ha', Hb'.
    assert (G : forall a b : R, b <> 0 -> ((lam * x + mu - (lam * a + mu)) * (lam * x + mu - (lam * a + mu)) + nu * b * (nu * b)) / (2 * (nu * b)) = nu * (((x - a) * (x - a) + b * b) / (2 * b))).
    { intros a b B. replace ((lam * x + mu - (lam * a + mu)) * (lam * x + mu - (lam * a + mu))) with (lam * lam * ((x - a) * (x - a))) by ring. rewrite <- Hnu. field. auto. }
    apply G. exact Hb.
  Qed.
  Lemma slope_sim u v : slope c' (h u) (h v) * slope c' (h u) (h v) = slope c u v * slope c u v.
  Proof.
    pose proof nu_0 as N. unfold slope. rewrite Ha', Hb'.
    assert (G : forall a b : R, b <> 0 -> (lam * u + mu + (lam * v + mu) - 2 * (lam * a + mu)) / (2 * (nu * b)) * ((lam * u + mu + (lam * v + mu) - 2 * (lam * a + mu)) / (2 * (nu * b))) = (u + v - 2 * a) / (2 * b) * ((u + v - 2 * a) / (2 * b))).
    { intros a b B. transitivity ((lam * lam) * ((u + v - 2 * a) * (u + v - 2 * a)) / (4 * (nu * nu) * (b * b))); [field; auto|]. rewrite <- Hnu. field. auto. }
    apply G. exact Hb.
  Qed.
  Lemma close_sim u v : close c' T' (h u) (h v) = close c T u v.
  Proof.
    unfold close. rewrite slope_sim, Hb', HT.
    assert (G : forall X Y : R, Rleb (lam ^ 4 * X) (lam ^ 4 * Y) = Rleb X Y).
    { intros X Y. assert (P : 0 < lam ^ 4) by (replace (lam ^ 4) with ((lam * lam) * (lam * lam)) by ring; apply Rsqr_pos_lt; apply Rmult_integral_contrapositive_currified; auto).
      destruct (Rleb X Y) eqn:E; [apply Rleb_true in E; apply Rleb_true; apply Rmult_le_compat_l; lra|].
      destruct (Rleb (lam ^ 4 * X) (lam ^ 4 * Y)) eqn:E'; auto. apply Rleb_true in E'. apply Rmult_le_reg_l in E'; auto. apply Rleb_true in E'. congruence. }
    replace ((lam * v + mu - (lam * u + mu)) ^ 4) with (lam ^ 4 * (v - u) ^ 4) by ring.
    assert (K : forall b k : R, 64 * (nu * b * (nu * b)) * k * (lam * lam * T) = lam ^ 4 * (64 * (b * b) * k * T)).
    { intros b k. transitivity (64 * ((nu * nu) * (b * b)) * k * (lam * lam * T)); [ring|]. rewrite Hnu. ring. }
    rewrite <- (G ((v - u) ^ 4)). f_equal. exact (K (rot_y c) (1 + slope c u v * slope c u v)).
  Qed.
  Lemma sample_sim x : sample c' id (h x) = g (sample c id x).
  Proof. unfold sample. rewrite fy_sim. apply Hg. Qed.
  Lemma ploop_sim fuel : forall k u rv, chain (u :: k) ->
    ploop id c' T' fuel (@mkP RS pt (map h k) (h u) (fy c' (h u)) (map g rv)) = omap (map g) (ploop id c T fuel (@mkP RS pt k u (fy c u) rv)).
  Proof.
    induction fuel as [|f IH]; intros [|v k] u rv H; cbn [ploop pstack map]; try reflexivity.
    destruct H as [H1 H2]. assert (H1' : h u <> h v) by (intros K; apply H1; apply (Rmult_eq_reg_l lam); auto; lra).
    rewrite (one_step c T Hb), (one_step c' T' b'_0), close_sim by auto. destruct (close c T u v).
    - rewrite <- IH by auto. f_equal. f_equal. rewrite map_app. cbn [map]. f_equal. f_equal. apply sample_sim.
    - rewrite <- (IH ((u + v) / 2 :: v :: k)); [|cbn; split; [lra|split; [lra|auto]]]. cbn [map]. f_equal. f_equal. f_equal. field.
  Qed.
  Lemma map_removelast_ (l : list pt) : removelast (map g l) = map g (removelast l).
  Proof.
    induction l as [|a l IHm]; [reflexivity|]. destruct l as [|b m]; [reflexivity|]. change (g a :: removelast (map g (b :: m)) = g a :: map g (removelast (b :: m))).
    rewrite IHm. reflexivity.
  Qed.
  Lemma set_last_map (l : list pt) x : set_last (map g l) (g x) = omap (map g) (set_last l x).
  Proof.
    destruct l as [|y l]; [reflexivity|]. unfold omap, set_last. cbn [map obind]. rewrite map_app.
    exact (f_equal (fun z => Val (z ++ [g x])) (map_removelast_ (y :: l))).
  Qed.
  Lemma disc_sim fuel u v : u <> v -> start_point c' = g (start_point c) -> end_point c' = g (end_point c) ->
    disc id fuel c' T' (h u) (h v) = omap (map g) (disc id fuel c T u v).
  Proof.
    intros Hn E1 E2. unfold disc. fold (fy c u). fold (fy c' (h u)). rewrite E1, E2.
    change [h v] with (map h [v]). change [g (start_point c)] with (map g [start_point c]). 
    pose proof (ploop_sim fuel [v] u [start_point c] (conj Hn I)) as E. 
    refine (eq_trans (f_equal (fun o => match o with Val rv => set_last rv (g (end_point c)) | Panic => Panic | NoFuel => NoFuel | Fail e => Fail e end) E) _).
    destruct (ploop id c T fuel _) as [rv| | |]; unfold omap at 1; cbn [obind]; try reflexivity. apply set_last_map.
  Qed.
End Sim.

Section Back.
  Variable c : Arc RS.
  Variable T : R.
  Hypothesis Hb : (rot_y c : R) <> 0.
  Notation id := (fun p : pt => p).
  Lemma ploop_val_nofuel fuel : forall st, (exists v, ploop id c T fuel st = Val v) \/ ploop id c T fuel st = NoFuel.
  Proof. induction fuel as [|f IH]; intros st; cbn [ploop]; destruct (pstack st); eauto. Qed.
  Definition fin (o : outcome (list pt)) : outcome (list pt) :=
    match o with Val rv => set_last rv (end_point c) | Panic => Panic | NoFuel => NoFuel | Fail e => Fail e end.
  Lemma disc_split fuel u v : u <> v ->
    (exists l n, split_at c T u v l n /\ (n <= fuel)%nat /\ disc id fuel c T u v = Val (start_point c :: map (sample c id) l ++ [end_point c])) \/
    ((forall l n, split_at c T u v l n -> (fuel < n)%nat) /\ disc id fuel c T u v = NoFuel).
  Proof.
    intros Hn. assert (D : disc id fuel c T u v = fin (ploop id c T fuel (@mkP RS pt [v] u (fy c u) [start_point c]))) by reflexivity. rewrite D. clear D.
    assert (G : forall l n, split_at c T u v l n -> (n <= fuel)%nat ->
      ploop id c T fuel (@mkP RS pt [v] u (fy c u) [start_point c]) = Val (start_point c :: map (sample c id) l ++ [sample c id v])).
    { intros l n H Hf. replace fuel with (n + (fuel - n))%nat by lia. rewrite (split_run c T Hb _ _ _ _ H).
      destruct (fuel - n)%nat; cbn [ploop pstack prv]; rewrite map_app; reflexivity. }
    destruct (ploop_val_nofuel fuel (@mkP RS pt [v] u (fy c u) [start_point c])) as [[rv E]|E].
    - destruct (run_split c T Hb fuel u v [] _ _ Hn E) as (l & n & Hs & Hf). left. exists l, n. split; auto. split; auto.
      rewrite (G l n Hs Hf). unfold fin, set_last. rewrite app_comm_cons, removelast_last. reflexivity.
    - right. rewrite E. split; auto. intros l n H. destruct (Nat.le_gt_cases n fuel) as [K|K]; auto. rewrite (G l n H K) in E. discriminate.
  Qed.
End Back.

Lemma split_other (c c' : Arc RS) T : (forall u v, close c T u v = close c' T u v) -> forall u v l n, split_at c T u v l n -> split_at c' T u v l n.
Proof. intros Hc. induction 1 as [u v Hn H|u v l1 n1 l2 n2 Hn H _ IH1 _ IH2]; rewrite Hc in H; [constructor; auto|apply split_mid; auto]. Qed.
Lemma disc_back (seg : Line2 RS) (f s e : pt) (T u v : R) fuel :
  let c := @mkArc RS seg f s e in let c' := @mkArc RS seg f e s in
  (rot_y c : R) <> 0 -> u <> v -> disc (fun p : pt => p) fuel c' T v u = omap (@rev pt) (disc (fun p : pt => p) fuel c T u v).
Proof.
  intros c c' Hb Hn. assert (Hn' : v <> u) by congruence. assert (Hb' : (rot_y c' : R) <> 0) by exact Hb.
  assert (Hrev : forall l n, split_at c T u v l n -> split_at c' T v u (rev l) n) by (intros l n H; exact (split_other c c' T (fun _ _ => eq_refl) _ _ _ _ (split_rev c T _ _ _ _ H))).
  assert (Hrev' : forall l n, split_at c' T v u l n -> split_at c T u v (rev l) n) by (intros l n H; exact (split_other c' c T (fun _ _ => eq_refl) _ _ _ _ (split_rev c' T _ _ _ _ H))).
  destruct (disc_split c T Hb fuel u v Hn) as [(l & n & Hs & Hf & E)|[Hs E]]; destruct (disc_split c' T Hb' fuel v u Hn') as [(l' & n' & Hs' & Hf' & E')|[Hs' E']]; rewrite E, E'; unfold omap; cbn [obind].
  - destruct (split_det c' T _ _ _ _ (Hrev _ _ Hs) _ _ Hs') as [-> _]. cbn [rev]. rewrite rev_app_distr, map_rev. reflexivity.
  - exfalso. pose proof (Hs' _ _ (Hrev _ _ Hs)). lia.
  - exfalso. pose proof (Hs _ _ (Hrev' _ _ Hs')). lia.
  - reflexivity.
Qed.
