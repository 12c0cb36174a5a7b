(* C145: Visvalingam-Whyatt on a line given backwards, and with another heap. Model: Simplify.v. Vocabulary:
   VwSpec.v (vw_steps, pops_smallest), VwRev.v (no_tied_smallest). *)
From Coq Require Import Reals Lra Psatz Floats.SpecFloat.
From Verif Require Import Prelude Scalar RInst Flt Geo2 Geo3 GeoSpec DistR Simplify Rdp1 FltOrd VwSpec VwProofs VwProofs2 VwRev.

(* As stated FALSE: of two equally small triangles the first one found goes; and in 3D the last point is always lost. *)
Theorem C145_vw_backwards_refuted :
  (simplify_vw_2d (S := F64_) pick_min [P 0 0; P 1 1; P 2 5; P 3 1; P 4 0] 1 = Val [P 0 0; P 2 5; P 3 1; P 4 0] /\
   simplify_vw_2d (S := F64_) pick_min (rev [P 0 0; P 1 1; P 2 5; P 3 1; P 4 0]) 1 = Val (rev [P 0 0; P 1 1; P 2 5; P 4 0])) /\
  (forall (S : Scalar) pick (a b c : V3 S), simplify_vw_3d pick [a; b; c] 0 = Val [a; b] /\
   simplify_vw_3d pick (rev [a; b; c]) 0 = Val (rev [b; c])).
Proof. split; [split; fcomp2|]. intros S pick a b c. split; reflexivity. Qed.
Print Assumptions C145_vw_backwards_refuted.

(* Without ties the result is determined by the line: any two heaps that pop a smallest entry give the same. Any
   scalar type whose comparison is a total preorder on the areas. *)
Theorem C145_any_heap_partial : forall (S : Scalar) (D : car S -> Prop) pick1 pick2 k,
  OrdOn S D -> pops_smallest D pick1 -> pops_smallest D pick2 ->
  (forall line : list (V2 S), (forall a b c, In a line -> In b line -> In c line -> D (area2 a b c)) -> is_connected line = false ->
     no_tied_smallest area2 k line -> simplify_vw_2d pick1 line k = simplify_vw_2d pick2 line k) /\
  (forall (line : list (V2 S)) f tl, (forall a b c, In a line -> In b line -> In c line -> D (area2 a b c)) -> is_connected line = true ->
     line = f :: tl -> no_tied_smallest area2 (Nat.min k (length line - 3)) (line ++ [f]) -> simplify_vw_2d pick1 line k = simplify_vw_2d pick2 line k) /\
  (forall line : list (V3 S), (forall a b c, In a line -> In b line -> In c line -> D (area3 a b c)) ->
     no_tied_smallest area3 k line -> simplify_vw_3d pick1 line k = simplify_vw_3d pick2 line k).
Proof.
  intros S D pick1 pick2 k HO H1 H2. split; [|split].
  - intros line HD Hc Hn. destruct (le_lt_dec (length line) 2) as [L|L].
    { unfold simplify_vw_2d. replace (Nat.leb (length line) 2) with true by (symmetry; apply Nat.leb_le; auto). reflexivity. }
    destruct (vw2_open D HO pick1 line k H1 HD L Hc) as (o1 & -> & S1). destruct (vw2_open D HO pick2 line k H2 HD L Hc) as (o2 & -> & S2).
    f_equal. eapply vw_steps_det; [|eauto|eauto]. eapply no_tied_less; [|exact Hn]; apply Nat.le_min_l.
  - intros line f tl HD Hc El Hn. destruct (le_lt_dec (length line) 2) as [L|L].
    { unfold simplify_vw_2d. replace (Nat.leb (length line) 2) with true by (symmetry; apply Nat.leb_le; auto). reflexivity. }
    destruct (vw2_closed D HO pick1 line k H1 HD L Hc) as (f1 & t1 & o1 & E1 & -> & S1). destruct (vw2_closed D HO pick2 line k H2 HD L Hc) as (f2 & t2 & o2 & E2 & -> & S2).
    rewrite El in E1, E2. injection E1 as <- <-. injection E2 as <- <-.
    f_equal. pose proof (vw_steps_det area2 _ _ _ _ Hn S1 S2) as X. apply app_inv_tail in X. exact X.
  - intros line HD Hn. destruct (le_lt_dec (length line) 2) as [L|L].
    { unfold simplify_vw_3d. replace (Nat.leb (length line) 2) with true by (symmetry; apply Nat.leb_le; auto). reflexivity. }
    destruct (vw3_total D HO pick1 line k H1 HD L) as (o1 & z1 & -> & Z1 & S1). destruct (vw3_total D HO pick2 line k H2 HD L) as (o2 & z2 & -> & Z2 & S2).
    rewrite Z1 in Z2. injection Z2 as <-. f_equal. pose proof (vw_steps_det area3 _ _ _ _ (no_tied_less _ _ _ _ (Nat.le_min_l _ _) Hn) S1 S2) as X. apply app_inv_tail in X. exact X.
Qed.
Print Assumptions C145_any_heap_partial.

Lemma area2_rev (a b c : pt) : area2 (S := RS) c b a = area2 a b c.
Proof. destruct a, b, c. unfold area2; cbn. ring. Qed.
Lemma area3_rev (a b c : pt3) : area3 (S := RS) c b a = area3 a b c.
Proof. destruct a, b, c. unfold area3; cbn. ring. Qed.
Lemma connected_rev (l : list pt) : is_connected (S := RS) (rev l) = is_connected l.
Proof.
  destruct l as [|a t]; [reflexivity|]. destruct t as [|b t]; [reflexivity|].
  assert (E : exists m z, a :: b :: t = a :: m ++ [z]) by (destruct (exists_last (l := b :: t) ltac:(discriminate)) as (m & z & ->); eauto).
  destruct E as (m & z & ->). cbn [rev]. rewrite rev_app_distr. cbn [rev app]. unfold is_connected.
  change (z :: rev m ++ [a]) with ((z :: rev m) ++ [a]). change (a :: m ++ [z]) with ((a :: m) ++ [z]). rewrite !last_last. cbn [app].
  unfold veqb. rsimp. f_equal; apply Bool.eq_iff_eq_true; rewrite !Reqb_true; intuition congruence.
Qed.

Lemma area2_nonneg (a b c : pt) : sltb (s := RS) (area2 (S := RS) a b c) 0%R = false.
Proof. apply Rltb_false. unfold area2. rsimp. apply Rle_0_sqr. Qed.
Lemma area2_closing (a f : pt) : area2 (S := RS) a f f = 0%R.
Proof. destruct a, f. unfold area2; cbn. ring. Qed.
Lemma zero_smallest (p : list pt) a b c : area2 (S := RS) a b c = 0%R -> forall m x y z r, p = m ++ x :: y :: z :: r -> sltb (s := RS) (area2 (S := RS) x y z) (area2 (S := RS) a b c) = false.
Proof. intros E m x y z r _. rewrite E. apply area2_nonneg. Qed.
Lemma smallest_zero (p : list pt) a b c l x f : p = l ++ [x; f; f] -> (forall m x y z r, p = m ++ x :: y :: z :: r -> sltb (s := RS) (area2 (S := RS) x y z) (area2 (S := RS) a b c) = false) ->
  area2 (S := RS) a b c = 0%R.
Proof.
  intros E M. specialize (M l x f f [] E). rewrite area2_closing in M. apply Rltb_false in M. pose proof (area2_nonneg a b c) as N. apply Rltb_false in N. apply Rle_antisym; auto.
Qed.
Lemma rev_ring {T} (f : T) l : rev (f :: rev l ++ [f]) = f :: l ++ [f].
Proof. cbn [rev]. rewrite rev_app_distr, rev_involutive. reflexivity. Qed.
Lemma closing_first n (f : pt) mid q : 2 <= length mid -> no_tied_smallest area2 (Datatypes.S n) (f :: mid ++ [f; f]) -> vw_step (S := RS) area2 (f :: mid ++ [f; f]) q -> q = f :: mid ++ [f].
Proof.
  intros Hm Hn T. apply (vw_step_det area2 _ _ _ _ Hn T).
  destruct (exists_last (l := mid) ltac:(intros ->; cbn in Hm; lia)) as (m & x & ->).
  exists (f :: m), x, f, f, []. split; [cbn [app]; rewrite <- app_assoc; reflexivity|]. split; [cbn [app]; rewrite <- app_assoc; reflexivity|].
  apply zero_smallest. apply area2_closing.
Qed.
Lemma closing_first_rev n (f : pt) mid q : 2 <= length mid -> no_tied_smallest area2 (Datatypes.S n) (f :: mid ++ [f; f]) -> vw_step (S := RS) area2 (f :: rev mid ++ [f; f]) q -> q = f :: rev mid ++ [f].
Proof.
  intros Hm Hn (l1 & a & b & c & l2 & E & -> & M).
  destruct (exists_last (l := mid) ltac:(intros ->; cbn in Hm; lia)) as (m & x & Em).
  destruct mid as [|y mid']; [cbn in Hm; lia|].
  assert (Z : area2 (S := RS) a b c = 0%R).
  { apply (smallest_zero (f :: rev (y :: mid') ++ [f; f]) a b c (f :: rev mid') y f); [|exact M]. cbn [rev]. cbn [app]. rewrite <- app_assoc. reflexivity. }
  destruct l2 as [|w l2] using rev_ind.
  - replace (f :: rev (y :: mid') ++ [f; f]) with ((f :: rev (y :: mid')) ++ [f; f]) in E by reflexivity.
    replace (l1 ++ [a; b; c]) with ((l1 ++ [a]) ++ [b; c]) in E by (rewrite <- app_assoc; reflexivity).
    assert (E1 := E). apply (f_equal (@rev _)) in E1. rewrite !rev_app_distr in E1. cbn [rev app] in E1. injection E1 as <- <- _.
    apply app_inv_tail in E. change (f :: rev (y :: mid') ++ [f]) with ((f :: rev (y :: mid')) ++ [f]). rewrite E, <- app_assoc. reflexivity.
  - clear IHl2. exfalso.
    assert (E1 : f :: rev (y :: mid') ++ [f] = l1 ++ a :: b :: c :: l2).
    { replace (f :: rev (y :: mid') ++ [f; f]) with ((f :: rev (y :: mid') ++ [f]) ++ [f]) in E by (cbn [app]; rewrite <- app_assoc; reflexivity).
      replace (l1 ++ a :: b :: c :: l2 ++ [w]) with ((l1 ++ a :: b :: c :: l2) ++ [w]) in E by (rewrite <- app_assoc; reflexivity).
      apply app_inj_tail in E as [E _]. exact E. }
    apply (f_equal (@rev _)) in E1. rewrite rev_ring, rev_app_distr in E1. cbn [rev] in E1.
    assert (P1 : f :: (y :: mid') ++ [f; f] = rev l2 ++ c :: b :: a :: (rev l1 ++ [f])).
    { replace (f :: (y :: mid') ++ [f; f]) with ((f :: (y :: mid') ++ [f]) ++ [f]) by (cbn [app]; rewrite <- app_assoc; reflexivity). rewrite E1. repeat (rewrite <- app_assoc; cbn [app]). reflexivity. }
    assert (P2 : f :: (y :: mid') ++ [f; f] = (f :: m) ++ x :: f :: f :: []) by (rewrite Em; cbn [app]; rewrite <- app_assoc; reflexivity).
    pose proof (Hn 0 _ (Nat.lt_0_succ n) (vw_done _ _) _ _ _ _ _ _ _ _ _ _ P1 P2) as K. 
    assert (K' : rev l2 = f :: m) by (apply K; apply zero_smallest; [rewrite area2_rev; exact Z|apply area2_closing]).
    rewrite P1 in P2. rewrite K' in P2. apply app_inv_head in P2. injection P2 as _ _ _ P2. destruct (rev l1); discriminate.
Qed.

(* Exact arithmetic, no ties: backwards gives the reversed result. Closed lines: as rings (the closing point goes
   first, k >= 1). In 3D: up to the last point, which is lost. *)
Theorem C145_vw_backwards_partial : forall pick1 pick2 k,
  pops_smallest (S := RS) (fun _ => True) pick1 -> pops_smallest (S := RS) (fun _ => True) pick2 ->
  (forall line : list pt, is_connected line = false -> no_tied_smallest area2 k line ->
     simplify_vw_2d pick2 (rev line) k = omap (@rev _) (simplify_vw_2d pick1 line k)) /\
  (forall (f : pt) (mid : list pt), 2 <= length mid -> 1 <= k -> no_tied_smallest area2 (Nat.min k (length mid - 1)) (f :: mid ++ [f; f]) ->
     exists out, simplify_vw_2d pick1 (f :: mid ++ [f]) k = Val (f :: out) /\ simplify_vw_2d pick2 (f :: rev mid ++ [f]) k = Val (f :: rev out)) /\
  (forall (a : pt3) (mid : list pt3) (z : pt3), 1 <= length mid -> no_tied_smallest area3 k (a :: mid ++ [z]) ->
     exists out, simplify_vw_3d pick1 (a :: mid ++ [z]) k = Val (a :: out) /\ simplify_vw_3d pick2 (rev (a :: mid ++ [z])) k = Val (z :: rev out)).
Proof.
  intros pick1 pick2 k H1 H2. split; [|split].
  - intros line Hc Hn. destruct (le_lt_dec (length line) 2) as [L|L].
    { unfold simplify_vw_2d. rewrite rev_length. replace (Nat.leb (length line) 2) with true by (symmetry; apply Nat.leb_le; auto). reflexivity. }
    destruct (vw2_open _ OrdOn_R pick1 line k H1 (fun _ _ _ _ _ _ => I) L Hc) as (o1 & -> & S1).
    destruct (vw2_open _ OrdOn_R pick2 (rev line) k H2 (fun _ _ _ _ _ _ => I) ltac:(rewrite rev_length; auto) ltac:(rewrite connected_rev; auto)) as (o2 & -> & S2).
    rewrite rev_length in S2. cbn [omap obind]. f_equal. exact (vw_steps_rev_det area2 area2_rev _ _ _ _ (no_tied_less _ _ _ _ (Nat.le_min_l _ _) Hn) S1 S2).
  - intros f mid Hm Hk Hn.
    assert (C : forall m : list pt, is_connected (S := RS) (f :: m ++ [f]) = true).
    { intros m. unfold is_connected. change (f :: m ++ [f]) with ((f :: m) ++ [f]). rewrite last_last. unfold veqb. rsimp. rewrite Bool.andb_true_iff, !Reqb_true. auto. }
    assert (L : forall m : list pt, 2 <= length m -> 4 <= length (f :: m ++ [f])) by (intros m Lm; cbn [length]; rewrite app_length; cbn [length]; lia).
    destruct (vw2_closed _ OrdOn_R pick1 _ k H1 (fun _ _ _ _ _ _ => I) (Nat.le_trans 3 4 _ (le_S 3 3 (le_n 3)) (L mid Hm)) (C mid)) as (f1 & t1 & o1 & E1 & Er1 & S1). injection E1 as <- <-.
    assert (Hm' : 2 <= length (rev mid)) by (rewrite rev_length; auto).
    destruct (vw2_closed _ OrdOn_R pick2 _ k H2 (fun _ _ _ _ _ _ => I) (Nat.le_trans 3 4 _ (le_S 3 3 (le_n 3)) (L (rev mid) Hm')) (C (rev mid))) as (f2 & t2 & o2 & E2 & Er2 & S2). injection E2 as <- <-.
    assert (Hk1 : exists n, Nat.min k (length (f :: mid ++ [f]) - 3) = Datatypes.S n).
    { cbn [length]. rewrite app_length. cbn [length]. destruct k as [|k']; [lia|]. destruct (length mid + 1 - 2) eqn:?; [lia|]. exists (Nat.min k' n). cbn. replace (length mid + 1 - 2) with (Datatypes.S n). reflexivity. }
    destruct Hk1 as [n Ek]. replace (length (f :: rev mid ++ [f])) with (length (f :: mid ++ [f])) in S2 by (cbn [length]; rewrite !app_length, rev_length; auto).
    replace (Nat.min k (length mid - 1)) with (Datatypes.S n) in Hn by (rewrite <- Ek; cbn [length]; rewrite app_length; cbn [length]; f_equal; lia).
    rewrite Ek in S1, S2.
    replace ((f :: mid ++ [f]) ++ [f]) with (f :: mid ++ [f; f]) in S1 by (cbn [app]; rewrite <- app_assoc; reflexivity).
    replace ((f :: rev mid ++ [f]) ++ [f]) with (f :: rev mid ++ [f; f]) in S2 by (cbn [app]; rewrite <- app_assoc; reflexivity).
    inversion S1 as [|? ? q1 ? T1 R1]; subst. inversion S2 as [|? ? q2 ? T2 R2]; subst. clear S1 S2.
    pose proof (no_tied_step area2 _ _ _ Hn T1) as Hn1.
    rewrite (closing_first n f mid q1 Hm Hn T1) in *. rewrite (closing_first_rev n f mid q2 Hm Hn T2) in R2.
    replace (f :: rev mid ++ [f]) with (rev (f :: mid ++ [f])) in R2 by (cbn [rev]; rewrite rev_app_distr; reflexivity).
    pose proof (vw_steps_rev_det area2 area2_rev _ _ _ _ Hn1 R1 R2) as X. rewrite rev_app_distr in X. cbn [rev app] in X.
    destruct (vw2_sound pick1 _ _ _ Er1) as (_ & F1 & _). destruct o1 as [|x o1]; [discriminate F1|]. injection F1 as ->.
    cbn [rev] in X. change (f :: rev o1 ++ [f]) with ((f :: rev o1) ++ [f]) in X. apply app_inj_tail in X as [-> _]. exists o1. auto.
  - intros a mid z Hm Hn.
    assert (L : 3 <= length (a :: mid ++ [z])) by (cbn [length]; rewrite app_length; cbn [length]; lia).
    destruct (vw3_total _ OrdOn_R pick1 _ k H1 (fun _ _ _ _ _ _ => I) L) as (o1 & z1 & E1 & Z1 & S1).
    destruct (vw3_total _ OrdOn_R pick2 (rev (a :: mid ++ [z])) k H2 (fun _ _ _ _ _ _ => I) ltac:(rewrite rev_length; auto)) as (o2 & z2 & E2 & Z2 & S2).
    destruct (vw3_sound pick1 _ _ _ E1) as [_ F1]. destruct (vw3_sound pick2 _ _ _ E2) as [_ F2].
    rewrite rev_length in S2. pose proof (vw_steps_rev_det area3 area3_rev _ _ _ _ (no_tied_less _ _ _ _ (Nat.le_min_l _ _) Hn) S1 S2) as X.
    rewrite rev_involutive in Z2. injection Z2 as <-. rewrite rev_app_distr in X. cbn [rev app] in X.
    destruct o1 as [|x o1]; [discriminate F1|]. injection F1 as ->. cbn [rev] in X.
    change (z1 :: rev o1 ++ [a]) with ((z1 :: rev o1) ++ [a]) in X. apply app_inj_tail in X as [-> _].
    exists o1. split; [exact E1|]. rewrite E2. f_equal. f_equal.
    cbn [rev] in Z1. rewrite rev_app_distr in Z1. cbn in Z1. injection Z1 as <-. reflexivity.
Qed.
Print Assumptions C145_vw_backwards_partial.

(* ---- the hypotheses are met: a checker on integer points ---- *)
Definition iz (p : Z * Z) : pt := @mkV2 RS (IZR (fst p)) (IZR (snd p)).
Definition az (a b c : Z * Z) : Z := let o := ((fst b - fst a) * (snd c - snd a) - (snd b - snd a) * (fst c - fst a))%Z in (o * o)%Z.
Lemma area2_iz a b c : area2 (iz a) (iz b) (iz c) = IZR (az a b c).
Proof. destruct a, b, c. unfold az, area2, iz. cbn. repeat rewrite ?minus_IZR, ?mult_IZR. ring. Qed.
Fixpoint triples {T} (l : list T) : list (T * T * T) :=
  match l with a :: (b :: c :: _) as t => (a, b, c) :: triples t | _ => [] end.
Lemma triples_app {T} (l1 : list T) a b c l2 : nth_error (triples (l1 ++ a :: b :: c :: l2)) (length l1) = Some (a, b, c).
Proof.
  induction l1 as [|x l1 IH]; [reflexivity|]. destruct l1 as [|y l1]; [reflexivity|]. destruct l1 as [|z l1]; [reflexivity|]. exact IH.
Qed.
Lemma triples_In {T} (l : list T) a b c : In (a, b, c) (triples l) -> exists m r, l = m ++ a :: b :: c :: r.
Proof.
  induction l as [|x l IH]; [intros []|]. destruct l as [|y l]; [intros []|]. destruct l as [|z l]; [intros []|].
  intros [E|H]; [injection E as <- <- <-; exists [], l; reflexivity|]. destruct (IH H) as (m & r & ->). exists (x :: m), r. reflexivity.
Qed.
Definition smallest_at (l : list (Z * Z)) (i : nat) : bool :=
  match nth_error (triples l) i with
  | Some (a, b, c) => forallb (fun u => Z.leb (az a b c) (az (fst (fst u)) (snd (fst u)) (snd u))) (triples l)
  | None => false
  end.
Fixpoint untied (fuel : nat) (l : list (Z * Z)) : bool :=
  match fuel with
  | 0 => true
  | Datatypes.S fuel => match filter (smallest_at l) (seq 0 (length l)) with
             | [] => true
             | [i] => untied fuel (firstn (Datatypes.S i) l ++ skipn (Datatypes.S (Datatypes.S i)) l)
             | _ => false
             end
  end.
Lemma iz_split l : forall l1 a b c l2, map iz l = l1 ++ a :: b :: c :: l2 ->
  exists k1 x y z k2, l = k1 ++ x :: y :: z :: k2 /\ l1 = map iz k1 /\ a = iz x /\ b = iz y /\ c = iz z /\ l2 = map iz k2.
Proof.
  intros l1 a b c l2 E. apply map_eq_app in E as (k1 & k2 & -> & <- & E).
  destruct k2 as [|x [|y [|z k2]]]; try discriminate. injection E as <- <- <- <-. exists k1, x, y, z, k2. auto 10.
Qed.
Lemma smallest_at_iz l k1 x y z k2 : l = k1 ++ x :: y :: z :: k2 ->
  (forall m a b c r, map iz l = m ++ a :: b :: c :: r -> sltb (s := RS) (area2 (S := RS) a b c) (area2 (S := RS) (iz x) (iz y) (iz z)) = false) ->
  In (length k1) (filter (smallest_at l) (seq 0 (length l))).
Proof.
  intros E M. apply filter_In. split.
  - apply in_seq. rewrite E, app_length. cbn. lia.
  - unfold smallest_at. rewrite E at 1. rewrite triples_app. apply forallb_forall. intros [[a b] c] H. cbn [fst snd].
    destruct (triples_In l a b c H) as (m & r & El). apply Z.leb_le. apply le_IZR. rewrite <- !area2_iz.
    apply Rltb_false. apply (M (map iz m) _ _ _ (map iz r)). rewrite El, map_app. reflexivity.
Qed.
Lemma untied_ok fuel : forall l, untied fuel l = true -> no_tied_smallest (S := RS) area2 fuel (map iz l).
Proof.
  induction fuel as [|fuel IH]; intros l H; [intros n q Hn; lia|]. cbn [untied] in H.
  destruct (filter (smallest_at l) (seq 0 (length l))) as [|i [|j r]] eqn:F; [| |discriminate].
  - assert (no : forall l1 a b c l2, map iz l = l1 ++ a :: b :: c :: l2 -> (forall m x y z r, map iz l = m ++ x :: y :: z :: r -> sltb (s := RS) (area2 (S := RS) x y z) (area2 (S := RS) a b c) = false) -> False).
    { intros l1 a b c l2 E M. destruct (iz_split _ _ _ _ _ _ E) as (k1 & x & y & z & k2 & El & -> & -> & -> & -> & ->).
      pose proof (smallest_at_iz l k1 x y z k2 El M) as K. rewrite F in K. destruct K. }
    intros n q Hn Hs. inversion Hs as [|? ? q1 ? (l1 & a & b & c & l2 & E & _ & M) _]; subst.
    + intros l1 a b c l2 l1' a' b' c' l2' E1 _ M _. exfalso. eapply no; eauto.
    + exfalso. eapply no; eauto.
  - assert (one : forall l1 a b c l2, map iz l = l1 ++ a :: b :: c :: l2 -> (forall m x y z r, map iz l = m ++ x :: y :: z :: r -> sltb (s := RS) (area2 (S := RS) x y z) (area2 (S := RS) a b c) = false) ->
      length l1 = i).
    { intros l1 a b c l2 E M. destruct (iz_split _ _ _ _ _ _ E) as (k1 & x & y & z & k2 & El & -> & -> & -> & -> & ->).
      pose proof (smallest_at_iz l k1 x y z k2 El M) as K. rewrite F in K. destruct K as [K|[]]. rewrite map_length. auto. }
    intros n q Hn Hs. inversion Hs as [|? ? q1 ? (l1 & a & b & c & l2 & E & -> & M) R1]; subst.
    + intros l1 a b c l2 l1' a' b' c' l2' E1 E2 M1 M2. pose proof (one _ _ _ _ _ E1 M1) as L1. pose proof (one _ _ _ _ _ E2 M2) as L2.
      rewrite E1 in E2. rewrite <- L2 in L1. clear - E2 L1. revert l1' L1 E2. induction l1 as [|u l1 IH]; intros [|v l1'] L E; try discriminate; auto.
      injection E as <- E. injection L as L. f_equal. eauto.
    + refine (IH _ H _ q (proj2 (Nat.succ_lt_mono _ _) Hn) _). replace (map iz (firstn (Datatypes.S i) l ++ skipn (Datatypes.S (Datatypes.S i)) l)) with (l1 ++ a :: c :: l2); [exact R1|].
      pose proof (one _ _ _ _ _ E M) as L1. destruct (iz_split _ _ _ _ _ _ E) as (k1 & x & y & z & k2 & El & -> & -> & -> & -> & ->).
      rewrite map_length in L1. rewrite El, map_app. clear - L1. subst i. 
      replace (firstn (Datatypes.S (length k1)) (k1 ++ x :: y :: z :: k2)) with (k1 ++ [x]).
      * replace (skipn (Datatypes.S (Datatypes.S (length k1))) (k1 ++ x :: y :: z :: k2)) with (z :: k2).
        -- rewrite map_app, <- app_assoc. reflexivity.
        -- induction k1; [reflexivity|exact IHk1].
      * induction k1; [reflexivity|]. cbn [length app]. rewrite firstn_cons. f_equal. exact IHk1.
Qed.
(* an open line of six points, two of which may go, and a closed line of five different points *)
Example C145_hypotheses_met :
  (let line := map iz [(0, 0); (1, 1); (2, -3); (3, 0); (4, 9); (6, 1)]%Z in
   is_connected (S := RS) line = false /\ no_tied_smallest (S := RS) area2 10 line /\ 4 < length line) /\
  (let mid := map iz [(1, -1); (4, -3); (5, 2); (4, 9)]%Z in let f := iz (0, 0)%Z in
   no_tied_smallest (S := RS) area2 (Nat.min 2 (length mid - 1)) (f :: mid ++ [f; f])) /\
  pops_smallest (S := RS) (fun _ => True) pick_min.
Proof.
  split; [|split; [|apply pick_min_ok, OrdOn_R]].
  - cbv zeta. split; [|split; [apply (untied_ok 10); vm_compute; reflexivity|cbn; lia]].
    unfold is_connected, veqb. cbn. apply Bool.andb_false_iff. left. destruct (Reqb_spec 0%R 6%R); auto; lra.
  - exact (untied_ok 2 [(0, 0); (1, -1); (4, -3); (5, 2); (4, 9); (0, 0); (0, 0)]%Z eq_refl).
Qed.
