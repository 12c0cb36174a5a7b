(* The parallel hull when all points are in one chunk, for every reduction tree. *)
From Coq Require Import Reals Lra Psatz Sorting.Sorted Sorting.Permutation.
From Verif Require Import Prelude Scalar RInst Geo2 GeoSpec DistR HullSpec HullGeo Hull HullAny GrahamProofs GrahamProofs2 GrahamProofs3 HullUniq GiftProofs GiftProofs2 IndexedProofs WoProofs ContainProofs HullMisc HullMisc2.
Local Open Scope nat_scope.

Section One.
  Variables (v : list pt) (H : list nat) (s : nat) (t : list nat).
  Hypothesis EH : H = s :: t.
  Hypothesis Hnd : NoDup H.
  Variable ps : list pt.
  Hypothesis Hps : picks v H ps.
  Hypothesis Hpn : NoDup ps.
  (* s is left of every later edge that does not touch it *)
  Hypothesis Hleft : forall k a b pa pb q, nth_error H (Datatypes.S k) = Some a -> nth_error H (Datatypes.S (Datatypes.S k)) = Some b ->
    nth_error v a = Some pa -> nth_error v b = Some pb -> nth_error v s = Some q -> point_orientation pa pb q = OLeft.

  Lemma H_pos i k : nth_error H k = Some i -> exists p, nth_error ps k = Some p /\ nth_error v i = Some p.
  Proof. intros E. eapply picks_nth; eauto. Qed.
  Lemma H_ne j k a b : nth_error H j = Some a -> nth_error H k = Some b -> j <> k -> a <> b.
  Proof. intros E1 E2 Hjk ->. apply Hjk. apply (proj1 (NoDup_nth_error H) Hnd); [apply nth_error_Some; congruence|congruence]. Qed.
  Lemma H_0 : nth_error H 0 = Some s. Proof. rewrite EH. auto. Qed.

  Lemma walk (fa : bool) : forall n k h pre fuel, n = length H - k -> n <= fuel -> 1 < length H -> (fa = false -> 1 <= k) -> nth_error H k = Some h ->
    combine_loop fuel v (if fa then H else [s]) (if fa then [s] else H) s (mkVI fa h k) pre = Val (pre ++ skipn k H).
  Proof.
    induction n as [|n IH]; intros k h pre fuel Hn Hf Hl2 Hk Eh; assert (Hkl : k < length H) by (apply nth_error_Some; congruence); [lia|].
    destruct fuel as [|fuel]; [lia|]. cbn [combine_loop vindex from_a].
    assert (Esk : skipn k H = h :: skipn (Datatypes.S k) H).
    { clear - Eh. revert k Eh. induction H as [|x l IHl]; intros [|k]; cbn; try discriminate; [congruence|]. intros E. rewrite (IHl k E). auto. }
    destruct (H_pos h k Eh) as (ph & _ & Hph). destruct (H_pos s 0 H_0) as (q & _ & Hq).
    destruct (Nat.eq_dec (Datatypes.S k) (length H)) as [El|Nl].
    - assert (Emod : Nat.modulo (k + 1) (length H) = 0) by (replace (k + 1) with (length H) by lia; apply Nat.mod_same; lia).
      assert (Hne : s <> h) by (eapply (H_ne 0 k); eauto using H_0; lia).
      assert (En : combine_next (if fa then H else [s]) (if fa then [s] else H) (mkVI fa h k) = Val (mkVI fa s 0)).
      { unfold combine_next. cbn [from_a index_index vindex]. destruct fa; rewrite Emod; unfold idx; rewrite H_0; cbn [obind];
          (destruct (Nat.eqb_spec s h); [congruence|]); auto. }
      rewrite En. cbn [obind].
      assert (Ei : combine_inner v (negb fa) (mkVI fa h k) (if fa then if fa then [s] else H else if fa then H else [s]) 0 (mkVI fa s 0) false = Val (mkVI fa s 0)).
      { destruct fa; cbn [combine_inner vindex]; rewrite Nat.eqb_refl, orb_true_r; auto. }
      rewrite Ei. cbn [obind vindex]. rewrite Nat.eqb_refl. rewrite Esk. replace (skipn (Datatypes.S k) H) with (@nil nat); auto.
      symmetry. apply skipn_all2. lia.
    - destruct (nth_error H (Datatypes.S k)) as [h'|] eqn:Eh'; [|apply nth_error_None in Eh'; lia].
      assert (Emod : Nat.modulo (k + 1) (length H) = Datatypes.S k) by (rewrite Nat.mod_small; lia).
      assert (Hne : h' <> h) by (eapply (H_ne (Datatypes.S k) k); eauto; lia).
      assert (En : combine_next (if fa then H else [s]) (if fa then [s] else H) (mkVI fa h k) = Val (mkVI fa h' (Datatypes.S k))).
      { unfold combine_next. cbn [from_a index_index vindex]. destruct fa; rewrite Emod; unfold idx; rewrite Eh'; cbn [obind];
          (destruct (Nat.eqb_spec h' h); [congruence|]); auto. }
      rewrite En. cbn [obind]. assert (Hs' : s <> h') by (eapply (H_ne 0 (Datatypes.S k)); eauto using H_0; lia).
      destruct (H_pos h' _ Eh') as (ph' & _ & Hph').
      assert (Ei : combine_inner v (negb fa) (mkVI fa h k) (if fa then if fa then [s] else H else if fa then H else [s]) 0 (mkVI fa h' (Datatypes.S k)) false = Val (mkVI fa h' (Datatypes.S k))).
      { assert (G : combine_inner v (negb fa) (mkVI fa h k) [s] 0 (mkVI fa h' (Datatypes.S k)) false = Val (mkVI fa h' (Datatypes.S k))).
        { cbn [combine_inner vindex]. destruct (Nat.eqb_spec s h'); [congruence|]. rewrite orb_false_r. destruct (Nat.eqb_spec s h); auto.
          unfold idx. rewrite Hph, Hph', Hq. cbn [obind]. destruct k as [|k0]; [exfalso; pose proof H_0; congruence|].
          rewrite (Hleft k0 h h' ph ph' q); auto. }
        destruct fa; exact G. }
      rewrite Ei. cbn [obind vindex]. destruct (Nat.eqb_spec h' s); [congruence|].
      rewrite (IH (Datatypes.S k) h' (pre ++ [h]) fuel); auto; try lia. rewrite Esk, <- app_assoc. auto.
  Qed.

  Hypothesis Hfirst : forall a b pa pb q, nth_error H 1 = Some a -> nth_error H 2 = Some b ->
    nth_error v a = Some pa -> nth_error v b = Some pb -> nth_error v s = Some q -> point_orientation q pa pb = OLeft.

  Lemma op_right fuel : length H <= fuel -> 1 < length H -> combine_hulls fuel v H [s] = Val H.
  Proof.
    intros Hf Hl. unfold combine_hulls. rewrite EH. cbn [combine_hulls]. rewrite <- EH.
    rewrite (walk true (length H) 0 s [] fuel); auto; try lia; try discriminate; apply H_0.
  Qed.
  Lemma op_left fuel : length H <= fuel -> 1 < length H -> combine_hulls fuel v [s] H = Val H.
  Proof.
    intros Hf Hl. assert (Et : exists h1 t', H = s :: h1 :: t').
    { rewrite EH in *. clear - Hl. destruct t as [|h1 t']; [cbn in Hl; lia|eauto]. }
    destruct Et as (h1 & t' & Et).
    unfold combine_hulls. rewrite Et. rewrite <- Et at 2. destruct fuel as [|fuel]; [lia|]. cbn [combine_loop vindex from_a app].
    assert (En : combine_next [s] H (mkVI true s 0) = Val (mkVI false s 0)).
    { unfold combine_next. cbn [from_a index_index vindex length Nat.add Nat.modulo Nat.divmod fst snd Nat.sub]. change (idx [s] 0) with (@Val nat s). cbn [obind]. rewrite Nat.eqb_refl. cbn [negb].
      unfold idx. rewrite H_0. auto. }
    rewrite <- Et. rewrite En. cbn [obind].
    assert (E1 : nth_error H 1 = Some h1) by (rewrite Et; auto).
    destruct (H_pos s 0 H_0) as (q & Hq0 & Hq). destruct (H_pos h1 1 E1) as (p1 & Hp1 & Hp1v).
    assert (Hs1 : h1 <> s) by (eapply (H_ne 1 0); eauto using H_0).
    assert (Hqp : q <> p1). { intros ->. assert (0 = 1); [|lia]. apply (proj1 (NoDup_nth_error ps) Hpn); [apply nth_error_Some; congruence|congruence]. }
    assert (Ei : combine_inner v (negb true) (mkVI true s 0) H 0 (mkVI false s 0) false = Val (mkVI false h1 1)).
    { rewrite Et. cbn [combine_inner vindex negb]. rewrite Nat.eqb_refl. cbn [orb]. destruct (Nat.eqb_spec h1 s); [congruence|]. cbn [orb].
      unfold idx. rewrite Hq, Hp1v. cbn [obind].
      assert (Eo : point_orientation q q p1 = OCollinear).
      { destruct (orientation_cases q q p1) as [[_ K]|[[_ K]|[K _]]]; auto; rewrite orient_aab in K; lra. }
      rewrite Eo.
      assert (Ed : sltb (vdist2 q q) (vdist2 q p1) = true).
      { apply (proj2 (Rltb_true _ _)). change (vdist2 q q) with (sqdist q q). change (vdist2 q p1) with (sqdist q p1).
        assert (sqdist q q = 0%R) by (unfold sqdist; pring). assert (sqdist q p1 <> 0%R).
        { intros E0. apply Hqp. unfold sqdist in E0. rsimp.
          assert (N1 := sq_nn (vx q - vx p1)). assert (N2 := sq_nn (vy q - vy p1)).
          assert (Z1 : ((vx q - vx p1) * (vx q - vx p1) = 0)%R) by lra. assert (Z2 : ((vy q - vy p1) * (vy q - vy p1) = 0)%R) by lra.
          apply Rmult_integral in Z1. apply Rmult_integral in Z2. apply V2_ext; rsimp; destruct Z1, Z2; lra. }
        pose proof (sqdist_nonneg q p1). lra. }
      rewrite Ed. destruct t' as [|h2 t'']; [reflexivity|]. cbn [combine_inner vindex].
      assert (E2 : nth_error H 2 = Some h2) by (rewrite Et; auto).
      destruct (Nat.eqb_spec h2 s) as [->|]; [exfalso; eapply (H_ne 2 0); eauto using H_0|].
      destruct (Nat.eqb_spec h2 h1) as [->|]; [exfalso; eapply (H_ne 2 1); eauto|]. cbn [orb].
      destruct (H_pos h2 2 E2) as (p2 & _ & Hp2v). unfold idx. rewrite Hq, Hp1v, Hp2v. cbn [obind].
      rewrite (Hfirst h1 h2 p1 p2 q); auto. }
    rewrite Ei. cbn [obind vindex]. destruct (Nat.eqb_spec h1 s); [congruence|].
    pose proof (walk false (length H - 1) 1 h1 [s] fuel) as W. cbn [andb] in W. rewrite W; auto; try lia. rewrite Et. auto.
  Qed.
End One.

Lemma op_single (v : list pt) s fuel : 1 <= fuel -> combine_hulls fuel v [s] [s] = Val [s].
Proof.
  intros Hf. destruct fuel as [|fuel]; [lia|]. cbn [combine_hulls combine_loop vindex from_a app].
  assert (En : combine_next [s] [s] (mkVI true s 0) = Val (mkVI false s 0)).
  { unfold combine_next. cbn [from_a index_index vindex length Nat.add Nat.modulo Nat.divmod fst snd Nat.sub]. unfold idx. cbn [nth_error obind]. rewrite Nat.eqb_refl. auto. }
  rewrite En. cbn [obind combine_inner vindex]. rewrite Nat.eqb_refl. cbn [orb obind vindex]. rewrite Nat.eqb_refl. auto.
Qed.
(* a reduction whose only item absorbs the identity returns it *)
Lemma reduce_one {A} (op : A -> A -> outcome A) e x : op e e = Val e -> op e x = Val x -> op x e = Val x ->
  forall t, (leaves t = [] -> reduce op e t = Val e) /\ (leaves t = [x] -> reduce op e t = Val x).
Proof.
  intros H1 H2 H3. induction t as [l|l [IHl1 IHl2] r [IHr1 IHr2]]; cbn [leaves reduce].
  - split; intros ->; cbn; auto. 
  - split; intros E.
    + apply app_eq_nil in E as [E1 E2]. rewrite IHl1, IHr1 by auto. cbn. auto.
    + destruct (leaves l) as [|y ls] eqn:El; cbn [app] in E.
      * rewrite IHl1, IHr2 by auto. cbn. auto.
      * injection E as -> E. apply app_eq_nil in E as [-> E2]. rewrite IHl2, IHr1 by auto. cbn. auto.
Qed.

Lemma picks_inj v is1 is2 ps : NoDup ps -> picks v is1 ps -> forall i p, In i is1 -> nth_error v i = Some p ->
  picks v is2 ps -> forall j, In j is2 -> nth_error v j = Some p -> is1 = is2 -> i = j.
Proof.
  intros Hn H1 i p Hi Hp _ j Hj Hq <-.
  apply In_nth_error in Hi as (a & Ha). apply In_nth_error in Hj as (b & Hb).
  destruct (picks_nth _ _ _ _ _ H1 Ha) as (p1 & E1 & E2). destruct (picks_nth _ _ _ _ _ H1 Hb) as (p2 & E3 & E4).
  assert (p1 = p2) by congruence. subst p2.
  assert (a = b). { apply (proj1 (NoDup_nth_error ps) Hn); [apply nth_error_Some; congruence|congruence]. }
  congruence.
Qed.
Lemma picks_app_inv v : forall is1 is2 ps, picks v (is1 ++ is2) ps -> exists p1 p2, ps = p1 ++ p2 /\ picks v is1 p1 /\ picks v is2 p2.
Proof.
  induction is1 as [|i is1 IH]; intros is2 ps Hp; [exists [], ps; repeat split; auto; constructor|].
  cbn in Hp. inversion Hp as [|? p ? ps' Hi Hr]; subst. destruct (IH _ _ Hr) as (p1 & p2 & -> & H1 & H2).
  exists (p :: p1), p2. repeat split; auto. constructor; auto.
Qed.
Lemma picks_fun v is p1 p2 : picks v is p1 -> picks v is p2 -> p1 = p2.
Proof. intros H1; revert p2; induction H1 as [|i p is ps Hi H IH]; intros q Hq; inversion Hq; subst; auto. f_equal; [congruence|auto]. Qed.
Lemma chunks_single {A} n (l : list A) : l <> [] -> length l <= n -> chunks (length l) n l = [l].
Proof.
  intros Hl Hn. destruct l as [|a l]; [congruence|]. cbn [length chunks]. rewrite firstn_all2 by auto. rewrite skipn_all2 by auto.
  destruct (length l); auto.
Qed.

Theorem par_single (v : list pt) (indices : list nat) (pts : list pt) fuel chunk r :
  picks v (drop_loop_index indices) pts -> NoDup pts -> NoDup (drop_loop_index indices) -> 3 < length pts -> length pts <= fuel -> length pts <= chunk ->
  convex_hull_par fuel v indices chunk r ->
  exists out vs, r = Val out /\ picks v out vs /\ hull_result pts vs.
Proof.
  intros Hp Hnd Hni Hl Hfu Hch H. assert (Hli := picks_length _ _ _ Hp).
  assert (Hll : length (drop_loop_index indices) <= length indices).
  { unfold drop_loop_index. destruct indices as [|i0 t]; auto. destruct (Nat.eqb _ _); auto. rewrite removelast_firstn_len, firstn_length. lia. }
  set (inds := drop_loop_index indices) in *.
  assert (Hne : inds <> []) by (intros E; rewrite E in Hli; cbn in Hli; lia).
  assert (Hv : Forall (fun i => i < length v) inds).
  { apply Forall_forall. intros i Hi. apply In_nth_error in Hi as (k & Hk). destruct (picks_nth _ _ _ _ _ Hp Hk) as (p & _ & E). apply nth_error_Some. congruence. }
  assert (Ecs : chunks (length inds) chunk inds = [inds]) by (apply chunks_single; auto; lia).
  destruct (indexed_lowest_R v inds pts Hp Hne) as (k & sp & Ek & Hk & Hmin).
  destruct (nth_error inds k) as [si|] eqn:Ei; [|apply nth_error_None in Ei; assert (k < length pts) by (apply nth_error_Some; congruence); lia].
  destruct (picks_nth _ _ _ _ _ Hp Ei) as (sp' & Hs' & Hsv). assert (sp' = sp) by congruence. subst sp'.
  assert (Hvn : v <> []) by (intros ->; destruct si; discriminate).
  assert (Est : par_start v [inds] = Val si).
  { unfold par_start. cbn [mapM obind]. rewrite Ek. cbn [obind]. unfold idx at 1. rewrite Ei. cbn [obind].
    unfold indexed_find_lowest_x. destruct v as [|v0 v'] eqn:Ev; [congruence|]. rewrite <- Ev. unfold idx at 1. rewrite <- Ev in Hsv. rewrite Hsv. cbn. auto. }
  destruct H as [H|a b c H1 H|H H0|e H H0 He|H H0 He|start results t H H0 inds0 cs Hst Hres Ht].
  - fold inds in H. lia.
  - fold inds in H. rewrite H in Hli. cbn in Hli. lia.
  - lia.
  - fold inds in He. rewrite Ecs in He. congruence.
  - fold inds in He. rewrite Ecs in He. congruence.
  - unfold cs, inds0 in *. clear cs inds0. fold inds in Hst, Hres. rewrite Ecs in Hst, Hres.
    assert (start = si) by congruence. subst start. clear Hst.
    inversion Hres as [|? h ? rs Hh Hrs]; subst. inversion Hrs; subst. clear Hrs Hres.
    assert (Edd : drop_loop_index inds = inds) by (apply ring_drop_index; [left; auto|auto|lia]).
    assert (Hp' := Hp). rewrite <- Edd in Hp'.
    destruct (indexed_graham_hull v inds pts (omap close_loop (Val h)) Hp' Hnd Hl) as (out & vs & Eo & Hpo & Hhr); [exists (Val h); auto|].
    cbn in Eo. injection Eo as <-.
    assert (Hhi : incl h inds). { apply (indexed_graham_safe v) in Hh as [_ Hh]; auto; discriminate. }
    assert (Hlex : forall p, In p pts -> lex_le sp p) by auto.
    assert (Hsin : In sp pts) by (eapply nth_error_In; eauto).
    (* the two extreme cases of the result *)
    assert (Huniq : forall i, In i inds -> nth_error v i = Some sp -> i = si).
    { intros i Hi E. eapply (picks_inj v inds inds pts Hnd Hp i sp Hi E Hp si); auto. eapply nth_error_In; eauto. }
    assert (Goal1 : reduce (combine_hulls fuel v) [si] t = Val h).
    { destruct h as [|h0 [|h1 h']] eqn:Eh.
      - cbn in Hpo. inversion Hpo; subst. inversion Hhr.
      - (* one vertex *)
        assert (h0 = si).
        { cbn in Hpo. inversion Hpo as [|? q ? ? Hq Hnil]; subst. inversion Hnil; subst.
          apply Huniq; [apply Hhi; left; auto|]. inversion Hhr as [v1 vs1 _ _ E|a b _ _ _ _ _ E|a Ha Hall E]; subst.
          - destruct vs1; discriminate.
          - rewrite <- (Hall sp Hsin) in Hq. auto. }
        subst h0. apply (reduce_one (combine_hulls fuel v) [si] [si]); auto; apply op_single; lia.
      - rewrite <- Eh in *.
        assert (Ecl : close_loop h = h ++ [h0]) by (rewrite Eh; auto).
        assert (Hpo' := Hpo). rewrite Ecl in Hpo'. apply picks_app_inv in Hpo' as (qs & z & Evs & Hqs & Hz).
        assert (Ez : exists q0, z = [q0] /\ nth_error v h0 = Some q0) by (inversion Hz as [|? q0 ? ? K1 K2]; inversion K2; subst; eauto).
        destruct Ez as (q0 & Ez & Hq0). rewrite Evs, Ez in Hhr.
        assert (Eqs : exists q1, qs = q0 :: q1) . { rewrite Eh in Hqs. inversion Hqs; subst. eexists; f_equal; congruence. }
        destruct Eqs as (q1 & Eqs).
        assert (Hlqs := picks_length _ _ _ Hqs).
        (* facts about the polygon *)
        assert (Hfacts : NoDup qs /\ q0 = sp /\ (2 < length qs -> convex_polygon qs)).
        { assert (Ht : qs ++ [q0] = q0 :: q1 ++ [q0]) by (rewrite Eqs; auto). rewrite Ht in Hhr.
          inversion Hhr as [v1 vs1 Hho Hvl E|a b Hab Ha Hb Hseg Hal E|a Ha Hall E].
          - subst v1. assert (vs1 = q1) by (match goal with K : vs1 ++ _ = q1 ++ _ |- _ => apply app_inj_tail in K; apply K end). subst vs1. destruct Hho as (Hi1 & Hc1 & _). rewrite <- Eqs in *. 
            split; [apply Hc1|]. split; auto. apply lex_le_antisym; [apply Hvl; auto|apply Hlex, Hi1; rewrite Eqs; left; auto].
          - subst a. destruct q1 as [|q2 [|q3 q4]].
            + discriminate.
            + cbn in *. assert (b = q2) by congruence. subst b. rewrite Eqs.
              split; [constructor; [intros [E0|[]]; congruence|constructor; [intros []|constructor]]|].
              split; [apply lex_le_antisym; [apply Hal; auto|apply Hlex; auto]|]. cbn. lia.
            + cbn in *. exfalso. destruct q4; discriminate.
          - destruct q1; discriminate. }
        destruct Hfacts as (Hqn & Esp & Hconv). rewrite Eh in Hlqs. cbn in Hlqs.
        assert (h0 = si) by (apply Huniq; [apply Hhi; rewrite Eh; left; auto|congruence]). subst h0.
        assert (Hhn : NoDup h).
        { apply NoDup_nth_error. intros i j Hi E. apply (proj1 (NoDup_nth_error qs) Hqn); [rewrite Eh in Hi; cbn in Hi; lia|].
          destruct (nth_error h i) as [x|] eqn:Ex; [|apply nth_error_None in Ex; lia]. symmetry in E.
          destruct (picks_nth _ _ _ _ _ Hqs Ex) as (p1 & -> & Ep1). destruct (picks_nth _ _ _ _ _ Hqs E) as (p2 & -> & Ep2). congruence. }
        assert (Hq2 : forall k a pa, nth_error h k = Some a -> nth_error v a = Some pa -> nth_error qs k = Some pa).
        { intros k0 a pa E1 E2. destruct (picks_nth _ _ _ _ _ Hqs E1) as (p & -> & E). congruence. }
        assert (Hedge : forall k x y, nth_error qs k = Some x -> nth_error qs (Datatypes.S k) = Some y -> In (x, y) (edges qs)).
        { intros k0 x y E1 E2. assert (2 < length qs \/ length qs = 2) as [Hl3|Hl3] by lia.
          - apply (ring_edge qs qs k0 x y); auto. left; auto.
          - destruct qs as [|c0 [|c1 [|]]]; cbn in Hl3; try lia. destruct k0 as [|[|]]; cbn in E1, E2; try discriminate. injection E1 as <-. injection E2 as <-. left; auto. }
        assert (Hgen : forall k a b pa pb q, 2 < length qs -> nth_error h k = Some a -> nth_error h (Datatypes.S k) = Some b -> nth_error v a = Some pa -> nth_error v b = Some pb ->
           In q qs -> q <> pa -> q <> pb -> point_orientation pa pb q = OLeft).
        { intros k0 a b pa pb q Hl3 E1 E2 E3 E4 Hq N1 N2. destruct (Hconv Hl3) as (_ & _ & Hs).
          specialize (Hs pa pb q (Hedge k0 pa pb (Hq2 _ _ _ E1 E3) (Hq2 _ _ _ E2 E4)) Hq N1 N2).
          destruct (orientation_cases pa pb q) as [[? _]|[[_ K]|[_ K]]]; auto; lra. }
        assert (Hdist : forall i j p q, nth_error qs i = Some p -> nth_error qs j = Some q -> i <> j -> p <> q).
        { intros i j p q E1 E2 Hij ->. apply Hij. apply (proj1 (NoDup_nth_error qs) Hqn); [apply nth_error_Some; congruence|congruence]. }
        assert (Hq0n : nth_error qs 0 = Some q0) by (rewrite Eqs; auto).
        assert (HL : forall k a b pa pb q, nth_error h (Datatypes.S k) = Some a -> nth_error h (Datatypes.S (Datatypes.S k)) = Some b ->
            nth_error v a = Some pa -> nth_error v b = Some pb -> nth_error v si = Some q -> point_orientation pa pb q = OLeft).
        { intros k0 a b pa pb q E1 E2 E3 E4 E5. assert (q = q0) by congruence. subst q.
          assert (2 < length qs). { assert (Datatypes.S (Datatypes.S k0) < length qs) by (apply nth_error_Some; rewrite (Hq2 _ _ _ E2 E4); discriminate). lia. }
          apply (Hgen (Datatypes.S k0) a b pa pb q0); auto; [eapply nth_error_In; eauto| |]; [eapply (Hdist 0 (Datatypes.S k0))|eapply (Hdist 0 (Datatypes.S (Datatypes.S k0)))]; eauto. }
        assert (HF : forall a b pa pb q, nth_error h 1 = Some a -> nth_error h 2 = Some b ->
            nth_error v a = Some pa -> nth_error v b = Some pb -> nth_error v si = Some q -> point_orientation q pa pb = OLeft).
        { intros a b pa pb q E1 E2 E3 E4 E5. assert (q = q0) by congruence. subst q.
          assert (2 < length qs). { apply nth_error_Some. rewrite (Hq2 _ _ _ E2 E4); discriminate. }
          apply (Hgen 0 si a q0 pa pb); auto; [rewrite Eh; auto|eapply (nth_error_In _ 2); eauto|eapply (Hdist 2 0); eauto|eapply (Hdist 2 1); eauto]. }
        assert (Hlh : 1 < length h <= fuel).
        { rewrite Eh in *. cbn. split; [lia|]. assert (length (si :: h1 :: h') <= length inds) by (apply NoDup_incl_length; auto). cbn in *. lia. }
        apply (reduce_one (combine_hulls fuel v) [si] h).
        + apply op_single. lia.
        + eapply (op_left v h si (h1 :: h') Eh Hhn qs Hqs Hqn HL HF); lia.
        + eapply (op_right v h si (h1 :: h') Eh Hhn qs Hqs HL); lia.
        + congruence. }
    rewrite Goal1. exists (close_loop h), vs. auto.
Qed.
