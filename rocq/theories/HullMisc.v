(* Remaining facts about hulls: input forms, scan without atan2, hull in hull, parallel hull, box outlines. *)
From Coq Require Import Reals Lra Psatz Sorting.Sorted Sorting.Permutation.
From Verif Require Import Prelude Scalar RInst Geo2 GeoSpec DistR HullSpec HullGeo Hull HullAny GrahamProofs GrahamProofs2 GrahamProofs3 HullUniq GiftProofs GiftProofs2 IndexedProofs WoProofs ContainProofs.
Local Open Scope R_scope.

(* ---- input forms ---- *)
Lemma last_cons_snoc {A} (a : A) m b d : last (a :: m ++ [b]) d = b.
Proof. change (a :: m ++ [b]) with ((a :: m) ++ [b]). apply last_app_one. Qed.
Lemma enough_drop (l : list pt) : enough l -> (3 < length (drop_loop_point l))%nat.
Proof.
  intros (a & m & b & -> & H). unfold drop_loop_point. rewrite last_cons_snoc. destruct (veqb a b) eqn:E.
  - apply veqb_R in E. rewrite app_length. cbn. destruct H as [[H _]|[_ H]]; [congruence|lia].
  - cbn. rewrite app_length. cbn. destruct H as [[_ H]|[H _]]; [lia|]. subst. assert (veqb b b = true) by (apply veqb_R; auto). congruence.
Qed.
Lemma enough_length {A} (l : list A) : enough l -> (4 <= length l)%nat.
Proof. intros (a & m & b & -> & H). cbn. rewrite app_length. cbn. lia. Qed.
Lemma ring_enough (l opn : list pt) : ring_of l opn -> NoDup opn -> (4 <= length opn)%nat -> enough l.
Proof.
  intros H Hnd Hl. destruct opn as [|a opn]; [cbn in Hl; lia|]. destruct (@exists_last _ opn) as (m & b & E); [intros ->; cbn in Hl; lia|]. subst opn.
  cbn in Hl. rewrite app_length in Hl. cbn in Hl.
  assert (Hab : a <> b). { intros ->. inversion Hnd as [|? ? Hn _]; subst. apply Hn. apply in_or_app. right; left; auto. }
  destruct H as [->|(a' & m' & E1 & ->)].
  - exists a, m, b. split; auto. left. split; auto. lia.
  - injection E1 as <- <-. exists a, (m ++ [b]), a. split; [cbn; auto|]. right. split; auto. rewrite app_length. cbn. lia.
Qed.
Lemma ring_drop (l opn : list pt) : ring_of l opn -> NoDup opn -> (2 <= length opn)%nat ->
  NoDup (drop_loop_point l) /\ length (drop_loop_point l) = length opn /\ (forall x, In x (drop_loop_point l) <-> In x opn).
Proof.
  intros H Hnd Hl. destruct opn as [|a opn]; [cbn in Hl; lia|]. destruct H as [->|(a' & m' & E1 & ->)].
  - destruct (@exists_last _ opn) as (m & b & E); [intros ->; cbn in Hl; lia|]. subst opn. unfold drop_loop_point. rewrite last_cons_snoc.
    destruct (veqb a b) eqn:E; [|tauto]. apply veqb_R in E. subst. exfalso. inversion Hnd as [|? ? Hn _]; subst. apply Hn. apply in_or_app. right; left; auto.
  - injection E1 as <- <-. unfold drop_loop_point. cbn [app]. rewrite last_cons_snoc. assert (E : veqb a a = true) by (apply veqb_R; auto). rewrite E.
    assert (Hp : Permutation (opn ++ [a]) (a :: opn)) by (symmetry; apply Permutation_cons_append). split; [|split].
    + eapply Permutation_NoDup; [symmetry; exact Hp|auto].
    + rewrite app_length. cbn. lia.
    + intros x. split; apply Permutation_in; auto; symmetry; auto.
Qed.
Lemma ring_drop_index (l opn : list nat) : ring_of l opn -> NoDup opn -> (2 <= length opn)%nat -> drop_loop_index l = opn.
Proof.
  intros H Hnd Hl. destruct opn as [|a opn]; [cbn in Hl; lia|]. destruct H as [->|(a' & m' & E1 & ->)].
  - destruct (@exists_last _ opn) as (m & b & E); [intros ->; cbn in Hl; lia|]. subst opn. unfold drop_loop_index. rewrite last_cons_snoc.
    destruct (Nat.eqb a b) eqn:E; auto. apply Nat.eqb_eq in E. subst. exfalso. inversion Hnd as [|? ? Hn _]; subst. apply Hn. apply in_or_app. right; left; auto.
  - injection E1 as <- <-. unfold drop_loop_index. cbn [app]. rewrite last_cons_snoc, Nat.eqb_refl.
    change (a :: opn ++ [a]) with ((a :: opn) ++ [a]). rewrite removelast_app by congruence. cbn. rewrite app_nil_r. auto.
Qed.
Lemma ring_In {A} (l opn : list A) x : ring_of l opn -> In x l <-> In x opn.
Proof. intros [->|(a & m & -> & ->)]; [tauto|]. rewrite in_app_iff. cbn. tauto. Qed.

(* ---- closed results ---- *)
Lemma hull_result_closed pts vs : hull_result pts vs -> exists a, hd_error vs = Some a /\ last vs a = a.
Proof.
  intros [v r _ _|a b _ _ _ _ _|a _ _].
  - exists v. split; auto. apply last_cons_snoc.
  - exists a. auto.
  - exists a. auto.
Qed.

(* ---- the scan without atan2 ---- *)
Lemma wo_hull (pts opn : list pt) r : ring_of pts opn -> NoDup opn -> (4 <= length opn)%nat -> graham_scan_wo_atan2 pts r ->
  exists vs, r = Val vs /\ hull_result pts vs.
Proof.
  intros Hr Hnd Hl H. destruct (ring_drop pts opn Hr Hnd ltac:(lia)) as (Dn & Dl & Di).
  destruct H as [->|Hne H|a b c H|e H He|i start b c H Hf Hb Hc Hn|i start sorted H Hf Hs rv].
  - cbn in Dl. lia.
  - lia.
  - rewrite H in Dl. cbn in Dl. lia.
  - destruct (find_lowest_R (drop_loop_point pts)) as (k & s & E & _); [intros E0; rewrite E0 in H; cbn in H; lia|]. congruence.
  - exfalso. unfold wo_cmp in Hn. rewrite spcmp_R in Hn. destruct (Rlt_dec _ _); [discriminate|]. destruct (Rlt_dec _ _); [discriminate|].
    destruct (sltb _ _); discriminate.
  - destruct (find_lowest_R (drop_loop_point pts)) as (k & s & E & Hk & Hmin); [intros E0; rewrite E0 in H; cbn in H; lia|].
    rewrite Hf in E. injection E as <- <-. eexists. split; [reflexivity|].
    assert (R : hull_result (drop_loop_point pts) (close_loop rv)).
    { apply wo_result; auto. eapply nth_error_In; eauto. }
    rewrite (close_connected (drop_loop_point pts)); auto.
    + apply (hull_result_ext (drop_loop_point pts)); auto. intros x. rewrite Di. symmetry. apply ring_In. auto.
    + destruct (drop_loop_point pts) as [|p [|q t]]; [cbn in H; lia|cbn in H; lia|]. exists p, q. cbn. repeat split; auto.
      intros ->. inversion Dn as [|? ? Hn _]; subst. apply Hn. left; auto.
Qed.

(* ---- hull in hull ---- *)
Lemma allM_spec {A} (f : A -> outcome bool) (Q : A -> Prop) : (forall a, exists r, f a = Val r /\ (r = true <-> Q a)) ->
  forall l, exists r, allM f l = Val r /\ (r = true <-> forall a, In a l -> Q a).
Proof.
  intros Hf. induction l as [|a l (r & E & Hr)]; cbn [allM].
  - exists true. split; auto. split; auto. intros _ a [].
  - destruct (Hf a) as (ra & Ea & Ha). rewrite Ea. cbn [obind]. destruct ra.
    + exists r. split; auto. rewrite Hr. split; intros H; [intros x [<-|Hx]; auto; apply Ha; auto|intros x Hx; apply H; right; auto].
    + exists false. split; auto. split; [discriminate|]. intros H. apply Ha, H. left; auto.
Qed.
Lemma point_count_ring (a vs : list pt) : ring_of a vs -> (3 <= length vs)%nat -> (1 < point_count a)%nat.
Proof.
  intros H Hl. unfold point_count. assert (3 <= length a)%nat. { destruct H as [->|(x & m & -> & ->)]; auto. rewrite app_length. lia. }
  destruct (Nat.ltb 2 (length a) && is_connected a)%bool; cbn; lia.
Qed.
Lemma ring_edge (vs a : list pt) i x y : (3 <= length vs)%nat -> ring_of a vs -> nth_error a i = Some x -> nth_error a (Datatypes.S i) = Some y -> In (x, y) (edges vs).
Proof.
  intros Hl H Hx Hy.
  assert (Hs : exists X Y, a = X ++ x :: y :: Y).
  { clear - Hx Hy. revert i Hx Hy. induction a as [|z a IH]; intros [|i]; cbn; try discriminate.
    - intros E; injection E as ->. destruct a as [|w a]; cbn; [discriminate|]. intros E; injection E as ->. exists [], a. auto.
    - intros H1 H2. destruct (IH i H1 H2) as (X & Y & ->). exists (z :: X), Y. auto. }
  destruct Hs as (X & Y & Ea). destruct vs as [|v t]; [cbn in Hl; lia|]. unfold edges.
  assert (G : forall (X : list pt) (x y : pt) (Y : list pt) (v : pt) (r : list pt), v :: r = X ++ x :: y :: Y -> In (x, y) (combine (v :: r) (r ++ [v])) ).
  { clear. intros X x y Y v r E.
    assert (K : forall (X : list pt) (x y : pt) (Y : list pt) (w : pt), In (x, y) (combine (X ++ x :: y :: Y) (tl (X ++ x :: y :: Y) ++ [w]))).
    { clear. induction X as [|z X IH]; intros x y Y w; cbn; [left; auto|].
      specialize (IH x y Y w). destruct X as [|z' X]; cbn in *; right; auto. }
    specialize (K X x y Y v). rewrite <- E in K. cbn [tl] in K. exact K. }
  destruct H as [->|(v' & m & E & ->)].
  - eapply G; eauto.
  - injection E as <- <-. destruct Y as [|w Y'] eqn:EY.
    + (* the closing edge *)
      destruct (@exists_last _ t) as (t' & z & ->); [intros ->; cbn in Hl; lia|].
      assert (E2 : (v :: t' ++ [z]) ++ [v] = (X ++ [x]) ++ [y]) by (rewrite Ea, <- app_assoc; auto).
      apply app_inj_tail in E2 as [E2 <-]. change (v :: t' ++ [z]) with ((v :: t') ++ [z]) in E2. apply app_inj_tail in E2 as [_ <-].
      change (v :: t' ++ [z]) with ((v :: t') ++ [z]). rewrite <- app_assoc. cbn [app].
      assert (K : forall (l1 l2 : list pt) u w, length l1 = length l2 -> In (u, w) (combine (l1 ++ [u]) (l2 ++ [w]))).
      { clear. induction l1 as [|p l1 IH]; intros [|q l2] u w; cbn; try discriminate; auto. }
      replace (t' ++ [z; v]) with ((t' ++ [z]) ++ [v]) by (rewrite <- app_assoc; auto). apply (K (v :: t') (t' ++ [z])). rewrite app_length. cbn. lia.
    + destruct (@exists_last _ (w :: Y')) as (Y2 & z & E3); [congruence|]. rewrite E3 in Ea.
      assert (E2 : (v :: t) ++ [v] = (X ++ x :: y :: Y2) ++ [z]) by (rewrite Ea, <- app_assoc; auto).
      apply app_inj_tail in E2 as [E2 _]. eapply G; eauto.
Qed.
Lemma hull_in_hull (vs a b : list pt) : convex_polygon vs -> ring_of a vs ->
  exists r, contains_convex_hull a b = Val r /\ (r = true <-> forall p, In p b -> inside vs p).
Proof.
  intros Hc Hr. pose proof Hc as (Hl & _). pose proof (point_count_ring a vs Hr Hl) as Hpc. unfold contains_convex_hull.
  destruct (Nat.leb_spec (point_count a) 1); [lia|]. destruct b as [|b0 b].
  { exists true. split; auto. split; auto. intros _ p []. }
  assert (Hla : (3 <= length a)%nat). { destruct Hr as [->|(x & m & -> & ->)]; auto. rewrite app_length. lia. }
  pose proof (Nat.div_mod (length a) 2 ltac:(lia)). pose proof (Nat.mod_upper_bound (length a) 2 ltac:(lia)).
  set (am := Nat.div (length a) 2) in *. assert (Ham : (1 <= am < length a)%nat) by lia. clearbody am.
  set (bl := b0 :: b) in *.
  assert (Hbm : (Nat.div (length bl) 2 < length bl)%nat) by (apply Nat.div_lt; unfold bl; cbn; lia).
  destruct (idx_in_range a (am - 1) ltac:(lia)) as (e0 & E0). destruct (idx_in_range a am ltac:(lia)) as (e1 & E1).
  destruct (idx_in_range bl (Nat.div (length bl) 2) Hbm) as (bm & Eb). rewrite E0, E1, Eb. cbn [obind].
  assert (N0 : nth_error a (am - 1) = Some e0) by (unfold idx in E0; destruct (nth_error a (am - 1)); congruence).
  assert (N1 : nth_error a am = Some e1) by (unfold idx in E1; destruct (nth_error a am); congruence).
  assert (Nb : In bm bl) by (unfold idx in Eb; destruct (nth_error bl (Nat.div (length bl) 2)) eqn:En; [apply nth_error_In in En; congruence|discriminate]).
  assert (He : In (e0, e1) (edges vs)).
  { apply (ring_edge vs a (am - 1) e0 e1); auto. replace (Datatypes.S (am - 1)) with am by lia. auto. }
  destruct (allM_spec (contains_point_inclusive a) (inside vs) ltac:(intros p; apply inclusive_spec; auto) bl) as (r & E & Hrr).
  destruct (negb (is_point_left_allow_collinear e0 e1 b0) || negb (is_point_left_allow_collinear e0 e1 bm))%bool eqn:Et.
  - exists false. split; auto. split; [discriminate|]. intros Hin. exfalso. apply orb_true_iff in Et.
    assert (G : forall p, In p bl -> negb (is_point_left_allow_collinear e0 e1 p) = true -> False).
    { intros p Hp Hn. apply negb_true_iff, left_c_false in Hn. specialize (Hin p Hp e0 e1 He). lra. }
    destruct Et as [Et|Et]; [apply (G b0); auto; left; auto|apply (G bm); auto].
  - exists r. auto.
Qed.
Lemma hull_in_hull_par (vs a b order : list pt) : convex_polygon vs -> ring_of a vs -> Permutation b order ->
  exists r, contains_convex_hull_par a b order = Val r /\ (r = true <-> forall p, In p b -> inside vs p).
Proof.
  intros Hc Hr Hp. pose proof Hc as (Hl & _). pose proof (point_count_ring a vs Hr Hl) as Hpc. unfold contains_convex_hull_par.
  destruct (Nat.leb_spec (point_count a) 1); [lia|].
  destruct (allM_spec (contains_point_inclusive a) (inside vs) ltac:(intros p; apply inclusive_spec; auto) order) as (r & E & Hrr).
  assert (Hio : (forall p, In p order -> inside vs p) <-> (forall p, In p b -> inside vs p)).
  { split; intros G p Hin; apply G; [apply (Permutation_in p Hp)|apply (Permutation_in p (Permutation_sym Hp))]; auto. }
  rewrite Hio in Hrr. destruct b as [|b0 b]; [|exists r; auto].
  exists true. split; auto. split; auto. intros _ p [].
Qed.

(* ---- parallel hull: every returned index is an input ---- *)
Section Par.
  Context {S : Scalar}.
  Notation V := (V2 S).
  Local Open Scope nat_scope.
  Variables (vertices : list V).

  Lemma chunks_incl {A} n : forall fuel (l : list A) c, In c (chunks fuel n l) -> incl c l.
  Proof.
    induction fuel as [|fuel IH]; intros l c; [cbn; tauto|]. destruct l as [|a l]; [cbn; tauto|].
    cbn [chunks]. intros [<-|H].
    - intros x Hx. rewrite <- (firstn_skipn n (a :: l)). apply in_or_app. auto.
    - apply IH in H. intros x Hx. rewrite <- (firstn_skipn n (a :: l)). apply in_or_app. right. auto.
  Qed.
  Definition vi_ok (ia ib : list nat) (c : VertexIndex) : Prop := nth_error (if from_a c then ia else ib) (index_index c) = Some (vindex c).
  Lemma next_ok (ia ib : list nat) cur : ia <> [] -> ib <> [] -> safe (vi_ok ia ib) (combine_next ia ib cur).
  Proof.
    intros Ha Hb. unfold combine_next. assert (Hla : 0 < length ia) by (destruct ia; [congruence|cbn; lia]).
    assert (Hlb : 0 < length ib) by (destruct ib; [congruence|cbn; lia]).
    destruct (from_a cur).
    - eapply safe_bind; [apply safe_idx; apply Nat.mod_upper_bound; lia|]. intros i Hi. destruct (negb _); [exact Hi|].
      eapply safe_bind; [apply safe_idx; auto|]. intros b Hb'. exact Hb'.
    - eapply safe_bind; [apply safe_idx; apply Nat.mod_upper_bound; lia|]. intros i Hi. destruct (negb _); [exact Hi|].
      eapply safe_bind; [apply safe_idx; auto|]. intros b Hb'. exact Hb'.
  Qed.
  Lemma inner_ok ia ib (side : bool) cur : (forall i, In i ia \/ In i ib -> i < length vertices) -> vindex cur < length vertices ->
    forall cands jj e found pre, (if side then ia else ib) = pre ++ cands -> length pre = jj -> vi_ok ia ib e ->
    safe (vi_ok ia ib) (combine_inner vertices side cur cands jj e found).
  Proof.
    intros Hv Hc. induction cands as [|j t IH]; intros jj e found pre Es Hl He; [exact He|]. cbn [combine_inner].
    assert (Es' : (if side then ia else ib) = (pre ++ [j]) ++ t) by (rewrite <- app_assoc; auto).
    assert (Hl' : length (pre ++ [j]) = Datatypes.S jj) by (rewrite app_length; cbn; lia).
    destruct (_ || _)%bool; [eapply IH; eauto|].
    assert (Hj : nth_error (if side then ia else ib) jj = Some j) by (rewrite Es, nth_error_app2 by lia; replace (jj - length pre) with 0 by lia; auto).
    assert (Hin : In j ia \/ In j ib) by (apply nth_error_In in Hj; destruct side; auto).
    assert (Hie : In (vindex e) ia \/ In (vindex e) ib) by (unfold vi_ok in He; apply nth_error_In in He; destruct (from_a e); auto).
    eapply safe_bind; [apply safe_idx; auto|]. intros pc _. eapply safe_bind; [apply safe_idx; auto|]. intros pe _. eapply safe_bind; [apply safe_idx; auto|]. intros pj _.
    assert (Hn : vi_ok ia ib (mkVI side j jj)) by exact Hj.
    destruct (point_orientation pc pe pj).
    - destruct found; [exact He|]. eapply IH; eauto.
    - eapply IH; eauto.
    - destruct (sltb _ _); eapply IH; eauto.
  Qed.
  Lemma combine_ok (ia ib : list nat) (start : nat) : ia <> [] -> ib <> [] -> (forall i, In i ia \/ In i ib -> i < length vertices) ->
    forall fuel cur h, vi_ok ia ib cur -> incl h (ia ++ ib) -> safe (fun r => incl r (ia ++ ib) /\ exists t, r = h ++ vindex cur :: t) (combine_loop fuel vertices ia ib start cur h).
  Proof.
    intros Ha Hb Hv. induction fuel as [|fuel IH]; intros cur h Hc Hh; [exact I|]. cbn [combine_loop].
    assert (Hic : In (vindex cur) ia \/ In (vindex cur) ib) by (unfold vi_ok in Hc; apply nth_error_In in Hc; destruct (from_a cur); auto).
    assert (Hh' : incl (h ++ [vindex cur]) (ia ++ ib)).
    { intros x Hx. apply in_app_iff in Hx as [Hx|[<-|[]]]; auto. apply in_or_app; auto. }
    eapply safe_bind; [apply next_ok; auto|]. intros e0 He0.
    eapply safe_bind; [eapply (inner_ok ia ib (negb (from_a cur)) cur Hv (Hv _ Hic) _ 0 e0 false []); eauto; destruct (from_a cur); auto|].
    intros e He. destruct (Nat.eqb _ _).
    - cbn. split; auto. exists []. auto.
    - eapply safe_impl; [apply IH; eauto|]. intros r (Hi & t & E). split; auto. rewrite <- app_assoc in E. cbn in E. eauto.
  Qed.
  Lemma combine_hulls_safe fuel ia ib : (forall i, In i ia \/ In i ib -> i < length vertices) ->
    safe (fun r => incl r (ia ++ ib) /\ (ia <> [] -> hd_error r = hd_error ia)) (combine_hulls fuel vertices ia ib).
  Proof.
    intros Hv. unfold combine_hulls. destruct ia as [|a0 ia'] eqn:Ea; [cbn; split; [apply incl_refl|congruence]|]. rewrite <- Ea.
    destruct ib as [|b0 ib'] eqn:Eb; [cbn; split; [rewrite app_nil_r, Ea; apply incl_refl|rewrite Ea; auto]|]. rewrite <- Eb in *.
    eapply safe_impl.
    - apply (combine_ok ia ib a0); rewrite ?Ea; subst; try congruence; auto.
      + reflexivity.
      + intros x [].
    - cbn. intros r (Hi & t & ->). split; auto. intros _. rewrite Ea. auto.
  Qed.
  Lemma fold_safe fuel (Q : nat -> Prop) : (forall i, Q i -> i < length vertices) -> forall (l : list (list nat)) acc,
    (forall c i, In c l -> In i c -> Q i) -> safe (fun r => (forall i, In i r -> Q i)) acc ->
    safe (fun r => forall i, In i r -> Q i) (fold_left (fun acc x => let* a := acc in combine_hulls fuel vertices a x) l acc).
  Proof.
    intros HQ. induction l as [|c l IH]; intros acc Hl Hacc; [exact Hacc|]. cbn [fold_left]. apply IH.
    - intros c' i Hc Hi. apply (Hl c' i); auto. right; auto.
    - eapply safe_bind; [exact Hacc|]. intros a Ha. eapply safe_impl; [apply combine_hulls_safe|].
      + intros i [Hi|Hi]; apply HQ; auto. apply (Hl c i); auto. left; auto.
      + cbn. intros r [Hr _] i Hi. apply Hr in Hi. apply in_app_iff in Hi as [Hi|Hi]; auto. apply (Hl c i); auto. left; auto.
  Qed.
  Lemma reduce_safe fuel (Q : nat -> Prop) start : (forall i, Q i -> i < length vertices) -> Q start -> forall t : tree (list nat),
    (forall c i, In c (leaves t) -> In i c -> Q i) ->
    safe (fun r => forall i, In i r -> Q i) (reduce (combine_hulls fuel vertices) [start] t).
  Proof.
    intros HQ Hs. induction t as [items|l IHl r IHr]; intros Hl; cbn [reduce].
    - apply fold_safe; auto. cbn. intros i [<-|[]]; auto.
    - cbn [leaves] in Hl. eapply safe_bind; [apply IHl; intros; eapply Hl; eauto; apply in_or_app; auto|]. intros a Ha.
      eapply safe_bind; [apply IHr; intros; eapply Hl; eauto; apply in_or_app; auto|]. intros b Hb.
      eapply safe_impl; [apply combine_hulls_safe|].
      + intros i [Hi|Hi]; apply HQ; auto.
      + cbn. intros r' [Hr _] i Hi. apply Hr in Hi. apply in_app_iff in Hi as [Hi|Hi]; auto.
  Qed.
  Lemma par_start_safe (cs : list (list nat)) (Q : nat -> Prop) : (forall i, Q i -> i < length vertices) -> (forall c i, In c cs -> In i c -> Q i) ->
    safe Q (par_start vertices cs).
  Proof.
    intros HQ Hcs. unfold par_start. eapply safe_bind.
    - apply (safe_mapM _ (fun c i => In i c)). intros c Hc. eapply safe_bind; [apply indexed_lowest_safe|].
      + apply Forall_forall. intros i Hi. apply HQ. apply (Hcs c i); auto.
      + intros [k p] (i & Hk & _). cbn in *. unfold idx. rewrite Hk. cbn. eapply nth_error_In; eauto.
    - intros starts Hst. assert (Hs : forall i, In i starts -> Q i).
      { intros i Hi. clear - Hst Hi Hcs. revert Hcs. induction Hst as [|c j cs starts Hj H IH]; [destruct Hi|]. intros Hcs. destruct Hi as [<-|Hi].
        - apply (Hcs c j); auto. left; auto.
        - apply IH; auto. intros c' i' Hc'. apply Hcs. right; auto. }
      eapply safe_bind; [apply indexed_lowest_safe|].
      + apply Forall_forall. auto.
      + intros [k p] (i & Hk & _). cbn in *. unfold idx. rewrite Hk. cbn. apply Hs. eapply nth_error_In; eauto.
  Qed.
  Lemma par_safe fuel indices chunk r : Forall (fun i => i < length vertices) indices -> chunk <> 0 ->
    convex_hull_par fuel vertices indices chunk r -> safe (fun out => incl out indices) r.
  Proof.
    intros Hv Hch H. rewrite Forall_forall in Hv. pose proof (drop_index_incl indices) as Hd.
    assert (Hcs : forall c i, In c (chunks (length (drop_loop_index indices)) chunk (drop_loop_index indices)) -> In i c -> In i indices).
    { intros c i Hc Hi. apply chunks_incl in Hc. auto. }
    destruct H as [H|a b c H1 H|H H0|e H H0 He|H H0 He|start results t H H0 inds cs Hst Hres Ht].
    - cbn. destruct (Nat.leb _ _); auto. apply incl_refl.
    - rewrite H in Hd. eapply safe_impl; [apply triangle_safe; apply Hv, Hd; cbn; auto|].
      intros r Hr. apply incl_tran with [a; b; c]; auto.
    - congruence.
    - exact I.
    - pose proof (par_start_safe _ (fun i => In i indices) Hv Hcs) as P. rewrite He in P. exact P.
    - fold inds in Hcs. fold cs in Hcs.
      pose proof (par_start_safe cs (fun i => In i indices) Hv Hcs) as P. rewrite Hst in P. cbn in P.
      apply safe_omap. eapply safe_impl; [apply (reduce_safe fuel (fun i => In i indices) start); auto|].
      + rewrite Ht. intros c i Hc Hi. clear - Hres Hc Hi Hcs Hv. revert Hcs. induction Hres as [|c0 r0 cs rs Hr H IH]; [destruct Hc|]. intros Hcs. destruct Hc as [<-|Hc].
        * apply (indexed_graham_safe vertices) in Hr as [_ Hr]; [|apply Forall_forall; intros; apply Hv; eapply Hcs; eauto; left; auto|discriminate].
          cbn in Hr. apply (Hcs c0); [left; auto|auto].
        * apply IH; auto. intros c' i' Hc'. apply Hcs. right; auto.
      + cbn. intros r Hr x Hx. apply close_incl in Hx. auto.
  Qed.
  (* the result is closed, or has at most one element, when it came from the reduction *)
  Lemma close_closed {A} (l : list A) : l <> [] -> exists a, hd_error (close_loop l) = Some a /\ last (close_loop l) a = a.
  Proof.
    destruct l as [|a [|b r]]; [congruence| |]; intros _; exists a; auto. split; auto. cbn [close_loop].
    change ((a :: b :: r) ++ [a]) with (a :: (b :: r) ++ [a]). apply last_cons_snoc.
  Qed.
End Par.

(* ---- box outline ---- *)
Lemma rectangle_convex (x0 y0 x1 y1 : R) : x0 < x1 -> y0 < y1 ->
  convex_polygon [@mkV2 RS x0 y0; @mkV2 RS x1 y0; @mkV2 RS x1 y1; @mkV2 RS x0 y1].
Proof.
  intros Hx Hy. split; [cbn; lia|]. split.
  - repeat constructor; cbn; intros H; repeat (destruct H as [H|H]; [injection H; intros; lra|]); destruct H.
  - intros a b c He Hc Ha Hb. assert (0 < (x1 - x0) * (y1 - y0)) by (apply Rmult_lt_0_compat; lra).
    cbn in He. repeat (destruct He as [He|He]; [injection He as <- <-|]); try destruct He;
      cbn in Hc; repeat (destruct Hc as [<-|Hc]); try congruence; try destruct Hc; unfold orient; cbn [vx vy]; lra.
Qed.
Lemma rectangle_inside (x0 y0 x1 y1 : R) (p : pt) : x0 < x1 -> y0 < y1 ->
  inside [@mkV2 RS x0 y0; @mkV2 RS x1 y0; @mkV2 RS x1 y1; @mkV2 RS x0 y1] p <-> x0 <= vx p <= x1 /\ y0 <= vy p <= y1.
Proof.
  intros Hx Hy. destruct p as [px py]. cbn [vx vy]. split.
  - intros H.
    pose proof (H (@mkV2 RS x0 y0) (@mkV2 RS x1 y0) ltac:(cbn; auto)) as H1. pose proof (H (@mkV2 RS x1 y0) (@mkV2 RS x1 y1) ltac:(cbn; auto)) as H2.
    pose proof (H (@mkV2 RS x1 y1) (@mkV2 RS x0 y1) ltac:(cbn; auto)) as H3. pose proof (H (@mkV2 RS x0 y1) (@mkV2 RS x0 y0) ltac:(cbn; auto 6)) as H4.
    unfold orient in *. cbn [vx vy] in *. change (car RS) with R in *.
    repeat split; apply Rnot_lt_le; intros Hn; nra.
  - intros [[H1 H2] [H3 H4]] a b He.
    cbn in He. repeat (destruct He as [He|He]; [injection He as <- <-|]); try destruct He; unfold orient; cbn [vx vy]; change (car RS) with R in *; nra.
Qed.
