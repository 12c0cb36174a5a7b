(* Merging two hulls (combine_indexed_convex_hull): geometry of rings and the search for the next vertex. *)
From Coq Require Import Reals Lra Psatz Sorting.Permutation.
From Verif Require Import Prelude Scalar RInst Geo2 GeoSpec DistR HullSpec HullGeo Hull HullAny GrahamProofs GrahamProofs2 GrahamProofs3 HullUniq GiftProofs GiftProofs2 IndexedProofs WoProofs ContainProofs HullMisc HullMisc2 HullPar.
Local Open Scope R_scope.

(* the vertices of a hull in counter-clockwise order; one or two vertices are allowed *)
Definition ringlike (ps : list pt) : Prop :=
  NoDup ps /\ forall a b c, In (a, b) (edges ps) -> In c ps -> c <> a -> c <> b -> 0 < orient a b c.

Lemma edges_nth {A} (ps : list A) k a b : nth_error ps k = Some a -> nth_error ps (Nat.modulo (k + 1) (length ps)) = Some b -> In (a, b) (edges ps).
Proof.
  intros Ha Hb. assert (Hk : (k < length ps)%nat) by (apply nth_error_Some; congruence).
  destruct ps as [|v t]; [cbn in Hk; lia|]. unfold edges.
  assert (E : nth_error (t ++ [v]) k = Some b).
  { destruct (Nat.eq_dec (Datatypes.S k) (length (v :: t))) as [El|Nl].
    - replace (k + 1)%nat with (length (v :: t)) in Hb by lia. rewrite Nat.mod_same in Hb by (cbn; lia). cbn in Hb, El. injection El as ->.
      rewrite nth_error_app2, Nat.sub_diag by auto. auto.
    - rewrite Nat.mod_small in Hb by lia. rewrite Nat.add_1_r in Hb. cbn in Hb, Hk, Nl. rewrite nth_error_app1 by lia. auto. }
  clear Hb Hk. revert Ha E. generalize (v :: t) (t ++ [v]). induction k as [|k IH]; intros [|x l] [|y m]; cbn; try discriminate.
  - intros E1 E2. injection E1 as <-. injection E2 as <-. auto.
  - intros E1 E2. right. eauto.
Qed.
Lemma edges_next {A} (ps : list A) k a b : nth_error ps k = Some a -> nth_error ps (Datatypes.S k) = Some b -> In (a, b) (edges ps).
Proof.
  intros Ha Hb. apply (edges_nth ps k); auto. rewrite Nat.mod_small; [rewrite Nat.add_1_r; auto|].
  assert (Datatypes.S k < length ps)%nat by (apply nth_error_Some; congruence). lia.
Qed.
Lemma nth_ne {A} (l : list A) i j a b : NoDup l -> nth_error l i = Some a -> nth_error l j = Some b -> i <> j -> a <> b.
Proof. intros Hn E1 E2 Hij ->. apply Hij. apply (proj1 (NoDup_nth_error l) Hn); [apply nth_error_Some; congruence|congruence]. Qed.

(* three vertices in ring order turn left *)
Lemma ring_triple ps i j k a b c : ringlike ps -> nth_error ps i = Some a -> nth_error ps j = Some b -> nth_error ps k = Some c -> (i < j < k)%nat ->
  0 < orient a b c.
Proof.
  intros [Hn Hr] Hi Hj Hk Hijk.
  assert (Hin : forall m x, nth_error ps m = Some x -> In x ps) by (intros; eapply nth_error_In; eauto).
  remember (k - j - 1)%nat as n eqn:En. revert k c Hk Hijk En. induction n as [|n IH]; intros k c Hk Hijk En.
  - assert (k = Datatypes.S j) by lia. subst k. rewrite orient_rot. apply Hr; eauto using edges_next.
    + eapply (nth_ne ps i j); eauto; lia.
    + eapply (nth_ne ps i (Datatypes.S j)); eauto; lia.
  - destruct k as [|k]; [lia|]. destruct (nth_error ps k) as [d|] eqn:Ed; [|apply nth_error_None in Ed; assert (Datatypes.S k < length ps)%nat by (apply nth_error_Some; congruence); lia].
    assert (H1 : 0 < orient a b d) by (apply (IH k); auto; lia).
    assert (H2 : 0 < orient a d c).
    { rewrite orient_rot. apply Hr; eauto using edges_next; [eapply (nth_ne ps i k)|eapply (nth_ne ps i (Datatypes.S k))]; eauto; lia. }
    destruct (nth_error ps (Datatypes.S i)) as [p|] eqn:Ep; [|apply nth_error_None in Ep; assert (Datatypes.S k < length ps)%nat by (apply nth_error_Some; congruence); lia].
    assert (He : In (a, p) (edges ps)) by (eauto using edges_next).
    assert (H3 : 0 < orient a p c).
    { apply Hr; eauto; [eapply (nth_ne ps (Datatypes.S k) i)|eapply (nth_ne ps (Datatypes.S k) (Datatypes.S i))]; eauto; lia. }
    assert (H4 : 0 < orient a p d).
    { apply Hr; eauto; [eapply (nth_ne ps k i)|eapply (nth_ne ps k (Datatypes.S i))]; eauto; lia. }
    assert (H5 : 0 <= orient a p b).
    { destruct (Nat.eq_dec j (Datatypes.S i)) as [->|]; [assert (p = b) by congruence; subst; rewrite orient_abb; lra|].
      left. apply Hr; eauto; [eapply (nth_ne ps j i)|eapply (nth_ne ps j (Datatypes.S i))]; eauto; lia. }
    pose proof (cone_id2 a p b d c) as K. pose proof (orient_acb a d c) as K2.
    assert (P1 : 0 < orient a p c * orient a b d) by (apply Rmult_lt_0_compat; auto).
    assert (P2 : 0 <= orient a d c * orient a p b) by (apply Rmult_le_pos; lra).
    assert (P3 : 0 < orient a b c * orient a p d) by (rewrite K2 in K; lra).
    destruct (Rle_or_lt (orient a b c) 0) as [H|H]; auto. exfalso.
    assert (orient a b c * orient a p d <= 0) by (apply Rmult_le_0_r || nra). lra.
Qed.
(* once a vertex behind the best one so far is met, all later vertices are behind it too: p is the observer, e the best
   vertex so far, j the one behind it, k a later one, z the first vertex of the ring *)
Lemma ring_stop ps i j k p z e vj vk : ringlike ps -> nth_error ps 0 = Some z -> nth_error ps i = Some e -> nth_error ps j = Some vj -> nth_error ps k = Some vk ->
  (0 < i < j)%nat -> (j < k)%nat -> 0 < orient p e vj -> 0 <= orient p e z -> 0 < orient p e vk.
Proof.
  intros Hr H0 Hi Hj Hk Hij Hjk Ho Hz.
  assert (T1 : 0 < orient e vj vk) by (eapply (ring_triple ps i j k); eauto; lia).
  assert (T2 : 0 < orient z e vk) by (eapply (ring_triple ps 0 i k); eauto; lia).
  assert (T3 : 0 < orient z e vj) by (eapply (ring_triple ps 0 i j); eauto; lia).
  assert (K : orient p e vj * orient z e vk + orient p e z * orient e vj vk = orient p e vk * orient z e vj) by (unfold orient; ring).
  assert (0 < orient p e vj * orient z e vk) by (apply Rmult_lt_0_compat; auto).
  assert (0 <= orient p e z * orient e vj vk) by (apply Rmult_le_pos; lra).
  destruct (Rle_or_lt (orient p e vk) 0) as [G|G]; auto. exfalso. nra.
Qed.

(* ---- the search for the next vertex ---- *)
Section Inner.
  Variables (v : list pt) (D : list pt) (zx zy : R) (cur : VertexIndex) (p : pt) (own oth : list nat) (os : list pt) (side : bool).
  Hypothesis Hz : 0 < zx * zx + zy * zy.
  Hypothesis Hcur : nth_error v (vindex cur) = Some p.
  Hypothesis Hp : In p D.
  Hypothesis Hah : forall r, In r D -> r <> p -> ahead zx zy p r.
  (* the points of the indices; different indices are different points *)
  Hypothesis HD : forall i, In i own \/ In i oth -> exists r, nth_error v i = Some r /\ In r D.
  Hypothesis Hinj : forall i j r, In i own \/ In i oth -> In j own \/ In j oth -> nth_error v i = Some r -> nth_error v j = Some r -> i = j.
  Hypothesis Hc : In (vindex cur) own \/ In (vindex cur) oth.
  Hypothesis Hos : picks v oth os.
  Hypothesis Hring : ringlike os.

  Definition best_of (e : VertexIndex) (l : list nat) : Prop :=
    exists pe, nth_error v (vindex e) = Some pe /\ In pe D /\ pe <> p /\ (In (vindex e) own \/ In (vindex e) oth) /\
      forall i r, In i l -> i <> vindex cur -> nth_error v i = Some r -> better p pe r.
  (* the first candidate is not better than e, or it is the only one *)
  Definition first_ok (e : VertexIndex) : Prop :=
    length oth = 1%nat \/ forall i r pe, hd_error oth = Some i -> i <> vindex cur -> nth_error v i = Some r -> nth_error v (vindex e) = Some pe -> better p pe r.

  Lemma better_refl a : better p a a.
  Proof. right. rewrite orient_abb. split; lra. Qed.

  Lemma inner_best : forall todo pre e found, oth = pre ++ todo -> best_of e (own ++ pre) -> first_ok e ->
    (found = true -> length oth = 1%nat \/ exists i, (1 <= i < length pre)%nat /\ nth_error oth i = Some (vindex e)) ->
    exists e', combine_inner v side cur todo (length pre) e found = Val e' /\ best_of e' (own ++ oth) /\
      (e' = e \/ from_a e' = side /\ nth_error oth (index_index e') = Some (vindex e')).
  Proof.
    induction todo as [|j todo IH]; intros pre e found Eo Hb H1 Hf; cbn [combine_inner].
    { exists e. split; auto. split; auto. rewrite Eo, app_nil_r. auto. }
    assert (Eo' : oth = (pre ++ [j]) ++ todo) by (rewrite <- app_assoc; auto).
    assert (El : Datatypes.S (length pre) = length (pre ++ [j])) by (rewrite app_length; cbn; lia).
    assert (Hj : In j oth) by (rewrite Eo; apply in_or_app; right; left; auto).
    assert (Ejn : nth_error oth (length pre) = Some j) by (rewrite Eo, nth_error_app2, Nat.sub_diag by auto; auto).
    destruct (HD j (or_intror Hj)) as (pj & Epj & Hpj).
    destruct Hb as (pe & Epe & HpeD & Hpe & Hpei & Hbest).
    assert (Hfk : found = true -> length oth = 1%nat \/ exists i, (1 <= i < length (pre ++ [j]))%nat /\ nth_error oth i = Some (vindex e)).
    { intros F. destruct (Hf F) as [|(i & Hi & E)]; [left; auto|right]. exists i. split; [lia|auto]. }
    (* keeping e *)
    assert (Keep : (j <> vindex cur -> better p pe pj) ->
      exists e', combine_inner v side cur todo (Datatypes.S (length pre)) e found = Val e' /\ best_of e' (own ++ oth) /\
        (e' = e \/ from_a e' = side /\ nth_error oth (index_index e') = Some (vindex e'))).
    { intros Hbj. rewrite El. apply (IH (pre ++ [j]) e found); auto.
      exists pe. split; [auto|]. split; [auto|]. split; [auto|]. split; [auto|]. intros i r Hi Hne Er. rewrite app_assoc in Hi. apply in_app_iff in Hi as [Hi|[<-|[]]]; [eauto|].
      assert (r = pj) by congruence. subst r. auto. }
    destruct (Nat.eqb_spec j (vindex cur)) as [Ejc|Njc]; cbn [orb]; [apply Keep; congruence|].
    destruct (Nat.eqb_spec j (vindex e)) as [Eje|Nje]; [apply Keep; intros _; assert (pj = pe) by congruence; subst pj; apply better_refl|].
    unfold idx. rewrite Hcur, Epe, Epj. cbn [obind].
    assert (Npj : pj <> p).
    { intros ->. apply Njc. apply (Hinj j (vindex cur) p); auto. }
    (* taking j *)
    assert (Take : ~ better p pe pj -> better p pj pe ->
      exists e', combine_inner v side cur todo (Datatypes.S (length pre)) (mkVI side j (length pre)) true = Val e' /\ best_of e' (own ++ oth) /\
        (e' = e \/ from_a e' = side /\ nth_error oth (index_index e') = Some (vindex e'))).
    { intros Hnb Hbj.
      assert (Hpos : length oth = 1%nat \/ (1 <= length pre)%nat).
      { destruct pre as [|x pre']; [|right; cbn; lia]. left. destruct H1 as [H1|H1]; auto. exfalso. apply Hnb. apply (H1 j); auto. }
      destruct (IH (pre ++ [j]) (mkVI side j (length pre)) true) as (e' & Ee & He & Hw); auto.
      - exists pj. cbn [vindex]. split; [auto|]. split; [auto|]. split; [auto|]. split; [auto|]. intros i r Hi Hne Er. rewrite app_assoc in Hi. apply in_app_iff in Hi as [Hi|[<-|[]]].
        + assert (Hb2 := Hbest i r Hi Hne Er).
          assert (Hir : In i own \/ In i oth). { apply in_app_iff in Hi as [Hi|Hi]; [left; auto|right; rewrite Eo; apply in_or_app; auto]. }
          destruct (HD i Hir) as (r' & Er' & HrD). assert (r' = r) by congruence. subst r'.
          apply (better_trans D zx zy p Hz Hah pj pe r); auto.
          split; auto. intros ->. apply Hne. apply (Hinj i (vindex cur) p); auto.
        + assert (r = pj) by congruence. subst r. apply better_refl.
      - destruct Hpos as [Hpos|Hpos]; [left; auto|right]. intros i r pe' Hhd Hne Er Epe'. cbn [vindex] in Epe'. assert (pe' = pj) by congruence. subst pe'.
        assert (Hi : In i pre). { rewrite Eo in Hhd. destruct pre as [|x pre']; [cbn in Hpos; lia|]. cbn in Hhd. injection Hhd as ->. left; auto. }
        assert (Hir : In i own \/ In i oth) by (right; rewrite Eo; apply in_or_app; auto).
        destruct (HD i Hir) as (r' & Er' & HrD). assert (r' = r) by congruence. subst r'.
        apply (better_trans D zx zy p Hz Hah pj pe r); auto.
        + split; auto. intros ->. apply Hne. apply (Hinj i (vindex cur) p); auto.
        + apply (Hbest i); auto. apply in_or_app; auto.
      - intros _. destruct Hpos as [Hpos|Hpos]; [left; auto|right]. exists (length pre). split; [rewrite app_length; cbn; lia|auto].
      - rewrite El. exists e'. split; auto. split; auto. right. destruct Hw as [->|Hw]; auto. }
    destruct (orientation_cases p pe pj) as [[-> Ho]|[[-> Ho]|[-> Ho]]].
    - destruct found; [|apply Keep; intros _; left; auto].
      (* the early exit *)
      exists e. split; auto. split; [|auto]. exists pe. split; [auto|]. split; [auto|]. split; [auto|]. split; [auto|].
      intros i r Hi Hne Er. rewrite Eo, app_assoc in Hi. apply in_app_iff in Hi as [Hi|Hi]; [eauto|].
      destruct Hi as [<-|Hi]; [assert (r = pj) by congruence; subst; left; auto|].
      destruct (Hf eq_refl) as [H11|(ie & Hie & Eie)].
      { exfalso. rewrite Eo, app_length in H11. destruct todo; [destruct Hi|]. cbn in H11. lia. }
      apply In_nth_error in Hi as (k & Hk).
      assert (Hk' : nth_error oth (length (pre ++ [j]) + k) = Some i) by (rewrite Eo', nth_error_app2, Nat.add_comm, Nat.add_sub by lia; auto).
      destruct (picks_nth _ _ _ _ _ Hos Hk') as (r' & Hr' & Er'). assert (r' = r) by congruence. subst r'.
      destruct (picks_nth _ _ _ _ _ Hos Eie) as (e' & He' & Ee'). assert (e' = pe) by congruence. subst e'.
      destruct (picks_nth _ _ _ _ _ Hos Ejn) as (j' & Hj' & Ej'). assert (j' = pj) by congruence. subst j'.
      destruct oth as [|o0 oth'] eqn:Eoth; [destruct pre; discriminate|]. rewrite <- Eoth in *.
      assert (E0 : nth_error oth 0 = Some o0) by (rewrite Eoth; auto).
      destruct (picks_nth _ _ _ _ _ Hos E0) as (z & Hz0 & Ez).
      assert (Hzz : 0 <= orient p pe z).
      { destruct (Nat.eq_dec o0 (vindex cur)) as [->|N0]; [assert (z = p) by congruence; subst z; rewrite orient_aba; lra|].
        destruct pre as [|x pre']; [cbn in Hie; lia|]. assert (x = o0) by (rewrite Eoth in Eo; cbn in Eo; congruence). subst x.
        destruct (Hbest o0 z) as [B|[B _]]; auto; [apply in_or_app; right; left; auto| |]; lra. }
      left. rewrite app_length in *. cbn [length] in *.
      apply (ring_stop os ie (length pre) (length pre + 1 + k) p z pe pj r); auto; lia.
    - apply Take; [intros [B|[B _]]; lra|]. left. rewrite orient_acb. lra.
    - change (sltb (vdist2 p pe) (vdist2 p pj)) with (Rltb (sqdist p pe) (sqdist p pj)). destruct (Rltb_spec (sqdist p pe) (sqdist p pj)) as [Hd|Hd].
      + apply Take; [intros [B|[B B2]]; lra|]. right. rewrite orient_acb. split; lra.
      + apply Keep. intros _. right. split; auto. lra.
  Qed.
End Inner.

(* ---- the outer loop ---- *)
Section Merge.
  Variables (v : list pt) (ia ib : list nat) (pa pb : list pt) (s : nat) (sp : pt) (all : list nat).
  Hypothesis Ha : picks v ia pa.
  Hypothesis Hb : picks v ib pb.
  Hypothesis Ra : ringlike pa.
  Hypothesis Rb : ringlike pb.
  Hypothesis Hinj : forall i j r, In i (ia ++ ib) -> In j (ia ++ ib) -> nth_error v i = Some r -> nth_error v j = Some r -> i = j.
  Hypothesis Hs : hd_error ia = Some s.
  Hypothesis Hsp : nth_error v s = Some sp.
  Hypothesis Hlex : forall r, In r (pa ++ pb) -> lex_le sp r.
  Hypothesis Hall : incl (ia ++ ib) all.
  (* either the first hull is a single vertex, or both begin with the same vertex *)
  Hypothesis Hcond : (ia = [s] /\ exists b t, ib = b :: t /\ b <> s) \/ ((2 <= length ia)%nat /\ hd_error ib = Some s).
  Notation D := (pa ++ pb).

  Lemma D_of i : In i (ia ++ ib) -> exists r, nth_error v i = Some r /\ In r D.
  Proof.
    intros Hi. apply in_app_iff in Hi as [Hi|Hi]; apply In_nth_error in Hi as (k & Hk);
      [destruct (picks_nth _ _ _ _ _ Ha Hk) as (r & E1 & E2)|destruct (picks_nth _ _ _ _ _ Hb Hk) as (r & E1 & E2)];
      exists r; (split; [auto|]); apply in_or_app; apply nth_error_In in E1; auto.
  Qed.
  Lemma picks_In is ps r : picks v is ps -> In r ps -> exists i, In i is /\ nth_error v i = Some r.
  Proof. intros H. induction H as [|i q is ps Hi H IH]; intros []; [subst; exists i; cbn; auto|]. destruct IH as (j & Hj & E); auto. exists j. cbn; auto. Qed.
  Lemma of_D r : In r D -> exists i, In i (ia ++ ib) /\ nth_error v i = Some r.
  Proof.
    intros Hr. apply in_app_iff in Hr as [Hr|Hr]; [destruct (picks_In _ _ _ Ha Hr) as (i & Hi & E)|destruct (picks_In _ _ _ Hb Hr) as (i & Hi & E)];
      exists i; (split; [apply in_or_app; auto|auto]).
  Qed.
  Lemma s_in : In s ia. Proof. destruct ia; [discriminate|]. cbn in Hs. injection Hs as ->. left; auto. Qed.

  (* the successor in a ring is the best vertex of the ring *)
  Lemma next_best own ps cur p e : picks v own ps -> ringlike ps -> nth_error own (index_index cur) = Some (vindex cur) -> nth_error v (vindex cur) = Some p ->
    nth_error own (Nat.modulo (index_index cur + 1) (length own)) = Some e -> e <> vindex cur -> incl own (ia ++ ib) ->
    exists pe, nth_error v e = Some pe /\ In pe D /\ pe <> p /\ forall i r, In i own -> i <> vindex cur -> nth_error v i = Some r -> better p pe r.
  Proof.
    intros Hp Hr Hc Ep He Hne Hincl. destruct (picks_nth _ _ _ _ _ Hp Hc) as (p' & Hp1 & Hp2). assert (p' = p) by congruence. subst p'.
    destruct (picks_nth _ _ _ _ _ Hp He) as (pe & He1 & He2). rewrite (picks_length _ _ _ Hp) in He1.
    assert (Hei : In e (ia ++ ib)) by (apply Hincl; eapply nth_error_In; eauto).
    assert (Hci : In (vindex cur) (ia ++ ib)) by (apply Hincl; eapply nth_error_In; eauto).
    assert (Hpe : pe <> p) by (intros ->; apply Hne; apply (Hinj _ _ p); auto).
    exists pe. split; [auto|]. split; [destruct (D_of e Hei) as (r & E & Hd); congruence|]. split; [auto|].
    intros i r Hi Hni Er. apply In_nth_error in Hi as (k & Hk). destruct (picks_nth _ _ _ _ _ Hp Hk) as (r' & Hr1 & Hr2). assert (r' = r) by congruence. subst r'.
    destruct (pt_dec r pe) as [->|Nr]; [apply better_refl|]. left.
    assert (Nrp : r <> p) by (intros ->; apply Hni; apply (Hinj _ _ p); auto; apply Hincl; eapply nth_error_In; eauto).
    apply (proj2 Hr p pe r); auto; [eapply edges_nth; eauto|eapply nth_error_In; eauto].
  Qed.

  Lemma merge_step cur p : vi_ok ia ib cur -> (from_a cur = true \/ vindex cur <> s) -> nth_error v (vindex cur) = Some p -> corner D p ->
    exists e pe, (let* e0 := combine_next ia ib cur in combine_inner v (negb (from_a cur)) cur (if from_a cur then ib else ia) 0 e0 false) = Val e /\
      vi_ok ia ib e /\ nth_error v (vindex e) = Some pe /\ gedge D p pe.
  Proof.
    intros Hvi Hfs Ep (zx & zy & Hz & Hah). unfold vi_ok in Hvi.
    set (own := if from_a cur then ia else ib) in *. set (oth := if from_a cur then ib else ia).
    set (ps := if from_a cur then pa else pb). set (os := if from_a cur then pb else pa).
    assert (Hown : picks v own ps /\ ringlike ps) by (unfold own, ps; destruct (from_a cur); auto).
    assert (Hoth : picks v oth os /\ ringlike os) by (unfold oth, os; destruct (from_a cur); auto).
    assert (Hin : forall i, In i own \/ In i oth <-> In i (ia ++ ib)) by (intros i; rewrite in_app_iff; unfold own, oth; destruct (from_a cur); tauto).
    assert (Hci : In (vindex cur) own) by (eapply nth_error_In; eauto).
    assert (HpD : In p D) by (destruct (D_of (vindex cur)) as (r & E & Hd); [apply Hin; auto|congruence]).
    assert (Hio : incl own (ia ++ ib)) by (intros i Hi; apply Hin; auto).
    assert (Hk : (index_index cur < length own)%nat) by (apply nth_error_Some; congruence).
    (* the first candidate *)
    assert (Hnext : exists e0, combine_next ia ib cur = Val e0 /\ vi_ok ia ib e0 /\ best_of v D cur p own oth e0 own /\ first_ok v cur p oth e0).
    { unfold combine_next. fold own.
      assert (Hmod : (Nat.modulo (index_index cur + 1) (length own) < length own)%nat) by (apply Nat.mod_upper_bound; lia).
      destruct (nth_error own (Nat.modulo (index_index cur + 1) (length own))) as [e|] eqn:Ee; [|apply nth_error_None in Ee; lia].
      assert (Ecn : combine_next ia ib cur = if negb (Nat.eqb e (vindex cur)) then Val (mkVI (from_a cur) e (Nat.modulo (index_index cur + 1) (length own)))
          else let* b := idx oth 0 in Val (mkVI (negb (from_a cur)) b 0)).
      { unfold combine_next. unfold own, oth in *. destruct (from_a cur); unfold idx at 1; rewrite Ee; cbn [obind negb]; auto. }
      fold (combine_next ia ib cur). rewrite Ecn. destruct (Nat.eqb_spec e (vindex cur)) as [E|N]; cbn [negb].
      - (* a single vertex *)
        assert (E1 : own = [vindex cur]).
        { assert (Hndo : NoDup own) by (eapply picks_NoDup; [apply Hown|apply Hown]).
          subst e. assert (Em : Nat.modulo (index_index cur + 1) (length own) = index_index cur).
          { apply (proj1 (NoDup_nth_error own) Hndo); [lia|congruence]. }
          destruct (Nat.eq_dec (Datatypes.S (index_index cur)) (length own)) as [El|Nl].
          - replace (index_index cur + 1)%nat with (length own) in Em by lia. rewrite Nat.mod_same in Em by lia. rewrite <- Em in El, Hvi.
            destruct own as [|x [|y l]]; cbn in El, Hvi; try lia. congruence.
          - rewrite Nat.mod_small in Em by lia. lia. }
        assert (Hf : exists o t, oth = o :: t /\ o <> vindex cur /\ (length oth = 1%nat \/ True)).
        { destruct Hcond as [[Eia (b & t & Eib & Hbs)]|[Hla Hib]].
          - unfold oth, own in *. destruct (from_a cur).
            + exists b, t. rewrite Eia in E1. injection E1 as E1. repeat split; auto. congruence.
            + exists s, []. rewrite Eib in E1. injection E1 as E1 _. repeat split; auto. congruence.
          - exfalso. unfold own in *. destruct (from_a cur) eqn:Ef; [rewrite E1 in Hla; cbn in Hla; lia|].
            rewrite E1 in Hib. cbn in Hib. destruct Hfs; congruence. }
        destruct Hf as (o & t & Eo & Hoc & _). rewrite Eo. cbn [idx nth_error obind]. eexists. split; [reflexivity|].
        assert (Hoi : In o (ia ++ ib)) by (apply Hin; right; rewrite Eo; left; auto).
        destruct (D_of o Hoi) as (r & Er & HrD). split.
        { unfold vi_ok. cbn [from_a index_index vindex]. unfold oth in Eo. destruct (from_a cur); cbn [negb]; rewrite Eo; auto. }
        split.
        { exists r. cbn [vindex]. split; [auto|]. split; [auto|]. split; [intros ->; apply Hoc; apply (Hinj _ _ p); auto; apply Hin; auto|].
          split; [right; rewrite <- Eo; rewrite Eo; left; auto|]. intros i q Hi Hne. exfalso. rewrite E1 in Hi. destruct Hi as [Hi|[]]. congruence. }
        right. intros i q pe Hhd Hne Eq Epe. cbn [hd_error] in Hhd. injection Hhd as <-. cbn [vindex] in Epe. assert (pe = q) by congruence. subst pe. apply better_refl.
      - eexists. split; [reflexivity|]. split; [unfold vi_ok; cbn [from_a index_index vindex]; auto|].
        destruct (next_best own ps cur p e) as (pe & E1 & E2 & E3 & E4); try tauto.
        split.
        { exists pe. cbn [vindex]. split; [auto|]. split; [auto|]. split; [auto|]. split; [left; eapply nth_error_In; eauto|]. auto. }
        assert (Hfo : length oth = 1%nat \/ hd_error oth = Some s /\ In s own).
        { destruct Hcond as [[Eia _]|[Hla Hib]].
          - unfold oth, own in *. destruct (from_a cur) eqn:Ef; [|left; rewrite Eia; auto].
            exfalso. rewrite Eia in Ee, Hvi, Hci. destruct Hci as [Hci|[]]. cbn in Ee. congruence.
          - right. unfold oth, own. destruct (from_a cur); split; auto using s_in. destruct ib; [discriminate|]. cbn in Hib. injection Hib as ->. left; auto. }
        destruct Hfo as [Hfo|[Hfo Hso]]; [left; auto|right]. intros i r pe' Hhd Hne Er Epe'. cbn [vindex] in Epe'. assert (pe' = pe) by congruence. subst pe'.
        assert (i = s) by congruence. subst i. eauto. }
    destruct Hnext as (e0 & En & Hv0 & Hb0 & Hf0). rewrite En. cbn [obind]. fold oth.
    destruct (inner_best v D zx zy cur p own oth os (negb (from_a cur)) Hz Ep Hah) with (todo := oth) (pre := @nil nat) (e := e0) (found := false)
      as (e & Ee & Hbe & Hw); auto; try (apply Hoth); try discriminate.
    - intros i Hi. apply D_of, Hin, Hi.
    - intros i j r Hi Hj. apply Hinj; apply Hin; auto.
    - rewrite app_nil_r. auto.
    - cbn [length] in Ee. destruct Hbe as (pe & Epe & HpeD & Npe & Hei & Hbest). exists e, pe. split; [auto|]. split.
      { destruct Hw as [->|[Hw1 Hw2]]; auto. unfold vi_ok. rewrite Hw1. unfold oth in Hw2. destruct (from_a cur); auto. }
      split; [auto|]. apply (best_gedge D zx zy p Hah pe); auto. intros r [Hr Nr].
      destruct (of_D r Hr) as (i & Hi & Er). apply (Hbest i r); auto.
      + apply in_or_app. apply Hin. auto.
      + intros ->. congruence.
  Qed.

  Definition medge (i j : nat) : Prop := exists p q, nth_error v i = Some p /\ nth_error v j = Some q /\ gedge D p q.
  Definition mchain (H : list nat) : Prop := forall X i j Y, H = X ++ i :: j :: Y -> medge i j.
  Definition mcorner (i : nat) : Prop := exists p, nth_error v i = Some p /\ corner D p.

  Lemma merge_loop : forall fuel H cur,
    vi_ok ia ib cur -> (from_a cur = true \/ vindex cur <> s) -> NoDup (H ++ [vindex cur]) -> hd (vindex cur) H = s -> mchain (H ++ [vindex cur]) ->
    (forall i, In i (H ++ [vindex cur]) -> In i (ia ++ ib) /\ mcorner i) -> (length all <= length H + fuel)%nat ->
    exists R, combine_loop fuel v ia ib s cur H = Val R /\ NoDup R /\ (2 <= length R)%nat /\ hd s R = s /\ mchain R /\
      (forall i, In i R -> In i (ia ++ ib)) /\ medge (last R s) s.
  Proof.
    induction fuel as [|fuel IH]; intros H cur Hvi Hfs Hnd Hhd Hch Hx Hf.
    { exfalso. assert (Hl : (length (H ++ [vindex cur]) <= length all)%nat).
      { apply NoDup_incl_length; auto. intros i Hi. apply Hall, Hx, Hi. }
      rewrite app_length in Hl. cbn in Hl. lia. }
    cbn [combine_loop].
    destruct (Hx (vindex cur)) as (Hci & p & Ep & Hpc); [apply in_or_app; right; left; auto|].
    destruct (merge_step cur p Hvi Hfs Ep Hpc) as (e & pe & Ee & Hve & Epe & G).
    destruct (combine_next ia ib cur) as [e0| | |]; cbn [obind] in Ee; try discriminate. cbn [obind]. rewrite Ee. cbn [obind].
    assert (Hei : In (vindex e) (ia ++ ib)). { unfold vi_ok in Hve. apply in_or_app. destruct (from_a e); apply nth_error_In in Hve; auto. }
    assert (Hedge : medge (vindex cur) (vindex e)) by (exists p, pe; auto).
    assert (Hec : vindex e <> vindex cur) by (intros E; destruct G as [Gn _]; apply Gn; congruence).
    destruct (Nat.eqb_spec (vindex e) s) as [Es|Ns].
    - exists (H ++ [vindex cur]). split; auto. split; auto. split.
      { destruct H as [|h0 H]; [cbn in Hhd; congruence|]. rewrite app_length. cbn. lia. }
      split; [destruct H; cbn in *; auto|]. split; auto. split; [intros i Hi; apply Hx; auto|]. rewrite last_app_one. rewrite <- Es. auto.
    - assert (Hpin : In p D) by (destruct (D_of _ Hci) as (r & E & Hd); congruence).
      assert (Hpein : In pe D) by (destruct (D_of _ Hei) as (r & E & Hd); congruence).
      assert (Hnew : ~ In (vindex e) (H ++ [vindex cur])).
      { intros Hin. apply in_split in Hin as (X & Y & E). destruct X as [|x X].
        - destruct H as [|h0 H]; cbn in E, Hhd; injection E as E1 E2; congruence.
        - destruct (@exists_last _ (x :: X)) as (X' & a & EX); [congruence|].
          rewrite EX, <- app_assoc in E. cbn [app] in E.
          destruct (Hch X' a (vindex e) Y E) as (qa & q & Eqa & Eq & G'). assert (q = pe) by congruence. subst q.
          destruct (Hx a) as (Hai & qa' & Eqa' & Hax); [rewrite E; apply in_or_app; right; left; auto|]. assert (qa' = qa) by congruence. subst qa'.
          assert (p = qa).
          { apply (pred_unique D p qa pe); auto using corner_extreme. destruct (D_of _ Hai) as (r & E3 & Hd). congruence. }
          subst qa. assert (a = vindex cur) by (apply (Hinj _ _ p); auto). subst a.
          destruct Y as [|y Y].
          + assert (E2 : H ++ [vindex cur] = (X' ++ [vindex cur]) ++ [vindex e]) by (rewrite <- app_assoc; auto). apply app_inj_tail in E2 as [_ E2]. congruence.
          + destruct (@exists_last _ (y :: Y)) as (Y' & c & EY); [congruence|]. rewrite EY in E.
            assert (E2 : H ++ [vindex cur] = (X' ++ vindex cur :: vindex e :: Y') ++ [c]) by (rewrite <- app_assoc; auto). apply app_inj_tail in E2 as [EH <-].
            rewrite EH, <- app_assoc in Hnd. apply NoDup_app_inv in Hnd as (_ & Hnd & _). cbn [app] in Hnd.
            inversion Hnd as [|? ? Hc _]; subst. apply Hc. right. apply in_or_app. right; left; auto. }
      destruct (IH (H ++ [vindex cur]) e) as (R & ER & Q); auto.
      + apply NoDup_app_intro; auto.
        * constructor; [intros []|constructor].
        * intros i Hi [<-|[]]. auto.
      + destruct H; auto.
      + intros X i j Y EX. destruct Y as [|y Y].
        * assert (E2 : (H ++ [vindex cur]) ++ [vindex e] = (X ++ [i]) ++ [j]) by (rewrite EX, <- app_assoc; auto).
          apply app_inj_tail in E2 as [E2 <-]. apply app_inj_tail in E2 as [_ <-]. auto.
        * destruct (@exists_last _ (y :: Y)) as (Y' & c & EY); [congruence|]. rewrite EY in EX.
          assert (E2 : (H ++ [vindex cur]) ++ [vindex e] = (X ++ i :: j :: Y') ++ [c]) by (rewrite EX, <- app_assoc; auto).
          apply app_inj_tail in E2 as [E2 _]. eapply Hch; eauto.
      + intros i Hi. apply in_app_iff in Hi as [Hi|[<-|[]]]; auto. split; auto. exists pe. split; auto. apply (gedge_corner D p pe); auto.
      + rewrite app_length. cbn. lia.
      + exists R. auto.
  Qed.
End Merge.
