(* Whole sweep-line calls over any lawful map, with no assumption on the key comparison: finite input, and the grid. *)
From Coq Require Import ZArith Reals Lra Lia Permutation Floats.SpecFloat.
From Flocq Require Import Core BinarySingleNaN.
From Verif Require Import Prelude Scalar RInst Flt FloatSpec FloatGrid Geo2 GeoSpec IsectProofs FloatIsect Sweep SweepMap SweepIdx SweepRun SweepFin SweepAny SweepFlt SweepGrid SweepTree SweepMapEq SweepCons SweepAny2.

Section Finite.
  Context {S : Scalar} (inf : car S).
  Hypothesis Hc : comparable S.
  Notation V := (V2 S).
  Notation L := (Line2 S).
  Let T (_ : V) (_ : L) : Prop := True.
  Lemma key_cmp_fin' a b : fin_pt (S := S) a -> fin_pt b -> key_cmp a b <> None.
  Proof. exact (key_cmp_fin Hc a b). Qed.
  Lemma bad_point_pair (lines : list L) : bad_point lines -> bad_pair lines.
  Proof.
    intros (l & r & it & H1 & H2 & H3 & H4). exists l, r, it. repeat split; auto. intros [F1 F2]. rewrite F1, F2 in H4. discriminate.
  Qed.
  Section Lines.
    Context (lines : list L).
    Notation ev_fine := (ev_fine lines False fin_pt T T).
    Notation q_fine := (q_fine lines False fin_pt T T).
    Lemma fine_iff k e : ev_fine k e <-> fin_pt k /\ Forall (fun i => (i < length lines)%nat) (ev_lines e).
    Proof.
      split; [intros [H1 H2 _ _ _]|intros [H1 H2]; constructor; auto; try (intros []; fail)].
      - split; auto. eapply Forall_impl; [|exact H2]. intros i (l & Hl & _). apply nth_error_Some. congruence.
      - eapply Forall_impl; [|exact H2]. intros i Hi. cbn beta in Hi. apply nth_error_Some in Hi. destruct (nth_error lines i) as [l|] eqn:E; [|congruence]. exists l. split; [exact E|exact I].
    Qed.
    Lemma push_fine i k : (i < length lines)%nat -> fin_pt k ->
      ev_fine k (push_add i None) /\ ev_fine k (push_drop i None) /\
      forall k' e, ev_fine k' e -> ev_fine k' (push_add i (Some e)) /\ ev_fine k' (push_drop i (Some e)).
    Proof.
      intros Hi Hk. rewrite !fine_iff. split; [split; auto; repeat constructor; auto|]. split; [split; auto; repeat constructor; auto|].
      intros k' e He. rewrite fine_iff in He. rewrite !fine_iff. destruct He as [H1 H2]. destruct (push_below i (length lines) e H2 Hi). auto.
    Qed.
    (* both ends of a line go into the queue *)
    Lemma line_any {K} (pos : K -> V) (QM : Map V K SiteEvent) okq (HQ : lawful_on pos QM okq) i a b m : (i < length lines)%nat -> fin_pt (pos a) -> fin_pt (pos b) -> okq m -> q_fine (view pos (m_list m)) ->
      exists m', (let* q1 := map_update pos a (push_add i) m in map_update pos b (push_drop i) q1) = Val m' /\ okq m' /\ q_fine (view pos (m_list m')) /\
        exists l1, updated pos a (push_add i None) (fun e => push_add i (Some e)) (m_list m) l1 /\ updated pos b (push_drop i None) (fun e => push_drop i (Some e)) l1 (m_list m').
    Proof.
      intros Hi Ha Hb Ho Hq. destruct (update_any pos okq HQ fin_pt key_cmp_fin' m a (push_add i) Ho (q_fine_keyed lines False fin_pt T T pos _ Hq) Ha) as (m1 & E1 & O1 & U1).
      rewrite E1. cbn [obind]. destruct (push_fine i (pos a) Hi Ha) as (A1 & _ & A3). destruct (push_fine i (pos b) Hi Hb) as (_ & B2 & B3).
      assert (Q1 : q_fine (view pos (m_list m1))) by (eapply (updated_fine lines False fin_pt T T pos); [exact Hq|exact U1|exact A1|intros k' e He _; apply A3; auto]).
      destruct (update_any pos okq HQ fin_pt key_cmp_fin' m1 b (push_drop i) O1 (q_fine_keyed lines False fin_pt T T pos _ Q1) Hb) as (m2 & E2 & O2 & U2).
      exists m2. split; auto. split; auto. split; [|eauto]. eapply (updated_fine lines False fin_pt T T pos); [exact Q1|exact U2|exact B2|intros k' e He _; apply B3; auto].
    Qed.
  End Lines.
  Lemma tree_lines_any lines QM okq (HQ : lawful_on (fun v : V => v) QM okq) : forall input n m acc, (n + length input <= length lines)%nat -> fineq lines False fin_pt T T QM okq m ->
    match tree_with_lines QM n input m acc with
    | Val (m', ls) => Forall fin_line input /\ ls = acc ++ map arrange input /\ fineq lines False fin_pt T T QM okq m'
    | Fail x => x = InvalidData /\ ~ Forall fin_line input
    | _ => False
    end.
  Proof.
    induction input as [|l t IH]; intros n m acc Hn [Ho Hq]; cbn [tree_with_lines map]; [rewrite app_nil_r; split; [constructor|split; [auto|split; auto]]|].
    cbn [length] in Hn. destruct (line_finite (lstart l) (lend l)) eqn:El.
    - apply line_finite_spec in El. assert (Fl : fin_line l) by exact El. destruct (arrange_fin l Fl) as [F1 F2]. unfold tree_queue_line.
      destruct (line_any lines (fun v => v) QM okq HQ n (lstart (arrange l)) (lend (arrange l)) m ltac:(lia) F1 F2 Ho Hq) as (m' & E & O' & Q' & _).
      cbv zeta. rewrite E. cbn [obind]. specialize (IH (Datatypes.S n) m' (acc ++ [arrange l]) ltac:(lia) (conj O' Q')).
      destruct (tree_with_lines QM (Datatypes.S n) t m' (acc ++ [arrange l])) as [[m2 ls]|x| |]; auto.
      + destruct IH as (I1 & -> & I3). split; [constructor; auto|]. split; auto. rewrite <- app_assoc. reflexivity.
      + destruct IH as [-> I]. split; auto. intros C. inversion_clear C. auto.
    - split; auto. intros C. inversion_clear C as [|? ? Cl _]. apply line_finite_spec in Cl. congruence.
  Qed.
  Lemma tree_finite QM RM okq okr (HQ : lawful_on (fun v : V => v) QM okq) (HR : lawful_on (fun v : V => v) RM okr) ord fuel stop ign input : (forall n l, Permutation (ord n l) l) ->
    match tree_intersections inf QM RM ord fuel stop ign input with
    | Val r => Forall fin_line input /\ Forall (fun x => fin_pt (fst x) /\ Forall (fun i => (i < length input)%nat) (snd x)) r
    | Fail x => x = InternalError \/ (x = InvalidData /\ (~ Forall fin_line input \/ bad_pair (map arrange input)))
    | Panic => True
    | NoFuel => Forall fin_line input
    end.
  Proof.
    intros Ho. unfold tree_intersections. set (lines := map arrange input).
    assert (Q0 : fineq lines False fin_pt T T QM okq (m_empty QM)) by (split; [apply (ok_empty _ _ _ HQ)|rewrite (law_empty _ _ _ HQ); constructor]).
    pose proof (tree_lines_any lines QM okq HQ input 0 (m_empty QM) [] ltac:(unfold lines; rewrite map_length; auto) Q0) as A.
    destruct (tree_with_lines QM 0 input (m_empty QM) []) as [[m ls]|x| |]; cbn [obind]; try contradiction; [|destruct A; auto]. destruct A as (A1 & -> & A3). cbn [app]. fold lines.
    assert (Hint : forall (l r : L) it, In l lines -> In r lines -> intersection_point l r = Some it -> sfin (vx (isingle it)) = true -> sfin (vy (isingle it)) = true ->
      fin_pt (isingle it) /\ T (isingle it) l /\ T (isingle it) r) by (intros; repeat split; auto).
    pose proof (tree_loop_any inf lines False fin_pt T T T T T key_cmp_fin' (fun f => match f with end) Hint (fun _ _ _ => I) (fun _ _ _ _ _ _ _ => I) (fun _ _ _ _ _ _ _ => I) (fun _ _ _ _ _ _ _ => I) (fun f => match f with end)
      QM RM okq okr HQ HR ign stop ord Ho fuel 0 (mkTS QM RM [] m (m_empty RM))) as B.
    specialize (B ltac:(split; [constructor|]; split; [exact A3|]; split; [apply (ok_empty _ _ _ HR)|cbn [ts_result]; rewrite (law_empty _ _ _ HR); constructor])).
    destruct (tree_loop inf QM RM lines ign stop ord fuel 0 _) as [r|x| |]; auto.
    - split; auto. unfold r_some, view in B. rewrite Forall_map in B. eapply Forall_impl; [|exact B]. intros [k is] (H1 & _ & H2). cbn [fst snd] in *. split; auto.
      eapply Forall_impl; [|exact H2]. intros i (l & Hl & _). unfold lines in Hl. rewrite <- (map_length arrange input). apply nth_error_Some. congruence.
    - destruct B as [->|[-> B]]; auto. right. split; auto. right. apply bad_point_pair; auto.
  Qed.
  Notation IK := (IKey (S := S)).
  Lemma tree_edges_any lines QM okq (HQ : lawful_on (fst : IK -> V) QM okq) vertices : forall edges ls, lines_of vertices edges ls -> forall n m acc, (n + length ls <= length lines)%nat -> ifineq lines False fin_pt T T QM okq vertices m ->
    match tree_with_edges QM vertices n edges m acc with
    | Val (m', es) => Forall fin_line ls /\ es = acc ++ edges /\ ifineq lines False fin_pt T T QM okq vertices m'
    | Fail x => x = InvalidData /\ ~ Forall fin_line ls
    | _ => False
    end.
  Proof.
    intros edges ls Hl. induction Hl as [|[a b] l edges ls [E1 E2] Hl IH]; intros n m acc Hn (Ho & Hk & Hq); cbn [tree_with_edges]; [rewrite app_nil_r; split; [constructor|split; [auto|split; auto]]|].
    cbn [length fst snd] in *. unfold idx. rewrite E1, E2. cbn [obind]. destruct (line_finite (lstart l) (lend l)) eqn:El.
    - apply line_finite_spec in El. destruct El as [F1 F2].
      assert (St : exists m', tree_iqueue_line QM n a (lstart l) b (lend l) m = Val m' /\ ifineq lines False fin_pt T T QM okq vertices m').
      { unfold tree_iqueue_line. assert (K1 : key_ok vertices (lstart l, Some a)) by (exists a; auto). assert (K2 : key_ok vertices (lend l, Some b)) by (exists b; auto).
        destruct (key_lt (lstart l) (lend l)).
        - destruct (line_any lines (fst : IK -> V) QM okq HQ n (lstart l, Some a) (lend l, Some b) m ltac:(lia) F1 F2 Ho Hq) as (m' & E & O' & Q' & l1 & U1 & U2).
          exists m'. split; [exact E|]. split; auto. split; auto. eapply updated_keys_ok; [eapply updated_keys_ok; [exact Hk|exact K1|exact U1]|exact K2|exact U2].
        - destruct (line_any lines (fst : IK -> V) QM okq HQ n (lend l, Some b) (lstart l, Some a) m ltac:(lia) F2 F1 Ho Hq) as (m' & E & O' & Q' & l1 & U1 & U2).
          exists m'. split; [exact E|]. split; auto. split; auto. eapply updated_keys_ok; [eapply updated_keys_ok; [exact Hk|exact K2|exact U1]|exact K1|exact U2]. }
      destruct St as (m' & -> & Q'). cbn [obind]. specialize (IH (Datatypes.S n) m' (acc ++ [(a, b)]) ltac:(lia) Q').
      destruct (tree_with_edges QM vertices (Datatypes.S n) edges m' (acc ++ [(a, b)])) as [[m2 es]|x| |]; auto.
      + destruct IH as (I1 & -> & I3). split; [constructor; [split|]; auto|]. split; auto. rewrite <- app_assoc. reflexivity.
      + destruct IH as [-> I]. split; auto. intros C. inversion_clear C. auto.
    - split; auto. intros C. inversion_clear C as [|? ? Cl _]. apply line_finite_spec in Cl. congruence.
  Qed.
  (* the result list of an indexed call *)
  Lemma unwrap_view vs (r : list (IK * list nat)) : keys_ok vs r -> exists out, mapM unwrap_index r = Val out /\ Forall2 (fun x k => snd x = snd k /\ nth_error vs (fst x) = Some (fst k)) out (view (fst : IK -> V) r).
  Proof. intros H. destruct (mapM_unwrap vs r H) as (out & E1 & E2). exists out. split; [exact E1|exact E2]. Qed.
  Lemma tree_indexed_finite QM RM okq okr (HQ : lawful_on (fst : IK -> V) QM okq) (HR : lawful_on (fst : IK -> V) RM okr) ord fuel stop ign vertices edges ls : (forall n l, Permutation (ord n l) l) ->
    lines_of vertices edges ls ->
    match tree_indexed_intersections inf QM RM ord fuel stop ign vertices edges with
    | Val (vs, out) => Forall fin_line ls /\ (exists added, vs = vertices ++ added) /\
        Forall (fun x => (exists p, nth_error vs (fst x) = Some p /\ fin_pt p) /\ Forall (fun i => (i < length edges)%nat) (snd x)) out
    | Fail x => x = InternalError \/ (x = InvalidData /\ (~ Forall fin_line ls \/ bad_pair ls))
    | Panic => True
    | NoFuel => Forall fin_line ls
    end.
  Proof.
    intros Ho Hl. unfold tree_indexed_intersections. pose proof (lines_of_edge_lines _ _ _ Hl) as HE.
    assert (Q0 : ifineq ls False fin_pt T T QM okq vertices (m_empty QM)) by (split; [apply (ok_empty _ _ _ HQ)|rewrite (law_empty _ _ _ HQ); split; constructor]).
    pose proof (tree_edges_any ls QM okq HQ vertices edges ls Hl 0 (m_empty QM) [] ltac:(auto) Q0) as A.
    destruct (tree_with_edges QM vertices 0 edges (m_empty QM) []) as [[m es]|x| |]; cbn [obind]; try contradiction; [|destruct A; auto]. destruct A as (A1 & -> & A3). cbn [app].
    assert (Hint : forall (l r : L) it, In l ls -> In r ls -> intersection_point l r = Some it -> sfin (vx (isingle it)) = true -> sfin (vy (isingle it)) = true ->
      fin_pt (isingle it) /\ T (isingle it) l /\ T (isingle it) r) by (intros; repeat split; auto).
    pose proof (tree_iloop_any inf ls False fin_pt T T T T T key_cmp_fin' (fun f => match f with end) Hint (fun _ _ _ => I) (fun _ _ _ _ _ _ _ => I) (fun _ _ _ _ _ _ _ => I) (fun _ _ _ _ _ _ _ => I) (fun f => match f with end)
      QM RM okq okr HQ HR edges vertices HE ign stop ord Ho fuel 0 (mkTI QM RM [] vertices m (m_empty RM))) as B.
    specialize (B ltac:(split; [constructor|]; split; [exists []; rewrite app_nil_r; reflexivity|]; split; [exact A3|]; split; [apply (ok_empty _ _ _ HR)|cbn [ti_result ti_vertices]; rewrite (law_empty _ _ _ HR); split; constructor])).
    destruct (tree_iloop inf QM RM edges ign stop ord fuel 0 _) as [[vs r]|x| |]; cbn [obind]; auto.
    - destruct B as ((w & ->) & B2 & B3). destruct (unwrap_view _ r B2) as (out & -> & Fo). cbn [obind]. split; auto. split; [eauto|].
      destruct HE as [HE _]. rewrite <- HE. unfold r_some in B3. clear - B3 Fo. revert B3. generalize dependent (view (fst : IK -> V) r). clear r. intros r Fo. induction Fo as [|x k out r [E1 E2] _ IH]; intros B3; constructor; inversion_clear B3 as [|? ? (C1 & _ & C2) C3]; auto.
      split; [eauto|]. rewrite E1. eapply Forall_impl; [|exact C2]. intros i (l & Hl & _). apply nth_error_Some. congruence.
    - destruct B as [->|[-> B]]; auto. right. split; auto. right. apply bad_point_pair; auto.
  Qed.
End Finite.

Local Open Scope R_scope.
Section GridAny.
  Context (prec emax epsexp : Z) (at2 : spec_float -> spec_float -> spec_float) (Hprec : Prec_gt_0 prec) (Hmax : Prec_lt_emax prec emax).
  Notation FS := (FloatS prec emax epsexp at2).
  Notation emin := (SpecFloat.emin prec emax).
  Context (s K : Z) (OK : isect_ok prec emax epsexp s K).
  Context (Hee : (emin + 2 <= epsexp)%Z) (Hes : (epsexp + 2 < s)%Z) (HK7 : (K + 7 <= prec)%Z) (Hh : (epsexp + 1 <= K + s + 4 - prec)%Z).
  Notation V := (V2 FS).
  Notation L := (Line2 FS).
  Notation h := (bpow radix2 (K + s + 4 - prec)).
  Notation n := (2 ^ K)%Z.
  Notation onp := (@grid_point prec emax epsexp at2 s n).
  Notation val := (@point_value prec emax epsexp at2).
  Notation okey := (okey prec emax epsexp at2 s K).
  Notation near_line := (near_line prec emax epsexp at2).
  Notation grid_line := (grid_line prec emax epsexp at2 s K).
  Notation endat := (endat prec emax epsexp at2 s K).
  Definition some_real (input : list L) (p : V) (is : list nat) : Prop :=
    (is = [] \/ two_of is) /\ forall i, In i is -> exists l q, nth_error input i = Some l /\ on_segment q (val (lstart l)) (val (lend l)) /\ near_by (4 * h) (val p) q.

  Context (inf : spec_float) (ign stop : bool) (ord : nat -> list nat -> list nat) (Ho : forall m l, Permutation (ord m l) l).
  Notation near1 := (near_line (/ 2 * h + h)).
  Notation near2 := (near_line (/ 2 * h + h + h + h)).
  Lemma grid_hyps (lines : list L) : Forall grid_line lines ->
    (True -> forall l, In l lines -> vulps (lend l) (lend l) = true) /\
    (forall (l r : L) it, In l lines -> In r lines -> intersection_point l r = Some it -> sfin (vx (isingle it)) = true -> sfin (vy (isingle it)) = true -> okey (isingle it) /\ near_line (/ 2 * h) (isingle it) l /\ near_line (/ 2 * h) (isingle it) r) /\
    (forall p l, near_line (/ 2 * h) p l -> near1 p l) /\
    (forall p k l, okey p -> okey k -> key_cmp p k = Some Eq -> near_line (/ 2 * h) p l -> near1 k l) /\
    (forall p k l, okey p -> okey k -> key_cmp p k = Some Eq -> near1 k l -> near_line (/ 2 * h + h + h) p l) /\
    (forall p k l, okey p -> okey k -> key_cmp p k = Some Eq -> near_line (/ 2 * h + h + h) p l -> near2 k l) /\
    (True -> forall p k l, okey p -> okey k -> key_cmp p k = Some Eq -> endat k l -> (vulps p (lstart l) || vulps p (lend l))%bool = true) /\
    ~ bad_point lines.
  Proof.
    intros HL. rewrite Forall_forall in HL. assert (h0 : 0 < h) by apply bpow_gt_0.
    assert (Hop : forall d p k l, okey p -> okey k -> key_cmp p k = Some Eq -> near_line d p l -> near_line (h + d) k l) by (intros d p k l Hp Hk E N; exact (near_line_hop prec emax epsexp at2 Hprec Hmax s K OK Hee HK7 Hh d p k l Hp Hk E N)).
    assert (Hi : forall (l r : L) it, In l lines -> In r lines -> intersection_point l r = Some it -> okey (isingle it) /\ near_line (/ 2 * h) (isingle it) l /\ near_line (/ 2 * h) (isingle it) r)
      by (intros l r it Hl Hr E; exact (isect_near prec emax epsexp at2 Hprec Hmax s K OK HK7 l r it (HL l Hl) (HL r Hr) E)).
    split; [|split; [|split; [|split; [|split; [|split; [|split]]]]]].
    - intros _ l Hl. destruct (HL l Hl) as (_ & G & _). pose proof (sulps_val prec emax epsexp at2 Hprec Hmax s K OK) as R.
      exact (eq_trans (f_equal2 andb (R _ _ (proj1 (proj1 G)) (proj1 (proj1 G)) eq_refl) (R _ _ (proj1 (proj2 G)) (proj1 (proj2 G)) eq_refl)) eq_refl).
    - intros l r it Hl Hr E _ _. auto.
    - intros p l. apply near_line_le. lra.
    - intros p k l Hp Hk E N. apply near_line_le with (h + / 2 * h); [lra|]. apply Hop with p; auto.
    - intros p k l Hp Hk E N. apply near_line_le with (h + (/ 2 * h + h)); [lra|]. destruct N as (q & O & N). exists q. split; auto. eapply near_trans; [|exact N].
      apply (cmp_hop prec emax epsexp at2 Hprec Hmax s K OK Hee HK7 Hh); auto.
    - intros p k l Hp Hk E N. apply near_line_le with (h + (/ 2 * h + h + h)); [lra|]. apply Hop with p; auto.
    - intros _ p k l. apply (endat_ulps prec emax epsexp at2 Hprec Hmax s K OK Hee).
    - intros (l & r & it & Hl & Hr & E & F). destruct (Hi l r it Hl Hr E) as ([[G1 G2] _] & _). rewrite !(fin_good prec emax epsexp at2) in F by auto. discriminate.
  Qed.
  Lemma real_of (f : L -> L) input p is : (f = arrange \/ f = fun l => l) -> (True -> is = [] \/ two_of is) -> Forall (has (map f input) near2 p) is -> some_real input p is.
  Proof.
    intros Hf H2 HN. split; auto. intros i Hin. rewrite Forall_forall in HN. destruct (HN i Hin) as (l & Hl & q0 & O & N).
    rewrite nth_error_map in Hl. destruct (nth_error input i) as [l0|] eqn:El; [|discriminate]. cbn [option_map] in Hl. injection Hl as <-. exists l0, q0. split; auto. split.
    - destruct Hf as [-> | ->]; auto. unfold arrange in O. destruct (key_lt _ _); auto. apply on_segment_sym. exact O.
    - eapply near_le; [|exact N]. assert (0 < h) by apply bpow_gt_0. lra.
  Qed.
  Lemma tree_grid QM RM okq okr (HQ : lawful_on (fun v : V => v) QM okq) (HR : lawful_on (fun v : V => v) RM okr) fuel (input : list L) : Forall grid_line input ->
    match tree_intersections (S := FS) inf QM RM ord fuel stop ign input with
    | Val r => forall p is, In (p, is) r -> some_real input p is
    | Fail x => x = InternalError
    | _ => True
    end.
  Proof.
    intros Hi. unfold tree_intersections. destruct (init_grid prec emax epsexp at2 Hprec Hmax s K OK (@arrange FS) input Hi (or_introl eq_refl)) as (q & E & Hq & _).
    pose proof (with_lines_same onp (consistent_grid prec emax epsexp at2 Hprec Hmax s K OK) QM okq HQ input 0 (m_empty QM) [] [] (rep_empty _ _ _ _ HQ)) as W.
    assert (Hg : forall x, In x input -> line_finite (lstart x) (lend x) = true -> onp (lstart (arrange x)) /\ onp (lend (arrange x))).
    { intros x Hx _. rewrite Forall_forall in Hi. destruct (arrange_grid_line prec emax epsexp at2 s K x (Hi x Hx)) as (A & B & _). auto. }
    specialize (W Hg). rewrite E in W. destruct (tree_with_lines QM 0 input (m_empty QM) []) as [[m la]|?| |]; cbn [sim fst snd] in W; try contradiction. cbn [obind].
    destruct W as [(O1 & E1 & _) ->].
    assert (HL : Forall grid_line (map arrange input)) by (apply Forall_forall; intros l Hl; apply in_map_iff in Hl as (l0 & <- & Hl0); rewrite Forall_forall in Hi; apply arrange_grid_line; auto).
    destruct (grid_hyps (map arrange input) HL) as (G1 & G2 & G3 & G4 & G5 & G6 & G7 & G8).
    pose proof (tree_loop_any (S := FS) inf (map arrange input) True okey _ _ _ near2 endat (cmp_okey prec emax epsexp at2 s K) G1 G2 G3 G4 G5 G6 G7
      QM RM okq okr HQ HR ign stop ord Ho fuel 0 (mkTS QM RM [] m (m_empty RM))) as B.
    assert (Hm : fineq (map arrange input) True okey near1 endat QM okq m).
    { split; auto. rewrite E1. unfold view. replace (map (fun ke : V * SiteEvent => (fst ke, snd ke)) q) with q; [exact Hq|]. clear. induction q as [|[a b] t IH]; cbn; congruence. }
    specialize (B ltac:(split; [constructor|]; split; [exact Hm|]; split; [apply (ok_empty _ _ _ HR)|cbn [ts_result]; rewrite (law_empty _ _ _ HR); constructor])).
    destruct (tree_loop (S := FS) inf QM RM (map arrange input) ign stop ord fuel 0 _) as [r|x| |]; auto.
    - intros p is Hin. unfold r_some, view in B. rewrite Forall_map, Forall_forall in B. destruct (B _ Hin) as (B1 & B2 & B3). apply (real_of arrange); auto.
    - destruct B as [->|[-> B]]; auto. contradiction.
  Qed.
  Notation IK := (IKey (S := FS)).
  Lemma tree_indexed_grid QM RM okq okr (HQ : lawful_on (fst : IK -> V) QM okq) (HR : lawful_on (fst : IK -> V) RM okr) fuel vertices edges (ls : list L) : lines_of vertices edges ls -> Forall grid_line ls ->
    match tree_indexed_intersections (S := FS) inf QM RM ord fuel stop ign vertices edges with
    | Val (vs, out) => (exists added, vs = vertices ++ added) /\ forall x is, In (x, is) out -> exists p, nth_error vs x = Some p /\ some_real ls p is
    | Fail x => x = InternalError
    | _ => True
    end.
  Proof.
    intros Hl Hi. unfold tree_indexed_intersections. pose proof (lines_of_edge_lines _ _ _ Hl) as HE.
    pose proof (with_edges_sim vertices edges ls Hl 0 [] [] [] (Forall_nil _)) as W. cbn [plain map] in W.
    destruct (init_grid prec emax epsexp at2 Hprec Hmax s K OK (fun l => l) ls Hi (or_intror eq_refl)) as (q & E & Hq & _). rewrite E in W. rewrite map_id in Hq.
    destruct (with_edges_loop vertices 0 edges [] []) as [[iq es]|x| |] eqn:Ew; cbn in W; try contradiction. destruct W as (K1 & K2 & K3 & K4). cbn [app] in *. subst es. change (plain iq = q) in K2. subst q.
    pose proof (with_edges_same onp (consistent_grid prec emax epsexp at2 Hprec Hmax s K OK) QM okq HQ vertices edges 0 (m_empty QM) [] [] ltac:(split; [apply rep_empty; auto|constructor])) as Y.
    assert (Hg : forall a b p q, In (a, b) edges -> nth_error vertices a = Some p -> nth_error vertices b = Some q -> line_finite p q = true -> onp p /\ onp q).
    { intros a b p q Hx Ea Eb _. assert (X : exists l, In l ls /\ lstart l = p /\ lend l = q).
      { clear - Hl Hx Ea Eb. induction Hl as [|ab l es ls [H1 H2] H IH]; [destruct Hx|]. destruct Hx as [->|Hx].
        - exists l. cbn [fst snd] in *. split; [left; auto|]. split; congruence.
        - destruct (IH Hx) as (l' & ? & ?). exists l'. split; [right; auto|auto]. }
      destruct X as (l & Hin & <- & <-). rewrite Forall_forall in Hi. destruct (Hi l Hin) as (A & B & _). auto. }
    specialize (Y Hg). rewrite Ew in Y. destruct (tree_with_edges QM vertices 0 edges (m_empty QM) []) as [[m la]|?| |]; cbn [sim fst snd] in Y; try contradiction. cbn [obind].
    destruct Y as [[(O1 & E1 & _) Kq] ->].
    destruct (grid_hyps ls Hi) as (G1 & G2 & G3 & G4 & G5 & G6 & G7 & G8).
    pose proof (tree_iloop_any (S := FS) inf ls True okey _ _ _ near2 endat (cmp_okey prec emax epsexp at2 s K) G1 G2 G3 G4 G5 G6 G7
      QM RM okq okr HQ HR edges vertices HE ign stop ord Ho fuel 0 (mkTI QM RM [] vertices m (m_empty RM))) as B.
    assert (Hm : ifineq ls True okey near1 endat QM okq vertices m) by (split; [exact O1|split; [exact (eq_ind_r (fun l => keys_ok vertices l) Kq E1)|exact (eq_ind_r (fun l => q_fine ls True okey near1 endat (view (fst : IK -> V) l)) Hq E1)]]).
    specialize (B ltac:(split; [constructor|]; split; [exists []; rewrite app_nil_r; reflexivity|]; split; [exact Hm|]; split; [apply (ok_empty _ _ _ HR)|cbn [ti_result ti_vertices]; rewrite (law_empty _ _ _ HR); split; constructor])).
    destruct (tree_iloop (S := FS) inf QM RM edges ign stop ord fuel 0 _) as [[vs r]|x| |]; cbn [obind]; auto.
    - destruct B as ((w & ->) & B2 & B3). destruct (unwrap_view _ r B2) as (out & -> & Fo). cbn [obind]. split; [eauto|]. intros x is Hin.
      unfold r_some in B3. rewrite Forall_forall in B3. clear - Fo B3 Hin Hprec Hmax. induction Fo as [|y k out r' [E1 E2] Fo IH]; [destruct Hin|]. destruct Hin as [->|Hin]; [|apply IH; auto; intros z Hz; apply B3; right; auto].
      cbn [fst snd] in *. exists (fst k). split; auto. destruct (B3 k (or_introl eq_refl)) as (_ & T2 & N). rewrite <- E1 in *. apply (real_of (fun l => l)); auto. rewrite map_id. exact N.
    - destruct B as [->|[-> B]]; auto. contradiction.
  Qed.
End GridAny.
