(* When the keys of the sweep are consistently ordered: always in exact arithmetic; in floats, when all of them are on a grid;
   and a test that decides it for given lines. *)
From Coq Require Import ZArith Reals Lra Lia Bool Floats.SpecFloat.
From Flocq Require Import Core BinarySingleNaN.
From Verif Require Import Prelude Scalar RInst Flt FloatSpec FloatLink FloatGrid FloatRound Geo2 GeoSpec DistR IsectProofs FloatRdp FloatIsect FloatPoint FloatSelf
  Sweep SweepMap SweepIdx SweepRun SweepFin SweepAny SweepGrid SweepQuiet SweepTree.
Local Open Scope R_scope.

Lemma consistent_sub {S : Scalar} (P Q : V2 S -> Prop) : (forall p, Q p -> P p) -> consistent P -> consistent Q.
Proof.
  intros H C. constructor; intros.
  - apply (c_total P C); auto.
  - apply (c_sym P C); auto.
  - match goal with E1 : key_cmp a b = Some Lt, E2 : key_cmp b c = Some Lt |- _ => exact (c_trans P C a b c ltac:(auto) ltac:(auto) ltac:(auto) E1 E2) end.
  - apply (c_equal P C); auto.
Qed.
Lemma consistent_R : consistent (fun _ : pt => True).
Proof.
  constructor; cbv beta.
  - intros a b _ _ E. destruct (key_cmp_R a b) as (c & E' & _). congruence.
  - intros a b c _ _ E. destruct (key_cmp_R a b) as (c1 & E1 & H1), (key_cmp_R b a) as (c2 & E2 & H2). rewrite E in E1. injection E1 as <-. rewrite E2.
    destruct c, c2; subst; auto; try (destruct (klt_irrefl _ H2); fail); try (destruct (klt_irrefl _ H1); fail); destruct (klt_asym _ _ H1 H2).
  - intros a b c _ _ _ E1 E2. destruct (key_cmp_R a b) as (c1 & F1 & H1), (key_cmp_R b c) as (c2 & F2 & H2), (key_cmp_R a c) as (c3 & F3 & H3).
    rewrite E1 in F1. rewrite E2 in F2. injection F1 as <-. injection F2 as <-. rewrite F3. assert (H := klt_trans _ _ _ H1 H2).
    destruct c3; subst; auto; [destruct (klt_irrefl _ H)|destruct (klt_asym _ _ H H3)].
  - intros a b c _ _ _ E1. destruct (key_cmp_R a b) as (c1 & F1 & H1). rewrite E1 in F1. injection F1 as <-. subst b. auto.
Qed.

Section Grid.
  Context (prec emax epsexp : Z) (at2 : spec_float -> spec_float -> spec_float) (Hprec : Prec_gt_0 prec) (Hmax : Prec_lt_emax prec emax).
  Notation FS := (FloatS prec emax epsexp at2).
  Context (s K : Z) (OK : isect_ok prec emax epsexp s K).
  Notation onp := (@grid_point prec emax epsexp at2 s (2 ^ K)%Z).
  Notation val := (@point_value prec emax epsexp at2).
  Notation lval := (lval prec emax epsexp at2).
  Notation grid_line := (grid_line prec emax epsexp at2 s K).
  Lemma consistent_grid : consistent (S := FS) onp.
  Proof.
    assert (G := key_cmp_grid prec emax epsexp at2 Hprec Hmax s K OK). destruct consistent_R as [C1 C2 C3 C4]. constructor.
    - intros a b Ha Hb. rewrite G by auto. apply C1; auto.
    - intros a b c Ha Hb. rewrite !G by auto. apply C2; auto.
    - intros a b c Ha Hb Hc. rewrite !G by auto. apply C3; auto.
    - intros a b c Ha Hb Hc. rewrite !G by auto. apply C4; auto.
  Qed.
  Lemma quiet_keys (lines : list (Line2 FS)) : Forall grid_line lines -> quiet prec emax epsexp at2 lines -> forall p, key_point lines p -> onp p.
  Proof.
    intros Hg Hq p [_ [(l & Hl & Hp)|(la & lb & it & Ha & Hb & Nv & Ei & ->)]]; rewrite Forall_forall in Hg.
    { destruct (Hg l Hl) as (H0 & H1 & _). destruct Hp as [-> | ->]; auto. }
    destruct (Hg la Ha) as (A0 & A1 & Na). destruct (Hg lb Hb) as (B0 & B1 & Nb).
    apply In_nth_error in Ha as (i & Hi). apply In_nth_error in Hb as (j & Hj).
    assert (Nij : i <> j).
    { intros ->. assert (lb = la) by congruence. subst lb. rewrite (vulps_ex prec emax epsexp at2 Hprec Hmax s K OK) in Nv by auto.
      replace (vulps (val (lend la)) (val (lend la))) with true in Nv by (symmetry; apply vulps_R; auto). discriminate. }
    pose proof (intersection_like prec emax epsexp at2 Hprec Hmax s K OK la lb A0 A1 B0 B1 Na Nb) as H.
    pose proof (intersection_correct (lval la) (lval lb)) as C.
    assert (Sharp : forall (p : V2 FS) (x : pt), sharp prec emax epsexp at2 la p x -> common (lval la) (lval lb) x -> onp p).
    { intros p x (Gx & Gy & Sh) [Ca Cb]. cbn [lstart lend FloatIsect.lval] in Ca, Cb. assert (X := Hq i j la lb x Nij Hi Hj Ca Cb). assert (E := Sh X).
      assert (Grid : forall e, onp e -> x = val e -> onp p).
      { intros e [[_ (m & Hm & Em)] [_ (m' & Hm' & Em')]] Ee. rewrite Ee in E. injection E as E1 E2. split; (split; [auto|]); [exists m|exists m']; (split; [auto|congruence]). }
      destruct X as [X|X]; [apply (Grid (lstart la))|apply (Grid (lend la))]; auto. }
    rewrite Ei in H. destruct (intersection_point (lval la) (lval lb)) as [it'|] eqn:Ei'; cbn [like correct] in *; [|destruct it; tauto].
    destruct it as [q|l], it' as [x|m]; cbn [like correct isingle] in *; try tauto.
    - destruct H as [_ H]. apply (Sharp _ _ H). apply C. auto.
    - destruct H as (_ & _ & H), C as [_ C]. apply (Sharp _ _ H). apply C, on_segment_start.
  Qed.
  Lemma quiet_arrange (input : list (Line2 FS)) : quiet prec emax epsexp at2 input -> quiet prec emax epsexp at2 (map arrange input).
  Proof.
    intros Hq i j l l' x Nij Hl Hl'. rewrite nth_error_map in Hl, Hl'. destruct (nth_error input i) as [li|] eqn:Li; [|discriminate]. destruct (nth_error input j) as [lj|] eqn:Lj; [|discriminate].
    injection Hl as <-. injection Hl' as <-. intros O1 O2. pose proof (Hq i j li lj x Nij Li Lj) as Q.
    assert (Sw : forall l, on_segment x (val (lstart (arrange l))) (val (lend (arrange l))) -> on_segment x (val (lstart l)) (val (lend l))).
    { intros l. unfold arrange. destruct (key_lt _ _); auto. cbn [lstart lend]. apply on_segment_sym. }
    specialize (Q (Sw _ O1) (Sw _ O2)). unfold arrange. destruct (key_lt _ _); cbn [lstart lend]; tauto.
  Qed.
  Lemma quiet_consistent (input : list (Line2 FS)) : Forall grid_line input -> quiet prec emax epsexp at2 input ->
    consistent (key_point (map arrange input)) /\ consistent (key_point input).
  Proof.
    intros Hg Hq. split; apply (consistent_sub onp); try apply consistent_grid; intros p Hp.
    - apply (quiet_keys (map arrange input)); auto; [|apply quiet_arrange; auto]. apply Forall_forall. intros l Hl. apply in_map_iff in Hl as (l0 & <- & Hl0). rewrite Forall_forall in Hg. apply arrange_grid_line; auto.
    - apply (quiet_keys input); auto.
  Qed.
End Grid.

(* ---- a test ---- *)
Section Check.
  Context {S : Scalar}.
  Notation V := (V2 S).
  Notation L := (Line2 S).
  Definition all_keys (lines : list L) : list V :=
    filter (fun p => (sfin (vx p) && sfin (vy p))%bool)
      (flat_map (fun l => [lstart l; lend l]) lines ++
       flat_map (fun l => flat_map (fun r => if vulps (lend l) (lend r) then [] else match intersection_point l r with Some it => [isingle it] | None => [] end) lines) lines).
  Definition same_cmp (a b : option comparison) : bool :=
    match a, b with Some Lt, Some Lt | Some Eq, Some Eq | Some Gt, Some Gt | None, None => true | _, _ => false end.
  Definition pair_check (a b : V) : bool := match key_cmp a b with Some c => same_cmp (key_cmp b a) (Some (CompOpp c)) | None => false end.
  Definition triple_check (a b c : V) : bool :=
    match key_cmp a b with
    | Some Eq => same_cmp (key_cmp a c) (key_cmp b c)
    | Some Lt => match key_cmp b c with Some Lt => same_cmp (key_cmp a c) (Some Lt) | _ => true end
    | _ => true
    end.
  Definition consistent_check (ks : list V) : bool :=
    forallb (fun a => forallb (fun b => pair_check a b && forallb (triple_check a b) ks) ks) ks.
  Lemma same_cmp_eq a b : same_cmp a b = true -> a = b.
  Proof. destruct a as [[]|], b as [[]|]; cbn; congruence. Qed.
  Lemma key_point_in lines p : key_point lines p -> In p (all_keys lines).
  Proof.
    intros [Hf H]. apply filter_In. split; auto. apply in_app_iff. destruct H as [(l & Hl & Hp)|(l & r & it & Hl & Hr & Nv & E & ->)]; [left|right].
    - apply in_flat_map. exists l. split; auto. cbn. destruct Hp; auto.
    - apply in_flat_map. exists l. split; auto. apply in_flat_map. exists r. split; auto. rewrite Nv, E. left; auto.
  Qed.
  Lemma check_consistent lines : consistent_check (all_keys lines) = true -> consistent (key_point lines).
  Proof.
    intros H. unfold consistent_check in H. rewrite forallb_forall in H. assert (Pair : forall a b, key_point lines a -> key_point lines b -> pair_check a b = true /\ forall c, key_point lines c -> triple_check a b c = true).
    { intros a b Ha Hb. specialize (H a (key_point_in _ _ Ha)). rewrite forallb_forall in H. specialize (H b (key_point_in _ _ Hb)). apply andb_true_iff in H as [H1 H2]. split; auto.
      intros c Hc. rewrite forallb_forall in H2. apply H2, key_point_in; auto. }
    clear H. constructor.
    - intros a b Ha Hb E. destruct (Pair a b Ha Hb) as [H _]. unfold pair_check in H. rewrite E in H. discriminate.
    - intros a b c Ha Hb E. destruct (Pair a b Ha Hb) as [H _]. unfold pair_check in H. rewrite E in H. apply same_cmp_eq; auto.
    - intros a b c Ha Hb Hc E1 E2. destruct (Pair a b Ha Hb) as [_ H]. specialize (H c Hc). unfold triple_check in H. rewrite E1, E2 in H. apply same_cmp_eq; auto.
    - intros a b c Ha Hb Hc E1. destruct (Pair a b Ha Hb) as [_ H]. specialize (H c Hc). unfold triple_check in H. rewrite E1 in H. apply same_cmp_eq; auto.
  Qed.
End Check.
