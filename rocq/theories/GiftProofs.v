(* Gift wrapping in exact arithmetic: it terminates and returns the convex hull. *)
From Coq Require Import Reals Lra Psatz.
From Verif Require Import Prelude Scalar RInst Geo2 GeoSpec DistR HullSpec HullGeo Hull GrahamProofs GrahamProofs2 GrahamProofs3 HullUniq.
Local Open Scope R_scope.

Ltac pring := match goal with |- @eq _ ?a ?b => apply (Rminus_diag_uniq a b) end; rsimp; ring.
Lemma lerp_0 a b : lerp a b 0 = a. Proof. unfold lerp. apply V2_ext; cbn [vx vy]; pring. Qed.
Lemma lerp_1 a b : lerp a b 1 = b. Proof. unfold lerp. apply V2_ext; cbn [vx vy]; pring. Qed.
Lemma orient_lerp a b k : orient a b (lerp a b k) = 0. Proof. unfold lerp. flat. ring. Qed.
Lemma orient_lerp2 p q a b t : orient p q (lerp a b t) = (1 - t) * orient p q a + t * orient p q b.
Proof. unfold lerp. flat. ring. Qed.
Lemma lerp_lerp p q x y t : lerp (lerp p q x) (lerp p q y) t = lerp p q (x + t * (y - x)).
Proof. unfold lerp. apply V2_ext; cbn [vx vy]; pring. Qed.
Lemma lerp_inj p q x y : p <> q -> lerp p q x = lerp p q y -> x = y.
Proof.
  intros Hn H. apply (f_equal vx) in H as Hx. apply (f_equal vy) in H as Hy. unfold lerp in Hx, Hy. rsimp.
  destruct (Req_dec x y) as [|Hxy]; auto. exfalso. apply Hn.
  assert (Ex : (x - y) * (vx q - vx p) = 0) by lra. assert (Ey : (x - y) * (vy q - vy p) = 0) by lra.
  apply Rmult_integral in Ex as [Ex|Ex]; [lra|]. apply Rmult_integral in Ey as [Ey|Ey]; [lra|]. apply V2_ext; rsimp; lra.
Qed.
(* the segment seen from the other end *)
Lemma lerp_inv p q r k : k <> 0 -> r = lerp p q k -> q = lerp p r (/ k).
Proof. intros Hk ->. unfold lerp. apply V2_ext; cbn [vx vy]; (match goal with |- @eq _ ?a ?b => apply (Rminus_diag_uniq a b) end); rsimp; field; auto. Qed.
Lemma lerp_behind p q r k : k < 0 -> r = lerp p q k -> exists t, 0 < t < 1 /\ p = lerp r q t.
Proof.
  intros Hk ->. exists (- k / (1 - k)). split.
  - split; [apply Rdiv_lt_0_compat; lra|]. apply Rmult_lt_reg_r with (1 - k); [lra|]. unfold Rdiv. rewrite Rmult_assoc, Rinv_l by lra. lra.
  - unfold lerp. apply V2_ext; cbn [vx vy]; (match goal with |- @eq _ ?a ?b => apply (Rminus_diag_uniq a b) end); rsimp; field; lra.
Qed.

Lemma two_other (l : list pt) p : (exists i, nth_error l i = Some p /\ forall j, nth_error l j = Some p -> j = i) -> (2 <= length l)%nat -> filter (fun r => if pt_dec r p then false else true) l <> [].
Proof.
  intros (i & Hi & Hu) Hn. destruct l as [|x [|y t]]; try (cbn in Hn; lia).
  cbn [filter]. destruct (pt_dec x p) as [->|]; [|congruence]. destruct (pt_dec y p) as [->|]; [|congruence].
  specialize (Hu 0%nat eq_refl) as H0. specialize (Hu 1%nat eq_refl). lia.
Qed.
Lemma pos_inj (pts : list pt) : NoDup pts -> forall i j p, nth_error pts i = Some p -> nth_error pts j = Some p -> i = j.
Proof.
  intros Hnd i j p H1 H2. eapply NoDup_nth_error; eauto; [|congruence]. apply nth_error_Some. congruence.
Qed.

Section Gift.
  Variable pts : list pt.
  (* p -> q is an edge of the hull: everything is left of it or on the ray up to q *)
  Definition gedge (p q : pt) : Prop := p <> q /\ forall r, In r pts -> 0 < orient p q r \/ exists k, k <= 1 /\ r = lerp p q k.
  Definition extreme (x : pt) : Prop := forall a b t, In a pts -> In b pts -> 0 < t < 1 -> x = lerp a b t -> a = b.

  Lemma gedge_left p q r : gedge p q -> In r pts -> 0 <= orient p q r.
  Proof. intros [_ H] Hr. destruct (H r Hr) as [|(k & _ & ->)]; [lra|]. rewrite orient_lerp. lra. Qed.
  Lemma gedge_extreme p q : gedge p q -> extreme q.
  Proof.
    intros [Hn H] a b t Ha Hb Ht E.
    assert (Ho : orient p q q = 0) by apply orient_abb. rewrite E in Ho at 2. rewrite orient_lerp2 in Ho.
    assert (H1 := gedge_left p q a (conj Hn H) Ha). assert (H2 := gedge_left p q b (conj Hn H) Hb).
    assert (0 <= (1 - t) * orient p q a) by (apply Rmult_le_pos; lra). assert (0 <= t * orient p q b) by (apply Rmult_le_pos; lra).
    destruct (H a Ha) as [Ha0|(ka & Hka & Ea)].
    { assert (0 < (1 - t) * orient p q a) by (apply Rmult_lt_0_compat; lra). lra. }
    destruct (H b Hb) as [Hb0|(kb & Hkb & Eb)].
    { assert (0 < t * orient p q b) by (apply Rmult_lt_0_compat; lra). lra. }
    rewrite Ea, Eb, lerp_lerp in E. rewrite <- (lerp_1 p q) in E at 1. apply lerp_inj in E; auto.
    assert (ka = 1) by nra. assert (kb = 1) by nra. subst. auto.
  Qed.
  Lemma pred_unique p p' q : gedge p q -> gedge p' q -> extreme p -> extreme p' -> In p pts -> In p' pts -> In q pts -> p = p'.
  Proof.
    intros G G' X X' Hp Hp' Hq.
    assert (H1 := gedge_left _ _ _ G Hp'). assert (H2 := gedge_left _ _ _ G' Hp).
    assert (Esw : orient p' q p = - orient p q p') by (flat; ring).
    destruct G as [Hn G], G' as [Hn' G']. destruct (G p' Hp') as [|(k & Hk & E)]; [lra|].
    destruct (Rtotal_order k 0) as [Hk0|[->|Hk0]].
    - exfalso. destruct (lerp_behind _ _ _ _ Hk0 E) as (t & Ht & E'). apply Hn'. apply (X p' q t); auto.
    - rewrite lerp_0 in E. auto.
    - destruct Hk as [Hk| ->]; [|rewrite lerp_1 in E; congruence].
      exfalso. apply Hn. apply (X' p q k); auto.
  Qed.
  Lemma gedge_ahead p q : gedge p q -> forall r, In r pts -> r <> q -> ahead (vx q - vx p) (vy q - vy p) q r.
  Proof.
    intros [Hn G] r Hr Hne. unfold ahead, hv. destruct (G r Hr) as [H|(k & Hk & E)].
    - left. revert H. unfold orient. rsimp. lra.
    - right. destruct Hk as [Hk| ->]; [|rewrite lerp_1 in E; congruence]. subst r. unfold lerp. cbn [vx vy].
      assert (Hd : 0 < sqdist p q) by (apply sqdist_pos; congruence). unfold sqdist in Hd. rsimp. split; [ring|].
      assert (0 < (1 - k) * ((vx p - vx q) * (vx p - vx q) + (vy p - vy q) * (vy p - vy q))) by (apply Rmult_lt_0_compat; lra).
      lra.
  Qed.
  Lemma gedge_dir p q : gedge p q -> 0 < (vx q - vx p) * (vx q - vx p) + (vy q - vy p) * (vy q - vy p).
  Proof.
    intros [Hn _]. assert (Hd : 0 < sqdist p q) by (apply sqdist_pos; congruence). unfold sqdist in Hd. rsimp. lra.
  Qed.

  (* a corner of the hull: seen from x everything else is in a half-plane, boundary only on one side *)
  Definition corner (x : pt) : Prop := exists zx zy, 0 < zx * zx + zy * zy /\ forall r, In r pts -> r <> x -> ahead zx zy x r.
  Lemma ahead_comb zx zy x a b c u v w : ahead zx zy x a -> ahead zx zy x b -> ahead zx zy x c -> 0 <= u -> 0 <= v -> 0 <= w -> u + v + w = 1 ->
    vx x = u * vx a + v * vx b + w * vx c -> vy x = u * vy a + v * vy b + w * vy c -> False.
  Proof.
    unfold ahead, hv. set (f := fun p : pt => zx * (vy p - vy x) - zy * (vx p - vx x)). set (g := fun p : pt => zx * (vx p - vx x) + zy * (vy p - vy x)).
    intros Ha Hb Hc Hu Hv Hw Hs Ex Ey.
    assert (Ef : u * f a + v * f b + w * f c = 0).
    { unfold f. replace w with (1 - u - v) in * by lra. rewrite Ex, Ey. ring. }
    assert (Eg : u * g a + v * g b + w * g c = 0).
    { unfold g. replace w with (1 - u - v) in * by lra. rewrite Ex, Ey. ring. }
    change (0 < f a \/ f a = 0 /\ g a < 0) in Ha. change (0 < f b \/ f b = 0 /\ g b < 0) in Hb. change (0 < f c \/ f c = 0 /\ g c < 0) in Hc.
    assert (K : forall k fa ga, 0 <= k -> (0 < fa \/ fa = 0 /\ ga < 0) -> 0 <= k * fa /\ (k * fa = 0 -> k * ga <= 0 /\ (k * ga = 0 -> k = 0))).
    { clear. intros k fa ga Hk H. destruct Hk as [Hk| <-]; [|split; [lra|intros _; split; lra]].
      destruct H as [H|[-> H]].
      - assert (0 < k * fa) by (apply Rmult_lt_0_compat; lra). split; [lra|lra].
      - assert (0 < k * - ga) by (apply Rmult_lt_0_compat; lra). split; [lra|intros _; split; lra]. }
    destruct (K u _ _ Hu Ha) as [A1 A2], (K v _ _ Hv Hb) as [B1 B2], (K w _ _ Hw Hc) as [C1 C2].
    destruct A2 as [A2 A3]; [lra|]. destruct B2 as [B2 B3]; [lra|]. destruct C2 as [C2 C3]; [lra|].
    rewrite A3, B3, C3 in Hs by lra. lra.
  Qed.
  Lemma corner_extreme x : corner x -> extreme x.
  Proof.
    intros (zx & zy & Hz & Hah) a b t Ha Hb Ht E. destruct (pt_dec a x) as [->|Na].
    - destruct (pt_dec b x) as [->|Nb]; auto. exfalso. apply Nb. rewrite <- (lerp_0 x b) in E at 1. apply lerp_inj in E; [lra|congruence].
    - destruct (pt_dec b x) as [->|Nb].
      + exfalso. rewrite <- (lerp_1 a x) in E at 1. apply lerp_inj in E; [lra|congruence].
      + exfalso. apply (ahead_comb zx zy x a b b (1 - t) t 0); auto; try lra;
          [apply (f_equal vx) in E|apply (f_equal vy) in E]; unfold lerp in E; rsimp; lra.
  Qed.

  (* a comes before b as seen from p *)
  Definition better (p a b : pt) : Prop := 0 < orient p a b \/ (orient p a b = 0 /\ sqdist p b <= sqdist p a).

  Section View.
    Variables (zx zy : R) (p : pt).
    Hypothesis Hz : 0 < zx * zx + zy * zy.
    Hypothesis Hp : In p pts.
    Hypothesis Hah : forall r, In r pts -> r <> p -> ahead zx zy p r.
    Notation seen r := (In r pts /\ r <> p).

    Lemma better_trans a b c : seen a -> seen b -> seen c -> better p a b -> better p b c -> better p a c.
    Proof.
      intros [Ha Na] [Hb Nb] [Hc Nc] H1 H2.
      assert (A1 : 0 <= orient p a b) by (destruct H1 as [|[]]; lra). assert (A2 : 0 <= orient p b c) by (destruct H2 as [|[]]; lra).
      destruct (orient_trans zx zy Hz p a b c) as [B1 B2]; auto.
      destruct H1 as [H1|[H1 D1]]; [left; auto|]. destruct H2 as [H2|[H2 D2]]; [left; auto|].
      destruct B1 as [B1|B1]; [left; auto|]. right. split; [auto|lra].
    Qed.
    Lemma better_total a b : better p a b \/ better p b a.
    Proof.
      unfold better. rewrite (orient_acb p a b).
      destruct (Rtotal_order (orient p a b) 0) as [H|[H|H]]; [right; left; lra| |left; left; lra].
      destruct (Rle_dec (sqdist p a) (sqdist p b)); [right; right; lra|left; right; lra].
    Qed.
    Lemma best_exists : forall l, l <> [] -> (forall r, In r l -> seen r) -> exists b, In b l /\ forall r, In r l -> better p b r.
    Proof.
      induction l as [|a l IH]; [congruence|]. intros _ Hs. destruct l as [|c l].
      - exists a. split; [left; auto|]. intros r [<-|[]]. destruct (better_total a a); auto.
      - destruct IH as (b & Hb & Hbest); [congruence|intros; apply Hs; right; auto|].
        destruct (better_total a b) as [H|H].
        + exists a. split; [left; auto|]. intros r [<-|Hr]; [destruct (better_total a a); auto|].
          apply better_trans with b; auto; apply Hs; [left; auto|right; auto|right; auto].
        + exists b. split; [right; auto|]. intros r [<-|Hr]; auto.
    Qed.
    Lemma best_gedge b : seen b -> (forall r, seen r -> better p b r) -> gedge p b.
    Proof.
      intros [Hb Nb] H. split; [congruence|]. intros r Hr. destruct (pt_dec r p) as [->|Hn].
      - right. exists 0. split; [lra|]. rewrite lerp_0. auto.
      - destruct (H r (conj Hr Hn)) as [H1|[H1 H2]]; [auto|]. right.
        pose proof (orient_acb p b r) as Hs.
        destruct (ray_far zx zy p r b) as (k & Hk & E1 & E2); auto; [lra|].
        assert (E : b = lerp p r k) by (unfold lerp; apply V2_ext; auto).
        exists (/ k). split.
        + rewrite <- Rinv_1. apply Rinv_le_contravar; lra.
        + apply lerp_inv; auto. lra.
    Qed.
    (* an other point on the same ray that is not farther is strictly between *)
    Lemma between e r : seen e -> seen r -> r <> e -> orient p e r = 0 -> ~ sqdist p e < sqdist p r -> ~ extreme r.
    Proof.
      intros [He Ne] [Hr Nr] Hne Ho Hd X. pose proof (orient_acb p e r) as Hs.

      destruct (ray_far zx zy p r e) as (k & Hk & E1 & E2); auto; [lra|lra|].
        assert (E : e = lerp p r k) by (unfold lerp; apply V2_ext; auto).
        destruct Hk as [Hk| <-]; [|rewrite lerp_1 in E; congruence].
        assert (E' : r = lerp p e (/ k)) by (apply lerp_inv; auto; lra).
        apply Ne. symmetry. apply (X p e (/ k)); auto. split; [apply Rinv_0_lt_compat; lra|].
        rewrite <- Rinv_1. apply Rinv_lt_contravar; lra.

    Qed.
  End View.

  (* ---- the inner loop ---- *)
  (* every corner of the hull occurs once in the list *)
  Hypothesis Hux : forall i j p, nth_error pts i = Some p -> nth_error pts j = Some p -> corner p -> i = j.
  Lemma gedge_corner p q : gedge p q -> corner q.
  Proof. intros G. exists (vx q - vx p), (vy q - vy p). split; [apply gedge_dir; auto|]. apply gedge_ahead. auto. Qed.
  Lemma idx_nth {A} (l : list A) i a : nth_error l i = Some a -> idx l i = Val a.
  Proof. unfold idx. intros ->. auto. Qed.
  Lemma orientation_cases (a b c : pt) :
    (point_orientation a b c = OLeft /\ 0 < orient a b c) \/ (point_orientation a b c = ORight /\ orient a b c < 0) \/
    (point_orientation a b c = OCollinear /\ orient a b c = 0).
  Proof.
    unfold point_orientation. rewrite cross_orient. cbn [seqb sulps sltb s0 RS].
    destruct (Reqb_spec (orient a b c) 0) as [H|H]; [right; right; auto|].
    cbn [orb]. destruct (Rltb_spec 0 (orient a b c)) as [H1|H1]; [left; auto|]. right; left. split; auto. lra.
  Qed.
  Lemma vdist2_sq (a b : pt) : vdist2 a b = sqdist a b. Proof. reflexivity. Qed.

  Definition marks_ok (start : nat) (visited : list bool) (okv : nat -> Prop) : Prop :=
    length visited = length pts /\ forall j, nth_error visited j = Some true -> okv j.

  Section Inner.
    Variables (zx zy : R) (start cur b : nat) (p vb : pt) (okv : nat -> Prop).
    Hypothesis Hz : 0 < zx * zx + zy * zy.
    Hypothesis Hcur : nth_error pts cur = Some p.
    Hypothesis Hpx : corner p.
    Hypothesis Hb : nth_error pts b = Some vb.
    Hypothesis Hbne : b <> cur.
    Hypothesis Hah : forall r, In r pts -> r <> p -> ahead zx zy p r.
    Hypothesis Hbest : forall r, In r pts -> r <> p -> better p vb r.
    Hypothesis Hext : corner vb.
    Hypothesis Hokv : forall j r, j <> start -> nth_error pts j = Some r -> ~ corner r -> okv j.
    Hypothesis Hbv : ~ okv b.

    Lemma inner_step e visited j : (j < length pts)%nat -> (e < length pts)%nat -> e <> cur -> marks_ok start visited okv ->
      exists e' visited', gift_candidate pts start cur (e, visited) j = Val (e', visited') /\ (e' < length pts)%nat /\ e' <> cur /\
        marks_ok start visited' okv /\ (e = b -> e' = b) /\ (j = b -> e' = b).
    Proof.
      intros Hj He Hec [Hlen Hm]. unfold gift_candidate.
      destruct (Nat.eqb_spec j cur) as [->|Hjc]; [exists e, visited; repeat split; auto; intros; congruence|].
      destruct (Nat.eqb_spec j e) as [->|Hje]; [exists e, visited; repeat split; auto|]. cbn [orb].
      destruct (nth_error visited j) as [vj|] eqn:Ev; [|apply nth_error_None in Ev; lia].
      rewrite (idx_nth _ _ _ Ev). cbn [obind]. destruct vj.
      { exists e, visited. repeat split; auto. intros ->. exfalso. apply Hbv. auto. }
      destruct (nth_error pts e) as [pe|] eqn:Ee; [|apply nth_error_None in Ee; lia].
      destruct (nth_error pts j) as [pj|] eqn:Ej; [|apply nth_error_None in Ej; lia].
      rewrite (idx_nth _ _ _ Hcur), (idx_nth _ _ _ Ee), (idx_nth _ _ _ Ej). cbn [obind].
      assert (Hpe : In pe pts /\ pe <> p).
      { split; [eapply nth_error_In; eauto|]. intros ->. apply Hec. eapply Hux; eauto. }
      assert (Hpj : In pj pts /\ pj <> p).
      { split; [eapply nth_error_In; eauto|]. intros ->. apply Hjc. eapply Hux; eauto. }
      assert (Hpp : In p pts) by (eapply nth_error_In; eauto).
      assert (He_best : e = b -> pe = vb) by (intros ->; congruence).
      assert (Hj_best : j = b -> pj = vb) by (intros ->; congruence).
      destruct (orientation_cases p pe pj) as [[-> Ho]|[[-> Ho]|[-> Ho]]].
      - exists e, visited. repeat split; auto. intros E. specialize (Hj_best E). subst pj.
        destruct (Hbest pe) as [H|[H _]]; try apply Hpe; pose proof (orient_acb p pe vb); lra.
      - exists j, visited. repeat split; auto. intros E. specialize (He_best E). subst pe.
        destruct (Hbest pj) as [H|[H _]]; try apply Hpj; lra.
      - change (sltb (vdist2 p pe) (vdist2 p pj)) with (Rltb (sqdist p pe) (sqdist p pj)). destruct (Rltb_spec (sqdist p pe) (sqdist p pj)) as [Hd|Hd].
        + exists j, visited. repeat split; auto. intros E. specialize (He_best E). subst pe.
          destruct (Hbest pj) as [H|[H H']]; try apply Hpj; lra.
        + assert (Hx : ~ corner pj).
          { intros X. assert (Hne : pj <> pe) by (intros ->; apply Hje; eapply Hux; eauto). apply corner_extreme in X. revert X. eapply (between zx zy p Hpp Hah pe pj); eauto. }
          assert (Hjb : j <> b) by (intros E; specialize (Hj_best E); congruence).
          destruct (Nat.eqb_spec j start) as [->|Hjs]; cbn [negb].
          * exists e, visited. repeat split; auto; intros; congruence.
          * exists e, (set_nth visited j true). split; [auto|]. split; [auto|]. split; [auto|]. split; [|split; intros; congruence].
            split; [rewrite set_nth_length; auto|].
            intros i Hi. rewrite nth_error_set_nth in Hi. destruct (Nat.eqb_spec j i) as [Eji|]; [|auto]. rewrite <- Eji. eapply Hokv; eauto.
    Qed.

    Lemma inner_spec : forall js e visited, (forall j, In j js -> j < length pts)%nat -> (e < length pts)%nat -> e <> cur ->
      marks_ok start visited okv -> (e = b \/ In b js) ->
      exists visited', gift_inner pts start cur js (e, visited) = Val (b, visited') /\ marks_ok start visited' okv.
    Proof.
      induction js as [|j js IH]; intros e visited Hjs He Hec Hm Hb'.
      - destruct Hb' as [->|[]]. exists visited. auto.
      - destruct (inner_step e visited j) as (e' & v' & E & He' & Hec' & Hm' & K1 & K2); auto; [apply Hjs; left; auto|].
        cbn [gift_inner]. rewrite E. cbn [obind]. apply IH; auto; [intros; apply Hjs; right; auto|].
        destruct Hb' as [H|[H|H]]; auto.
    Qed.
  End Inner.

  (* ---- the outer loop ---- *)
  Definition at_ (i : nat) (q : pt) : Prop := nth_error pts i = Some q.
  Definition iedge (i j : nat) : Prop := exists p q, at_ i p /\ at_ j q /\ gedge p q.
  Definition iext (i : nat) : Prop := exists p, at_ i p /\ corner p.
  Definition chain (H : list nat) : Prop := forall X i j Y, H = X ++ i :: j :: Y -> iedge i j.

  Lemma gift_loop_spec start s : (2 <= length pts)%nat -> at_ start s -> (forall r, In r pts -> lex_le s r) -> corner s ->
    forall fuel H cur visited,
    NoDup (H ++ [cur]) -> hd cur H = start -> chain (H ++ [cur]) -> (forall i, In i (H ++ [cur]) -> iext i) ->
    marks_ok start visited (fun j => j <> start /\ (In j H \/ forall q, at_ j q -> ~ corner q)) ->
    (length pts <= length H + fuel)%nat ->
    exists R, gift_loop fuel pts start cur visited H = Val R /\ NoDup R /\ (2 <= length R)%nat /\ hd cur R = start /\ chain R /\
      (forall i, In i R -> iext i) /\ iedge (last R start) start.
  Proof.
    intros Hn Hs Hlex Hsx. induction fuel as [|fuel IH]; intros H cur visited Hnd' Hhd Hch Hx Hm Hf.
    { exfalso. assert (Hl : (length (H ++ [cur]) <= length pts)%nat).
      { rewrite <- (seq_length (length pts) 0). apply NoDup_incl_length; auto. intros i Hi. apply in_seq.
        destruct (Hx i Hi) as (q & Hq & _). unfold at_ in Hq. split; [lia|]. apply nth_error_Some. congruence. }
      rewrite app_length in Hl. cbn in Hl. lia. }
    cbn [gift_loop].
    destruct (Hx cur) as (p & Hp & Hpx); [apply in_or_app; right; left; auto|].
    assert (Hpin : In p pts) by (eapply nth_error_In; eauto).
    assert (Hcl : (cur < length pts)%nat) by (apply nth_error_Some; unfold at_ in Hp; congruence).
    (* the view from cur *)
    assert (Hview : exists zx zy, 0 < zx * zx + zy * zy /\ forall r, In r pts -> r <> p -> ahead zx zy p r).
    { destruct H as [|h0 H].
      - cbn in Hhd. subst cur. assert (p = s) by (unfold at_ in *; congruence). subst p. exists 0, (-1). split; [lra|].
        intros r Hr Hne. apply lex_ahead; auto.
      - destruct (@exists_last _ (h0 :: H)) as (H' & a & EH); [congruence|]. rewrite EH in Hch.
        destruct (Hch H' a cur []) as (pa & q & Ha & Hq & G); [rewrite <- app_assoc; auto|].
        assert (q = p) by (unfold at_ in *; congruence). subst q.
        exists (vx p - vx pa), (vy p - vy pa). split; [apply gedge_dir; auto|]. apply gedge_ahead. auto. }
    destruct Hview as (zx & zy & Hz & Hah).
    (* the next vertex *)
    destruct (best_exists zx zy p Hz Hah (filter (fun r => if pt_dec r p then false else true) pts)) as (vb & Hvb & Hbest).
    { apply two_other; auto. exists cur. split; auto. intros j Hj. eapply Hux; eauto. }
    { intros r Hr. apply filter_In in Hr as [Hr Hd]. destruct (pt_dec r p); [discriminate|auto]. }
    apply filter_In in Hvb as [Hvb Hvbd]. destruct (pt_dec vb p) as [|Hvne]; [discriminate|].
    assert (Hbest' : forall r, In r pts -> r <> p -> better p vb r).
    { intros r Hr Hne. apply Hbest. apply filter_In. split; auto. destruct (pt_dec r p); [congruence|auto]. }
    destruct (In_nth_error _ _ Hvb) as (b & Hb).
    assert (G : gedge p vb). { apply (best_gedge zx zy p Hah vb); auto. intros r [Hr1 Hr2]. auto. }
    assert (Hbx : corner vb) by (eapply gedge_corner; eauto).
    assert (Hbc : b <> cur) by (intros ->; unfold at_ in *; congruence).
    set (okv := fun j => j <> start /\ (In j (H ++ [cur]) \/ forall q, at_ j q -> ~ corner q)).
    assert (Hbok : ~ okv b).
    { intros [Hbs [Hin|Hin]]; [|apply (Hin vb); auto].
      apply in_split in Hin as (X & Y & E). destruct X as [|x X].
      - destruct H as [|h0 H]; cbn in E, Hhd; injection E as E1 E2; congruence.
      - destruct (@exists_last _ (x :: X)) as (X' & a & EX); [congruence|].
        rewrite EX, <- app_assoc in E. cbn [app] in E.
        destruct (Hch X' a b Y E) as (pa & q & Ha & Hq & G'). assert (q = vb) by (unfold at_ in *; congruence). subst q.
        assert (Hax : corner pa). { destruct (Hx a) as (pa' & Ha' & Hx'); [rewrite E; apply in_or_app; right; left; auto|].
          assert (pa' = pa) by (unfold at_ in *; congruence). subst pa'. auto. }
        assert (p = pa). { apply (pred_unique p pa vb); auto using corner_extreme. eapply nth_error_In; eauto. }
        subst pa. assert (a = cur) by (eapply Hux; eauto). subst a.
        (* cur occurs twice *)
        destruct Y as [|y Y].
        + assert (E2 : H ++ [cur] = (X' ++ [cur]) ++ [b]) by (rewrite <- app_assoc; auto). apply app_inj_tail in E2 as [_ E2]. congruence.
        + destruct (@exists_last _ (y :: Y)) as (Y' & c & EY); [congruence|]. rewrite EY in E.
          assert (E2 : H ++ [cur] = (X' ++ cur :: b :: Y') ++ [c]) by (rewrite <- app_assoc; auto). apply app_inj_tail in E2 as [EH <-].
          rewrite EH, <- app_assoc in Hnd'. apply NoDup_app_inv in Hnd' as (_ & Hnd' & _). cbn [app] in Hnd'.
          inversion Hnd' as [|? ? Hc _]; subst. apply Hc. right. apply in_or_app. right; left; auto. }
    set (visited1 := if negb (Nat.eqb cur start) then set_nth visited cur true else visited).
    assert (Hm1 : marks_ok start visited1 okv).
    { destruct Hm as [Hl Hm]. split.
      - unfold visited1. destruct (negb _); auto. rewrite set_nth_length. auto.
      - intros j Hj. unfold visited1 in Hj. destruct (Nat.eqb_spec cur start) as [Ecs|Hcs]; cbn [negb] in Hj.
        + destruct (Hm j Hj) as [H1 [H2|H2]]; split; auto. left. apply in_or_app; auto.
        + rewrite nth_error_set_nth in Hj. destruct (Nat.eqb_spec cur j) as [Ecj|].
          * rewrite <- Ecj. split; auto. left. apply in_or_app. right; left; auto.
          * destruct (Hm j Hj) as [H1 [H2|H2]]; split; auto. left. apply in_or_app; auto. }
    set (e0 := Nat.modulo (cur + 1) (length pts)).
    assert (He0 : (e0 < length pts)%nat) by (apply Nat.mod_upper_bound; lia).
    assert (He0c : e0 <> cur).
    { unfold e0. destruct (Nat.eq_dec (cur + 1) (length pts)) as [Ee|].
      - rewrite Ee, Nat.mod_same by lia. lia.
      - rewrite Nat.mod_small by lia. lia. }
    assert (Hin0 : forall j r, j <> start -> nth_error pts j = Some r -> ~ corner r -> okv j).
    { intros j r Hj Hr Hxr. split; auto. right. intros q Hq. assert (q = r) by (unfold at_ in *; congruence). subst q. auto. }
    destruct (inner_spec zx zy start cur b p vb okv Hp Hpx Hb Hbc Hah Hbest' Hbx Hin0 Hbok (seq 0 (length pts)) e0 visited1) as (visited2 & Ein & Hm2); auto.
    { intros j Hj. apply in_seq in Hj. lia. }
    { right. apply in_seq. split; [lia|]. apply nth_error_Some. congruence. }
    rewrite Ein. cbn [obind].
    assert (Hedge : iedge cur b) by (exists p, vb; auto).
    destruct (Nat.eqb_spec b start) as [->|Hbs].
    - (* closed *)
      exists (H ++ [cur]). split; auto. split; auto. split.
      { destruct H as [|h0 H]; [cbn in Hhd; congruence|]. rewrite app_length. cbn. lia. }
      split; [destruct H; auto|]. split; auto. split; auto. rewrite last_app_one. auto.
    - destruct (IH (H ++ [cur]) b visited2) as (R & E & Q); auto.
      + apply NoDup_app_intro; auto.
        * constructor; [intros []|constructor].
        * intros i Hi [<-|[]]. apply Hbok. split; auto.
      + destruct H; auto.
      + intros X i j Y EX. destruct Y as [|y Y].
        * assert (E2 : (H ++ [cur]) ++ [b] = (X ++ [i]) ++ [j]) by (rewrite EX, <- app_assoc; auto).
          apply app_inj_tail in E2 as [E2 <-]. apply app_inj_tail in E2 as [_ <-]. auto.
        * destruct (@exists_last _ (y :: Y)) as (Y' & c & EY); [congruence|]. rewrite EY in EX.
          assert (E2 : (H ++ [cur]) ++ [b] = (X ++ i :: j :: Y') ++ [c]) by (rewrite EX, <- app_assoc; auto).
          apply app_inj_tail in E2 as [E2 _]. eapply Hch; eauto.
      + intros i Hi. apply in_app_iff in Hi as [Hi|[<-|[]]]; auto. exists vb. auto.
      + rewrite app_length. cbn. lia.
      + exists R. split; auto. destruct Q as (Q1 & Q2 & Q3 & Q4). split; auto. split; auto. split; auto.
        destruct R; [cbn in Q2; lia|auto].
  Qed.
End Gift.
