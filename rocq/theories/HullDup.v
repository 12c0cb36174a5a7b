(* Hulls of lists in which points occur more than once. *)
From Coq Require Import Reals Lra Psatz Sorting.Permutation.
From Verif Require Import Prelude Scalar RInst Geo2 GeoSpec DistR HullSpec HullGeo Hull HullAny GrahamProofs GrahamProofs2 GrahamProofs3 HullUniq GiftProofs GiftProofs2 IndexedProofs HullMisc.
Local Open Scope R_scope.

Lemma covered_not_corner pts p : covered pts p -> ~ corner pts p.
Proof.
  intros (a & b & c & u & v & w & Ha & Hb & Hc & Na & Nb & Nc & Hu & Hv & Hw & Hs & Ex & Ey) (zx & zy & Hz & Hah).
  eapply (ahead_comb zx zy p a b c u v w); eauto.
Qed.
Lemma covered_ext pts qts p : (forall x, In x pts <-> In x qts) -> covered pts p -> covered qts p.
Proof.
  intros H (a & b & c & u & v & w & Ha & Hb & Hc & R). exists a, b, c, u, v, w. repeat split; try apply H; auto; apply R.
Qed.
Definition repeats_covered (pts : list pt) : Prop :=
  forall i j p, i <> j -> nth_error pts i = Some p -> nth_error pts j = Some p -> covered pts p.
Lemma repeats_unique pts : repeats_covered pts -> forall i j p, nth_error pts i = Some p -> nth_error pts j = Some p -> corner pts p -> i = j.
Proof.
  intros H i j p Hi Hj Hc. destruct (Nat.eq_dec i j) as [|Hn]; auto. exfalso. eapply covered_not_corner; eauto.
Qed.

Lemma nth_snoc {A} (m : list A) a i p : nth_error (m ++ [a]) i = Some p ->
  (i < length m)%nat /\ nth_error m i = Some p \/ i = length m /\ p = a.
Proof.
  intros H. destruct (Nat.lt_ge_cases i (length m)) as [Hi|Hi].
  - left. rewrite nth_error_app1 in H; auto.
  - right. rewrite nth_error_app2 in H by auto. destruct (i - length m)%nat as [|k] eqn:E; cbn in H; [|destruct k; discriminate]. split; [lia|congruence].
Qed.
Lemma repeats_drop (pts opn : list pt) : ring_of pts opn -> enough pts -> repeats_covered opn -> repeats_covered (drop_loop_point pts).
Proof.
  intros Hr He Hc. assert (Hl := enough_length _ He).
  assert (Hset : forall x, In x opn <-> In x (drop_loop_point pts)).
  { intros x. rewrite drop_loop_In by lia. symmetry. apply ring_In. auto. }
  intros i j p Hij Hi Hj. apply (covered_ext opn); auto.
  assert (K : forall k, nth_error (drop_loop_point pts) k = Some p -> 
     exists k', nth_error opn k' = Some p /\ ((k' = k /\ drop_loop_point pts = pts) \/ drop_loop_point pts <> pts /\ (k' = Datatypes.S k \/ (k' = 0%nat /\ Datatypes.S k = length opn)))).
  { intros k Hk. destruct Hr as [->|(a & m & -> & ->)].
    - unfold drop_loop_point in *. destruct opn as [|a t]; [cbn in Hl; lia|]. destruct (veqb a (last (a :: t) a)); [exists (Datatypes.S k)|exists k]; split; auto.
      right. split; [|auto]. intros E. apply (f_equal (@length _)) in E. cbn in E. lia.
    - assert (Ed : drop_loop_point ((a :: m) ++ [a]) = m ++ [a]).
      { unfold drop_loop_point. cbn [app]. rewrite last_cons_snoc. assert (E : veqb a a = true) by (apply veqb_R; auto). rewrite E. auto. }
      rewrite Ed in *. assert (Hne : m ++ [a] <> (a :: m) ++ [a]) by (intros E; apply (f_equal (@length _)) in E; rewrite !app_length in E; cbn in E; lia).
      destruct (nth_snoc _ _ _ _ Hk) as [[H1 H2]|[H1 ->]].
      + exists (Datatypes.S k). cbn. auto.
      + exists 0%nat. cbn. split; [reflexivity|]. right. split; [exact Hne|]. right. split; lia. }
  destruct (K i Hi) as (i' & Ei & Di), (K j Hj) as (j' & Ej & Dj). apply (Hc i' j'); auto. 
  destruct Di as [[-> D]|[D Di]], Dj as [[-> D']|[D' Dj]]; auto; try congruence. lia.
Qed.
Lemma gift_wrap_dup fuel pts opn : ring_of pts opn -> enough pts -> repeats_covered opn -> (length pts <= fuel)%nat ->
  exists vs, gift_wrap fuel pts = Val vs /\ hull_result pts vs.
Proof.
  intros Hr He Hc Hf. apply gift_wrap_hull_u; auto.
  - apply repeats_unique. eapply repeats_drop; eauto.
  - apply enough_drop; auto.
Qed.

(* ---- indices ---- *)
Lemma drop_index_cases (indices : list nat) : enough indices ->
  (drop_loop_index indices = indices /\ (4 <= length indices)%nat) \/
  exists a m, indices = a :: m ++ [a] /\ drop_loop_index indices = a :: m /\ (3 <= length m)%nat.
Proof.
  intros (a & m & b & -> & H). unfold drop_loop_index. rewrite last_cons_snoc. destruct (Nat.eqb_spec a b) as [<-|Hn].
  - right. exists a, m. destruct H as [[H _]|[_ H]]; [congruence|]. split; auto. split; auto.
    change (a :: m ++ [a]) with ((a :: m) ++ [a]). rewrite removelast_app by congruence. cbn. rewrite app_nil_r. auto.
  - left. split; auto. destruct H as [[_ H]|[H _]]; [|congruence]. cbn. rewrite app_length. cbn. lia.
Qed.
Lemma picks_snoc_inv vertices m a pts : picks vertices (m ++ [a]) pts -> exists ps q, pts = ps ++ [q] /\ picks vertices m ps /\ nth_error vertices a = Some q.
Proof.
  intros H. apply Forall2_app_inv_l in H as (ps & qs & H1 & H2 & ->). inversion H2 as [|? q ? ? Hq H3]; subst. inversion H3; subst. exists ps, q. auto.
Qed.
Lemma picks_drop vertices indices pts : enough indices -> picks vertices indices pts ->
  exists ps, picks vertices (drop_loop_index indices) ps /\ (forall x, In x ps <-> In x pts) /\ (3 < length ps)%nat /\
    (forall i p, nth_error ps i = Some p -> nth_error pts i = Some p).
Proof.
  intros He Hp. destruct (drop_index_cases indices He) as [[-> Hl]|(a & m & -> & -> & Hl)].
  - exists pts. split; auto. split; [tauto|]. split; auto. rewrite <- (picks_length _ _ _ Hp). lia.
  - change (a :: m ++ [a]) with ((a :: m) ++ [a]) in Hp. destruct (picks_snoc_inv _ _ _ _ Hp) as (ps & q & -> & H1 & H2).
    exists ps. split; auto. assert (Hlp := picks_length _ _ _ H1). cbn in Hlp. split; [|split; [lia|]].
    + intros x. rewrite in_app_iff. cbn. split; auto. intros [H|[<-|[]]]; auto. inversion H1 as [|? p0 ? ? E0 _]; subst. left. congruence.
    + intros i p Hi. rewrite nth_error_app1; auto. apply nth_error_Some. congruence.
Qed.
Lemma indexed_graham_dup vertices indices pts r : picks vertices indices pts -> enough indices ->
  (forall i j p, In i indices -> In j indices -> nth_error vertices i = Some p -> nth_error vertices j = Some p -> (forall q, In q pts -> lex_le p q) -> i = j) ->
  indexed_graham_scan vertices indices r -> exists out vs, r = Val out /\ picks vertices out vs /\ hull_result pts vs.
Proof.
  intros Hp He Hu Hr. destruct (picks_drop _ _ _ He Hp) as (ps & Hps & Hset & Hl & _).
  destruct (indexed_graham_hull_u vertices indices ps r Hps) as (out & vs & E & Ho & Hh); auto.
  - intros i j p Hi Hj Ei Ej Hm. apply (Hu i j p); auto. intros q Hq. apply Hm. apply Hset. auto.
  - exists out, vs. split; auto. split; auto. eapply hull_result_ext; [|exact Hh]. auto.
Qed.
Lemma indexed_gift_dup fuel vertices indices opn pts : ring_of indices opn -> picks vertices opn pts -> enough indices -> repeats_covered pts -> (length pts <= fuel)%nat ->
  exists out vs, indexed_gift_wrap fuel vertices indices = Val out /\ picks vertices out vs /\ hull_result pts vs.
Proof.
  intros Hr Hp He Hc Hf.
  assert (Hd : exists ps, picks vertices (drop_loop_index indices) ps /\ (forall x, In x ps <-> In x pts) /\ (3 < length ps)%nat /\ (length ps <= length pts)%nat /\
    (forall i p, nth_error ps i = Some p -> nth_error pts i = Some p)).
  { assert (K : forall ps, (forall i p, nth_error ps i = Some p -> nth_error pts i = Some p) -> (length ps <= length pts)%nat).
    { intros ps H. destruct (Nat.le_gt_cases (length ps) (length pts)) as [|Hg]; auto. exfalso.
      destruct (nth_error ps (length pts)) as [p|] eqn:E; [|apply nth_error_None in E; lia]. apply H in E. assert (length pts < length pts)%nat by (apply nth_error_Some; congruence). lia. }
    destruct Hr as [->|(a & m & -> & ->)].
    - destruct (picks_drop _ _ _ He Hp) as (ps & H1 & H2 & H3 & H4). exists ps. auto 6.
    - assert (Hdi : drop_loop_index ((a :: m) ++ [a]) = a :: m).
      { unfold drop_loop_index. cbn [app]. rewrite last_cons_snoc, Nat.eqb_refl. change (a :: m ++ [a]) with ((a :: m) ++ [a]).
        rewrite removelast_app by congruence. cbn. rewrite app_nil_r. auto. }
      rewrite Hdi. exists pts. split; auto. split; [tauto|]. split; [|auto]. rewrite <- (picks_length _ _ _ Hp).
      destruct (drop_index_cases _ He) as [[Hx _]|(a' & m' & E & _ & Hl)].
      + rewrite Hdi in Hx. apply (f_equal (@length _)) in Hx. rewrite app_length in Hx. cbn in Hx. lia.
      + apply (f_equal (@length _)) in E. cbn in E |- *. rewrite !app_length in E. cbn in E. lia. }
  destruct Hd as (ps & H1 & H2 & H3 & H4 & H5).
  destruct (indexed_gift_hull_u fuel vertices indices ps H1) as (out & vs & E & Ho & Hh); auto; [|lia|].
  - apply repeats_unique. intros i j p Hij Hi Hj. apply (covered_ext pts); [intros; symmetry; auto|]. eapply Hc; eauto.
  - exists out, vs. split; auto. split; auto. eapply hull_result_ext; eauto.
Qed.
