(* The parallel hull: chunks, start point, and the final theorem. *)
From Coq Require Import Reals Lra Psatz Sorting.Permutation.
From Verif Require Import Prelude Scalar RInst Geo2 GeoSpec DistR HullSpec HullGeo Hull HullAny GrahamProofs GrahamProofs2 GrahamProofs3 HullUniq GiftProofs GiftProofs2 IndexedProofs WoProofs ContainProofs HullMisc HullMisc2 HullPar HullMerge HullMerge2.
Local Open Scope nat_scope.

(* a tree result is a result, and every result with enough points comes from a tree *)
Lemma par_by_iff {S : Scalar} fuel (v : list (V2 S)) indices chunk r : 3 < length (drop_loop_index indices) -> chunk <> 0 -> (exists start, par_start v (chunks (length (drop_loop_index indices)) chunk (drop_loop_index indices)) = Val start) ->
  convex_hull_par fuel v indices chunk r <-> exists t, convex_hull_par_by t fuel v indices chunk r.
Proof.
  intros Hl Hc (st & Est). split.
  - intros H. destruct H as [H|a b c H1 H|H H0|e H H0 He|H H0 He|start results t H H0 inds cs Hst Hres Ht].
    + unfold drop_loop_index in *. destruct indices; [cbn in *; lia|]. exfalso. destruct H; [|lia].
      assert (K : length (if n =? last (n :: indices) n then removelast (n :: indices) else n :: indices) <= length (n :: indices)) by (destruct (Nat.eqb _ _); [rewrite removelast_firstn_len, firstn_length; lia|auto]). lia.
    + rewrite H in Hl. cbn in Hl. lia.
    + congruence.
    + congruence.
    + congruence.
    + exists t. split; auto. split; auto. exists start. split; auto. split; [|auto]. rewrite Ht. exact Hres.
  - intros (t & H1 & H2 & start & H3 & H4 & ->). eapply cp_run; eauto.
Qed.

Lemma chunks_spec {A} n : n <> 0 -> forall fuel (l : list A), length l <= fuel -> concat (chunks fuel n l) = l /\ Forall (fun c => c <> []) (chunks fuel n l).
Proof.
  intros Hn. induction fuel as [|fuel IH]; intros l Hl.
  - destruct l; [|cbn in Hl; lia]. cbn. auto.
  - destruct l as [|a l]; [cbn; auto|]. cbn [chunks concat].
    destruct (IH (skipn n (a :: l))) as [E F]; [rewrite skipn_length; cbn [length] in *; lia|]. split.
    + rewrite E. apply firstn_skipn.
    + constructor; auto. destruct n; [congruence|]. cbn. congruence.
Qed.
Lemma NoDup_concat {A} (cs : list (list A)) : NoDup (concat cs) -> Forall (fun c => NoDup c) cs.
Proof. induction cs as [|c cs IH]; intros H; constructor; cbn in H; apply NoDup_app_inv in H as (H1 & H2 & _); auto. Qed.
Lemma picks_concat v (cs : list (list nat)) : forall ps, picks v (concat cs) ps -> exists Ds, ps = concat Ds /\ Forall2 (picks v) cs Ds.
Proof.
  induction cs as [|c cs IH]; intros ps H; cbn in H.
  - inversion H; subst. exists []. auto.
  - apply picks_app_inv in H as (p1 & p2 & -> & H1 & H2). destruct (IH p2 H2) as (Ds & -> & F). exists (p1 :: Ds). auto.
Qed.
Lemma lex_le_trans' (a b c : pt) : lex_le a b -> lex_le b c -> lex_le a c.
Proof. unfold lex_le. intros [H1|[H1 H1']] [H2|[H2 H2']]; [left; lra|left; lra|left; lra|right; lra]. Qed.

Lemma par_start_low v : forall cs Ds, Forall2 (picks v) cs Ds -> Forall (fun c => c <> []) cs -> cs <> [] ->
  forall start, par_start v cs = Val start -> In start (concat cs) /\ exists sp, nth_error v start = Some sp /\ forall r, In r (concat Ds) -> lex_le sp r.
Proof.
  intros cs Ds HF Hne Hn start H. unfold par_start in H.
  destruct (mapM _ cs) as [starts| | |] eqn:Em; cbn [obind] in H; try discriminate.
  assert (K : exists qs, picks v starts qs /\ Forall (fun i => In i (concat cs)) starts /\ (starts = [] -> cs = []) /\
     forall r, In r (concat Ds) -> exists q, In q qs /\ lex_le q r).
  { clear H Hn. revert starts Em. induction HF as [|c D cs Ds Hc HF IH]; intros starts Em; cbn [mapM] in Em.
    - injection Em as <-. exists []. split; [constructor|]. split; [constructor|]. split; auto. intros r [].
    - inversion Hne as [|? ? Hc0 Hne']; subst. destruct (indexed_lowest_R v c D Hc Hc0) as (k & sp & Ek & Hk & Hmin).
      rewrite Ek in Em. cbn [obind] in Em.
      destruct (idx c k) as [i| | |] eqn:Ei; cbn [obind] in Em; try discriminate.
      destruct (mapM _ cs) as [st'| | |] eqn:Em'; cbn [obind] in Em; try discriminate. injection Em as <-.
      destruct (IH Hne' st' eq_refl) as (qs & Q1 & Q2 & Q3 & Q4).
      unfold idx in Ei. destruct (nth_error c k) as [i'|] eqn:Eki; [|discriminate]. injection Ei as ->.
      destruct (picks_nth _ _ _ _ _ Hc Eki) as (sp' & Hs' & Hsv). assert (sp' = sp) by congruence. subst sp'.
      exists (sp :: qs). split; [constructor; auto|]. split; [constructor; [cbn; apply in_or_app; left; eapply nth_error_In; eauto|]|].
      { eapply Forall_impl; [|exact Q2]. intros x Hx. cbn. apply in_or_app; auto. }
      split; [discriminate|]. intros r Hr. cbn in Hr. apply in_app_iff in Hr as [Hr|Hr]; [exists sp; split; [left; auto|auto]|].
      destruct (Q4 r Hr) as (q & Hq & Hl). exists q. split; [right; auto|auto]. }
  destruct K as (qs & Q1 & Q2 & Q3 & Q4).
  destruct (indexed_lowest_R v starts qs Q1) as (k & sp & Ek & Hk & Hmin); [intros E; auto|].
  rewrite Ek in H. cbn [obind] in H. unfold idx in H. destruct (nth_error starts k) as [i|] eqn:Ei; [|discriminate]. injection H as ->.
  split; [rewrite Forall_forall in Q2; apply Q2; eapply nth_error_In; eauto|].
  destruct (picks_nth _ _ _ _ _ Q1 Ei) as (sp' & Hs' & Hsv). assert (sp' = sp) by congruence. subst sp'. exists sp. split; auto.
  intros r Hr. destruct (Q4 r Hr) as (q & Hq & Hl). eapply lex_le_trans'; eauto.
Qed.

Lemma par_start_some v : forall cs Ds, Forall2 (picks v) cs Ds -> Forall (fun c => c <> []) cs -> cs <> [] -> exists start, par_start v cs = Val start.
Proof.
  intros cs Ds HF Hne Hn.
  assert (K : exists starts qs, mapM (fun c => let* (ii, _) := indexed_find_lowest_x v c in idx c ii) cs = Val starts /\ picks v starts qs /\ (starts = [] -> cs = [])).
  { clear Hn. induction HF as [|c D cs Ds Hc HF IH]; cbn [mapM].
    - exists [], []. split; auto. split; [constructor|auto].
    - inversion Hne as [|? ? Hc0 Hne']; subst. destruct (IH Hne') as (st & qs & E1 & E2 & _).
      destruct (indexed_lowest_R v c D Hc Hc0) as (k & sp & Ek & Hk & _). rewrite Ek. cbn [obind].
      destruct (nth_error c k) as [i|] eqn:Ei.
      + unfold idx at 1. rewrite Ei. cbn [obind]. rewrite E1. cbn [obind]. exists (i :: st), (sp :: qs). split; auto. split; [|discriminate].
        constructor; auto. destruct (picks_nth _ _ _ _ _ Hc Ei) as (p & Hp & Hv). congruence.
      + apply nth_error_None in Ei. rewrite (picks_length _ _ _ Hc) in Ei. apply nth_error_None in Ei. congruence. }
  destruct K as (st & qs & E & Hq & Hs). unfold par_start. rewrite E. cbn [obind].
  destruct (indexed_lowest_R v st qs Hq) as (k & sp & Ek & Hk & _); [auto|]. rewrite Ek. cbn [obind].
  destruct (nth_error st k) as [i|] eqn:Ei.
  - unfold idx. rewrite Ei. eauto.
  - apply nth_error_None in Ei. rewrite (picks_length _ _ _ Hq) in Ei. apply nth_error_None in Ei. congruence.
Qed.

Lemma drop_self (c : list nat) : NoDup c -> 2 <= length c -> drop_loop_index c = c.
Proof. intros Hn Hl. apply ring_drop_index; auto. left; auto. Qed.

(* the hull of one chunk *)
Lemma chunk_result v all s (sp : pt) c D h : picks v c D -> c <> [] -> NoDup c -> NoDup D -> incl c all -> (forall a b d, D = [a; b; d] -> orient a b d <> 0%R) ->
  (forall r, In r D -> lex_le sp r) -> nth_error v s = Some sp -> indexed_graham_no_loop v c None (Val h) -> chunk_hull v all sp D h.
Proof.
  intros Hp Hne Hnc HnD Hi H3 Hlex Hs H. assert (Hlen := picks_length _ _ _ Hp).
  assert (Hv : Forall (fun i => i < length v) c).
  { apply Forall_forall. intros i Hin. apply In_nth_error in Hin as (k & Hk). destruct (picks_nth _ _ _ _ _ Hp Hk) as (p & _ & E). apply nth_error_Some. congruence. }
  assert (Hhc : incl h c) by (apply (indexed_graham_safe v) in H as [_ H]; auto; discriminate).
  assert (Hia : incl h all) by (intros x Hx; auto).
  assert (Hcase : length c = 1 \/ length c = 2 \/ length c = 3 \/ 3 < length c) by (destruct c; [congruence|cbn; lia]).
  destruct Hcase as [L1|[L2|[L3|L4]]].
  - destruct c as [|c0 [|]]; cbn in L1; try lia. remember (Val h) as rr eqn:E in H; destruct H as [Hsm|a b d K E9|srt K]; [|cbn in K; lia|cbn in K; rewrite Nat.eqb_refl in K; cbn in K; lia].
    cbn in E. injection E as <-. exists D. destruct D as [|d0 [|]]; cbn in Hlen; try lia.
    split; auto. split; auto. split; [split; auto; intros x y z [E1|[]] [<-|[]]; injection E1 as <- <-; congruence|]. split; [congruence|].
    split; [intros r Hr; apply hullpart_In; auto|]. split; [apply incl_refl|auto].
  - assert (Ed := drop_self c Hnc ltac:(lia)).
    remember (Val h) as rr eqn:E in H; destruct H as [Hsm|a b d K E9|srt K]; [|rewrite Ed in E9; rewrite E9 in L2; cbn in L2; lia|rewrite Ed in K; lia].
    rewrite L2, Ed in E. cbn in E. injection E as <-. exists D. destruct D as [|d0 [|d1 [|]]]; cbn in Hlen; try lia.
    split; auto. split; auto. split; [split; auto; intros x y z [E1|[E1|[]]] [<-|[<-|[]]]; injection E1 as <- <-; congruence|]. split; [auto|].
    split; [intros r Hr; apply hullpart_In; auto|]. split; [apply incl_refl|auto].
  - assert (Ed := drop_self c Hnc ltac:(lia)).
    remember (Val h) as rr eqn:E2 in H; destruct H as [Hsm|a b d K E|srt K]; [rewrite Ed in Hsm; lia| |rewrite Ed in K; lia].
    rewrite Ed in E. subst c. inversion Hp as [|? pa ? D1 Hpa Hp1]; subst. inversion Hp1 as [|? pb ? D2 Hpb Hp2]; subst. inversion Hp2 as [|? pd ? D3 Hpd Hp3]; subst. inversion Hp3; subst.
    unfold index_triangle, idx in E2. rewrite Hpa, Hpb, Hpd in E2. cbn [obind] in E2. assert (E3 : h = ccw3 (is_point_left pa pb pd) a b d) by congruence. clear E2. subst h.
    assert (Ho := H3 pa pb pd eq_refl). unfold ccw3 in *.
    assert (Hrl : forall x y z : pt, (0 < orient x y z)%R -> NoDup [x; y; z] -> ringlike [x; y; z]).
    { clear. intros x y z Ho Hn. split; auto. intros a b c [E|[E|[E|[]]]] [<-|[<-|[<-|[]]]]; injection E as <- <-; intros N1 N2; try congruence.
      all: solve [auto | rewrite orient_rot; auto | rewrite <- orient_rot; auto]. }
    destruct (is_point_left pa pb pd) eqn:El.
    + apply left_R in El. exists [pa; pb; pd]. split; [exact Hp|]. split; [exact Hia|]. split; [apply Hrl; auto|]. split; [congruence|]. split; [intros r Hr; apply hullpart_In; auto|]. split; [apply incl_refl|auto].
    + assert (Ho' : (orient pa pb pd < 0)%R).
      { destruct (Rtotal_order (orient pa pb pd) 0) as [K0|[K0|K0]]; auto; [congruence|]. apply left_R in K0. congruence. }
      exists [pa; pd; pb]. split; [constructor; [auto|constructor; [auto|constructor; [auto|constructor]]]|]. split; [exact Hia|].
      assert (Hpm : forall x, In x [pa; pd; pb] <-> In x [pa; pb; pd]) by (intros x; cbn; tauto).
      split; [apply Hrl; [rewrite orient_acb; lra|]|].
      { apply (Permutation_NoDup (l := [pa; pb; pd])); auto. constructor. apply perm_swap. }
      split; [congruence|]. split; [intros r Hr; apply hullpart_In; apply Hpm; auto|]. split; [intros r Hr; apply Hpm; auto|auto].
  - assert (Ed := drop_self c Hnc ltac:(lia)). assert (Hp' := Hp). rewrite <- Ed in Hp'.
    destruct (indexed_graham_hull v c D (omap close_loop (Val h)) Hp' HnD) as (out & vs & Eo & Hpo & Hhr); [lia|exists (Val h); auto|].
    cbn in Eo. injection Eo as <-.
    assert (Hh : exists hp, picks v h hp /\ vs = close_loop hp).
    { destruct h as [|h0 [|h1 h']].
      - exists []. cbn in Hpo. inversion Hpo; subst. split; [constructor|auto].
      - cbn in Hpo. exists vs. split; auto. inversion Hpo as [|? ? ? ? ? K]; subst. inversion K; subst. auto.
      - change (close_loop (h0 :: h1 :: h')) with ((h0 :: h1 :: h') ++ [h0]) in Hpo. apply picks_app_inv in Hpo as (p1 & p2 & -> & P1 & P2).
        exists p1. split; auto. inversion P1 as [|? q0 ? p1' K0 P1']; subst. inversion P1' as [|? q1 ? p1'' K1 P1'']; subst.
        inversion P2 as [|? q2 ? ? K2 K3]; subst. inversion K3; subst. cbn. assert (q2 = q0) by congruence. subst. auto. }
    destruct Hh as (hp & Hph & ->). destruct (result_cases _ _ Hhr) as (R1 & R2 & R3 & R4 & R5).
    exists hp. split; auto. split; auto. split; auto. split; [|auto].
    intros ->. inversion Hph; subst. congruence.
Qed.

Theorem par_one_each v indices (pts : list pt) fuel chunk t r :
  picks v (drop_loop_index indices) pts -> NoDup pts -> length pts <= fuel ->
  (forall c a b d, In c (chunks (length (drop_loop_index indices)) chunk (drop_loop_index indices)) -> picks v c [a; b; d] -> orient a b d <> 0%R) ->
  one_each t -> convex_hull_par_by t fuel v indices chunk r ->
  exists out vs, r = Val out /\ picks v out vs /\ hull_result pts vs.
Proof.
  intros Hp Hnd Hfu H3 Hone (Hl & Hc & start & Hst & Hres & ->). set (inds := drop_loop_index indices) in *.
  assert (Hli := picks_length _ _ _ Hp). assert (Hni : NoDup inds) by (eapply picks_NoDup; eauto).
  destruct (chunks_spec chunk Hc (length inds) inds (le_n _)) as [Ecc Hcne]. set (cs := chunks (length inds) chunk inds) in *.
  assert (Hp' := Hp). rewrite <- Ecc in Hp'. apply picks_concat in Hp' as (Ds & EDs & HF).
  assert (Hcs : cs <> []) by (intros E; rewrite E in Ecc; cbn in Ecc; rewrite <- Ecc in Hl; cbn in Hl; lia).
  destruct (par_start_low v cs Ds HF Hcne Hcs start Hst) as (Hsin & sp & Hsp & Hlow). rewrite Ecc in Hsin. rewrite <- EDs in Hlow.
  assert (Hinj : forall i j q, In i inds -> In j inds -> nth_error v i = Some q -> nth_error v j = Some q -> i = j).
  { intros i j q Hi Hj Ei Ej. eapply (picks_inj v inds inds pts Hnd Hp i q Hi Ei Hp j); auto. }
  assert (HspD : In sp pts).
  { apply In_nth_error in Hsin as (k & Hk). destruct (picks_nth _ _ _ _ _ Hp Hk) as (q & Hq & Eq). assert (q = sp) by congruence. subst q. eapply nth_error_In; eauto. }
  assert (Hlex : forall i q, In i inds -> nth_error v i = Some q -> lex_le sp q).
  { intros i q Hi Eq. apply Hlow. apply In_nth_error in Hi as (k & Hk). destruct (picks_nth _ _ _ _ _ Hp Hk) as (q' & Hq' & Eq'). assert (q' = q) by congruence. subst q'. eapply nth_error_In; eauto. }
  assert (HndD : NoDup (concat Ds)) by (rewrite <- EDs; auto).
  assert (Hndc : NoDup (concat cs)) by (rewrite Ecc; auto).
  assert (Hch : Forall2 (chunk_hull v inds sp) Ds (leaves t)).
  { assert (Hic : forall c, In c cs -> incl c inds) by (intros c Hin; apply (chunks_incl chunk (length inds)); auto).
    assert (HlD : forall D, In D Ds -> forall q, In q D -> lex_le sp q).
    { intros D HD q Hq. apply Hlow. rewrite EDs. apply in_concat. eauto. }
    apply NoDup_concat in HndD. apply NoDup_concat in Hndc.
    clear Ecc EDs Hcs Hst. revert H3 Hcne HndD Hndc Hic HlD. generalize (leaves t) Hres. clear Hres. intros ls Hres. revert Ds HF.
    induction Hres as [|c h cs' ls Hch Hres IH]; intros Ds HF H3 Hcne HndD Hndc Hic HlD; inversion HF as [|? D ? Ds' HcD HF']; subst; constructor.
    - inversion Hcne; inversion HndD; inversion Hndc; subst. apply (chunk_result v inds start sp c D h); auto.
      + apply Hic; left; auto.
      + intros a b d ->. apply (H3 c); auto. left; auto.
      + apply HlD. left; auto.
    - inversion Hcne; inversion HndD; inversion Hndc; subst. apply IH; auto.
      + intros c' a b d Hin. apply H3. right; auto.
      + intros c' Hin. apply Hic. right; auto.
      + intros D' Hin. apply HlD. right; auto. }
  assert (Hfu' : length inds <= fuel) by lia.
  destruct (reduce_hulls v inds fuel start sp Hinj Hfu' Hsin Hsp Hlex t Ds Hone Hch) as (L & EL & HL).
  rewrite EL. destruct HL as (Hi & Hhd & ps & Hps & Hr).
  exists (close_loop L), (close_loop ps). split; auto. split.
  - destruct Hps as [|i p L ps Hip Hps]; [constructor|]. destruct Hps as [|j q L ps Hjq Hps]; [constructor; [auto|constructor]|].
    cbn. constructor; auto. constructor; auto. apply picks_app; auto. constructor; [auto|constructor].
  - apply (hull_result_ext (sp :: concat Ds)); auto. intros x. rewrite EDs. split; [|right; auto]. intros [<-|Hx]; auto. rewrite <- EDs. auto.
Qed.
