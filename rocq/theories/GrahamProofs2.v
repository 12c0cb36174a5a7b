(* From the scan invariant to the convex hull; the sort by angle. *)
From Coq Require Import Reals Lra Psatz Sorting.Sorted Sorting.Permutation.
From Verif Require Import Prelude Scalar RInst Geo2 GeoSpec DistR HullSpec HullGeo Hull GrahamProofs.
Local Open Scope R_scope.

(* ---- edges of a polygon ---- *)
Lemma combine_shift {A} : forall (t : list A) v w a b, In (a, b) (combine (v :: t) (t ++ [w])) ->
  (exists X Y, v :: t = X ++ a :: b :: Y) \/ (a = last (v :: t) v /\ b = w).
Proof.
  induction t as [|u t IH]; intros v w a b.
  - cbn. intros [E|[]]. injection E as -> ->. auto.
  - intros [E|H].
    + injection E as -> ->. left. exists [], t. auto.
    + apply IH in H as [(X & Y & E)|[E ->]].
      * left. exists (v :: X), Y. rewrite E. auto.
      * right. split; auto. rewrite E. change (last (v :: u :: t) v) with (last (u :: t) v).
        clear. revert u v. induction t as [|x t IH]; intros u v; auto. cbn [last] in *. destruct t; auto.
Qed.
Lemma edges_In {A} (v : A) t a b : In (a, b) (edges (v :: t)) ->
  (exists X Y, v :: t = X ++ a :: b :: Y) \/ (a = last (v :: t) v /\ b = v).
Proof. apply combine_shift. Qed.
Lemma combine_shift_app {A} : forall X (a b : A) Y w, In (a, b) (combine (X ++ a :: b :: Y) (tl (X ++ a :: b :: Y) ++ [w])).
Proof.
  induction X as [|x X IH]; intros a b Y w; cbn [app tl combine].
  - left; auto.
  - specialize (IH a b Y w). destruct (X ++ a :: b :: Y) as [|y Z] eqn:E; [destruct X; discriminate|].
    cbn [tl app] in *. cbn [combine]. right. auto.
Qed.
Lemma edges_adj {A} (v : A) t X a b Y : v :: t = X ++ a :: b :: Y -> In (a, b) (edges (v :: t)).
Proof. intros E. pose proof (combine_shift_app X a b Y v) as H. rewrite <- E in H. exact H. Qed.
Lemma combine_close {A} : forall (t : list A) v d w, In (last (v :: t) d, w) (combine (v :: t) (t ++ [w])).
Proof.
  induction t as [|u t IH]; intros v d w; [left; auto|].
  right. change (last (v :: u :: t) d) with (last (u :: t) d). apply (IH u d w).
Qed.
Lemma edges_close {A} (t : list A) v : In (last (v :: t) v, v) (edges (v :: t)).
Proof. apply combine_close. Qed.
Lemma edges_In_vs {A} (vs : list A) a b : In (a, b) (edges vs) -> In a vs /\ In b vs.
Proof.
  destruct vs as [|v t]; [intros []|]. intros H. unfold edges in H. split.
  - apply in_combine_l in H. auto.
  - apply in_combine_r in H. apply in_app_iff in H as [H|[<-|[]]]; [right|left]; auto.
Qed.

Lemma turns_ok_mid X (n t u : pt) Y : turns_ok (X ++ n :: t :: u :: Y) -> 0 < orient u t n.
Proof. intros H. apply turns_ok_app in H. apply H. Qed.
Lemma edges_ok_mid X (t u : pt) Y D : edges_ok (X ++ t :: u :: Y) D -> forall d, In d D -> 0 <= orient u t d.
Proof. intros H. apply edges_ok_app in H. apply H. Qed.

Lemma SS_mid {A} (Q : A -> A -> Prop) : forall X a Y, StronglySorted Q (X ++ a :: Y) ->
  (forall x, In x X -> Q x a) /\ (forall y, In y Y -> Q a y).
Proof.
  induction X as [|x X IH]; intros a Y H; cbn [app] in H; apply StronglySorted_inv in H as [H Hf]; rewrite Forall_forall in Hf.
  - split; [intros x []|auto].
  - destruct (IH a Y H) as [H1 H2]. split; auto. intros z [<-|Hz]; auto. apply Hf. apply in_or_app. right; left; auto.
Qed.

Section Final.
  Variables (zx zy : R) (s : pt).
  Hypothesis Hz : 0 < zx * zx + zy * zy.
  Notation ah := (ahead zx zy s).
  Notation stk l := (l ++ [s]).

  Lemma adj_split (l : list pt) A (t u : pt) B : stk l = A ++ t :: u :: B ->
    (u = s /\ B = [] /\ l = A ++ [t]) \/ (exists B', B = B' ++ [s] /\ l = A ++ t :: u :: B').
  Proof.
    intros E. destruct (@exists_last _ (u :: B)) as (B' & z & EB); [congruence|].
    rewrite EB in E.
    assert (E' : stk l = (A ++ t :: B') ++ [z]) by (rewrite <- app_assoc; auto).
    apply app_inj_tail in E' as [El <-]. destruct B' as [|u' B'].
    - injection EB as -> ->. left. auto.
    - injection EB as -> ->. right. exists B'. auto.
  Qed.

  (* every other vertex is strictly left of an edge of the stack *)
  Lemma edge_strict (l D : list pt) A (t u : pt) B c : inv s l D -> Forall ah D ->
    stk l = A ++ t :: u :: B -> In c (stk l) -> c <> t -> c <> u -> 0 < orient u t c.
  Proof.
    intros (Hincl & Hsort & Hturn & Hedge & _ & _) HD E Hc Hct Hcu.
    assert (Hl : 0 <= orient u t c).
    { apply in_app_iff in Hc as [Hc|[<-|[]]].
      - rewrite E in Hedge. eapply edges_ok_mid; eauto.
      - destruct (adj_split _ _ _ _ _ E) as [(-> & _ & _)|(B' & -> & El)]; [congruence|].
        rewrite El in Hsort. assert (H : 0 < orient s u t) by (apply SS_mid in Hsort as [_ H]; apply H; left; auto).
        rewrite orient_rot in H. lra. }
    destruct Hl as [Hl|Hl]; auto. exfalso. symmetry in Hl.
    destruct (adj_split _ _ _ _ _ E) as [(-> & -> & El)|(B' & -> & El)].
    - (* the edge starts at s *)
      apply in_app_iff in Hc as [Hc|[<-|[]]]; [|congruence]. rewrite El in Hc, Hsort.
      apply in_app_iff in Hc as [Hc|[<-|[]]]; [|congruence].
      apply SS_mid in Hsort as [H _]. specialize (H c Hc). lra.
    - assert (Hut : 0 < orient s u t) by (rewrite El in Hsort; apply SS_mid in Hsort as [_ H]; apply H; left; auto).
      apply in_app_iff in Hc as [Hc|[<-|[]]].
      2:{ rewrite orient_rot in Hut. rewrite orient_rot in Hut. rewrite <- orient_rot in Hut. lra. }
      rewrite El in Hc. apply in_app_iff in Hc as [Hc|[Hc|[Hc|Hc]]]; try congruence.
      + (* after t *)
        destruct (@exists_last _ A) as (A' & n & EA); [intros ->; destruct Hc|].
        assert (Htn : 0 < orient u t n).
        { rewrite E, EA, <- app_assoc in Hturn. apply turns_ok_mid in Hturn. auto. }
        assert (Htc : 0 <= orient t n c).
        { rewrite E, EA, <- app_assoc in Hedge. eapply edges_ok_mid; [exact Hedge|]. apply Hincl. rewrite El. apply in_or_app; auto. }
        assert (Hstc : 0 < orient s t c) by (rewrite El in Hsort; apply SS_mid in Hsort as [H _]; auto).
        pose proof (id_top t n c s u) as Id. rewrite Hl in Id. pose proof (orient_acb s t c) as Hs.
        assert (0 <= orient t n c * orient s u t) by (apply Rmult_le_pos; lra).
        assert (0 < orient s t c * orient u t n) by (apply Rmult_lt_0_compat; lra).
        rewrite Hs in Id. lra.
      + (* before u *)
        destruct B' as [|w B']; [destruct Hc|].
        assert (Hwt : 0 < orient w u t).
        { rewrite E in Hturn. cbn [app] in Hturn. apply turns_ok_mid in Hturn. auto. }
        assert (Hwc : 0 <= orient w u c).
        { rewrite E in Hedge. change (A ++ t :: u :: (w :: B') ++ [s]) with (A ++ [t] ++ u :: w :: B' ++ [s]) in Hedge. rewrite app_assoc in Hedge.
          eapply edges_ok_mid; [exact Hedge|]. apply Hincl. rewrite El. apply in_or_app. right; right; right; auto. }
        assert (Hscu : 0 < orient s c u).
        { rewrite El in Hsort. change (A ++ t :: u :: w :: B') with (A ++ [t] ++ u :: w :: B') in Hsort. rewrite app_assoc in Hsort.
          apply SS_mid in Hsort as [_ H]. auto. }
        pose proof (id_edge w u c s t) as Id. rewrite Hl in Id. pose proof (orient_acb s c u) as Hs.
        assert (0 <= orient w u c * orient s u t) by (apply Rmult_le_pos; lra).
        assert (0 < orient s c u * orient w u t) by (apply Rmult_lt_0_compat; lra).
        rewrite Hs in Id. lra.
  Qed.

  Lemma last_app_one {A} (l : list A) a d : last (l ++ [a]) d = a.
  Proof. induction l as [|x l IH]; auto. cbn [app last]. destruct (l ++ [a]) eqn:E; [destruct l; discriminate|auto]. Qed.
  Lemma rev_cons_split {A} (l : list A) a b X Y : rev l = X ++ a :: b :: Y -> l = rev Y ++ b :: a :: rev X.
  Proof. intros E. rewrite <- (rev_involutive l), E, rev_app_distr. cbn [rev]. rewrite <- !app_assoc. reflexivity. Qed.

  Lemma inv_hull (l D : list pt) : inv s l D -> Forall ah D -> (2 <= length l)%nat -> hull_of (s :: D) (s :: rev l).
  Proof.
    intros Hi HD Hlen. pose proof Hi as (Hincl & Hsort & Hturn & Hedge & Hne & Htop).
    assert (HDf := HD). rewrite Forall_forall in HDf.
    destruct l as [|t [|u l0]]; [cbn in Hlen; lia|cbn in Hlen; lia|]. set (l := t :: u :: l0) in *.
    assert (Erev : s :: rev l = rev (stk l)) by (rewrite rev_app_distr; auto).
    assert (Elast : last (s :: rev l) s = t).
    { rewrite Erev. unfold l. cbn [app rev]. apply last_app_one. }
    assert (Hedges : forall a b, In (a, b) (edges (s :: rev l)) -> (exists A B, stk l = A ++ b :: a :: B) \/ (a = t /\ b = s)).
    { intros a b H. apply edges_In in H as [(X & Y & E)|[-> ->]]; [|right; auto].
      left. exists (rev Y), (rev X). apply rev_cons_split. rewrite <- Erev. auto. }
    assert (Hst : forall c, In c l -> c <> t -> 0 < orient s c t).
    { intros c Hc Hn. destruct Hc as [<-|Hc]; [congruence|]. apply StronglySorted_inv in Hsort as [_ H]. rewrite Forall_forall in H. auto. }
    assert (Hnd : NoDup (s :: rev l)).
    { constructor.
      - rewrite <- in_rev. intros H. apply Hincl, HDf, ahead_ne in H. congruence.
      - apply NoDup_rev. clear - Hsort. revert Hsort. generalize l. induction l1 as [|a l1 IH]; intros H; constructor.
        + apply StronglySorted_inv in H as [_ H]. rewrite Forall_forall in H. intros Hin. specialize (H a Hin). rewrite orient_abb in H. lra.
        + apply StronglySorted_inv in H as [H _]. auto. }
    split; [|split].
    - intros p [<-|Hp]; [left; auto|right]. apply Hincl. rewrite in_rev. auto.
    - split; [|split].
      + cbn [length]. rewrite rev_length. unfold l. cbn [length]. lia.
      + auto.
      + intros a b c Hab Hc Hca Hcb. rewrite Erev, <- in_rev in Hc.
        destruct (Hedges a b Hab) as [(A & B & E)|[-> ->]].
        * eapply edge_strict; eauto.
        * apply in_app_iff in Hc as [Hc|[<-|[]]]; [|congruence]. rewrite orient_rot. apply Hst; auto.
    - intros p Hp a b Hab. destruct (Hedges a b Hab) as [(A & B & E)|[-> ->]].
      + destruct Hp as [<-|Hp].
        * destruct (adj_split _ _ _ _ _ E) as [(-> & _ & _)|(B' & -> & El)]; [rewrite orient_aba; lra|].
          rewrite El in Hsort. assert (H : 0 < orient s a b) by (apply SS_mid in Hsort as [_ H]; apply H; left; auto).
          rewrite orient_rot in H. lra.
        * rewrite E in Hedge. eapply edges_ok_mid; eauto.
      + destruct Hp as [<-|Hp]; [rewrite orient_abb; lra|]. rewrite orient_rot.
        specialize (Htop p Hp). change (ord s p t) in Htop. destruct Htop as [|[]]; lra.
  Qed.

  (* the result of the scan over all points around s *)
  Lemma scan_hull (D l : list pt) : inv s l D -> Forall ah D -> (forall p, In p D -> lex_le s p) ->
    hull_result (s :: D) (close_loop (rev (stk l))).
  Proof.
    intros Hi HD Hlex. rewrite rev_app_distr. cbn [rev app].
    assert (Hlex' : forall p, In p (s :: D) -> lex_le s p).
    { intros p [<-|Hp]; auto. right. split; auto. apply Rle_refl. }
    destruct l as [|f l].
    - cbn. destruct Hi as (_ & _ & _ & _ & Hne & _). destruct D as [|d D]; [|exfalso; apply Hne; congruence].
      apply hull_point; [left; auto|]. intros p [<-|[]]; auto.
    - destruct l as [|u l].
      + cbn. destruct Hi as (Hincl & _ & _ & Hedge & _ & Htop). assert (HDf := HD). rewrite Forall_forall in HDf.
        assert (Hf : In f D) by (apply Hincl; left; auto).
        apply hull_segment.
        * apply not_eq_sym, (ahead_ne zx zy). apply HDf. auto.
        * left; auto.
        * right; auto.
        * intros p [<-|Hp].
          { exists 0. split; [lra|]. apply V2_ext; unfold lerp; rsimp; clear; rring. }
          cbn [hd] in Htop. cbn in Hedge. destruct Hedge as [Hedge _].
          specialize (Hedge p Hp). specialize (Htop p Hp).
          pose proof (orient_acb s f p) as Hsw.
          destruct Htop as [H|[H Hd]]; [lra|].
          destruct (ray_far zx zy s p f) as (k & Hk & E1 & E2); auto.
          exists (/ k). assert (Hik : 0 < / k) by (apply Rinv_0_lt_compat; lra).
          split. { split; [lra|]. rewrite <- Rinv_1. apply Rinv_le_contravar; lra. }
          apply V2_ext; unfold lerp; cbn [vx vy]; rewrite ?E1, ?E2; (match goal with |- @eq _ ?a ?b => apply (Rminus_diag_uniq a b) end); rsimp; field; lra.
        * auto.
      + assert (H : hull_of (s :: D) (s :: rev (f :: u :: l))).
        { apply inv_hull; auto. cbn [length]; lia. }
        assert (Er : exists b r, rev (f :: u :: l) = b :: r).
        { destruct (rev (f :: u :: l)) as [|b r] eqn:E; eauto. apply (f_equal (@length _)) in E. rewrite rev_length in E. discriminate. }
        destruct Er as (b & r & Er). unfold close_loop. rewrite Er in *. cbn [app].
        apply (hull_proper _ s (b :: r)); auto.
  Qed.
End Final.
