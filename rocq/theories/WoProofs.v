(* graham_scan_wo_atan2 in exact arithmetic, for distinct points. *)
From Coq Require Import Reals Lra Psatz Sorting.Sorted Sorting.Permutation.
From Verif Require Import Prelude Scalar RInst Geo2 GeoSpec DistR HullSpec HullGeo Hull HullAny GrahamProofs GrahamProofs2 GrahamProofs3 HullUniq.
Local Open Scope R_scope.

Lemma Sorted_SS_on {A} (Q : A -> A -> Prop) : forall l, (forall a b c, In a l -> In b l -> In c l -> Q a b -> Q b c -> Q a c) -> Sorted Q l -> StronglySorted Q l.
Proof.
  induction l as [|a l IH]; intros Ht Hs; [constructor|]. apply Sorted_inv in Hs as [Hs Hd].
  assert (IHs : StronglySorted Q l) by (apply IH; auto; intros; eapply Ht; eauto; right; auto).
  constructor; auto. destruct l as [|b l]; [constructor|]. apply HdRel_inv in Hd. constructor; auto.
  apply StronglySorted_inv in IHs as [_ Hf]. rewrite Forall_forall in *. intros c Hc.
  apply (Ht a b c); auto; [left; auto|right; left; auto|right; right; auto].
Qed.

Definition wcmp (s : pt) (b c : pt) : comparison := match wo_cmp s b c with Some o => o | None => Eq end.
Lemma wcmp_cases s b c : wcmp s b c = if Rlt_dec (orient s b c) 0 then Gt else if Rlt_dec 0 (orient s b c) then Lt
  else if Rlt_dec (sqdist s c) (sqdist s b) then Gt else Lt.
Proof.
  unfold wcmp, wo_cmp. rewrite cross_orient, spcmp_R. cbn [s0 RS].
  destruct (Rlt_dec 0 (orient s b c)), (Rlt_dec (orient s b c) 0); auto; try lra.
  change (sltb (vdist2 s c) (vdist2 s b)) with (Rltb (sqdist s c) (sqdist s b)). unfold Rltb. destruct (Rlt_dec _ _); auto.
Qed.
Lemma wcmp_ord s b c : wcmp s b c <> Gt <-> ord s b c.
Proof.
  rewrite wcmp_cases. unfold ord.
  repeat (match goal with |- context [Rlt_dec ?x ?y] => destruct (Rlt_dec x y) end; cbv beta iota);
    split; intros; try congruence; first [dlra | exfalso; dlra].
Qed.

Section Wo.
  Variables (s : pt) (l : list pt).
  Hypothesis Hnd : NoDup l.
  Hypothesis Hs : In s l.
  Hypothesis Hlex : forall p, In p l -> lex_le s p.

  Lemma ahead_of p : In p l -> p <> s -> ahead 0 (-1) s p.
  Proof. intros Hp Hn. apply lex_ahead; auto. Qed.
  Lemma ord_start p : ord s s p.
  Proof. right. rewrite orient_aab. split; auto. assert (E : sqdist s s = 0) by (unfold sqdist; rsimp; ring). rewrite E. apply sqdist_nonneg. Qed.
  Lemma ord_not_start p : ord s p s -> p = s.
  Proof.
    intros [H|[_ H]]; [rewrite orient_aba in H; lra|]. destruct (pt_dec p s) as [|Hn]; auto.
    apply sqdist_pos in Hn. assert (E : sqdist s s = 0) by (unfold sqdist; rsimp; ring). lra.
  Qed.
  Lemma ord_trans_on a b c : In a l -> In b l -> In c l -> ord s a b -> ord s b c -> ord s a c.
  Proof.
    intros Ha Hb Hc H1 H2. destruct (pt_dec a s) as [->|Na]; [apply ord_start|].
    destruct (pt_dec b s) as [->|Nb]; [apply ord_not_start in H1; congruence|].
    destruct (pt_dec c s) as [->|Nc]; [apply ord_not_start in H2; congruence|].
    eapply (ord_trans 0 (-1) Hz01 s a b c); auto; apply ahead_of; auto.
  Qed.
  Lemma ord_antisym a b : In a l -> In b l -> ord s a b -> ord s b a -> a = b.
  Proof.
    intros Ha Hb H1 H2. destruct (pt_dec a s) as [->|Na]; [apply ord_not_start in H2; congruence|].
    destruct (pt_dec b s) as [->|Nb]; [apply ord_not_start in H1; congruence|].
    assert (Hsw := orient_acb s a b). destruct H1 as [H1|[H1 D1]], H2 as [H2|[H2 D2]]; try lra.
    destruct (ray_far 0 (-1) s a b) as (k & Hk & E1 & E2); auto; try (apply ahead_of; auto).
    assert (Hd : 0 < sqdist s a) by (apply sqdist_pos; auto).
    assert (E : sqdist s b = k * k * sqdist s a) by (unfold sqdist; rewrite E1, E2; rsimp; ring).
    assert (k = 1). { destruct Hk as [Hk|Hk]; auto. exfalso. assert (1 < k * k) by nra. nra. }
    subst k. apply V2_ext; rewrite ?E1, ?E2; (match goal with |- @eq _ ?a ?b => apply (Rminus_diag_uniq a b) end); rsimp; ring.
  Qed.
  Lemma wcmp_total : total_on (wcmp s) l.
  Proof.
    split.
    - intros l1 a l2 b l3 E. assert (Ha : In a l) by (rewrite E; apply in_or_app; right; left; auto).
      assert (Hb : In b l) by (rewrite E; apply in_or_app; right; right; apply in_or_app; right; left; auto).
      assert (Hab : a <> b).
      { intros ->. rewrite E in Hnd. apply NoDup_app_inv in Hnd as (_ & Hn & _). inversion Hn as [|? ? H1 _]; subst. apply H1. apply in_or_app. right; left; auto. }
      destruct (wcmp s a b) eqn:E1, (wcmp s b a) eqn:E2; auto; exfalso;
        try (rewrite wcmp_cases in E1; repeat (match type of E1 with context [Rlt_dec ?x ?y] => destruct (Rlt_dec x y) end); discriminate);
        try (rewrite wcmp_cases in E2; repeat (match type of E2 with context [Rlt_dec ?x ?y] => destruct (Rlt_dec x y) end); discriminate).
      + apply Hab, ord_antisym; auto; apply wcmp_ord; congruence.
      + assert (N1 : ~ ord s a b) by (rewrite <- wcmp_ord; congruence). assert (N2 : ~ ord s b a) by (rewrite <- wcmp_ord; congruence).
        destruct (ord_total s a b); auto.
    - intros a b c Ha Hb Hc _ _ _. rewrite !wcmp_ord. apply ord_trans_on; auto.
  Qed.

  Lemma wo_loop_graham : forall (todo h : list pt), NoDup todo -> (forall p, In p todo -> ~ In p h) -> h <> [] ->
    wo_loop todo h = graham_loop (fun q => q) (fun _ => false) todo h.
  Proof.
    induction todo as [|p todo IH]; intros h Hn Hd Hne; auto. cbn [wo_loop graham_loop]. inversion Hn as [|? ? H1 H2]; subst.
    assert (Hp := pop_incl (fun p : pt => p) p h). assert (Hpn : pop_right (fun q => q) h p <> []).
    { clear - Hne. induction h as [|t h IH]; [congruence|]. destruct h as [|u h]; [discriminate|]. cbn [pop_right] in *.
      destruct (sltb _ _ || sulps _ _)%bool; [apply IH; congruence|congruence]. }
    destruct (pop_right (fun q => q) h p) as [|t r] eqn:E; [congruence|].
    assert (Hv : veqb t p = false).
    { apply not_true_iff_false. intros Hv. apply veqb_R in Hv. subst t. apply (Hd p); [left; auto|]. apply Hp. left; auto. }
    rewrite Hv. cbn [negb]. apply IH; auto; [|congruence]. intros q Hq [<-|Hin]; [auto|]. apply (Hd q); [right; auto|]. apply Hp. auto.
  Qed.

  Lemma wo_sorted sorted : sort_result (wcmp s) l sorted -> exists rest, sorted = s :: rest /\ StronglySorted (ord s) rest /\ Permutation l (s :: rest).
  Proof.
    intros [Hp Hso]. specialize (Hso wcmp_total).
    assert (Hmem : forall p, In p sorted -> In p l) by (intros p; apply Permutation_in, Permutation_sym; auto).
    assert (HS : StronglySorted (ord s) sorted).
    { apply Sorted_SS_on; [intros a b c Ha Hb Hc; apply ord_trans_on; auto|]. clear - Hso.
      induction Hso as [|a l' H IH Hd]; constructor; auto. destruct Hd as [|b l' Hd]; constructor.
      destruct Hd as [Hd|<-]; [apply wcmp_ord; auto|]. right. rewrite orient_abb. split; auto. apply Rle_refl. }
    destruct sorted as [|x rest]; [apply Permutation_sym, Permutation_nil in Hp; rewrite Hp in Hs; destruct Hs|].
    assert (x = s).
    { assert (Hin : In s (x :: rest)) by (eapply Permutation_in; eauto). destruct Hin as [|Hin]; auto.
      apply StronglySorted_inv in HS as [_ Hf]. rewrite Forall_forall in Hf. apply ord_not_start; auto. }
    subst x. exists rest. split; auto. split; auto. apply StronglySorted_inv in HS. apply HS.
  Qed.

  Lemma wo_result sorted : sort_result (wcmp s) l sorted -> hull_result l (close_loop (rev (wo_loop sorted [s]))).
  Proof.
    intros H. destruct (wo_sorted sorted H) as (rest & -> & HS & Hp). cbn [wo_loop pop_right].
    assert (Hv : veqb s s = true) by (apply veqb_R; auto). rewrite Hv. cbn [negb].
    assert (Hnd' : NoDup (s :: rest)) by (eapply Permutation_NoDup; eauto). inversion Hnd' as [|? ? Hns Hnr]; subst.
    rewrite wo_loop_graham; auto; [|intros p Hpin [<-|[]]; auto|congruence].
    assert (Hrest : forall p, In p rest -> In p l /\ p <> s).
    { intros p Hin. split; [eapply Permutation_in; [apply Permutation_sym; eauto|right; auto]|intros ->; auto]. }
    assert (Hah : Forall (ahead 0 (-1) s) rest) by (apply Forall_forall; intros p Hin; destruct (Hrest p Hin); apply ahead_of; auto).
    destruct (scan_inv 0 (-1) s Hz01 rest [] []) as (l' & E & Hi); auto.
    { intros d p []. }
    { repeat split.
      - intros x [].
      - constructor.
      - congruence.
      - intros d []. }
    cbn [app] in E. rewrite E. rewrite app_nil_r in Hi.
    apply (hull_result_ext (s :: rev rest)).
    - intros x. split; intros Hx.
      + eapply Permutation_in; [apply Permutation_sym; eauto|]. destruct Hx as [<-|Hx]; [left; auto|right; apply in_rev; auto].
      + eapply Permutation_in in Hx; [|exact Hp]. destruct Hx as [<-|Hx]; [left; auto|right; rewrite <- in_rev; auto].
    - apply (scan_hull 0 (-1)); auto; [apply Forall_rev; auto|]. intros p Hin. apply in_rev in Hin. apply Hlex. apply Hrest. auto.
  Qed.
End Wo.

Lemma close_connected (pts : list pt) rv : (exists p q, In p pts /\ In q pts /\ p <> q) -> hull_result pts (close_loop rv) ->
  (if negb (is_connected rv) then match rv with a :: _ => rv ++ [a] | [] => rv end else rv) = close_loop rv.
Proof.
  intros (p & q & Hp & Hq & Hpq) H. destruct rv as [|a [|b r]]; auto.
  - exfalso. cbn in H. inversion H as [v vs Hh _ E|a' b' _ _ _ _ _ E|a' Ha Hs E]; subst.
    + destruct vs; discriminate.
    + apply Hpq. rewrite (Hs p Hp), (Hs q Hq). auto.
  - assert (Hc : is_connected (a :: b :: r) = false); [|rewrite Hc; auto].
    apply not_true_iff_false. intros Hc.
    assert (E : a = last (a :: b :: r) a).
    { revert Hc. unfold is_connected. cbn [close_loop] in *. intros Hc. apply veqb_R in Hc. auto. }
    change (last (a :: b :: r) a) with (last (b :: r) a) in E.
    destruct (@exists_last _ (b :: r)) as (y & z & Ey); [congruence|]. rewrite Ey, last_app_one in E. subst z.
    assert (E2 : close_loop (a :: b :: r) = a :: y ++ [a] ++ [a]) by (change (close_loop (a :: b :: r)) with (a :: (b :: r) ++ [a]); rewrite Ey, <- app_assoc; auto).
    rewrite E2 in H. inversion H as [v vs Hh _ E|a' b' Hab _ _ _ _ E|a' Ha Hs E]; subst.
    + assert (E3 : vs ++ [a] = (y ++ [a]) ++ [a]) by (rewrite <- app_assoc; auto). apply app_inj_tail in E3 as [-> _].
      destruct Hh as (_ & (_ & Hn & _) & _). inversion Hn as [|? ? H1 _]; subst. apply H1. apply in_or_app. right; left; auto.
    + match goal with K : [_; _] = y ++ _ |- _ => revert K end. destruct y as [|y0 [|y1 y]]; cbn; intros K; try discriminate.
      * injection K as K1. congruence.
      * destruct y; discriminate.
    + destruct y; discriminate.
Qed.
