(* The parallel hull when every task reduces at most one chunk. *)
From Coq Require Import Reals Lra Psatz Sorting.Permutation.
From Verif Require Import Prelude Scalar RInst Geo2 GeoSpec DistR HullSpec HullGeo Hull HullAny GrahamProofs GrahamProofs2 GrahamProofs3 HullUniq GiftProofs GiftProofs2 IndexedProofs WoProofs ContainProofs HullMisc HullMisc2 HullPar HullMerge.
Local Open Scope R_scope.

(* a closed chain of hull edges is the hull *)
Lemma cycle_points D s t : (forall r, In r D -> lex_le s r) -> NoDup (s :: t) -> t <> [] -> incl (s :: t) D ->
  (forall a b, In (a, b) (edges (s :: t)) -> gedge D a b) -> hull_result D (close_loop (s :: t)).
Proof.
  intros Hlex Hn Ht Hin Hpe. set (P := s :: t) in *.
  assert (Hext : forall x, In x P -> In x D /\ extreme D x).
  { intros x Hx. split; auto. destruct (prev_edge P x Hx) as (z & Hz). eapply gedge_extreme. apply (Hpe z x Hz). }
  destruct t as [|r1 [|r2 t]]; [congruence| |].
  - cbn. assert (G1 : gedge D s r1) by (apply Hpe; cbn; auto). assert (G2 : gedge D r1 s) by (apply Hpe; cbn; auto).
    apply hull_segment; [apply G1|apply Hin; left; auto|apply Hin; right; left; auto| |auto].
    intros p Hp. destruct G1 as [Hn1 G1], G2 as [Hn' G2].
    assert (Ho : orient s r1 p = 0).
    { assert (L1 := gedge_left D _ _ _ (conj Hn1 G1) Hp). assert (L2 := gedge_left D _ _ _ (conj Hn' G2) Hp). rewrite orient_swap in L2. lra. }
    destruct (G1 p Hp) as [H|(k & Hk & E)]; [lra|]. destruct (G2 p Hp) as [H|(k' & Hk' & E')]; [rewrite orient_swap in H; lra|].
    exists k. split; auto. split; auto.
    assert (Ek : lerp r1 s k' = lerp s r1 (1 - k')) by (unfold lerp; apply V2_ext; cbn [vx vy]; pring).
    rewrite E', Ek in E. apply lerp_inj in E; auto. lra.
  - unfold close_loop, P. cbn [app]. apply (hull_proper D s (r1 :: r2 :: t)); auto. fold P. split; [|split].
    + auto.
    + split; [unfold P; cbn; lia|]. split; auto.
      intros a b c He Hc Hca Hcb. assert (G := Hpe a b He). destruct G as [Hn1 G]. destruct (Hext c Hc) as [Hci Hcx].
      destruct (edges_In_vs _ _ _ He) as [Ha Hb]. destruct (Hext a Ha) as [Hai Hax]. destruct (Hext b Hb) as [Hbi Hbx].
      destruct (G c Hci) as [H|(k & Hk & E)]; auto. exfalso.
      destruct (Rtotal_order k 0) as [Hk0|[->|Hk0]].
      * destruct (lerp_behind _ _ _ _ Hk0 E) as (u & Hu & E'). apply Hcb. apply (Hax c b u); auto.
      * rewrite lerp_0 in E. auto.
      * destruct Hk as [Hk| ->]; [|rewrite lerp_1 in E; auto]. apply Hn1. apply (Hcx a b k); auto.
    + intros p Hp a b He. eapply gedge_left; eauto.
Qed.

(* r lies in the hull of points of P *)
Definition hullpart (P : list pt) (r : pt) : Prop :=
  (exists a b, In a P /\ In b P /\ on_segment r a b) \/ (exists poly, convex_polygon poly /\ incl poly P /\ inside poly r).
Lemma hullpart_In P r : In r P -> hullpart P r.
Proof. intros H. left. exists r, r. split; [auto|]. split; [auto|]. exists 0. split; [lra|]. rewrite lerp_0. auto. Qed.
Lemma hullpart_incl P Q r : incl P Q -> hullpart P r -> hullpart Q r.
Proof.
  intros H [(a & b & Ha & Hb & Hs)|(poly & Hc & Hi & Hp)]; [left; exists a, b; auto|right; exists poly; split; auto; split; auto].
  intros x Hx. auto.
Qed.
Lemma close_vertices ps vs (v : pt) : close_loop ps = v :: vs ++ [v] -> ps = v :: vs \/ vs = [].
Proof.
  destruct ps as [|a [|b t]]; cbn; try discriminate.
  - intros E. injection E as -> E. destruct vs; discriminate.
  - intros E. left. injection E as -> E. assert (E2 : (b :: t) ++ [v] = vs ++ [v]) by exact E. apply app_inj_tail in E2 as [<- _]. auto.
Qed.
Lemma result_cases D ps : hull_result D (close_loop ps) ->
  ringlike ps /\ incl ps D /\ ps <> [] /\ (forall r, In r D -> lex_le (hd r ps) r) /\ forall r, In r D -> hullpart ps r.
Proof.
  intros H. inversion H as [v vs (Hi & Hc & Hin) Hl E|a b Hab Ha Hb Hseg Hal E|a Ha Hall E].
  - symmetry in E. apply close_vertices in E as [->| ->]; [|destruct Hc as (Hc & _); cbn in Hc; lia].
    split; [split; [apply Hc|apply Hc]|]. split; [auto|]. split; [congruence|]. split; [auto|]. intros r Hr. right. exists (v :: vs). split; auto. split; auto. apply incl_refl.
  - assert (Ep : ps = [a; b]).
    { change [a; b; a] with (a :: [b] ++ [a]) in E. symmetry in E. apply close_vertices in E as [->|E]; [auto|discriminate]. }
    subst ps. split.
    { split; [constructor; [intros [E0|[]]; congruence|constructor; [intros []|constructor]]|].
      intros x y z [E1|[E1|[]]] [<-|[<-|[]]]; injection E1 as <- <-; congruence. }
    split; [intros x [<-|[<-|[]]]; auto|]. split; [congruence|]. split; [auto|]. intros r Hr. left. exists a, b. cbn. auto.
  - assert (Ep : ps = [a]).
    { destruct ps as [|x [|y t]]; cbn in E; try discriminate. congruence. }
    subst ps. split; [split; [constructor; [intros []|constructor]|]; intros x y z [E1|[]] [<-|[]]; injection E1 as <- <-; congruence|].
    split; [intros x [<-|[]]; auto|]. split; [congruence|]. split; [intros r Hr; rewrite (Hall r Hr); apply lex_le_refl|]. intros r Hr. rewrite (Hall r Hr). apply hullpart_In. left; auto.
Qed.
Lemma seg_seg x y a b r : on_segment a x y -> on_segment b x y -> on_segment r a b -> on_segment r x y.
Proof.
  intros (ta & Ha & ->) (tb & Hb & ->) (t & Ht & ->). exists (ta + t * (tb - ta)). rewrite lerp_lerp. split; auto.
  assert (0 <= t * tb) by (apply Rmult_le_pos; lra). assert (0 <= (1 - t) * ta) by (apply Rmult_le_pos; lra).
  assert (0 <= t * (1 - tb)) by (apply Rmult_le_pos; lra). assert (0 <= (1 - t) * (1 - ta)) by (apply Rmult_le_pos; lra). split; lra.
Qed.
(* the hull of M is the hull of every larger set that lies in the hull of M *)
Lemma result_extend M D vs : hull_result M vs -> incl M D -> (forall r, In r D -> hullpart M r) -> (forall r, In r D -> lex_le (hd r vs) r) -> hull_result D vs.
Proof.
  intros H HMD HD Hlex. destruct H as [v vs (Hi & Hc & Hin) Hl|a b Hab Ha Hb Hseg Hal|a Ha Hall].
  - apply hull_proper; [|auto]. split; [intros x Hx; auto|]. split; auto. intros r Hr x y He.
    assert (Hside : forall m, In m M -> 0 <= orient x y m) by (intros m Hm; apply (Hin m Hm); auto).
    destruct (HD r Hr) as [(a & b & Ha & Hb & t & Ht & ->)|(poly & Hpc & Hpi & Hpr)].
    + rewrite orient_lerp2. assert (0 <= (1 - t) * orient x y a) by (apply Rmult_le_pos; [lra|auto]). assert (0 <= t * orient x y b) by (apply Rmult_le_pos; [lra|auto]). lra.
    + apply (inside_minimal poly); auto.
  - apply hull_segment; auto. intros r Hr. destruct (HD r Hr) as [(c & d & Hc & Hd & Hs)|(poly & Hpc & Hpi & Hpr)].
    + apply (seg_seg a b c d); auto.
    + exfalso. destruct poly as [|w ws]; [destruct Hpc as (K & _); cbn in K; lia|]. apply (hull_of_not_seg (w :: ws) w ws a b); auto.
      split; [apply incl_refl|]. split; auto. intros q Hq x y He. apply (polygon_left (w :: ws)); auto.
  - apply hull_point; auto. intros r Hr. destruct (HD r Hr) as [(c & d & Hc & Hd & t & Ht & ->)|(poly & Hpc & Hpi & Hpr)].
    + rewrite (Hall c Hc), (Hall d Hd). unfold lerp. apply V2_ext; cbn [vx vy]; pring.
    + exfalso. destruct Hpc as (Hl & Hnd & _). destruct poly as [|w [|w' ws]]; try (cbn in Hl; lia).
      inversion Hnd as [|? ? K _]; subst. apply K. left. rewrite (Hall w), (Hall w'); auto; apply Hpi; cbn; auto.
Qed.

Section Reduce.
  Variables (v : list pt) (all : list nat) (fuel : nat) (s : nat) (sp : pt).
  Hypothesis Hall : forall i j r, In i all -> In j all -> nth_error v i = Some r -> nth_error v j = Some r -> i = j.
  Hypothesis Hfuel : (length all <= fuel)%nat.
  Hypothesis Hsall : In s all.
  Hypothesis Hsp : nth_error v s = Some sp.
  Hypothesis Hlex : forall i r, In i all -> nth_error v i = Some r -> lex_le sp r.

  (* L is the hull of the points D, beginning with the lowest point *)
  Definition hulls (D : list pt) (L : list nat) : Prop :=
    incl L all /\ hd_error L = Some s /\ exists ps, picks v L ps /\ hull_result D (close_loop ps).

  Lemma picks_sub is ps : picks v is ps -> incl is all -> forall r, In r ps -> lex_le sp r.
  Proof. intros H Hi r Hr. destruct (picks_In v is ps r H Hr) as (i & Hii & E). eauto. Qed.

  Lemma merge_hull ia ib pa pb : picks v ia pa -> picks v ib pb -> ringlike pa -> ringlike pb -> incl ia all -> incl ib all -> hd_error ia = Some s ->
    (ia = [s] /\ (exists b t, ib = b :: t /\ b <> s) \/ (2 <= length ia)%nat /\ hd_error ib = Some s) ->
    exists L, combine_hulls fuel v ia ib = Val L /\ hulls (pa ++ pb) L.
  Proof.
    intros Ha Hb Ra Rb Hia Hib Hs Hc.
    assert (Hinc : incl (ia ++ ib) all) by (apply incl_app; auto).
    assert (Hinj : forall i j r, In i (ia ++ ib) -> In j (ia ++ ib) -> nth_error v i = Some r -> nth_error v j = Some r -> i = j).
    { intros i j r Hi Hj. apply Hall; auto. }
    assert (HlexD : forall r, In r (pa ++ pb) -> lex_le sp r).
    { intros r Hr. apply in_app_iff in Hr as [Hr|Hr]; [apply (picks_sub ia pa)|apply (picks_sub ib pb)]; auto. }
    destruct (merge_loop v ia ib pa pb s sp all Ha Hb Ra Rb Hinj Hs Hsp Hinc Hc fuel [] (mkVI true s 0)) as (R & ER & HR & Hl & Hhd & Hch & Hx & Hcl); cbn [vindex from_a app].
    - unfold vi_ok. cbn. destruct ia; auto.
    - auto.
    - constructor; [intros []|constructor].
    - auto.
    - intros X i j Y EX. destruct X as [|x [|x' X]]; discriminate.
    - intros i [<-|[]]. split; [apply in_or_app; left; destruct ia; [discriminate|]; cbn in Hs; injection Hs as ->; left; auto|]. exists sp. split; auto. apply lex_corner. auto.
    - cbn. auto.
    - exists R. split.
      + unfold combine_hulls. destruct ia as [|a0 ia']; [discriminate|]. cbn in Hs. injection Hs as ->.
        destruct ib as [|b0 ib']; [|auto]. destruct Hc as [[_ (b & t & K & _)]|[_ K]]; discriminate.
      + split; [intros i Hi; auto|]. split; [destruct R; cbn in *; [lia|congruence]|].
        assert (Hps : exists ps, picks v R ps).
        { clear - Hx Ha Hb. induction R as [|i R IH]; [exists []; constructor|]. destruct IH as (ps & Hps); [intros; apply Hx; right; auto|].
          destruct (D_of v ia ib pa pb Ha Hb i) as (r & Er & _); [apply Hx; left; auto|]. exists (r :: ps). constructor; auto. }
        destruct Hps as (ps & Hps). exists ps. split; auto.
        destruct R as [|r0 R']; [cbn in Hl; lia|]. cbn in Hhd. subst r0.
        inversion Hps as [|? q ? qs Hq Hqs]; subst. assert (q = sp) by congruence. subst q.
        assert (Hndp : NoDup (sp :: qs)).
        { clear - HR Hps Hx Hinj. revert Hps. generalize (sp :: qs). revert HR Hx. generalize (s :: R'). induction l as [|i l IH]; intros HR Hx ps Hps; inversion Hps as [|? q ? qs' Hq Hqs']; subst; constructor.
          - intros Hin. inversion HR as [|? ? K _]; subst. destruct (picks_In v l qs' q Hqs' Hin) as (j & Hj & E). apply K.
            assert (i = j) by (apply (Hinj i j q); auto; apply Hx; cbn; auto). congruence.
          - inversion HR; subst. apply IH; auto. intros; apply Hx; right; auto. }
        assert (Hget : forall k i, nth_error (s :: R') k = Some i -> exists p, nth_error (sp :: qs) k = Some p /\ nth_error v i = Some p) by (intros; eapply picks_nth; eauto).
        apply cycle_points; auto.
        * intros ->. inversion Hqs; subst. cbn in Hl. lia.
        * intros x Hxx. destruct (picks_In v _ _ x Hps Hxx) as (i & Hi & E). destruct (D_of v ia ib pa pb Ha Hb i (Hx i Hi)) as (r & Er & Hd). congruence.
        * intros a b He.
          assert (Hpair : exists i j, In (i, j) (edges (s :: R')) /\ nth_error v i = Some a /\ nth_error v j = Some b).
          { clear - He Hps. unfold edges in *. assert (Hps2 : picks v (R' ++ [s]) (qs ++ [sp])).
            { inversion Hps; subst. apply picks_app; auto. constructor; auto. }
            revert Hps Hps2 He. generalize (s :: R') (R' ++ [s]) (sp :: qs) (qs ++ [sp]). intros l m ps ms H. revert m ms.
            induction H as [|i p l ps Hi H IH]; intros m ms Hm He; [destruct He|]. destruct Hm as [|j q m ms Hj Hm]; [destruct He|].
            destruct He as [E|He]; [injection E as <- <-; exists i, j; cbn; auto|]. destruct (IH m ms Hm He) as (i' & j' & K & K1 & K2). exists i', j'. cbn. auto. }
          destruct Hpair as (i & j & Hij & Ei & Ej).
          assert (G : medge v pa pb i j).
          { apply edges_In in Hij as [(X & Y & E)|[-> ->]]; [eapply Hch; eauto|auto]. }
          destruct G as (p & q & Ep & Eq & G). assert (p = a) by congruence. assert (q = b) by congruence. subst. auto.
  Qed.
  Lemma hulls_extend M D L : hulls M L -> incl M D -> (forall r, In r D -> hullpart M r) -> (forall r, In r D -> lex_le sp r) -> hulls D L.
  Proof.
    intros (H1 & H2 & ps & Hp & Hr) HM HD Hl. split; auto. split; auto. exists ps. split; auto. apply (result_extend M); auto.
    intros r Hr'. destruct L as [|l0 L]; [discriminate|]. cbn in H2. injection H2 as ->. inversion Hp as [|? q ? qs Hq Hqs]; subst. assert (q = sp) by congruence. subst q.
    destruct qs; cbn; auto.
  Qed.
  Lemma hulls_single : hulls [sp] [s].
  Proof.
    split; [intros i [<-|[]]; auto|]. split; auto. exists [sp]. split; [constructor; [auto|constructor]|]. cbn. apply hull_point; [left; auto|]. intros r [<-|[]]. auto.
  Qed.
  (* the identity with the hull of a chunk; D are the points of the chunk *)
  Lemma merge_one (D : list pt) h hp : picks v h hp -> incl h all -> ringlike hp -> h <> [] -> (forall r, In r D -> hullpart hp r) -> incl hp D -> (forall r, In r D -> lex_le sp r) ->
    exists L, combine_hulls fuel v [s] h = Val L /\ hulls (sp :: D) L.
  Proof.
    intros Hp Hi Hr Hne HD HhD Hl. destruct h as [|h0 h'] eqn:Eh; [congruence|]. rewrite <- Eh in *.
    assert (Hps : picks v [s] [sp]) by (constructor; [auto|constructor]).
    assert (Rs : ringlike [sp]).
    { split; [constructor; [intros []|constructor]|]. intros x y z [E1|[]] [<-|[]]; injection E1 as <- <-; congruence. }
    assert (Hle : forall r, In r (sp :: D) -> lex_le sp r) by (intros r [<-|Hr']; auto using lex_le_refl).
    destruct (Nat.eq_dec h0 s) as [->|Ns].
    - (* the chunk contains the lowest point *)
      destruct h' as [|h1 h''].
      + exists [s]. rewrite Eh. split; [apply op_single; assert (1 <= length all)%nat by (destruct all; [destruct Hsall|cbn; lia]); lia|].
        apply (hulls_extend [sp]); [apply hulls_single|intros x [<-|[]]; left; auto| |auto].
        intros r [<-|Hr']; [apply hullpart_In; left; auto|]. rewrite Eh in Hp. inversion Hp as [|? q ? qs Hq Hqs]; subst. inversion Hqs; subst. assert (q = sp) by congruence. subst q. auto.
      + exists h. assert (Hndh : NoDup h) by (eapply picks_NoDup; [exact Hp|apply Hr]).
        assert (Hlen := picks_length _ _ _ Hp).
        assert (Hnth : forall k a pa, nth_error h k = Some a -> nth_error v a = Some pa -> nth_error hp k = Some pa).
        { intros k a pa E1 E2. destruct (picks_nth _ _ _ _ _ Hp E1) as (q & -> & E). congruence. }
        assert (H0 : nth_error hp 0 = Some sp) by (apply (Hnth 0%nat s); auto; rewrite Eh; auto).
        assert (Hleft : forall k a b pa pb q, nth_error h (Datatypes.S k) = Some a -> nth_error h (Datatypes.S (Datatypes.S k)) = Some b ->
            nth_error v a = Some pa -> nth_error v b = Some pb -> nth_error v s = Some q -> point_orientation pa pb q = OLeft).
        { intros k a b pa pb q E1 E2 E3 E4 E5. assert (q = sp) by congruence. subst q.
          assert (K : 0 < orient sp pa pb) by (apply (ring_triple hp 0 (Datatypes.S k) (Datatypes.S (Datatypes.S k)) sp pa pb Hr); eauto; lia).
          rewrite orient_rot in K. destruct (orientation_cases pa pb sp) as [[? _]|[[_ K']|[_ K']]]; auto; lra. }
        assert (Hfirst : forall a b pa pb q, nth_error h 1 = Some a -> nth_error h 2 = Some b ->
            nth_error v a = Some pa -> nth_error v b = Some pb -> nth_error v s = Some q -> point_orientation q pa pb = OLeft).
        { intros a b pa pb q E1 E2 E3 E4 E5. assert (q = sp) by congruence. subst q.
          assert (K : 0 < orient sp pa pb) by (apply (ring_triple hp 0 1 2 sp pa pb Hr); eauto; lia).
          destruct (orientation_cases sp pa pb) as [[? _]|[[_ K']|[_ K']]]; auto; lra. }
        split.
        * apply (op_left v h s (h1 :: h'') Eh Hndh hp Hp (proj1 Hr) Hleft Hfirst); [|rewrite Eh; cbn; lia].
          apply Nat.le_trans with (length all); auto. apply NoDup_incl_length; auto.
        * split; auto. split; [rewrite Eh; auto|]. exists hp. split; auto.
          assert (Ehp : exists hp', hp = sp :: hp' /\ hp' <> []).
          { rewrite Eh in Hp. inversion Hp as [|? q ? qs Hq Hqs]; subst. assert (q = sp) by congruence. subst q. exists qs. split; auto. intros ->. inversion Hqs. }
          destruct Ehp as (hp' & Ehp & Hne').
          apply (result_extend hp); auto.
          -- (* the ring is its own hull *)
             rewrite Ehp in *. apply cycle_points; auto; [apply Hr|apply incl_refl|].
             intros a b He. assert (Hab : a <> b) by (eapply edge_ne; eauto; [apply Hr|destruct hp'; [congruence|cbn; lia]]). split; auto.
             intros r Hr'. destruct (pt_dec r a) as [->|Na]; [right; exists 0; rewrite lerp_0; split; [lra|auto]|].
             destruct (pt_dec r b) as [->|Nb]; [right; exists 1; rewrite lerp_1; split; [lra|auto]|]. left. apply (proj2 Hr a b r); auto.
          -- intros x Hx. right. auto.
          -- intros r [<-|Hr']; [apply hullpart_In; rewrite Ehp; left; auto|auto].
          -- intros r Hr'. rewrite Ehp. destruct hp'; [congruence|]. cbn. auto.
    - destruct (merge_hull [s] h [sp] hp Hps Hp Rs Hr) as (L & E & HL); auto.
      + intros i [<-|[]]; auto.
      + left. split; auto. exists h0, h'. auto.
      + exists L. split; auto. apply (hulls_extend ([sp] ++ hp)); auto.
        * intros x [<-|Hx]; [left; auto|right; auto].
        * intros r [<-|Hr']; [apply hullpart_In; left; auto|]. apply (hullpart_incl hp); [intros x Hx; right; auto|auto].
  Qed.
  Lemma merge_two DA DB ia ib : hulls DA ia -> hulls DB ib -> exists L, combine_hulls fuel v ia ib = Val L /\ hulls (DA ++ DB) L.
  Proof.
    intros (Ia & Ha & pa & Pa & Ra) (Ib & Hb & pb & Pb & Rb).
    destruct (result_cases _ _ Ra) as (Ra1 & Ra2 & Ra3 & Ra4 & Ra5). destruct (result_cases _ _ Rb) as (Rb1 & Rb2 & Rb3 & Rb4 & Rb5).
    destruct ia as [|a0 ia'] eqn:Ea; [discriminate|]. cbn in Ha. injection Ha as ->.
    destruct ib as [|b0 ib'] eqn:Eb; [discriminate|]. cbn in Hb. injection Hb as ->. rewrite <- Ea, <- Eb in *.
    assert (Epa : exists pa', pa = sp :: pa') by (rewrite Ea in Pa; inversion Pa; subst; eexists; f_equal; congruence).
    assert (Epb : exists pb', pb = sp :: pb') by (rewrite Eb in Pb; inversion Pb; subst; eexists; f_equal; congruence).
    destruct Epa as (pa' & Epa), Epb as (pb' & Epb).
    assert (HlA : forall r, In r DA -> lex_le sp r) by (intros r Hr; specialize (Ra4 r Hr); rewrite Epa in Ra4; auto).
    assert (HlB : forall r, In r DB -> lex_le sp r) by (intros r Hr; specialize (Rb4 r Hr); rewrite Epb in Rb4; auto).
    assert (Hl : forall r, In r (DA ++ DB) -> lex_le sp r) by (intros r Hr; apply in_app_iff in Hr as [Hr|Hr]; auto).
    destruct ia' as [|a1 ia''].
    - rewrite Ea. destruct (merge_one DB ib pb) as (L & E & HL); auto; [rewrite Eb; congruence|]. exists L. split; auto.
      assert (E1 : pa = [sp]).
      { rewrite Ea in Pa. inversion Pa as [|? q ? qs Hq Hqs]. inversion Hqs. congruence. }
      rewrite E1 in *. apply (hulls_extend (sp :: DB)); auto.
      + intros x [<-|Hx]; apply in_or_app; [left; apply Ra2; left; auto|right; auto].
      + intros r Hr. apply in_app_iff in Hr as [Hr|Hr]; [|apply hullpart_In; right; auto].
        apply (hullpart_incl [sp]); [intros x [<-|[]]; left; auto|auto].
    - destruct (merge_hull ia ib pa pb Pa Pb Ra1 Rb1) as (L & E & HL); auto.
      + rewrite Ea; auto.
      + right. rewrite Ea, Eb. cbn. split; [lia|auto].
      + exists L. split; auto. apply (hulls_extend (pa ++ pb)); auto.
        * intros x Hx. apply in_app_iff in Hx as [Hx|Hx]; apply in_or_app; auto.
        * intros r Hr. apply in_app_iff in Hr as [Hr|Hr]; [apply (hullpart_incl pa)|apply (hullpart_incl pb)]; auto; intros x Hx; apply in_or_app; auto.
  Qed.

  Definition chunk_hull (D : list pt) (h : list nat) : Prop :=
    exists hp, picks v h hp /\ incl h all /\ ringlike hp /\ h <> [] /\ (forall r, In r D -> hullpart hp r) /\ incl hp D /\ (forall r, In r D -> lex_le sp r).
  Lemma reduce_hulls : forall t Ds, one_each t -> Forall2 chunk_hull Ds (leaves t) ->
    exists L, reduce (combine_hulls fuel v) [s] t = Val L /\ hulls (sp :: concat Ds) L.
  Proof.
    induction t as [l|l IHl r IHr]; intros Ds Hsp' HF; cbn [leaves reduce one_each] in *.
    - destruct l as [|h [|h' l]]; [| |cbn in Hsp'; lia].
      + inversion HF; subst. exists [s]. split; auto. apply hulls_single.
      + inversion HF as [|D ? Ds' ? HC HN]; subst. inversion HN; subst. destruct HC as (hp & H1 & H2 & H3 & H4 & H5 & H6 & H7).
        destruct (merge_one D h hp) as (L & E & HL); auto. exists L. cbn [fold_left obind]. split; auto. cbn. rewrite app_nil_r. auto.
    - apply Forall2_app_inv_r in HF as (D1 & D2 & F1 & F2 & ->). destruct Hsp' as [S1 S2].
      destruct (IHl D1 S1 F1) as (L1 & E1 & H1). destruct (IHr D2 S2 F2) as (L2 & E2 & H2). rewrite E1, E2. cbn [obind].
      destruct (merge_two _ _ _ _ H1 H2) as (L & E & HL). exists L. split; auto.
      apply (hulls_extend ((sp :: concat D1) ++ (sp :: concat D2))); auto.
      + intros x Hx. rewrite concat_app. cbn in Hx. destruct Hx as [<-|Hx]; [left; auto|]. apply in_app_iff in Hx as [Hx|[<-|Hx]]; [right; apply in_or_app; auto|left; auto|right; apply in_or_app; auto].
      + intros x Hx. apply hullpart_In. rewrite concat_app in Hx. cbn. destruct Hx as [<-|Hx]; [left; auto|right]. apply in_app_iff in Hx as [Hx|Hx]; apply in_or_app; [left|right; right]; auto.
      + intros x [<-|Hx]; [apply lex_le_refl|]. rewrite concat_app in Hx.
        assert (HlD : forall Ds ls, Forall2 chunk_hull Ds ls -> forall x, In x (concat Ds) -> lex_le sp x).
        { intros Ds ls F. induction F as [|D h Ds ls (hp & _ & _ & _ & _ & _ & _ & K) F IH]; intros y Hy; [destruct Hy|]. cbn in Hy. apply in_app_iff in Hy as [Hy|Hy]; auto. }
        apply in_app_iff in Hx as [Hx|Hx]; eauto.
  Qed.
End Reduce.
