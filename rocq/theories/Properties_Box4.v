(* The bounding box of lines and hulls made from a line (C155), in exact arithmetic.
   Model: Geo2.v, Geo3.v, Simplify.v, Discretize.v, Hull.v; vocabulary: BoxSpec.v ([built2 a ps]: the box a results from public calls
   that added exactly the points ps), DiscSpec.v ([denser]). *)
From Coq Require Import Reals Lra Psatz.
From Verif Require Import Prelude Scalar RInst Geo2 Geo3 GeoSpec DistR BoxSpec BoxProofs DiscSpec Discretize DiscProofs DiscSym VwSpec Simplify Rdp1 RdpRefine HullSpec Hull HullMisc2 Properties_Box Properties_Rdp Properties_Vw Properties_Hull Properties_Disc Properties_Disc3 Properties_Denser.
Local Open Scope R_scope.

Lemma least_R (vs : list R) (lo : R) : least (S := RS) vs lo <-> In lo vs /\ forall v, In v vs -> lo <= v.
Proof. unfold least. split; intros [H1 H2]; (split; [exact H1|]); intros v Hv; specialize (H2 v Hv); apply Rltb_false; exact H2. Qed.
Lemma greatest_R (vs : list R) (hi : R) : greatest (S := RS) vs hi <-> In hi vs /\ forall v, In v vs -> v <= hi.
Proof. unfold greatest. split; intros [H1 H2]; (split; [exact H1|]); intros v Hv; specialize (H2 v Hv); apply Rltb_false; exact H2. Qed.
(* f has the same least value on l and m *)
Lemma same_least {A} (f : A -> R) (l m : list A) x y : (forall c, (forall q, In q l -> c <= f q) -> forall p, In p m -> c <= f p) -> incl l m ->
  least (S := RS) (map f l) x -> least (S := RS) (map f m) y -> x = y.
Proof.
  intros H Hi Hx Hy. apply least_R in Hx as [Ix Lx]. apply least_R in Hy as [Iy Ly]. apply in_map_iff in Ix as (p & <- & Ip). apply in_map_iff in Iy as (q & <- & Iq).
  apply Rle_antisym; [|apply Ly; apply in_map; auto]. apply H; auto. intros r Hr. apply Lx. apply in_map. auto.
Qed.
Lemma same_greatest {A} (f : A -> R) (l m : list A) x y : (forall c, (forall q, In q l -> f q <= c) -> forall p, In p m -> f p <= c) -> incl l m ->
  greatest (S := RS) (map f l) x -> greatest (S := RS) (map f m) y -> x = y.
Proof.
  intros H Hi Hx Hy. apply greatest_R in Hx as [Ix Lx]. apply greatest_R in Hy as [Iy Ly]. apply in_map_iff in Ix as (p & <- & Ip). apply in_map_iff in Iy as (q & <- & Iq).
  apply Rle_antisym; [apply Ly; apply in_map; auto|]. apply H; auto. intros r Hr. apply Lx. apply in_map. auto.
Qed.
(* every half plane with l contains m *)
Definition half_planes2 (l m : list pt) : Prop := forall u v c : R, (forall q : pt, In q l -> c <= u * vx q + v * vy q) -> forall p : pt, In p m -> c <= u * vx p + v * vy p.
Definition half_spaces3 (l m : list pt3) : Prop :=
  forall u v w c : R, (forall q : pt3, In q l -> c <= u * wx q + v * wy q + w * wz q) -> forall p : pt3, In p m -> c <= u * wx p + v * wy p + w * wz p.
Lemma boxed2 a ps : built2 (S := RS) a ps -> match a with None => ps = [] | Some mm => bounds2 ps mm end.
Proof. intros H. apply (built2_ok (S := RS) (fun _ => True) BoxOn_R a ps H). apply Forall_forall. intros; split; exact I. Qed.
Lemma boxed3 a ps : built3 (S := RS) a ps -> match a with None => ps = [] | Some mm => bounds3 ps mm end.
Proof. intros H. apply (built3_ok (S := RS) (fun _ => True) BoxOn_R a ps H). apply Forall_forall. intros; split; [|split]; exact I. Qed.
(* coordinates as half planes *)
Lemma coef2 (u v x y r : R) : u * x + v * y = r -> r = u * x + v * y. Proof. auto. Qed.
Lemma lower2 l m (f : pt -> R) u v : half_planes2 l m -> (forall p : pt, u * vx p + v * vy p = f p) ->
  forall c, (forall q, In q l -> c <= f q) -> forall p, In p m -> c <= f p.
Proof. intros H E c K p Hp. rewrite <- E. apply (H u v c); auto. intros q Hq. rewrite E. auto. Qed.
Lemma upper2 l m (f : pt -> R) u v : half_planes2 l m -> (forall p : pt, u * vx p + v * vy p = - f p) ->
  forall c, (forall q, In q l -> f q <= c) -> forall p, In p m -> f p <= c.
Proof. intros H E c K p Hp. apply Ropp_le_cancel. rewrite <- E. apply (H u v (- c)); auto. intros q Hq. rewrite E. apply Ropp_le_contravar. auto. Qed.
Lemma lower3 l m (f : pt3 -> R) u v w : half_spaces3 l m -> (forall p : pt3, u * wx p + v * wy p + w * wz p = f p) ->
  forall c, (forall q, In q l -> c <= f q) -> forall p, In p m -> c <= f p.
Proof. intros H E c K p Hp. rewrite <- E. apply (H u v w c); auto. intros q Hq. rewrite E. auto. Qed.
Lemma upper3 l m (f : pt3 -> R) u v w : half_spaces3 l m -> (forall p : pt3, u * wx p + v * wy p + w * wz p = - f p) ->
  forall c, (forall q, In q l -> f q <= c) -> forall p, In p m -> f p <= c.
Proof. intros H E c K p Hp. apply Ropp_le_cancel. rewrite <- E. apply (H u v w (- c)); auto. intros q Hq. rewrite E. apply Ropp_le_contravar. auto. Qed.
Lemma co2 (u v x y r : R) : (u = 1 /\ v = 0 /\ r = x) \/ (u = 0 /\ v = 1 /\ r = y) \/ (u = -1 /\ v = 0 /\ r = - x) \/ (u = 0 /\ v = -1 /\ r = - y) -> u * x + v * y = r.
Proof. intros [(-> & -> & ->)|[(-> & -> & ->)|[(-> & -> & ->)|(-> & -> & ->)]]]; ring. Qed.
Lemma co3 (u v w x y z r : R) : (u = 1 /\ v = 0 /\ w = 0 /\ r = x) \/ (u = 0 /\ v = 1 /\ w = 0 /\ r = y) \/ (u = 0 /\ v = 0 /\ w = 1 /\ r = z) \/
  (u = -1 /\ v = 0 /\ w = 0 /\ r = - x) \/ (u = 0 /\ v = -1 /\ w = 0 /\ r = - y) \/ (u = 0 /\ v = 0 /\ w = -1 /\ r = - z) -> u * x + v * y + w * z = r.
Proof. intros [(-> & -> & -> & ->)|[(-> & -> & -> & ->)|[(-> & -> & -> & ->)|[(-> & -> & -> & ->)|[(-> & -> & -> & ->)|(-> & -> & -> & ->)]]]]]; ring. Qed.
Ltac pk := first [solve [repeat split; reflexivity]|solve [left; repeat split; reflexivity]|right; pk].
Lemma same_box2 (l m : list pt) a b : half_planes2 l m -> incl l m -> (l = [] <-> m = []) -> built2 (S := RS) a l -> built2 (S := RS) b m -> a = b.
Proof.
  intros H Hi He Ha Hb. apply boxed2 in Ha, Hb. destruct a as [[lo hi]|], b as [[lo' hi']|]; auto.
  - destruct Ha as (A1 & A2 & A3 & A4), Hb as (B1 & B2 & B3 & B4). cbn [fst snd] in *. f_equal. f_equal; apply V2_ext.
    + refine (same_least (fun p : pt => vx p) l m _ _ _ Hi A1 B1). apply (lower2 l m _ 1 0 H). intros p. apply co2. pk.
    + refine (same_least (fun p : pt => vy p) l m _ _ _ Hi A2 B2). apply (lower2 l m _ 0 1 H). intros p. apply co2. pk.
    + refine (same_greatest (fun p : pt => vx p) l m _ _ _ Hi A3 B3). apply (upper2 l m _ (-1) 0 H). intros p. apply co2. pk.
    + refine (same_greatest (fun p : pt => vy p) l m _ _ _ Hi A4 B4). apply (upper2 l m _ 0 (-1) H). intros p. apply co2. pk.
  - exfalso. apply He in Hb. subst l. destruct Ha as ([[] _] & _).
  - exfalso. apply He in Ha. subst m. destruct Hb as ([[] _] & _).
Qed.
Lemma same_box3 (l m : list pt3) a b : half_spaces3 l m -> incl l m -> (l = [] <-> m = []) -> built3 (S := RS) a l -> built3 (S := RS) b m -> a = b.
Proof.
  intros H Hi He Ha Hb. apply boxed3 in Ha, Hb. destruct a as [[lo hi]|], b as [[lo' hi']|]; auto.
  - destruct Ha as (A1 & A2 & A3 & A4 & A5 & A6), Hb as (B1 & B2 & B3 & B4 & B5 & B6). cbn [fst snd] in *. f_equal. f_equal; apply V3_ext.
    + refine (same_least (fun p : pt3 => wx p) l m _ _ _ Hi A1 B1). apply (lower3 l m _ 1 0 0 H). intros p. apply co3. pk.
    + refine (same_least (fun p : pt3 => wy p) l m _ _ _ Hi A2 B2). apply (lower3 l m _ 0 1 0 H). intros p. apply co3. pk.
    + refine (same_least (fun p : pt3 => wz p) l m _ _ _ Hi A3 B3). apply (lower3 l m _ 0 0 1 H). intros p. apply co3. pk.
    + refine (same_greatest (fun p : pt3 => wx p) l m _ _ _ Hi A4 B4). apply (upper3 l m _ (-1) 0 0 H). intros p. apply co3. pk.
    + refine (same_greatest (fun p : pt3 => wy p) l m _ _ _ Hi A5 B5). apply (upper3 l m _ 0 (-1) 0 H). intros p. apply co3. pk.
    + refine (same_greatest (fun p : pt3 => wz p) l m _ _ _ Hi A6 B6). apply (upper3 l m _ 0 0 (-1) H). intros p. apply co3. pk.
  - exfalso. apply He in Hb. subst l. destruct Ha as ([[] _] & _).
  - exfalso. apply He in Ha. subst m. destruct Hb as ([[] _] & _).
Qed.
(* points on the edges *)
Lemma mix (c x y t : R) : 0 < t < 1 -> c <= x -> c <= y -> c <= x + t * (y - x).
Proof. intros Ht Hx Hy. assert (0 <= t * (y - c)) by (apply Rmult_le_pos; lra). assert (0 <= (1 - t) * (x - c)) by (apply Rmult_le_pos; lra). lra. Qed.
Lemma denser_all {A} (along : A -> A -> R -> A) (P : A -> Prop) l m : (forall a b t, 0 < t < 1 -> P a -> P b -> P (along a b t)) -> denser along l m ->
  (forall q, In q l -> P q) -> forall p, In p m -> P p.
Proof.
  intros HP. induction 1 as [|a|a b rest ins m Hi Hd IH]; intros H p Hp; auto. destruct Hp as [<-|Hp]; [apply H; left; auto|].
  apply in_app_or in Hp as [Hp|Hp]; [|apply IH; auto; intros q Hq; apply H; right; auto].
  apply (proj1 (Forall_forall _ _) Hi) in Hp as (t & Ht & ->). apply HP; auto; apply H; [left|right; left]; auto.
Qed.
Lemma denser_incl {A} (along : A -> A -> R -> A) l m : denser along l m -> incl l m.
Proof. induction 1 as [|a|a b rest ins m Hi Hd IH]; intros x Hx; auto. destruct Hx as [->|Hx]; [left; auto|]. right. apply in_or_app. right. apply IH. auto. Qed.
Lemma denser_nil {A} (along : A -> A -> R -> A) l m : denser along l m -> (l = [] <-> m = []).
Proof. intros H. destruct H; split; intros; auto; discriminate. Qed.
Lemma plane_line (u v a1 a2 b1 b2 t : R) : u * (a1 + t * (b1 - a1)) + v * (a2 + t * (b2 - a2)) = (u * a1 + v * a2) + t * ((u * b1 + v * b2) - (u * a1 + v * a2)).
Proof. ring. Qed.
Lemma space_line (u v w a1 a2 a3 b1 b2 b3 t : R) : u * (a1 + t * (b1 - a1)) + v * (a2 + t * (b2 - a2)) + w * (a3 + t * (b3 - a3)) =
  (u * a1 + v * a2 + w * a3) + t * ((u * b1 + v * b2 + w * b3) - (u * a1 + v * a2 + w * a3)).
Proof. ring. Qed.
(* ---- C155: additional points on the edges; discretizing ---- *)
Theorem C155_box_of_denser_line :
  (forall (l m : list pt) a b, denser lerp l m -> built2 (S := RS) a l -> built2 (S := RS) b m -> a = b) /\
  (forall (l m : list pt3) a b, denser lerp3 l m -> built3 (S := RS) a l -> built3 (S := RS) b m -> a = b).
Proof.
  split; intros l m a b D.
  - apply same_box2; [|apply (denser_incl _ _ _ D)|apply (denser_nil _ _ _ D)]. intros u v c. apply (denser_all lerp (fun p : pt => c <= u * vx p + v * vy p) l m); auto.
    intros p q t Ht Hp Hq. eapply Rle_trans; [apply (mix c _ _ t Ht Hp Hq)|]. right. symmetry. apply plane_line.
  - apply same_box3; [|apply (denser_incl _ _ _ D)|apply (denser_nil _ _ _ D)]. intros u v w c. apply (denser_all lerp3 (fun p : pt3 => c <= u * wx p + v * wy p + w * wz p) l m); auto.
    intros p q t Ht Hp Hq. eapply Rle_trans; [apply (mix c _ _ t Ht Hp Hq)|]. right. symmetry. apply space_line.
Qed.
Print Assumptions C155_box_of_denser_line.
Theorem C155_box_of_discretized_line : forall step : R, 0 < step ->
  (forall (l m : list pt) a b, yields (dnext2 (S := RS) l step) dnew2 m -> built2 (S := RS) a l -> built2 (S := RS) b m -> a = b) /\
  (forall (l m : list pt3) a b, yields (dnext3 (S := RS) l step) dnew3 m -> built3 (S := RS) a l -> built3 (S := RS) b m -> a = b).
Proof.
  intros step Hs. destruct (C153_discretize_adds_points step Hs) as [D2 D3]. destruct C155_box_of_denser_line as [B2 B3]. split; intros l m a b Y; [apply B2|apply B3]; auto.
Qed.
Print Assumptions C155_box_of_discretized_line.
(* ---- the convex hull ---- *)
Lemma le0 (x y : R) : x <= y <-> 0 <= y - x.
Proof. lra. Qed.
Lemma hull_planes pts vs : hull_result pts vs -> half_planes2 vs pts /\ incl vs pts /\ vs <> [].
Proof.
  intros H. destruct H as [v t (Hi & Hc & Hin) Hl|x y Hxy Hx Hy Hs Hl|x Hx Hall].
  - split; [|split; [|discriminate]].
    + intros a b c K p Hp. 
      (* orient of two points on the bounding line is the linear form *)
      destruct (Req_dec (a * a + b * b) 0) as [Z|N].
      { assert (a = 0 /\ b = 0) as [-> ->] by nra. specialize (K v (or_introl eq_refl)). rewrite !Rmult_0_l in *. exact K. }
      set (n := a * a + b * b) in *. assert (Hn : 0 < n) by (assert (0 <= n) by (unfold n; nra); lra).
      set (o := @mkV2 RS (c * a / n) (c * b / n)). set (o' := @mkV2 RS (c * a / n + b) (c * b / n - a)).
      assert (O : forall q : pt, orient o o' q = a * vx q + b * vy q - c).
      { intros q. unfold orient, o, o'. cbn [vx vy]. change (@eq R ((c * a / n + b - c * a / n) * (vy q - c * b / n) - (c * b / n - a - c * b / n) * (vx q - c * a / n)) (a * vx q + b * vy q - c)).
        generalize (vx q : R) (vy q : R). intros x y. assert (E : c * a / n * a + c * b / n * b = c) by (unfold n; field; exact N). lra. }
      assert (X : 0 <= orient o o' p).
      { apply (inside_minimal (v :: t)); auto. intros q Hq. rewrite O. apply (proj1 (le0 _ _)). apply K. right. apply in_or_app. destruct Hq as [<-|Hq]; [right; left; auto|left; auto]. }
      rewrite O in X. exact (proj2 (le0 _ _) X).
    + intros p [<-|Hp]; [apply Hi; left; auto|]. apply in_app_or in Hp as [Hp|[<-|[]]]; apply Hi; [right|left]; auto.
  - split; [|split; [|discriminate]].
    + intros a b c K p Hp. destruct (Hs p Hp) as (t & Ht & ->). assert (Kx := K x (or_introl eq_refl)). assert (Ky := K y (or_intror (or_introl eq_refl))).
      refine (Rle_trans _ _ _ _ (Req_le _ _ (eq_sym (plane_line a b (vx x) (vy x) (vx y) (vy y) t)))). revert Kx Ky. generalize (a * vx x + b * vy x) (a * vx y + b * vy y). intros r s Kx Ky.
      assert (0 <= t * (s - c)) by (apply Rmult_le_pos; lra). assert (0 <= (1 - t) * (r - c)) by (apply Rmult_le_pos; lra). lra.
    + intros p [<-|[<-|[<-|[]]]]; auto.
  - split; [|split; [|discriminate]].
    + intros a b c K p Hp. rewrite (Hall p Hp). apply K. left. auto.
    + intros p [<-|[]]. auto.
Qed.
Theorem C155_box_of_hull : forall (pts vs : list pt) a b, enough pts -> graham_scan pts (Val vs) -> built2 (S := RS) a pts -> built2 (S := RS) b vs -> a = b.
Proof.
  intros pts vs a b He H Ha Hb. destruct (C46_graham_scan_is_hull pts _ He H) as (w & E & Hr). injection E as <-. destruct (hull_planes pts vs Hr) as (Hp & Hi & Hn).
  symmetry. apply (same_box2 vs pts); auto. split; intros K; [congruence|]. subst pts. destruct He as (? & ? & ? & K & _). discriminate.
Qed.
Print Assumptions C155_box_of_hull.

(* ---- simplified lines ---- *)
Lemma near_coord (p q : pt) d : edist p q <= d -> Rabs (vx p - vx q) <= d /\ Rabs (vy p - vy q) <= d.
Proof.
  unfold edist, sqdist. generalize (vx p - vx q : R) (vy p - vy q : R). intros x y H. pose proof (Rle_0_sqr x) as X. pose proof (Rle_0_sqr y) as Y. unfold Rsqr in X, Y.
  split; (eapply Rle_trans; [|exact H]); rewrite <- sqrt_Rsqr_abs; unfold Rsqr; apply sqrt_le_1_alt; lra.
Qed.
Theorem C155_box_of_simplified : forall (pts out : list pt) (d : R) a b, 0 <= d -> simplify_rdp_2d pts d = Val out ->
  built2 (S := RS) a pts -> built2 (S := RS) b out ->
  (pts <> [] -> aabb2_contains_aabb a b = true) /\
  forall lo hi lo' hi', a = Some (lo, hi) -> b = Some (lo', hi') ->
    (vx lo <= vx lo' <= vx lo + d /\ vy lo <= vy lo' <= vy lo + d) /\ (vx hi - d <= vx hi' <= vx hi /\ vy hi - d <= vy hi' <= vy hi).
Proof.
  intros pts out d a b Hd E Ha Hb. destruct (proj1 (C07_rdp_subsequence RS) pts d) as (o & E' & Hs & _ & _ & H2 & H3). rewrite E in E'. injection E' as <-.
  assert (Hi : incl out pts) by (clear -Hs; induction Hs as [|x l m H IH|x l m H IH]; intros y Hy; [auto|destruct Hy as [->|Hy]; [left; auto|right; auto]|right; auto]).
  assert (Near : forall p, In p pts -> exists q, edist p q <= d /\ exists x y t, In x out /\ In y out /\ 0 <= t <= 1 /\ q = lerp x y t).
  { intros p Hp. destruct (le_lt_dec 2 (length pts)) as [L|L].
    - destruct (C08_rdp_tolerance pts d out Hd L E) as [H _]. destruct (H p Hp) as (x & y & q & Hw & (t & Ht & Hq) & Hn). exists q. split; auto. exists x, y, t.
      split; [|split]; auto; clear -Hw; induction out as [|u [|v l] IH]; cbn [windows] in Hw; try contradiction; (destruct Hw as [Z|Hw]; [injection Z as <- <-; cbn; auto|right; apply IH; auto]).
    - rewrite (H2 ltac:(lia)). exists p. split; [unfold edist, sqdist; match goal with |- sqrt ?e <= _ => replace e with 0; [rewrite sqrt_0; auto|] end; rring|]. exists p, p, 0. split; auto. split; auto. split; [lra|]. rewrite (proj1 (lerp_ends p p)). auto. }
  split.
  - intros Hne. destruct (proj1 (C20_aabb_contains RS (fun _ => True) BoxOn_R) a pts Ha ltac:(apply Forall_forall; intros; split; exact I)) as (_ & _ & H). apply (H b out Hb); auto.
    intros ->. destruct pts as [|p [|p' pts]]; [congruence|assert (Z := H2 ltac:(cbn; lia)); discriminate|cbn in H3; specialize (H3 ltac:(lia)); lia].
  - intros lo hi lo' hi' -> ->. apply boxed2 in Ha, Hb. destruct Ha as (A1 & A2 & A3 & A4), Hb as (B1 & B2 & B3 & B4). cbn [fst snd] in *.
    assert (LoW : forall f : pt -> R, (forall p q, edist p q <= d -> Rabs (f p - f q) <= d) -> (forall x y t, f (lerp x y t) = f x + t * (f y - f x)) ->
      forall l l', least (S := RS) (map f pts) l -> least (S := RS) (map f out) l' -> l <= l' <= l + d).
    { intros f F1 F2 l l' Il Il'. apply least_R in Il as [Il Ll]. apply least_R in Il' as [Il' Ll']. split.
      - apply in_map_iff in Il' as (q & <- & Hq). apply Ll. apply in_map. auto.
      - apply in_map_iff in Il as (p & <- & Hp). destruct (Near p Hp) as (q & Hn & x & y & t & Hx & Hy & Ht & ->). apply F1 in Hn. rewrite F2 in Hn.
        assert (l' <= f x) by (apply Ll'; apply in_map; auto). assert (l' <= f y) by (apply Ll'; apply in_map; auto).
        assert (0 <= t * (f y - l')) by (apply Rmult_le_pos; lra). assert (0 <= (1 - t) * (f x - l')) by (apply Rmult_le_pos; lra).
        apply Rabs_le_inv in Hn || (assert (Hn' := Rle_trans _ _ _ (Rle_abs (- (f p - (f x + t * (f y - f x))))) ltac:(rewrite Rabs_Ropp; exact Hn))). lra. }
    assert (HiW : forall f : pt -> R, (forall p q, edist p q <= d -> Rabs (f p - f q) <= d) -> (forall x y t, f (lerp x y t) = f x + t * (f y - f x)) ->
      forall l l', greatest (S := RS) (map f pts) l -> greatest (S := RS) (map f out) l' -> l - d <= l' <= l).
    { intros f F1 F2 l l' Il Il'. apply greatest_R in Il as [Il Ll]. apply greatest_R in Il' as [Il' Ll']. split.
      - apply in_map_iff in Il as (p & <- & Hp). destruct (Near p Hp) as (q & Hn & x & y & t & Hx & Hy & Ht & ->). apply F1 in Hn. rewrite F2 in Hn.
        assert (f x <= l') by (apply Ll'; apply in_map; auto). assert (f y <= l') by (apply Ll'; apply in_map; auto).
        assert (0 <= t * (l' - f y)) by (apply Rmult_le_pos; lra). assert (0 <= (1 - t) * (l' - f x)) by (apply Rmult_le_pos; lra).
        assert (Hn' := Rle_trans _ _ _ (Rle_abs _) Hn). lra.
      - apply in_map_iff in Il' as (q & <- & Hq). apply Ll. apply in_map. auto. }
    split; split.
    + exact (LoW (fun p : pt => vx p) (fun p q H => proj1 (near_coord p q d H)) (fun x y t => eq_refl) _ _ A1 B1).
    + exact (LoW (fun p : pt => vy p) (fun p q H => proj2 (near_coord p q d H)) (fun x y t => eq_refl) _ _ A2 B2).
    + exact (HiW (fun p : pt => vx p) (fun p q H => proj1 (near_coord p q d H)) (fun x y t => eq_refl) _ _ A3 B3).
    + exact (HiW (fun p : pt => vy p) (fun p q H => proj2 (near_coord p q d H)) (fun x y t => eq_refl) _ _ A4 B4).
Qed.
Print Assumptions C155_box_of_simplified.
Example C155_hypotheses_met : built2 (S := RS) (aabb2_with_points [@mkV2 RS 0 0; @mkV2 RS 4 1]) [@mkV2 RS 0 0; @mkV2 RS 4 1] /\
  denser lerp [@mkV2 RS 0 0; @mkV2 RS 4 1] [@mkV2 RS 0 0; @mkV2 RS 2 (1 / 2); @mkV2 RS 4 1].
Proof.
  split; [constructor|]. change (denser lerp [@mkV2 RS 0 0; @mkV2 RS 4 1] (@mkV2 RS 0 0 :: [@mkV2 RS 2 (1 / 2)] ++ [@mkV2 RS 4 1])). constructor; [|constructor].
  constructor; [|constructor]. exists (1 / 2). split; [lra|]. unfold lerp. apply V2_ext; cbn; lra.
Qed.
