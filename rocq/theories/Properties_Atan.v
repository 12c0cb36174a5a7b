(* The indexed Graham scan and the parallel hull in f64 and f32 (C134), and the three scans with an accurate atan2 (C135).
   Vocabulary: FloatSpec.v ([grid64], [value64], [same_angle_order]), HullSpec.v ([picks], [ring_of], [hull_result]), AtanSpec.v
   ([accurate_atan2], [angle_grid64]). [listed vertices indices p]: p is one of the vertices the indices refer to. *)
From Coq Require Import ZArith Reals Lra Lia Psatz Floats.SpecFloat Sorting.Permutation Sorting.Sorted.
From Flocq Require Import Core BinarySingleNaN.
From Verif Require Import Prelude Scalar RInst Flt FloatSpec FloatLink FloatGrid FloatHull FloatPar AtanSpec AtanSep AtanBad Geo2 GeoSpec DistR Hull HullSpec HullGeo HullAny HullMisc HullMisc2 HullMerge3 Properties_Hull Properties_Float.
Local Open Scope R_scope.

Lemma picks_length_ v is ps : picks v is ps -> length is = length ps.
Proof. intros H. induction H; cbn; auto. Qed.

(* ---- C134, f64 ---- *)
Theorem C134_indexed_graham_exact_f64 : forall at2 s (vertices : list (V2 (F64 at2))) indices opn pts r, Forall (grid64 s) vertices ->
  (forall st p q, listed vertices indices st -> listed vertices indices p -> listed vertices indices q ->
     lex_le (value64 st) (value64 p) -> lex_le (value64 st) (value64 q) -> @same_angle_order 53 1024 (-52) at2 st p q) ->
  ring_of indices opn -> picks (map value64 vertices) opn pts -> NoDup pts -> (4 <= length pts)%nat ->
  indexed_graham_scan vertices indices r ->
  exists out vs, r = Val out /\ picks (map value64 vertices) out vs /\ hull_result pts vs.
Proof.
  intros at2 s vertices indices opn pts r Hg Ha Hr Hp Hn Hl. assert (Hne : vertices <> []).
  { intros ->. destruct Hp as [|i p is ps Hi _]; [cbn in Hl; lia|]. destruct i; discriminate. }
  destruct (grid64_all at2 s vertices Hne Hg) as [OK G]. exact (gen_indexed_graham _ _ _ _ _ OK at2 vertices indices opn pts r G Ha Hr Hp Hn Hl).
Qed.
Print Assumptions C134_indexed_graham_exact_f64.
Theorem C134_parallel_hull_exact_f64_partial : forall at2 s (vertices : list (V2 (F64 at2))) indices pts fuel chunk t r, Forall (grid64 s) vertices ->
  (forall st p q, listed vertices indices st -> listed vertices indices p -> listed vertices indices q ->
     lex_le (value64 st) (value64 p) -> lex_le (value64 st) (value64 q) -> @same_angle_order 53 1024 (-52) at2 st p q) ->
  picks (map value64 vertices) (drop_loop_index indices) pts -> NoDup pts -> (length pts <= fuel)%nat ->
  (forall c a b d, In c (chunks (length (drop_loop_index indices)) chunk (drop_loop_index indices)) -> picks (map value64 vertices) c [a; b; d] -> orient a b d <> 0) ->
  one_each t -> convex_hull_par_by t fuel vertices indices chunk r ->
  exists out vs, r = Val out /\ picks (map value64 vertices) out vs /\ hull_result pts vs.
Proof.
  intros at2 s vertices indices pts fuel chunk t r Hg Ha Hp Hn Hf Hc Ho Hr. assert (Hne : vertices <> []).
  { intros ->. destruct Hr as (L & _). rewrite (picks_length_ _ _ _ Hp) in L. destruct Hp as [|i p is ps Hi _]; [cbn in L; lia|]. destruct i; discriminate. }
  destruct (grid64_all at2 s vertices Hne Hg) as [OK G]. exact (gen_par _ _ _ _ _ OK at2 vertices indices pts fuel chunk t r G Ha Hp Hn Hf Hc Ho Hr).
Qed.
Print Assumptions C134_parallel_hull_exact_f64_partial.

(* ---- C134, f32 ---- *)
Theorem C134_indexed_graham_exact_f32 : forall at2 s (vertices : list (V2 (F32 at2))) indices opn pts r, Forall (grid32 s) vertices ->
  (forall st p q, listed vertices indices st -> listed vertices indices p -> listed vertices indices q ->
     lex_le (value32 st) (value32 p) -> lex_le (value32 st) (value32 q) -> @same_angle_order 24 128 (-23) at2 st p q) ->
  ring_of indices opn -> picks (map value32 vertices) opn pts -> NoDup pts -> (4 <= length pts)%nat ->
  indexed_graham_scan vertices indices r ->
  exists out vs, r = Val out /\ picks (map value32 vertices) out vs /\ hull_result pts vs.
Proof.
  intros at2 s vertices indices opn pts r Hg Ha Hr Hp Hn Hl. assert (Hne : vertices <> []).
  { intros ->. destruct Hp as [|i p is ps Hi _]; [cbn in Hl; lia|]. destruct i; discriminate. }
  destruct (grid32_all at2 s vertices Hne Hg) as [OK G]. exact (gen_indexed_graham _ _ _ _ _ OK at2 vertices indices opn pts r G Ha Hr Hp Hn Hl).
Qed.
Print Assumptions C134_indexed_graham_exact_f32.
Theorem C134_parallel_hull_exact_f32_partial : forall at2 s (vertices : list (V2 (F32 at2))) indices pts fuel chunk t r, Forall (grid32 s) vertices ->
  (forall st p q, listed vertices indices st -> listed vertices indices p -> listed vertices indices q ->
     lex_le (value32 st) (value32 p) -> lex_le (value32 st) (value32 q) -> @same_angle_order 24 128 (-23) at2 st p q) ->
  picks (map value32 vertices) (drop_loop_index indices) pts -> NoDup pts -> (length pts <= fuel)%nat ->
  (forall c a b d, In c (chunks (length (drop_loop_index indices)) chunk (drop_loop_index indices)) -> picks (map value32 vertices) c [a; b; d] -> orient a b d <> 0) ->
  one_each t -> convex_hull_par_by t fuel vertices indices chunk r ->
  exists out vs, r = Val out /\ picks (map value32 vertices) out vs /\ hull_result pts vs.
Proof.
  intros at2 s vertices indices pts fuel chunk t r Hg Ha Hp Hn Hf Hc Ho Hr. assert (Hne : vertices <> []).
  { intros ->. destruct Hr as (L & _). rewrite (picks_length_ _ _ _ Hp) in L. destruct Hp as [|i p is ps Hi _]; [cbn in L; lia|]. destruct i; discriminate. }
  destruct (grid32_all at2 s vertices Hne Hg) as [OK G]. exact (gen_par _ _ _ _ _ OK at2 vertices indices pts fuel chunk t r G Ha Hp Hn Hf Hc Ho Hr).
Qed.
Print Assumptions C134_parallel_hull_exact_f32_partial.

(* ---- C135, f64: with an atan2 that is accurate to one unit in the last place of 1 and depends only on the exact angle ---- *)
Lemma angle_all64 at2 s (l : list (V2 (F64 at2))) : l <> [] -> Forall (angle_grid64 s) l ->
  format_ok 53 1024 (-52) s (2 ^ 23) /\ Forall (@grid_point 53 1024 (-52) at2 s (2 ^ 23)) l /\ forall p, In p l -> @no_neg_zero 53 1024 (-52) at2 p.
Proof.
  intros Hn H. split; [|split; [eapply Forall_impl; [|exact H]; intros p (_ & K & _); exact K|intros p Hp; rewrite Forall_forall in H; apply (H p Hp)]].
  destruct H as [|p l (Hs & _) _]; [congruence|]. split; unfold Prec_gt_0, Prec_lt_emax, scale_ok, SpecFloat.emin; lia.
Qed.
Lemma order64 at2 s (st p q : V2 (F64 at2)) : accurate_atan2 53 1024 (bpow radix2 (-52)) at2 -> angle_grid64 s st -> angle_grid64 s p -> angle_grid64 s q ->
  lex_le (value64 st) (value64 p) -> lex_le (value64 st) (value64 q) -> @same_angle_order 53 1024 (-52) at2 st p q.
Proof.
  intros Ha Hs Hp Hq L1 L2. destruct (angle_all64 at2 s [st]) as (OK & _); [discriminate|constructor; auto|].
  destruct Hs as (_ & Gs & _), Hp as (_ & Gp & Np), Hq as (_ & Gq & Nq).
  apply (accurate_order _ _ _ _ _ OK at2 _ st p q Ha); auto; [lia|]. replace (IZR (2 ^ 23)) with (bpow radix2 23) by (cbn; lra). rewrite <- bpow_plus. cbn. lra.
Qed.
Theorem C135_graham_scan_f64 : forall at2 s (pts : list (V2 (F64 at2))) r, accurate_atan2 53 1024 (bpow radix2 (-52)) at2 ->
  Forall (angle_grid64 s) pts -> enough (map value64 pts) ->
  graham_scan pts r -> exists vs, r = Val vs /\ incl vs pts /\ hull_result (map value64 pts) (map value64 vs).
Proof.
  intros at2 s pts r Ha Hg He. assert (Hne : pts <> []) by (intros ->; destruct He as (a & m & b & E & _); discriminate).
  destruct (angle_all64 at2 s pts Hne Hg) as (OK & G & _). apply (gen_graham _ _ _ _ _ OK at2 pts r G He).
  rewrite Forall_forall in Hg. intros st p q Is Ip Iq Hm. apply (order64 at2 s); auto; apply Hm; auto.
Qed.
Print Assumptions C135_graham_scan_f64.
Lemma listed_order64 at2 s (vertices : list (V2 (F64 at2))) indices : accurate_atan2 53 1024 (bpow radix2 (-52)) at2 -> Forall (angle_grid64 s) vertices ->
  angles_ok 53 1024 (-52) at2 vertices indices.
Proof.
  intros Ha Hg st p q (i & _ & Ei) (j & _ & Ej) (k & _ & Ek) L1 L2. rewrite Forall_forall in Hg.
  apply nth_error_In in Ei, Ej, Ek. apply (order64 at2 s); auto.
Qed.
Theorem C135_indexed_graham_f64 : forall at2 s (vertices : list (V2 (F64 at2))) indices opn pts r, accurate_atan2 53 1024 (bpow radix2 (-52)) at2 ->
  Forall (angle_grid64 s) vertices -> ring_of indices opn -> picks (map value64 vertices) opn pts -> NoDup pts -> (4 <= length pts)%nat ->
  indexed_graham_scan vertices indices r ->
  exists out vs, r = Val out /\ picks (map value64 vertices) out vs /\ hull_result pts vs.
Proof.
  intros at2 s vertices indices opn pts r Ha Hg Hr Hp Hn Hl. assert (Hne : vertices <> []).
  { intros ->. destruct Hp as [|i p is ps Hi _]; [cbn in Hl; lia|]. destruct i; discriminate. }
  destruct (angle_all64 at2 s vertices Hne Hg) as (OK & G & _).
  exact (gen_indexed_graham _ _ _ _ _ OK at2 vertices indices opn pts r G (listed_order64 at2 s vertices indices Ha Hg) Hr Hp Hn Hl).
Qed.
Print Assumptions C135_indexed_graham_f64.
Theorem C135_parallel_hull_f64_partial : forall at2 s (vertices : list (V2 (F64 at2))) indices pts fuel chunk t r, accurate_atan2 53 1024 (bpow radix2 (-52)) at2 ->
  Forall (angle_grid64 s) vertices -> picks (map value64 vertices) (drop_loop_index indices) pts -> NoDup pts -> (length pts <= fuel)%nat ->
  (forall c a b d, In c (chunks (length (drop_loop_index indices)) chunk (drop_loop_index indices)) -> picks (map value64 vertices) c [a; b; d] -> orient a b d <> 0) ->
  one_each t -> convex_hull_par_by t fuel vertices indices chunk r ->
  exists out vs, r = Val out /\ picks (map value64 vertices) out vs /\ hull_result pts vs.
Proof.
  intros at2 s vertices indices pts fuel chunk t r Ha Hg Hp Hn Hf Hc Ho Hr. assert (Hne : vertices <> []).
  { intros ->. destruct Hr as (L & _). rewrite (picks_length_ _ _ _ Hp) in L. destruct Hp as [|i p is ps Hi _]; [cbn in L; lia|]. destruct i; discriminate. }
  destruct (angle_all64 at2 s vertices Hne Hg) as (OK & G & _).
  exact (gen_par _ _ _ _ _ OK at2 vertices indices pts fuel chunk t r G (listed_order64 at2 s vertices indices Ha Hg) Hp Hn Hf Hc Ho Hr).
Qed.
Print Assumptions C135_parallel_hull_f64_partial.
(* ---- C135, f32: with an atan2 that is accurate to one unit in the last place of 1 and depends only on the exact angle ---- *)
Lemma angle_all32 at2 s (l : list (V2 (F32 at2))) : l <> [] -> Forall (angle_grid32 s) l ->
  format_ok 24 128 (-23) s 724 /\ Forall (@grid_point 24 128 (-23) at2 s 724) l /\ forall p, In p l -> @no_neg_zero 24 128 (-23) at2 p.
Proof.
  intros Hn H. split; [|split; [eapply Forall_impl; [|exact H]; intros p (_ & K & _); exact K|intros p Hp; rewrite Forall_forall in H; apply (H p Hp)]].
  destruct H as [|p l (Hs & _) _]; [congruence|]. split; unfold Prec_gt_0, Prec_lt_emax, scale_ok, SpecFloat.emin; lia.
Qed.
Lemma order32 at2 s (st p q : V2 (F32 at2)) : accurate_atan2 24 128 (bpow radix2 (-23)) at2 -> angle_grid32 s st -> angle_grid32 s p -> angle_grid32 s q ->
  lex_le (value32 st) (value32 p) -> lex_le (value32 st) (value32 q) -> @same_angle_order 24 128 (-23) at2 st p q.
Proof.
  intros Ha Hs Hp Hq L1 L2. destruct (angle_all32 at2 s [st]) as (OK & _); [discriminate|constructor; auto|].
  destruct Hs as (_ & Gs & _), Hp as (_ & Gp & Np), Hq as (_ & Gq & Nq).
  apply (accurate_order _ _ _ _ _ OK at2 _ st p q Ha); auto; [lia|]. cbn. lra.
Qed.
Theorem C135_graham_scan_f32 : forall at2 s (pts : list (V2 (F32 at2))) r, accurate_atan2 24 128 (bpow radix2 (-23)) at2 ->
  Forall (angle_grid32 s) pts -> enough (map value32 pts) ->
  graham_scan pts r -> exists vs, r = Val vs /\ incl vs pts /\ hull_result (map value32 pts) (map value32 vs).
Proof.
  intros at2 s pts r Ha Hg He. assert (Hne : pts <> []) by (intros ->; destruct He as (a & m & b & E & _); discriminate).
  destruct (angle_all32 at2 s pts Hne Hg) as (OK & G & _). apply (gen_graham _ _ _ _ _ OK at2 pts r G He).
  rewrite Forall_forall in Hg. intros st p q Is Ip Iq Hm. apply (order32 at2 s); auto; apply Hm; auto.
Qed.
Print Assumptions C135_graham_scan_f32.
Lemma listed_order32 at2 s (vertices : list (V2 (F32 at2))) indices : accurate_atan2 24 128 (bpow radix2 (-23)) at2 -> Forall (angle_grid32 s) vertices ->
  angles_ok 24 128 (-23) at2 vertices indices.
Proof.
  intros Ha Hg st p q (i & _ & Ei) (j & _ & Ej) (k & _ & Ek) L1 L2. rewrite Forall_forall in Hg.
  apply nth_error_In in Ei, Ej, Ek. apply (order32 at2 s); auto.
Qed.
Theorem C135_indexed_graham_f32 : forall at2 s (vertices : list (V2 (F32 at2))) indices opn pts r, accurate_atan2 24 128 (bpow radix2 (-23)) at2 ->
  Forall (angle_grid32 s) vertices -> ring_of indices opn -> picks (map value32 vertices) opn pts -> NoDup pts -> (4 <= length pts)%nat ->
  indexed_graham_scan vertices indices r ->
  exists out vs, r = Val out /\ picks (map value32 vertices) out vs /\ hull_result pts vs.
Proof.
  intros at2 s vertices indices opn pts r Ha Hg Hr Hp Hn Hl. assert (Hne : vertices <> []).
  { intros ->. destruct Hp as [|i p is ps Hi _]; [cbn in Hl; lia|]. destruct i; discriminate. }
  destruct (angle_all32 at2 s vertices Hne Hg) as (OK & G & _).
  exact (gen_indexed_graham _ _ _ _ _ OK at2 vertices indices opn pts r G (listed_order32 at2 s vertices indices Ha Hg) Hr Hp Hn Hl).
Qed.
Print Assumptions C135_indexed_graham_f32.
Theorem C135_parallel_hull_f32_partial : forall at2 s (vertices : list (V2 (F32 at2))) indices pts fuel chunk t r, accurate_atan2 24 128 (bpow radix2 (-23)) at2 ->
  Forall (angle_grid32 s) vertices -> picks (map value32 vertices) (drop_loop_index indices) pts -> NoDup pts -> (length pts <= fuel)%nat ->
  (forall c a b d, In c (chunks (length (drop_loop_index indices)) chunk (drop_loop_index indices)) -> picks (map value32 vertices) c [a; b; d] -> orient a b d <> 0) ->
  one_each t -> convex_hull_par_by t fuel vertices indices chunk r ->
  exists out vs, r = Val out /\ picks (map value32 vertices) out vs /\ hull_result pts vs.
Proof.
  intros at2 s vertices indices pts fuel chunk t r Ha Hg Hp Hn Hf Hc Ho Hr. assert (Hne : vertices <> []).
  { intros ->. destruct Hr as (L & _). rewrite (picks_length_ _ _ _ Hp) in L. destruct Hp as [|i p is ps Hi _]; [cbn in L; lia|]. destruct i; discriminate. }
  destruct (angle_all32 at2 s vertices Hne Hg) as (OK & G & _).
  exact (gen_par _ _ _ _ _ OK at2 vertices indices pts fuel chunk t r G (listed_order32 at2 s vertices indices Ha Hg) Hp Hn Hf Hc Ho Hr).
Qed.
Print Assumptions C135_parallel_hull_f32_partial.
(* the correctly rounded atan2 meets the hypothesis *)
Theorem C135_rounded_atan2 : accurate_atan2 53 1024 (bpow radix2 (-52)) (rounded_atan2 53 1024) /\ accurate_atan2 24 128 (bpow radix2 (-23)) (rounded_atan2 24 128) /\
  forall y x, at2_arg 53 1024 y x -> forall g, finite_float 53 1024 g ->
    Rabs (fvalue (rounded_atan2 53 1024 y x) - Ratan2 (fvalue y) (fvalue x)) <= Rabs (fvalue g - Ratan2 (fvalue y) (fvalue x)).
Proof.
  split; [|split].
  - apply (rounded_accurate 53 1024); [reflexivity|reflexivity|lia].
  - apply (rounded_accurate 24 128); [reflexivity|reflexivity|lia].
  - apply rounded_nearest; [reflexivity|reflexivity|lia].
Qed.
Print Assumptions C135_rounded_atan2.

(* a square with its middle point: the hypotheses hold, and the run with three tasks exists *)
Definition rsquare : list (V2 (F64 (rounded_atan2 53 1024))) := [I64 0 0; I64 2 0; I64 1 1; I64 2 2; I64 0 2].
Lemma I64_angle at2 x y : (Z.abs x <= 2 ^ 23)%Z -> (Z.abs y <= 2 ^ 23)%Z -> angle_grid64 0 (@I64 at2 x y).
Proof.
  intros Hx Hy. assert (P : Prec_gt_0 53) by reflexivity. assert (M : Prec_lt_emax 53 1024) by reflexivity. assert (S0 : scale_ok 53 1024 0) by (split; cbn; lia).
  split; [lia|]. split; [split; apply (ong_of_Z 53 1024 P M); auto; lia|]. unfold no_neg_zero, I64. cbn [vx]. intros E.
  assert (V : fvalue (fl_of_Z 53 1024 x) = IZR x) by (apply (fl_of_Z_good 53 1024 P M); [lia|auto]).
  destruct x as [|q|q]; [discriminate E| |]; rewrite E in V; change (fvalue (S754_zero true)) with 0 in V; apply eq_IZR in V; discriminate V.
Qed.
Example C135_input : Forall (angle_grid64 0) rsquare /\ map value64 rsquare = square /\ enough (map value64 rsquare) /\
  picks (map value64 rsquare) [0; 1; 2; 3; 4]%nat square /\ NoDup square /\
  exists t r, one_each t /\ leaves t = [[0; 1]; [2; 3]; [4]]%nat /\ convex_hull_par_by t 5 rsquare [0; 1; 2; 3; 4]%nat 2 r.
Proof.
  assert (V : map value64 rsquare = square).
  { unfold rsquare. cbn [map]. rewrite !(fun x y Hx Hy => proj2 (I64_grid (rounded_atan2 53 1024) x y Hx Hy)) by lia. reflexivity. }
  assert (G : Forall (angle_grid64 0) rsquare) by (unfold rsquare; repeat (apply Forall_cons; [apply I64_angle; lia|]); apply Forall_nil).
  split; auto. rewrite V. split; auto. assert (Hp : picks square [0; 1; 2; 3; 4]%nat square) by (unfold picks, square; repeat (apply Forall2_cons; [reflexivity|]); apply Forall2_nil).
  split; [exists (at_ 0 0), [at_ 2 0; at_ 1 1; at_ 2 2], (at_ 0 2); split; auto; left; split; [ptne|cbn; lia]|]. split; auto. split; [nodup|].
  set (t := (Node (Leaf [[0; 1]]) (Node (Leaf [[2; 3]]) (Leaf [[4]])))%nat).
  destruct (par_start_some square [[0; 1]; [2; 3]; [4]]%nat [[at_ 0 0; at_ 2 0]; [at_ 1 1; at_ 2 2]; [at_ 0 2]]) as (st & Est); [| |discriminate|].
  { unfold square. repeat (apply Forall2_cons; [repeat (apply Forall2_cons; [reflexivity|]); apply Forall2_nil|]). apply Forall2_nil. }
  { repeat (apply Forall_cons; [discriminate|]). apply Forall_nil. }
  destruct (angle_all64 (rounded_atan2 53 1024) 0 rsquare ltac:(discriminate) G) as (OK & Gp & _).
  rewrite <- V in Est. unfold value64 in Est.
  rewrite (HullSim2.sim_par_start _ (@grid_point 53 1024 (-52) (rounded_atan2 53 1024) 0 (2 ^ 23)) (grid_pcmp 53 1024 (-52) _ 0 (2 ^ 23)) (grid_lty 53 1024 (-52) _ 0 (2 ^ 23))) in Est by exact Gp.
  exists t. eexists. split; [cbn; lia|]. split; [reflexivity|]. split; [cbn; lia|]. split; [lia|]. exists st.
  change (chunks (length (drop_loop_index [0; 1; 2; 3; 4]%nat)) 2 (drop_loop_index [0; 1; 2; 3; 4]%nat)) with [[0; 1]; [2; 3]; [4]]%nat. split; [exact Est|]. split; [|reflexivity].
  apply Forall2_cons; [apply (ig_small rsquare [0; 1]%nat None); right; cbn; lia|].
  apply Forall2_cons; [apply (ig_small rsquare [2; 3]%nat None); right; cbn; lia|].
  apply Forall2_cons; [apply (ig_small rsquare [4]%nat None); left; cbn; lia|]. apply Forall2_nil.
Qed.
(* and the hypotheses of C134 *)
Example C134_input : Forall (grid64 0) rsquare /\
  forall st p q, listed rsquare [0; 1; 2; 3; 4]%nat st -> listed rsquare [0; 1; 2; 3; 4]%nat p -> listed rsquare [0; 1; 2; 3; 4]%nat q ->
     lex_le (value64 st) (value64 p) -> lex_le (value64 st) (value64 q) -> @same_angle_order 53 1024 (-52) (rounded_atan2 53 1024) st p q.
Proof.
  split; [unfold rsquare; repeat (apply Forall_cons; [apply I64_grid; lia|]); apply Forall_nil|].
  apply (listed_order64 _ 0); [apply C135_rounded_atan2|apply C135_input].
Qed.
Lemma hull_of_four pts a b c d : hull_result pts [a; b; c; d] -> hull_of pts [a; b; c].
Proof.
  intros H. remember [a; b; c; d] as l eqn:E. destruct H as [v vs Ho _| |]; try discriminate. destruct vs as [|x [|y [|z w]]]; try discriminate; cbn in E.
  - injection E as E1 E2 E3 E4. subst. exact Ho.
  - injection E as _ _ _ _ E. destruct w; discriminate.
Qed.
Definition bad_same (a b : V2 (F64 bad_atan2)) : bool := sf_eqb (vx a) (vx b) && sf_eqb (vy a) (vy b).
Lemma bad_same_eq a b : bad_same a b = true -> a = b.
Proof.
  destruct a as [a1 a2], b as [b1 b2]. unfold bad_same. cbn [vx vy]. intros H. apply andb_prop in H as [H1 H2].
  apply sf_eqb_eq in H1, H2. subst. auto.
Qed.
(* accuracy alone is not enough: with an atan2 as accurate that gives different results for two equal angles, a corner is lost *)
Theorem C135_equal_angles_refuted : ~ forall at2 s (pts : list (V2 (F64 at2))) r,
  (forall y x, at2_arg 53 1024 y x -> finite_float 53 1024 (at2 y x) /\ Rabs (fvalue (at2 y x) - Ratan2 (fvalue y) (fvalue x)) <= bpow radix2 (-52)) ->
  Forall (angle_grid64 s) pts -> enough (map value64 pts) ->
  graham_scan pts r -> exists vs, r = Val vs /\ hull_result (map value64 pts) (map value64 vs).
Proof.
  intros H. set (A := I64 0 0 : V2 (F64 bad_atan2)). set (B := I64 4 1 : V2 (F64 bad_atan2)). set (C := I64 8 2 : V2 (F64 bad_atan2)). set (D := I64 0 1 : V2 (F64 bad_atan2)).
  assert (V : forall x y, (Z.abs x <= 100)%Z -> (Z.abs y <= 100)%Z -> value64 (I64 x y : V2 (F64 bad_atan2)) = at_ (IZR x) (IZR y)).
  { intros x y Hx Hy. apply (I64_grid bad_atan2 x y); lia. }
  assert (VP : map value64 [A; B; C; D] = [at_ 0 0; at_ 4 1; at_ 8 2; at_ 0 1]) by (cbn [map]; unfold A, B, C, D; rewrite !V by lia; reflexivity).
  specialize (H bad_atan2 0%Z [A; B; C; D]
    (Val (close_loop (rev (graham_loop (fun p => p) (fun p => veqb p A) (map unkey (map (keyed (fun p => p) A) [A; C; B; D])) [A]))))).
  destruct H as (vs & E & Hh).
  - exact bad_accurate.
  - unfold A, B, C, D; repeat (apply Forall_cons; [apply I64_angle; lia|]); apply Forall_nil.
  - rewrite VP. exists (at_ 0 0), [at_ 4 1; at_ 8 2], (at_ 0 1). split; auto. left. split; [ptne|cbn; lia].
  - destruct bad_order as ((O1 & O2) & O3 & F).
    assert (Z0 : forall x, In x [0; 1; 2; 4; 8]%Z -> SFsub 53 1024 (fl_of_Z 53 1024 x) (fl_of_Z 53 1024 0) = fl_of_Z 53 1024 x).
    { intros x [<-|[<-|[<-|[<-|[<-|[]]]]]]; vm_compute; reflexivity. }
    assert (K : forall x y, In x [0; 1; 2; 4; 8]%Z -> In y [0; 1; 2; 4; 8]%Z ->
      snd (fst (keyed (S := F64 bad_atan2) (fun p => p) A (I64 x y))) = bad_atan2 (fl_of_Z 53 1024 y) (fl_of_Z 53 1024 x)).
    { intros x y Hx Hy. unfold keyed, A, I64. cbv zeta. cbn [fst snd vsub vx vy satan2 ssub F64 FloatS]. rewrite !Z0 by auto. reflexivity. }
    assert (L : forall a b : V2 (F64 bad_atan2) * car (F64 bad_atan2) * car (F64 bad_atan2), finite_float 53 1024 (snd (fst a)) -> finite_float 53 1024 (snd (fst b)) ->
      fvalue (snd (fst a)) < fvalue (snd (fst b)) -> Hull.key_cmp (S := F64 bad_atan2) a b <> Gt).
    { intros a b Fa Fb Hl. unfold key_cmp, pcmp_or_eq. rewrite (pcmp_R 53 1024 (-52) bad_atan2) by auto. rewrite spcmp_R. destruct (Rlt_dec _ _); [discriminate|contradiction]. }
    assert (KA : snd (fst (keyed (S := F64 bad_atan2) (fun p => p) A A)) = bad_atan2 (fl_of_Z 53 1024 0) (fl_of_Z 53 1024 0)) by (apply (K 0 0)%Z; cbn; tauto).
    assert (KB : snd (fst (keyed (S := F64 bad_atan2) (fun p => p) A B)) = bad_atan2 (fl_of_Z 53 1024 1) (fl_of_Z 53 1024 4)) by (apply (K 4 1)%Z; cbn; tauto).
    assert (KC : snd (fst (keyed (S := F64 bad_atan2) (fun p => p) A C)) = bad_atan2 (fl_of_Z 53 1024 2) (fl_of_Z 53 1024 8)) by (apply (K 8 2)%Z; cbn; tauto).
    assert (KD : snd (fst (keyed (S := F64 bad_atan2) (fun p => p) A D)) = bad_atan2 (fl_of_Z 53 1024 1) (fl_of_Z 53 1024 0)) by (apply (K 0 1)%Z; cbn; tauto).
    apply (gs_scan (S := F64 bad_atan2) [A; B; C; D] 0 A).
    + change (drop_loop_point [A; B; C; D]) with [A; B; C; D]. cbn; lia.
    + reflexivity.
    + change (drop_loop_point [A; B; C; D]) with [A; B; C; D]. split.
      * cbn [map]. apply perm_skip. apply perm_swap.
      * intros _. cbn [map].
        apply Sorted_cons; [apply Sorted_cons; [apply Sorted_cons; [apply Sorted_cons; [apply Sorted_nil|apply HdRel_nil]|]|]|]; apply HdRel_cons; left; apply L;
          rewrite ?KA, ?KB, ?KC, ?KD; auto; apply F; cbn; tauto.
  - assert (R1 : list_same bad_same (close_loop (rev (graham_loop (fun p => p) (fun p => veqb p A) (map unkey (map (keyed (fun p => p) A) [A; C; B; D])) [A]))) [A; B; D; A] = true) by (vm_compute; reflexivity).
    apply (list_same_eq bad_same bad_same_eq) in R1. rewrite R1 in E. injection E as <-. rewrite VP in Hh. 
    assert (VR : map value64 [A; B; D; A] = [at_ 0 0; at_ 4 1; at_ 0 1; at_ 0 0]) by (cbn [map]; unfold A, B, D; rewrite !V by lia; reflexivity). rewrite VR in Hh.
    apply hull_of_four in Hh. destruct Hh as (_ & _ & I). specialize (I (at_ 8 2) ltac:(cbn; tauto) (at_ 4 1) (at_ 0 1) ltac:(cbn; tauto)). unfold orient in I. cbn [vx vy] in I. lra.
Qed.
Print Assumptions C135_equal_angles_refuted.
