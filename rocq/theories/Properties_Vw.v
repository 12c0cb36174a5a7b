(* Properties of Visvalingam-Whyatt simplification (C14-C19).
   Model: Simplify.v. Vocabulary: VwSpec.v (vw_step, vw_steps, pops_smallest), GeoSpec.v (subseq), Rdp1.v (OrdOn).
   The heap is modelled by a choice function [pick]; [pops_smallest D pick] says it always takes a smallest
   entry, any one among equals. *)
From Coq Require Import Reals Lra ZArith Floats.SpecFloat.
From Verif Require Import Prelude Scalar RInst Flt Geo2 Geo3 GeoSpec Simplify Rdp1 Rdp2 FltOrd VwSpec VwProofs VwProofs2.

(* C14 *)
Theorem C14_vw_count : forall (S : Scalar) (D : car S -> Prop) pick (line : list (V2 S)) k,
  OrdOn S D -> pops_smallest D pick ->
  (forall a b c, In a line -> In b line -> In c line -> D (area2 a b c)) ->
  exists out, simplify_vw_2d pick line k = Val out /\
    (length line <= 2 -> out = line) /\
    (length line = 3 -> is_connected line = false -> length out = 3 - Nat.min k 1) /\
    (4 <= length line -> is_connected line = false -> length out = length line - Nat.min k (length line - 4)) /\
    (3 <= length line -> is_connected line = true -> length out = length line - Nat.min k (length line - 3)).
Proof.
  intros S D pick line k HO Hp HD. destruct (le_lt_dec (length line) 2) as [H2|H2].
  - exists line. unfold simplify_vw_2d. destruct (Nat.leb_spec (length line) 2); [|lia]. repeat split; auto; lia.
  - destruct (is_connected line) eqn:Ec.
    + destruct (vw2_closed D HO pick line k Hp HD H2 Ec) as (f & tl & out & El & E & Hs).
      exists out. apply vw_steps_length in Hs. rewrite !app_length in Hs. simpl in Hs.
      repeat split; auto; intros; try congruence; try lia.
    + destruct (vw2_open D HO pick line k Hp HD H2 Ec) as (out & E & Hs). apply vw_steps_length in Hs.
      exists out. destruct (Nat.eqb_spec (length line) 3); repeat split; auto; intros; try congruence; lia.
Qed.
Print Assumptions C14_vw_count.
Example C14_example : simplify_vw_2d (S := F64_) pick_min [P 0 0; P 1 1; P 2 (-3); P 3 0; P 4 9; P 5 0] 2
  = Val [P 0 0; P 2 (-3); P 4 9; P 5 0].
Proof. fcomp2. Qed.
Example C14_hypotheses_met : pops_smallest (S := RS) (fun _ => True) pick_min /\
  pops_smallest (S := F64_) (fun x => x <> S754_nan) pick_min.
Proof. split; apply pick_min_ok; [apply OrdOn_R|apply OrdOn_float]. Qed.

(* C15: no hypothesis on the scalar type, the areas or the heap *)
Theorem C15_vw_subsequence : forall (S : Scalar) pick (line out : list (V2 S)) k,
  simplify_vw_2d pick line k = Val out ->
  subseq out line /\ hd_error out = hd_error line /\
  (is_connected line = false -> hd_error (rev out) = hd_error (rev line)).
Proof. intros S pick line out k. exact (vw2_sound pick line out k). Qed.
Print Assumptions C15_vw_subsequence.

(* C16: an open line is simplified by greedy deletions of inner vertices; a closed one by greedy deletions
   on the ring, written out as the line followed by its first point again. *)
Theorem C16_vw_greedy : forall (S : Scalar) (D : car S -> Prop) pick (line : list (V2 S)) k,
  OrdOn S D -> pops_smallest D pick -> 3 <= length line ->
  (forall a b c, In a line -> In b line -> In c line -> D (area2 a b c)) ->
  exists out, simplify_vw_2d pick line k = Val out /\
    (is_connected line = false ->
       vw_steps area2 (Nat.min k (if Nat.eqb (length line) 3 then 1 else length line - 4)) line out) /\
    (is_connected line = true ->
       exists f tl, line = f :: tl /\ vw_steps area2 (Nat.min k (length line - 3)) (line ++ [f]) (out ++ [f])).
Proof.
  intros S D pick line k HO Hp H3 HD. destruct (is_connected line) eqn:Ec.
  - destruct (vw2_closed D HO pick line k Hp HD H3 Ec) as (f & tl & out & El & E & Hs).
    exists out. repeat split; auto; [discriminate|]. intros _. exists f, tl. auto.
  - destruct (vw2_open D HO pick line k Hp HD H3 Ec) as (out & E & Hs).
    exists out. repeat split; auto; discriminate.
Qed.
Print Assumptions C16_vw_greedy.
(* the compared quantity: four times the squared area of the triangle *)
Theorem C16_vw_area : forall (a b c : pt), area2 a b c = (orient a b c * orient a b c)%R.
Proof. intros [ax ay] [bx by_] [cx cy]. unfold area2, orient; simpl. ring. Qed.
Print Assumptions C16_vw_area.

(* C17: refuted. The closing vertex spans a triangle of area zero, so it is the first to go. *)
Theorem C17_vw_closed_refuted : exists (line : list pt), is_connected line = true /\
  forall pick, pops_smallest (fun _ => True) pick ->
  exists out, simplify_vw_2d pick line 1 = Val out /\ is_connected out = false.
Proof.
  set (p0 := (@mkV2 RS 0 0)%R). set (p1 := (@mkV2 RS 4 0)%R). set (p2 := (@mkV2 RS 4 4)%R). set (p3 := (@mkV2 RS 0 4)%R).
  exists [p0; p1; p2; p3; p0]. split.
  { simpl. unfold veqb; simpl. destruct (Reqb_spec 0%R 0%R); auto; lra. }
  intros pick Hp.
  destruct (vw2_closed (fun _ => True) OrdOn_R pick [p0; p1; p2; p3; p0] 1 Hp) as (f & tl & out & El & E & Hs); auto.
  { simpl; lia. }
  { simpl. unfold veqb; simpl. destruct (Reqb_spec 0%R 0%R); auto; lra. }
  injection El as <- <-. exists out. split; auto.
  simpl Nat.min in Hs. inversion Hs as [|? ? q ? Hst Hr]; subst. inversion Hr; subst. clear Hs Hr.
  destruct Hst as (l1 & a & b & c & l2 & E1 & E2 & Hm).
  specialize (Hm [p0; p1; p2] p3 p0 p0 [] eq_refl).
  assert (Z : area2 p3 p0 p0 = 0%R) by (unfold area2; simpl; ring). rewrite Z in Hm.
  simpl in Hm. apply Rltb_false in Hm.
  assert (A : area2 a b c <> 0%R -> False).
  { intros Hne. apply Hne. apply Rle_antisym; [exact Hm|]. unfold area2; cbn [smul RS]. apply Rle_0_sqr. }
  simpl in E1.
  destruct l1 as [|x0 l1]; [injection E1 as <- <- <- <-; exfalso; apply A; unfold area2, p0, p1, p2, p3; simpl; intros Q; lra|].
  destruct l1 as [|x1 l1]; [injection E1 as <- <- <- <- <-; exfalso; apply A; unfold area2, p0, p1, p2, p3; simpl; intros Q; lra|].
  destruct l1 as [|x2 l1]; [injection E1 as <- <- <- <- <- <-; exfalso; apply A; unfold area2, p0, p1, p2, p3; simpl; intros Q; lra|].
  destruct l1 as [|x3 l1].
  - injection E1 as <- <- <- <- <- <- <-. change ([p0; p1; p2] ++ [p3; p0]) with ([p0; p1; p2; p3] ++ [p0]) in E2.
    apply app_inj_tail in E2 as [-> _]. simpl. unfold veqb; simpl.
    destruct (Reqb_spec 0%R 4%R); simpl; [lra|]. destruct (Reqb_spec 0%R 0%R); auto.
  - exfalso. injection E1 as _ _ _ _ E1. destruct l1 as [|? [|? [|? l1]]]; discriminate.
Qed.
Print Assumptions C17_vw_closed_refuted.
(* what does hold: read as an implicitly closed ring, the result is the greedy simplification of the ring
   (C16); with nothing to delete the line comes back closed, as it was *)
Theorem C17_vw_closed_partial : forall (S : Scalar) (D : car S -> Prop) pick (line : list (V2 S)) k,
  OrdOn S D -> pops_smallest D pick -> is_connected line = true ->
  (forall a b c, In a line -> In b line -> In c line -> D (area2 a b c)) ->
  k = 0 \/ length line <= 3 -> simplify_vw_2d pick line k = Val line.
Proof.
  intros S D pick line k HO Hp Hc HD Hk. destruct (le_lt_dec (length line) 2) as [H2|H2].
  - unfold simplify_vw_2d. destruct (Nat.leb_spec (length line) 2); [auto|lia].
  - destruct (vw2_closed D HO pick line k Hp HD H2 Hc) as (f & tl & out & El & E & Hs).
    replace (Nat.min k (length line - 3)) with 0 in Hs by lia. apply vw_steps_0 in Hs.
    apply (app_inj_tail line out f f) in Hs as [Hs _]. rewrite E, Hs. reflexivity.
Qed.
Print Assumptions C17_vw_closed_partial.

(* C18 *)
Theorem C18_vw_total : forall (S : Scalar) (D : car S -> Prop) pick (line : list (V2 S)) k,
  OrdOn S D -> pops_smallest D pick ->
  (forall a b c, In a line -> In b line -> In c line -> D (area2 a b c)) ->
  exists out, simplify_vw_2d pick line k = Val out.
Proof. intros. edestruct C14_vw_count as (out & ? & _); eauto. Qed.
Print Assumptions C18_vw_total.
(* for IEEE floats (f32, f64): no triangle area is NaN *)
Theorem C18_vw_total_float : forall prec emax eps at2 pick (line : list (V2 (FloatS prec emax eps at2))) k,
  pops_smallest (S := FloatS prec emax eps at2) (fun x => x <> S754_nan) pick ->
  (forall a b c, In a line -> In b line -> In c line -> area2 a b c <> S754_nan) ->
  exists out, simplify_vw_2d pick line k = Val out.
Proof. intros prec emax eps at2 pick line k Hp HD. apply (C18_vw_total _ _ pick line k (OrdOn_float prec emax eps at2) Hp HD). Qed.
Print Assumptions C18_vw_total_float.
(* the proviso is needed: with a NaN area the comparison in the heap panics *)
Theorem C18_vw_nan_panics : exists (line : list (V2 F64_)) pick k, simplify_vw_2d pick line k = Panic.
Proof.
  exists [P 0 0; @mkV2 F64_ S754_nan (f64 1); P 2 (-3); P 3 0; P 4 9; P 5 0], pick_min, 1. apply is_panic_eq. vm_compute. reflexivity.
Qed.
Print Assumptions C18_vw_nan_panics.

(* C19: refuted, the last point is lost: [a; b; c] with nothing to delete comes back as [a; b] *)
Theorem C19_vw3_last_point_refuted : forall (S : Scalar) pick (a b c : V3 S),
  simplify_vw_3d pick [a; b; c] 0 = Val [a; b].
Proof.
  intros S pick a b c. unfold simplify_vw_3d. simpl. reflexivity.
Qed.
Print Assumptions C19_vw3_last_point_refuted.
(* everything else holds: greedy deletions on the polyline, then the last point z is dropped *)
Theorem C19_vw3_greedy_partial : forall (S : Scalar) (D : car S -> Prop) pick (line : list (V3 S)) k,
  OrdOn S D -> pops_smallest D pick -> 3 <= length line ->
  (forall a b c, In a line -> In b line -> In c line -> D (area3 a b c)) ->
  exists out z, simplify_vw_3d pick line k = Val out /\ hd_error (rev line) = Some z /\
    vw_steps area3 (Nat.min k (length line - 2)) line (out ++ [z]) /\
    subseq out line /\ hd_error out = hd_error line /\
    length out = length line - 1 - Nat.min k (length line - 2).
Proof.
  intros S D pick line k HO Hp H3 HD. destruct (vw3_total D HO pick line k Hp HD H3) as (out & z & E & Hz & Hs).
  exists out, z. destruct (vw3_sound pick line out k E) as [H1 H2]. repeat split; auto.
  apply vw_steps_length in Hs. rewrite app_length in Hs. simpl in Hs. lia.
Qed.
Print Assumptions C19_vw3_greedy_partial.
Theorem C19_vw3_area : forall (a b c : pt3), area3 a b c =
  let ux := (wx a - wx b)%R in let uy := (wy a - wy b)%R in let uz := (wz a - wz b)%R in
  let vx := (wx c - wx b)%R in let vy := (wy c - wy b)%R in let vz := (wz c - wz b)%R in
  ((uy * vz - uz * vy)² + (uz * vx - ux * vz)² + (ux * vy - uy * vx)²)%R.
Proof. intros [ax ay az] [bx by_ bz] [cx cy cz]. unfold area3, Rsqr; simpl. ring. Qed.
Print Assumptions C19_vw3_area.
