(* Discretizing line strings (C39, C40). Model: Discretize.v. Vocabulary: DiscSpec.v (subdivided), GeoSpec.v.
   [yields next st out] (DiscProofs.v): calling next repeatedly from st returns the elements of out and then None. *)
From Coq Require Import Reals Lra ZArith NArith Sorting.Sorted Floats.SpecFloat.
From Verif Require Import Prelude Scalar RInst Flt GeoSpec DistR Discretize DiscSpec DiscProofs.
Local Open Scope R_scope.

(* the iteration ends whatever the scalar type and the step *)
Theorem C39_discretize_terminates : forall (S : Scalar) (d : car S),
  (forall pts : list (V2 S), exists out, yields (dnext2 pts d) dnew2 out) /\
  (forall pts : list (V3 S), exists out, yields (dnext3 pts d) dnew3 out).
Proof. intros S d. split; intros pts; eexists; apply yields_emit_all. Qed.
Print Assumptions C39_discretize_terminates.

Theorem C39_discretize : forall (pts : list pt) (d : R), 0 < d -> exists out,
  yields (dnext2 (S := RS) pts d) dnew2 out /\ (forall out', yields (dnext2 (S := RS) pts d) dnew2 out' -> out' = out) /\
  subdivided lerp edist d pts out /\ subseq pts out /\
  hd_error out = hd_error pts /\ hd_error (rev out) = hd_error (rev pts) /\
  Sorted (fun p q => edist p q <= d) out.
Proof.
  intros pts d Hd.
  pose proof (yields_emit_all (S := RS) _ v2zero vadd vsub vscale vdivs vmag d pts) as Y.
  assert (A0 : forall a b : pt, lerp a b 0 = a) by (intros [] []; unfold lerp; apply V2_ext; rsimp; ring).
  assert (A1 : forall a b : pt, lerp a b 1 = b) by (intros [] []; unfold lerp; apply V2_ext; rsimp; ring).
  assert (H : subdivided lerp edist d pts (emit_all (S := RS) _ v2zero vadd vsub vscale vdivs vmag d pts)).
  { apply emit_all_subdivided; auto.
    - apply vmag_edist. - apply edist_nonneg.
    - intros [] [] n k Hn; unfold vadd, vscale, vdivs, vsub, lerp; apply V2_ext; rsimp; field; auto.
    - intros [] k; unfold vadd, vscale, v2zero; apply V2_ext; rsimp; ring. }
  eexists. split; [exact Y|]. split; [intros o' Ho'; eapply yields_det; eauto|]. split; [exact H|].
  split; [eapply subdivided_subseq; eauto|]. split; [eapply subdivided_hd; eauto|]. split; [eapply subdivided_last; eauto|].
  eapply subdivided_steps; eauto. apply edist_along.
Qed.
Print Assumptions C39_discretize.
Theorem C39_discretize_3d : forall (pts : list pt3) (d : R), 0 < d -> exists out,
  yields (dnext3 (S := RS) pts d) dnew3 out /\ (forall out', yields (dnext3 (S := RS) pts d) dnew3 out' -> out' = out) /\
  subdivided lerp3 edist3 d pts out /\ subseq pts out /\
  hd_error out = hd_error pts /\ hd_error (rev out) = hd_error (rev pts) /\
  Sorted (fun p q => edist3 p q <= d) out.
Proof.
  intros pts d Hd.
  pose proof (yields_emit_all (S := RS) _ v3zero wadd wsub wscale wdivs wmag d pts) as Y.
  assert (A0 : forall a b : pt3, lerp3 a b 0 = a) by (intros [] []; unfold lerp3; apply V3_ext; rsimp; ring).
  assert (A1 : forall a b : pt3, lerp3 a b 1 = b) by (intros [] []; unfold lerp3; apply V3_ext; rsimp; ring).
  assert (H : subdivided lerp3 edist3 d pts (emit_all (S := RS) _ v3zero wadd wsub wscale wdivs wmag d pts)).
  { apply emit_all_subdivided; auto.
    - apply wmag_edist3. - apply edist3_nonneg.
    - intros [] [] n k Hn; unfold wadd, wscale, wdivs, wsub, lerp3; apply V3_ext; rsimp; field; auto.
    - intros [] k; unfold wadd, wscale, v3zero; apply V3_ext; rsimp; ring. }
  eexists. split; [exact Y|]. split; [intros o' Ho'; eapply yields_det; eauto|]. split; [exact H|].
  split; [eapply subdivided_subseq; eauto|]. split; [eapply subdivided_hd; eauto|]. split; [eapply subdivided_last; eauto|].
  eapply subdivided_steps; eauto. apply edist3_along.
Qed.
Print Assumptions C39_discretize_3d.
(* a concrete f64 run *)
Fixpoint take_out {St A} (next : St -> option A * St) (n : nat) (st : St) : list A :=
  match n with O => [] | Datatypes.S k => match next st with (Some a, st') => a :: take_out next k st' | (None, _) => [] end end.
Example C39_example : take_out (dnext2 (S := F64_) [P 0 0; P 4 0; P 4 2] (f64 2)) 10 dnew2 = [P 0 0; P 2 0; P 4 0; P 4 2].
Proof. apply (list_same_eq v2_same v2_same_eq). vm_compute. reflexivity. Qed.

(* C40: refuted. A negative step yields only the last point. *)
Lemma take_out_yields {St A} (next : St -> option A * St) n : forall st out o,
  yields next st out -> take_out next n st = o -> (length o < n)%nat -> out = o.
Proof.
  induction n as [|n IH]; intros st out o Hy E Hl; [lia|]. inversion Hy; subst; simpl in Hl; cbn [take_out] in *; rewrite H in *; auto.
  f_equal. eapply IH; eauto. simpl in Hl. lia.
Qed.
Theorem C40_discretize_step_refuted : exists (pts : list (V2 F64_)) (d : car F64_) (p : V2 F64_) out,
  In p pts /\ yields (dnext2 pts d) dnew2 out /\ ~ In p out.
Proof.
  exists [P 0 0; P 1 0], (f64 (-1)), (P 0 0).
  destruct (C39_discretize_terminates F64_ (f64 (-1))) as [T _]. destruct (T [P 0 0; P 1 0]) as (out & Hy). exists out.
  split; [left; auto|]. split; [exact Hy|].
  (* the first call returns the last point, the second None *)
  assert (E : list_same v2_same (take_out (dnext2 [P 0 0; P 1 0] (f64 (-1))) 2 dnew2) [P 1 0] = true) by (vm_compute; reflexivity).
  apply (list_same_eq v2_same v2_same_eq) in E.
  assert (Eo : out = [P 1 0]) by (apply (take_out_yields _ 2 _ out _ Hy E); simpl; lia).
  rewrite Eo. intros [H|[]].
  assert (v2_same (P 1 0) (P 0 0) = false) by (vm_compute; reflexivity). rewrite H in H0.
  assert (v2_same (P 0 0) (P 0 0) = true) by (vm_compute; reflexivity). congruence.
Qed.
Print Assumptions C40_discretize_step_refuted.
(* positive steps keep all points; a negative step keeps exactly the start points of zero-length edges and
   the last point (exact arithmetic) *)
Fixpoint doubled (l : list pt) : list pt :=
  match l with
  | a :: ((b :: _) as t) => (if Req_EM_T (edist a b) 0 then [a] else []) ++ doubled t
  | _ => l
  end.
Theorem C40_discretize_step_partial : forall (pts : list pt) (d : R),
  (0 < d -> exists out, yields (dnext2 (S := RS) pts d) dnew2 out /\ forall p, In p pts -> In p out) /\
  (d < 0 -> yields (dnext2 (S := RS) pts d) dnew2 (doubled pts)).
Proof.
  intros pts d. split.
  - intros Hd. destruct (C39_discretize pts d Hd) as (out & H1 & _ & _ & H2 & _). exists out. split; auto.
    intros p. apply subseq_In; auto.
  - intros Hd. pose proof (yields_emit_all (S := RS) _ v2zero vadd vsub vscale vdivs vmag d pts) as Y.
    rewrite (emit_all_negative _ _ _ _ _ _ _ edist) in Y; auto.
    + apply vmag_edist. + apply edist_nonneg.
    + intros [] k; unfold vadd, vscale, v2zero; apply V2_ext; rsimp; ring.
Qed.
Print Assumptions C40_discretize_step_partial.
