(* Proofs about the discretizing iterator (Discretize.v). *)
From Coq Require Import Reals Lra Psatz NArith ZArith.
From Verif Require Import Prelude Scalar RInst GeoSpec DistR Discretize.

(* consuming an iterator until it returns None produces the list *)
Inductive yields {St A} (next : St -> option A * St) : St -> list A -> Prop :=
| y_done st st' : next st = (None, st') -> yields next st []
| y_more st st' a out : next st = (Some a, st') -> yields next st' out -> yields next st (a :: out).

Section Gen.
  Context {S : Scalar}.
  Variable V : Type.
  Variables (zeroV : V) (addV subV : V -> V -> V) (scaleV divV : V -> car S -> V) (magV : V -> car S).
  Variable distance : car S.

  Definition seg (a b : V) : N * V :=
    let d := subV b a in
    if sltb s0 (magV d) then let ns := sceil (sdiv (magV d) distance) in (s_to_usize ns, divV d ns) else (1%N, zeroV).
  Definition nrange (lo hi : N) : list N := map N.of_nat (seq (N.to_nat lo) (N.to_nat hi - N.to_nat lo)).
  Definition emit (a b : V) : list V :=
    map (fun k => addV a (scaleV (snd (seg a b)) (s_of_usize k))) (nrange 0 (fst (seg a b))).
  Fixpoint emit_all (l : list V) : list V :=
    match l with
    | a :: ((b :: _) as t) => emit a b ++ emit_all t
    | _ => l
    end.

  Lemma nrange_cons lo hi : (lo < hi)%N -> nrange lo hi = lo :: nrange (lo + 1) hi.
  Proof.
    intros H. unfold nrange. replace (N.to_nat hi - N.to_nat lo) with (Datatypes.S (N.to_nat hi - N.to_nat (lo + 1))) by lia.
    simpl. f_equal; [lia|]. replace (N.to_nat (lo + 1)) with (Datatypes.S (N.to_nat lo)) by lia. auto.
  Qed.
  Lemma nrange_nil lo hi : (hi <= lo)%N -> nrange lo hi = [].
  Proof. intros H. unfold nrange. replace (N.to_nat hi - N.to_nat lo) with 0 by lia. auto. Qed.

  Inductive expects (pts : list V) : dstate V -> list V -> Prop :=
  | ex_new pre l st : pts = pre ++ l -> l <> [] -> current_index st = length pre -> substep_index st = 0%N ->
      expects pts st (emit_all l)
  | ex_mid pre a b t st : pts = pre ++ a :: b :: t -> current_index st = length pre -> (0 < substep_index st)%N ->
      num_substeps st = fst (seg a b) -> step st = snd (seg a b) ->
      expects pts st (map (fun k => addV a (scaleV (snd (seg a b)) (s_of_usize k))) (nrange (substep_index st) (num_substeps st)) ++ emit_all (b :: t))
  | ex_end st : length pts <= current_index st -> expects pts st [].

  Notation next_ f pts := (dnext_ V zeroV addV subV scaleV divV magV f pts distance).

  Lemma last_app_cons {A} (pre : list A) a d : last (pre ++ [a]) d = a.
  Proof. apply last_last. Qed.

  Lemma expects_step pts : forall fuel st out, expects pts st out -> length pts - current_index st <= fuel -> pts <> [] ->
    match out with
    | [] => exists st', next_ fuel pts st = (None, st')
    | v :: out' => exists st', next_ fuel pts st = (Some v, st') /\ expects pts st' out'
    end.
  Proof.
    induction fuel as [|fuel IH]; intros st out He Hf Hne.
    - (* only the end state *)
      destruct He as [pre l st E Hl Hc Hs|pre a b t st E Hc Hs Hn Hst|st Hc].
      + subst pts. rewrite app_length in Hf. destruct l; [congruence|simpl in Hf; lia].
      + subst pts. rewrite app_length in Hf. simpl in Hf; lia.
      + destruct pts as [|p0 pts]; [congruence|]. cbn [dnext_]. exists st.
        destruct (Nat.ltb_spec (current_index st) (length (p0 :: pts) - 1)); [lia|].
        destruct (Nat.eqb_spec (current_index st) (length (p0 :: pts) - 1)) as [e|]; [exfalso; clear IH || idtac; revert e Hc; cbn [length]; lia|]. auto.
    - assert (Hp0 : exists p0 tl, pts = p0 :: tl) by (destruct pts; [congruence|eauto]). destruct Hp0 as (p0 & tl & Ep).
      destruct He as [pre l st E Hl Hc Hs|pre a b t st E Hc Hs Hn Hst|st Hc].
      + destruct l as [|a [|b t]]; [congruence| |].
        * (* last point *)
          cbn [emit_all]. rewrite Ep. cbn [dnext_]. rewrite <- Ep.
          assert (Hlen : length pts = length pre + 1) by (rewrite E, app_length; simpl; lia).
          destruct (Nat.ltb_spec (current_index st) (length pts - 1)); [lia|].
          destruct (Nat.eqb_spec (current_index st) (length pts - 1)); [|lia].
          eexists. split; [rewrite E, last_last; reflexivity|]. apply ex_end; cbn [current_index]; lia.
        * (* a new segment *)
          assert (Hlen : length pts = length pre + Datatypes.S (Datatypes.S (length t))) by (rewrite E, app_length; simpl; lia).
          assert (Ni : initialize_step V zeroV subV divV magV pts distance st = mkD (current_index st) 0 (fst (seg a b)) (snd (seg a b))).
          { unfold initialize_step. rewrite Hc, E. rewrite nth_error_app2, Nat.sub_diag by lia.
            rewrite nth_error_app2 by lia. replace (length pre + 1 - length pre) with 1 by lia. simpl. rewrite Hs. unfold seg.
            destruct (sltb s0 (magV (subV b a))); auto. }
          rewrite Ep. cbn [dnext_]. rewrite <- Ep.
          destruct (Nat.ltb_spec (current_index st) (length pts - 1)); [|lia]. rewrite Hs. cbn [N.eqb]. rewrite Ni. cbn [current_index substep_index num_substeps step].
          cbn [emit_all]. unfold emit at 1.
          destruct (N.ltb_spec 0 (fst (seg a b))) as [Hk|Hk].
          -- rewrite (nrange_cons 0) by auto. cbn [map app]. eexists. split.
             ++ rewrite Hc, E, app_nth2, Nat.sub_diag by lia. cbn [nth]. reflexivity.
             ++ match goal with |- expects _ ?s (map _ (nrange ?lo ?hi) ++ _) => change lo with (substep_index s); change hi with (num_substeps s) at 1 end.
                eapply ex_mid; eauto; cbn; auto. lia.
          -- rewrite nrange_nil by auto. cbn [map app].
             apply (IH (mkD (current_index st + 1) 0 (fst (seg a b)) (snd (seg a b))) (emit_all (b :: t))); auto.
             ++ apply (ex_new pts (pre ++ [a])); cbn; auto; [rewrite <- app_assoc; auto|congruence|rewrite app_length; simpl; lia].
             ++ cbn [current_index]. lia.
      + (* inside a segment *)
        assert (Hlen : length pts = length pre + Datatypes.S (Datatypes.S (length t))) by (rewrite E, app_length; simpl; lia).
        rewrite Ep. cbn [dnext_]. rewrite <- Ep.
        destruct (Nat.ltb_spec (current_index st) (length pts - 1)); [|lia].
        destruct (N.eqb_spec (substep_index st) 0); [lia|].
        destruct (N.ltb_spec (substep_index st) (num_substeps st)) as [Hk|Hk].
        * rewrite nrange_cons by auto. cbn [map app]. eexists. split.
          -- rewrite Hc, E, app_nth2, Nat.sub_diag by lia. cbn [nth]. rewrite Hst. reflexivity.
          -- exact (ex_mid pts pre a b t (mkD (length pre) (substep_index st + 1) (num_substeps st) (snd (seg a b))) E eq_refl ltac:(cbn; lia) Hn eq_refl).
        * rewrite nrange_nil by auto. cbn [map app].
          apply (IH (mkD (current_index st + 1) 0 (num_substeps st) (step st)) (emit_all (b :: t))); auto.
          -- apply (ex_new pts (pre ++ [a])); cbn; auto; [rewrite <- app_assoc; auto|congruence|rewrite app_length; simpl; lia].
          -- cbn [current_index]. lia.
      + rewrite Ep. cbn [dnext_]. rewrite <- Ep. exists st.
        destruct (Nat.ltb_spec (current_index st) (length pts - 1)); [lia|].
        destruct (Nat.eqb_spec (current_index st) (length pts - 1)) as [e|]; [exfalso; revert e Hc; rewrite Ep; cbn [length]; lia|]. auto.
  Qed.

  Lemma expects_yields pts out : forall st, pts <> [] -> expects pts st out ->
    yields (dnext V zeroV addV subV scaleV divV magV pts distance) st out.
  Proof.
    induction out as [|v out IH]; intros st Hne He; pose proof (expects_step pts (length pts) st _ He ltac:(lia) Hne) as H; cbn in H.
    - destruct H as (st' & H). apply y_done with st'. exact H.
    - destruct H as (st' & H & He'). apply y_more with st'; auto.
  Qed.

  Lemma yields_emit_all pts : yields (dnext V zeroV addV subV scaleV divV magV pts distance) (dnew V zeroV) (emit_all pts).
  Proof.
    destruct pts as [|p pts].
    - apply y_done with (dnew V zeroV). reflexivity.
    - apply expects_yields; [congruence|]. apply (ex_new (p :: pts) []); auto. congruence.
  Qed.
End Gen.

Lemma yields_det {St A} (next : St -> option A * St) st o1 o2 : yields next st o1 -> yields next st o2 -> o1 = o2.
Proof.
  intros H; revert o2; induction H as [st st' E|st st' a out E H IH]; intros o2 H2; inversion H2; subst; auto; try congruence.
  rewrite E in H0. injection H0 as <- <-. f_equal; auto.
Qed.

(* ---- exact arithmetic ---- *)
From Coq Require Import Sorting.Sorted.
From Verif Require Import DiscSpec.
Local Open Scope R_scope.

Lemma Zceil_bounds x : x <= IZR (Zceil x) < x + 1.
Proof.
  unfold Zceil. destruct (base_Int_part (- x)) as [H1 H2]. rewrite opp_IZR. lra.
Qed.
Lemma Int_part_IZR z : Int_part (IZR z) = z.
Proof.
  destruct (base_Int_part (IZR z)) as [H1 H2]. apply le_IZR in H1.
  assert (H3 : IZR z - 1 < IZR (Int_part (IZR z))) by lra. rewrite <- minus_IZR in H3. apply lt_IZR in H3. lia.
Qed.
Lemma to_usize_ceil x : R_to_usize (Rceil x) = Z.to_N (Zceil x).
Proof. unfold R_to_usize, Rceil. rewrite Int_part_IZR. auto. Qed.

Lemma ceil_steps len d : 0 < len -> 0 < d -> exists n : nat, (1 <= n)%nat /\ Z.to_N (Zceil (len / d)) = N.of_nat n /\ Rceil (len / d) = INR n /\
  len <= INR n * d /\ INR (n - 1) * d < len.
Proof.
  intros Hl Hd. destruct (Zceil_bounds (len / d)) as [B1 B2].
  assert (Hx : 0 < len / d) by (apply Rdiv_lt_0_compat; auto).
  assert (Hz : (0 < Zceil (len / d))%Z) by (apply lt_IZR; lra).
  exists (Z.to_nat (Zceil (len / d))).
  assert (EI : INR (Z.to_nat (Zceil (len / d))) = IZR (Zceil (len / d))) by (rewrite INR_IZR_INZ, Z2Nat.id; auto; lia).
  assert (El : len = len / d * d) by (field; lra).
  split; [lia|]. split; [lia|]. split; [unfold Rceil; auto|]. split.
  - rewrite EI. rewrite El at 1. apply Rmult_le_compat_r; lra.
  - rewrite minus_INR by lia. rewrite EI. simpl (INR 1). rewrite El at 2. apply Rmult_lt_compat_r; lra.
Qed.

Lemma ceil_negative len d : 0 < len -> d < 0 -> Z.to_N (Zceil (len / d)) = 0%N.
Proof.
  intros Hl Hd. destruct (Zceil_bounds (len / d)) as [B1 B2].
  assert (len / d < 0). { unfold Rdiv. pose proof (Rinv_lt_0_compat d Hd). nra. }
  assert (IZR (Zceil (len / d)) < 1) by lra. apply lt_IZR in H0. lia.
Qed.

Lemma nrange0 (n : nat) : nrange 0 (N.of_nat n) = map N.of_nat (seq 0 n).
Proof. unfold nrange. rewrite Nnat.Nat2N.id. simpl. replace (n - 0)%nat with n by lia. auto. Qed.

(* both dimensions at once *)
Section Exact.
  Variable V : Type.
  Variables (zeroV : V) (addV subV : V -> V -> V) (scaleV divV : V -> R -> V) (magV : V -> R).
  Variables (along : V -> V -> R -> V) (dist : V -> V -> R).
  Hypothesis mag_dist : forall a b, magV (subV b a) = dist a b.
  Hypothesis dist_nonneg : forall a b, 0 <= dist a b.
  Hypothesis step_along : forall a b n k, n <> 0 -> addV a (scaleV (divV (subV b a) n) k) = along a b (k / n).
  Hypothesis zero_step : forall a k, addV a (scaleV zeroV k) = a.
  Hypothesis along_0 : forall a b, along a b 0 = a.
  Hypothesis along_1 : forall a b, along a b 1 = b.
  Hypothesis along_dist : forall a b s t, s <= t -> dist (along a b s) (along a b t) = (t - s) * dist a b.
  Variable d : R.

  Notation emit_all := (@emit_all RS V zeroV addV subV scaleV divV magV d).
  Notation emit := (@emit RS V zeroV addV subV scaleV divV magV d).

  Lemma emit_positive a b : 0 < d -> exists n, (1 <= n)%nat /\ dist a b <= INR n * d /\ (n = 1%nat \/ INR (n - 1) * d < dist a b) /\
    emit a b = map (fun k => along a b (INR k / INR n)) (seq 0 n).
  Proof.
    intros Hd. unfold DiscProofs.emit, seg. cbn [sltb s0 sdiv sceil s_to_usize RS car]. rewrite mag_dist.
    destruct (Rltb_spec 0 (dist a b)) as [H|H].
    - destruct (ceil_steps (dist a b) d H Hd) as (n & Hn & E1 & E2 & L1 & L2). exists n.
      split; [auto|]. split; [auto|]. split; [auto|]. cbn [fst snd]. rewrite to_usize_ceil, E1, E2, nrange0, map_map.
      apply map_ext. intros k. cbn [s_of_usize RS]. rewrite nat_N_Z, <- INR_IZR_INZ. rewrite step_along; auto.
      apply not_0_INR. lia.
    - assert (Z : dist a b = 0) by (pose proof (dist_nonneg a b); lra). exists 1%nat. simpl (INR 1).
      split; [lia|]. split; [lra|]. split; [auto|]. cbn [fst snd]. change (nrange 0 1) with [0%N]. cbn [seq map]. rewrite zero_step.
      simpl (INR 0). replace (0 / 1) with 0 by field. rewrite along_0. auto.
  Qed.

  Lemma emit_all_subdivided l : 0 < d -> subdivided along dist d l (emit_all l).
  Proof.
    intros Hd. induction l as [|a [|b t] IH]; [constructor|constructor|].
    change (emit_all (a :: b :: t)) with (emit a b ++ emit_all (b :: t)).
    destruct (emit_positive a b Hd) as (n & H1 & H2 & H3 & ->). constructor; auto.
  Qed.

  Lemma subdivided_hd l out : subdivided along dist d l out -> hd_error out = hd_error l.
  Proof.
    intros H. destruct H as [|a|a b rest n out H1 H2 H3 H4]; auto. destruct n as [|n]; [lia|]. cbn [seq map app hd_error].
    replace (INR 0 / INR (Datatypes.S n)) with 0 by (simpl (INR 0); unfold Rdiv; ring). rewrite along_0. auto.
  Qed.

  Lemma subdivided_subseq l out : subdivided along dist d l out -> subseq l out.
  Proof.
    intros H. induction H as [|a|a b rest n out H1 H2 H3 H4 IH]; [constructor|apply subseq_refl|].
    destruct n as [|n]; [lia|]. cbn [seq map app].
    replace (INR 0 / INR (Datatypes.S n)) with 0 by (simpl (INR 0); unfold Rdiv; ring). rewrite along_0.
    apply sub_keep. apply subseq_app_l. exact IH.
  Qed.

  Lemma subdivided_last l out : subdivided along dist d l out -> hd_error (rev out) = hd_error (rev l).
  Proof.
    intros H. induction H as [|a|a b rest n out H1 H2 H3 H4 IH]; auto. rewrite rev_app_distr.
    pose proof (subdivided_hd _ _ H4) as Hh. destruct out as [|o out]; [discriminate|].
    assert (E : forall A (x : A) l m, hd_error (rev (x :: l) ++ m) = hd_error (rev (x :: l))).
    { intros A x l0 m. destruct (rev (x :: l0)) eqn:Er; auto. apply (f_equal (@length A)) in Er. rewrite rev_length in Er. discriminate. }
    rewrite E. rewrite IH. change (rev (a :: b :: rest)) with (rev (b :: rest) ++ [a]). rewrite E. auto.
  Qed.

  Lemma subdivided_steps l out : 0 < d -> subdivided along dist d l out -> Sorted (fun p q => dist p q <= d) out.
  Proof.
    intros Hd H. induction H as [|a|a b rest n out H1 H2 H3 H4 IH]; [constructor|repeat constructor|].
    pose proof (subdivided_hd _ _ H4) as Hh. cbn [hd_error] in Hh. destruct out as [|o out]; [discriminate|]. injection Hh as ->.
    assert (Hn : 0 < INR n) by (apply lt_0_INR; lia).
    assert (G : forall m s, (s + m = n)%nat -> Sorted (fun p q => dist p q <= d) (map (fun k => along a b (INR k / INR n)) (seq s m) ++ b :: out) ).
    { induction m as [|m IHm]; intros s Hs; cbn [seq map app]; auto.
      constructor; [apply IHm; lia|].
      assert (Next : dist (along a b (INR s / INR n)) (along a b (INR (Datatypes.S s) / INR n)) <= d).
      { rewrite along_dist.
        - rewrite S_INR. replace ((INR s + 1) / INR n - INR s / INR n) with (/ INR n) by (field; lra).
          apply Rmult_le_reg_l with (INR n); auto. rewrite <- Rmult_assoc, Rinv_r, Rmult_1_l by lra. auto.
        - unfold Rdiv. apply Rmult_le_compat_r; [left; apply Rinv_0_lt_compat; auto|]. apply le_INR. lia. }
      destruct m as [|m]; cbn [seq map app]; constructor; auto.
      replace (INR (Datatypes.S s) / INR n) with 1 in Next by (replace (Datatypes.S s) with n by lia; field; lra). rewrite along_1 in Next. auto. }
    apply (G n 0%nat). lia.
  Qed.

  (* a negative step: only zero-length edges emit anything *)
  Fixpoint repeats (l : list V) : list V :=
    match l with
    | a :: ((b :: _) as t) => (if Req_EM_T (dist a b) 0 then [a] else []) ++ repeats t
    | _ => l
    end.
  Lemma emit_all_negative l : d < 0 -> emit_all l = repeats l.
  Proof.
    intros Hd. induction l as [|a [|b t] IH]; auto.
    change (emit_all (a :: b :: t)) with (emit a b ++ emit_all (b :: t)). rewrite IH.
    change (repeats (a :: b :: t)) with ((if Req_EM_T (dist a b) 0 then [a] else []) ++ repeats (b :: t)). f_equal.
    unfold DiscProofs.emit, seg. cbn [sltb s0 sdiv sceil s_to_usize RS car]. rewrite mag_dist. pose proof (dist_nonneg a b).
    destruct (Rltb_spec 0 (dist a b)) as [H'|H'], (Req_EM_T (dist a b) 0) as [E|E]; try lra.
    - cbn [fst snd]. rewrite to_usize_ceil, ceil_negative by auto. auto.
    - cbn [fst snd]. change (nrange 0 1) with [0%N]. cbn [seq map]. rewrite zero_step. auto.
  Qed.
End Exact.

Lemma vmag_edist (a b : pt) : @vmag RS (@vsub RS b a) = edist a b.
Proof. unfold vmag, vmag2, vdot, vsub, edist, sqdist. rsimp. f_equal. ring. Qed.
Lemma wmag_edist3 (a b : pt3) : @wmag RS (@wsub RS b a) = edist3 a b.
Proof. unfold wmag, wmag2, wdot, wsub, edist3, sqdist3. rsimp. f_equal. ring. Qed.
Lemma edist_nonneg a b : 0 <= edist a b. Proof. apply sqrt_pos. Qed.
Lemma edist3_nonneg a b : 0 <= edist3 a b. Proof. apply sqrt_pos. Qed.
Lemma sq0 x y : 0 <= y -> x * x + y = 0 -> x = 0 /\ y = 0.
Proof.
  intros Hy H. pose proof (sq_nn x). assert (x * x = 0) by lra. apply Rmult_integral in H1. split; [tauto|lra].
Qed.
Lemma edist_zero (a b : pt) : edist a b = 0 -> a = b.
Proof.
  unfold edist. intros H. apply sqrt_eq_0 in H; [|apply sqdist_nonneg]. unfold sqdist in H.
  destruct (sq0 _ _ (sq_nn _) H) as [H1 H2]. apply Rmult_integral in H2. destruct a as [ax ay], b as [bx by_]. rsimp. f_equal; lra.
Qed.
Lemma edist3_zero (a b : pt3) : edist3 a b = 0 -> a = b.
Proof.
  unfold edist3, sqdist3. intros H. destruct a as [ax ay az], b as [bx by_ bz]. rsimp.
  pose proof (sq_nn (ax - bx)). pose proof (sq_nn (ay - by_)). pose proof (sq_nn (az - bz)).
  apply sqrt_eq_0 in H; [|lra].
  assert ((ax - bx) * (ax - bx) = 0) by lra. assert ((ay - by_) * (ay - by_) = 0) by lra. assert ((az - bz) * (az - bz) = 0) by lra.
  apply Rmult_integral in H3, H4, H5. f_equal; lra.
Qed.
Lemma edist_along (a b : pt) s t : s <= t -> edist (lerp a b s) (lerp a b t) = (t - s) * edist a b.
Proof.
  intros H. unfold edist, sqdist, lerp. destruct a as [ax ay], b as [bx by_]. rsimp.
  match goal with |- sqrt ?u = _ => replace u with ((t - s) * (t - s) * ((ax - bx) * (ax - bx) + (ay - by_) * (ay - by_))) by ring end.
  rewrite sqrt_mult; [|apply sq_nn|pose proof (sq_nn (ax - bx)); pose proof (sq_nn (ay - by_)); lra].
  rewrite sqrt_square by lra. auto.
Qed.
Lemma edist3_along (a b : pt3) s t : s <= t -> edist3 (lerp3 a b s) (lerp3 a b t) = (t - s) * edist3 a b.
Proof.
  intros H. unfold edist3, sqdist3, lerp3. destruct a as [ax ay az], b as [bx by_ bz]. rsimp.
  match goal with |- sqrt ?u = _ => replace u with ((t - s) * (t - s) * ((ax - bx) * (ax - bx) + (ay - by_) * (ay - by_) + (az - bz) * (az - bz))) by ring end.
  rewrite sqrt_mult; [|apply sq_nn|pose proof (sq_nn (ax - bx)); pose proof (sq_nn (ay - by_)); pose proof (sq_nn (az - bz)); lra].
  rewrite sqrt_square by lra. auto.
Qed.
