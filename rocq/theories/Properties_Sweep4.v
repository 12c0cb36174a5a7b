(* C126: in exact arithmetic the finders do not depend on how the ordered map is implemented.
   Model: SweepTree.v (the code over any ordered map), BTree.v (std's map), Sweep.v/SweepRun.v (the same code over sorted lists
   searched from the front, about which C63-C71 and C85-C88 are stated). Vocabulary: SweepTree.v ([lawful_maps],
   [lawful_indexed_maps]: what every search tree guarantees, whatever its shape), SweepIdx.v ([in_range_edges]). *)
From Coq Require Import ZArith Reals Lra Lia.
From Verif Require Import Prelude Scalar RInst Geo2 GeoSpec Sweep SweepMap SweepIdx SweepRun SweepTree BTree BTreeProofs SweepMapEq SweepCons.
Local Open Scope R_scope.

Lemma exact_keys (lines : list (Line2 RS)) : consistent (key_point lines).
Proof. apply (consistent_sub (fun _ => True)); [intros; exact I|exact consistent_R]. Qed.
(* any two implementations give the same result, error or panic, for every iteration order of the hash sets and both options *)
Theorem C126_any_map : forall inf ord fuel stop ign (QM QM' : Map (V2 RS) (V2 RS) SiteEvent) (RM RM' : Map (V2 RS) (V2 RS) (list nat)) input,
  lawful_maps QM RM -> lawful_maps QM' RM' ->
  tree_intersections inf QM RM ord fuel stop ign input = tree_intersections inf QM' RM' ord fuel stop ign input.
Proof. intros. rewrite !tree_same by auto using exact_keys. reflexivity. Qed.
Print Assumptions C126_any_map.
Theorem C126_any_map_indexed : forall inf ord fuel stop ign (QM QM' : Map (V2 RS) (IKey (S := RS)) SiteEvent) (RM RM' : Map (V2 RS) (IKey (S := RS)) (list nat)) vertices edges,
  in_range_edges vertices edges -> lawful_indexed_maps QM RM -> lawful_indexed_maps QM' RM' ->
  tree_indexed_intersections inf QM RM ord fuel stop ign vertices edges = tree_indexed_intersections inf QM' RM' ord fuel stop ign vertices edges.
Proof.
  intros inf ord fuel stop ign QM QM' RM RM' vertices edges Hr H H'. destruct (lines_of_exists _ _ Hr) as (ls & Hl).
  rewrite (tree_indexed_same inf QM RM) with (ls := ls), (tree_indexed_same inf QM' RM') with (ls := ls) by auto using exact_keys. reflexivity.
Qed.
Print Assumptions C126_any_map_indexed.
Theorem C126_any_map_self : forall inf ord fuel (QM QM' : Map (V2 RS) (V2 RS) SiteEvent) (RM RM' : Map (V2 RS) (V2 RS) (list nat)) l,
  lawful_maps QM RM -> lawful_maps QM' RM' -> tree_self_intersecting inf QM RM ord fuel l = tree_self_intersecting inf QM' RM' ord fuel l.
Proof. intros. rewrite !tree_self_same by auto using exact_keys. reflexivity. Qed.
Print Assumptions C126_any_map_self.

(* std's B-tree is one of these implementations, over any scalar type: exact, f64 or f32 *)
Theorem C126_std_lawful : forall S : Scalar,
  lawful_maps (std_map S SiteEvent) (std_map S (list nat)) /\ lawful_indexed_maps (std_indexed_map S SiteEvent) (std_indexed_map S (list nat)).
Proof. intros S. split; split; apply btree_lawful. Qed.
Print Assumptions C126_std_lawful.
(* so the theorems about the sorted lists are theorems about the code with std's map *)
Theorem C126_std_plain : forall inf ord fuel stop ign (input : list (Line2 RS)),
  tree_intersections inf (std_map RS SiteEvent) (std_map RS (list nat)) ord fuel stop ign input = intersections inf ord fuel stop ign input.
Proof. intros. apply tree_same; [apply C126_std_lawful|apply exact_keys]. Qed.
Print Assumptions C126_std_plain.
Theorem C126_std_indexed : forall inf ord fuel stop ign (vertices : list (V2 RS)) edges, in_range_edges vertices edges ->
  tree_indexed_intersections inf (std_indexed_map RS SiteEvent) (std_indexed_map RS (list nat)) ord fuel stop ign vertices edges =
  indexed_intersections inf ord fuel stop ign vertices edges.
Proof. intros inf ord fuel stop ign vertices edges Hr. destruct (lines_of_exists _ _ Hr) as (ls & Hl). eapply tree_indexed_same; [apply C126_std_lawful|exact Hl|apply exact_keys]. Qed.
Print Assumptions C126_std_indexed.
Theorem C126_std_self : forall inf ord fuel (l : list (V2 RS)),
  tree_self_intersecting inf (std_map RS SiteEvent) (std_map RS (list nat)) ord fuel l = is_self_intersecting inf ord fuel l.
Proof. intros. apply tree_self_same; [apply C126_std_lawful|apply exact_keys]. Qed.
Print Assumptions C126_std_self.

(* two different implementations: std's tree and the sorted list. They differ on what they store: after twelve keys the tree has
   a root with one entry and two leaves *)
Example C126_maps : lawful_maps (S := RS) (std_map RS SiteEvent) (std_map RS (list nat)) /\ lawful_maps (S := RS) (list_map _ _ (fun v => v)) (list_map _ _ (fun v => v)).
Proof. split; [apply C126_std_lawful|split; apply list_map_lawful]. Qed.
Example C126_tree_grows : let t := fold_left (fun t i => tree_insert t i i i) (seq 0 12) (Leaf []) in
  (exists kv l r, t = Inner [kv] [l; r]) /\ node_list t = map (fun i => (i, i)) (seq 0 12).
Proof. split; [do 3 eexists; reflexivity|reflexivity]. Qed.
