(* Model of src/linestring_2d/convex_hull.rs. Sorting is an oracle: see [sort_result]. *)
From Coq Require Import Sorting.Permutation Sorting.Sorted.
From Verif Require Import Prelude Scalar Geo2.

(* slice::sort_unstable_by / Itertools::sorted_unstable_by: some permutation; sorted when the comparator is a
   total (pre)order on the elements (l1 ++ a :: l2 ++ b :: l3 ranges over two different positions, so equal
   elements must compare Equal). For other comparators the standard library only promises a permutation
   (recent versions may also panic: not modelled). *)
Definition total_on {A} (cmp : A -> A -> comparison) (l : list A) : Prop :=
  (forall l1 a l2 b l3, l = l1 ++ a :: l2 ++ b :: l3 -> cmp a b = CompOpp (cmp b a)) /\
  (forall a b c, In a l -> In b l -> In c l -> a <> b -> b <> c -> a <> c ->
     cmp a b <> Gt -> cmp b c <> Gt -> cmp a c <> Gt).
Definition sort_result {A} (cmp : A -> A -> comparison) (l l' : list A) : Prop :=
  Permutation l l' /\ (total_on cmp l -> Sorted (fun a b => cmp a b <> Gt \/ a = b) l').

Section Hull.
  Context {S : Scalar}.
  Notation F := (car S).
  Notation V := (V2 S).
  Local Open Scope sc_scope.

  (* src/linestring_2d/convex_hull.rs:54-59  enum Orientation *)
  Inductive Orientation := OLeft | ORight | OCollinear.

  (* src/linestring_2d/convex_hull.rs:235-237  cross_2d *)
  Definition cross_2d (a b c : V) : F := vperp (vsub b a) (vsub c a).
  (* src/linestring_2d/convex_hull.rs:172-181  point_orientation *)
  Definition point_orientation (a b c : V) : Orientation :=
    let value := cross_2d a b c in
    if (value =? s0) || sulps value s0 then OCollinear
    else if value >? s0 then OLeft else ORight.
  (* src/linestring_2d/convex_hull.rs:196-198  is_point_left *)
  Definition is_point_left (a b c : V) : bool := cross_2d a b c >? s0.
  (* src/linestring_2d/convex_hull.rs:211-214  is_point_left_allow_collinear *)
  Definition is_point_left_allow_collinear (a b c : V) : bool :=
    let result := cross_2d a b c in (result >=? s0) || sulps result s0.
  (* src/linestring_2d/convex_hull.rs:62-71  Orientation::is_left_or_collinear, is_left *)
  Definition is_left_or_collinear (o : Orientation) : bool := match o with ORight => false | _ => true end.
  Definition is_left (o : Orientation) : bool := match o with OLeft => true | _ => false end.

  (* ---- lowest point ---- *)
  (* the loop of find_lowest_x (lines 82-113) and of indexed_find_lowest_x (lines 133-163); [get] reads a
     vertex: Val for the former, vertices[index] for the latter *)
  Fixpoint lowest_loop {A} (get : A -> outcome V) (rest : list A) (i min_idx : nat) (min_val : V) : outcome (nat * V) :=
    match rest with
    | [] => Val (min_idx, min_val)
    | a :: t =>
        let* point := get a in
        match spcmp (vx point) (vx min_val) with
        | Some Lt => lowest_loop get t (Datatypes.S i) i point
        | Some Eq => if vy point <? vy min_val then lowest_loop get t (Datatypes.S i) i point
                     else lowest_loop get t (Datatypes.S i) min_idx min_val
        | Some Gt => lowest_loop get t (Datatypes.S i) min_idx min_val
        | None => Fail InvalidData
        end
    end.
  (* src/linestring_2d/convex_hull.rs:74-114  find_lowest_x *)
  Definition find_lowest_x (vertices : list V) : outcome (nat * V) :=
    match vertices with
    | [] => Fail InvalidData
    | v :: t => lowest_loop (fun p => Val p) t 1 0 v
    end.
  (* src/linestring_2d/convex_hull.rs:119-164  indexed_find_lowest_x *)
  Definition indexed_find_lowest_x (vertices : list V) (indices : list nat) : outcome (nat * V) :=
    match vertices, indices with
    | [], _ | _, [] => Fail InvalidData
    | _, i0 :: t => let* v0 := idx vertices i0 in lowest_loop (idx vertices) t 1 0 v0
    end.

  (* ---- gift wrapping ---- *)
  (* src/linestring_2d/convex_hull.rs:306-338 and 453-487: body of the inner loop for candidate position j;
     [pts] are the selected points: vertices, resp. vertices[indices[..]] (all of which have been read by the
     search for the lowest point before this loop starts) *)
  Definition gift_candidate (pts : list V) (start cur : nat) (st : nat * list bool) (j : nat) : outcome (nat * list bool) :=
    let '(end_point, visited) := st in
    if (Nat.eqb j cur || Nat.eqb j end_point)%bool then Val st
    else
      let* vj := idx visited j in
      if vj : bool then Val st
      else
        let* pc := idx pts cur in let* pe := idx pts end_point in let* pj := idx pts j in
        match point_orientation pc pe pj with
        | ORight => Val (j, visited)
        | OCollinear =>
            if vdist2 pc pj >? vdist2 pc pe then Val (j, visited)
            else if negb (Nat.eqb j start) then Val (end_point, set_nth visited j true)
            else Val st
        | OLeft => Val st
        end.
  Fixpoint gift_inner (pts : list V) (start cur : nat) (js : list nat) (st : nat * list bool) : outcome (nat * list bool) :=
    match js with
    | [] => Val st
    | j :: t => let* st' := gift_candidate pts start cur st j in gift_inner pts start cur t st'
    end.
  (* src/linestring_2d/convex_hull.rs:296-347 and 443-492: the outer loop; returns the positions pushed *)
  Fixpoint gift_loop (fuel : nat) (pts : list V) (start cur : nat) (visited : list bool) (hull : list nat) : outcome (list nat) :=
    match fuel with
    | O => NoFuel
    | Datatypes.S f =>
        let hull := hull ++ [cur] in
        let visited := if negb (Nat.eqb cur start) then set_nth visited cur true else visited in
        let end_point := Nat.modulo (Nat.add cur 1) (length pts) in
        let* (end_point, visited) := gift_inner pts start cur (seq 0 (length pts)) (end_point, visited) in
        if Nat.eqb end_point start then Val hull else gift_loop f pts start end_point visited hull
    end.
  Definition ccw3 {A} (left : bool) (a b c : A) : list A := if left then [a; b; c] else [a; c; b].

  (* "disregard the duplicated loop point if it exists", lines 271-274, 537-540, 624-627 *)
  Definition drop_loop_point (vertices : list V) : list V :=
    match vertices with
    | [] => []
    | v :: t => if veqb v (last vertices v) then t else vertices
    end.
  (* src/linestring_2d/convex_hull.rs:267-350  gift_wrap *)
  Definition gift_wrap (fuel : nat) (vertices : list V) : outcome (list V) :=
    match vertices with
    | [] => Val []
    | _ =>
        match drop_loop_point vertices with
        | [a; b; c] => Val (ccw3 (is_point_left a b c) a b c)
        | pts =>
            if Nat.leb (length pts) 2 then Val pts
            else
              let* (start, _) := find_lowest_x pts in
              let* hull := gift_loop fuel pts start start (repeat false (length pts)) [] in
              mapM (idx pts) (hull ++ [start])
        end
    end.
  (* lines 412-415, 718-721, 1122-1125 *)
  Definition drop_loop_index (indices : list nat) : list nat :=
    match indices with
    | [] => []
    | i :: t => if Nat.eqb i (last indices i) then removelast indices else indices
    end.
  (* lines 419-432, 725-738, 1129-1142 *)
  Definition index_triangle (vertices : list V) (a b c : nat) : outcome (list nat) :=
    let* va := idx vertices a in let* vb := idx vertices b in let* vc := idx vertices c in
    Val (ccw3 (is_point_left va vb vc) a b c).
  (* src/linestring_2d/convex_hull.rs:405-500  indexed_gift_wrap_no_loop *)
  Definition indexed_gift_wrap_no_loop (fuel : nat) (vertices : list V) (indices : list nat) : outcome (list nat) :=
    if Nat.leb (length indices) 1 then Val indices
    else
      match drop_loop_index indices with
      | [a; b; c] => index_triangle vertices a b c
      | inds =>
          if Nat.leb (length inds) 2 then Val inds
          else
            let* (start, _) := indexed_find_lowest_x vertices inds in
            let* pts := mapM (idx vertices) inds in
            let* hull := gift_loop fuel pts start start (repeat false (length pts)) [] in
            mapM (idx inds) hull
      end.
  (* if hull.len() > 1 { hull.push(hull[0]) }: lines 396-399, 701-703, 1182-1184 *)
  Definition close_loop {A} (hull : list A) : list A :=
    match hull with a :: _ :: _ => hull ++ [a] | _ => hull end.
  (* src/linestring_2d/convex_hull.rs:388-401  indexed_gift_wrap *)
  Definition indexed_gift_wrap (fuel : nat) (vertices : list V) (indices : list nat) : outcome (list nat) :=
    omap close_loop (indexed_gift_wrap_no_loop fuel vertices indices).

  (* ---- Graham scan ---- *)
  (* lines 580-588, 668-676 and 779-791: the while loop; the hull is kept with its last element first *)
  Fixpoint pop_right {A} (pos : A -> V) (hull : list A) (p : V) : list A :=
    match hull with
    | t :: ((u :: _) as rest) =>
        let cross := cross_2d (pos u) (pos t) p in
        if (cross <? s0) || sulps cross s0 then pop_right pos rest p else hull
    | _ => hull
    end.
  (* lines 664-679 and 774-793: the loop over the sorted points *)
  Fixpoint graham_loop {A} (pos : A -> V) (skip : A -> bool) (sorted : list A) (hull : list A) : list A :=
    match sorted with
    | [] => hull
    | p :: t => if skip p then graham_loop pos skip t hull
                else graham_loop pos skip t (p :: pop_right pos hull (pos p))
    end.
  (* lines 642-658 and 752-770: key and comparator *)
  Definition keyed {A} (pos : A -> V) (start : V) (a : A) : A * F * F :=
    let diff := vsub (pos a) start in (a, satan2 (vy diff) (vx diff), vdist2 start (pos a)).
  Definition pcmp_or_eq (a b : F) : comparison := match spcmp a b with Some c => c | None => Eq end.
  Definition key_cmp {A} (a b : A * F * F) : comparison :=
    match pcmp_or_eq (snd (fst a)) (snd (fst b)) with Eq => pcmp_or_eq (snd a) (snd b) | c => c end.
  Definition unkey {A} (a : A * F * F) : A := fst (fst a).

  (* src/linestring_2d/convex_hull.rs:620-690  graham_scan: one of its possible results *)
  Inductive graham_scan (input_points : list V) : outcome (list V) -> Prop :=
  | gs_nil : input_points = [] -> graham_scan input_points (Val [])
  | gs_small : input_points <> [] -> length (drop_loop_point input_points) <= 2 ->
      graham_scan input_points (Val (drop_loop_point input_points))
  | gs_three a b c : drop_loop_point input_points = [a; b; c] ->
      graham_scan input_points (Val (ccw3 (is_point_left a b c) a b c))
  | gs_error e : 3 < length (drop_loop_point input_points) ->
      find_lowest_x (drop_loop_point input_points) = Fail e -> graham_scan input_points (Fail e)
  | gs_scan i start sorted : 3 < length (drop_loop_point input_points) ->
      find_lowest_x (drop_loop_point input_points) = Val (i, start) ->
      sort_result key_cmp (map (keyed (fun p => p) start) (drop_loop_point input_points)) sorted ->
      graham_scan input_points
        (Val (close_loop (rev (graham_loop (fun p => p) (fun p => veqb p start) (map unkey sorted) [start])))).

  (* ---- graham_scan_wo_atan2 ---- *)
  (* lines 558-576: the comparator; None is the panic!() on an unordered cross product *)
  Definition wo_cmp (start : V) (b c : V) : option comparison :=
    let ccr := cross_2d start b c in
    match spcmp s0 ccr with
    | Some Gt => Some Gt
    | Some Lt => Some Lt
    | Some Eq => if vdist2 start b >? vdist2 start c then Some Gt else Some Lt
    | None => None
    end.
  (* lines 583-598 *)
  Fixpoint wo_loop (sorted : list V) (hull : list V) : list V :=
    match sorted with
    | [] => hull
    | p :: t =>
        let hull := pop_right (fun p => p) hull p in
        wo_loop t (match hull with l :: _ => if negb (veqb l p) then p :: hull else hull | [] => [p] end)
    end.
  (* src/linestring_2d/convex_hull.rs:529-606  graham_scan_wo_atan2: one of its possible results *)
  Inductive graham_scan_wo_atan2 (input_points : list V) : outcome (list V) -> Prop :=
  | wo_nil : input_points = [] -> graham_scan_wo_atan2 input_points (Val [])
  | wo_small : input_points <> [] -> length (drop_loop_point input_points) <= 2 ->
      graham_scan_wo_atan2 input_points (Val (drop_loop_point input_points))
  | wo_three a b c : drop_loop_point input_points = [a; b; c] ->
      graham_scan_wo_atan2 input_points (Val (ccw3 (is_point_left a b c) a b c))
  | wo_error e : 3 < length (drop_loop_point input_points) ->
      find_lowest_x (drop_loop_point input_points) = Fail e -> graham_scan_wo_atan2 input_points (Fail e)
  | wo_panic i start b c : 3 < length (drop_loop_point input_points) ->
      find_lowest_x (drop_loop_point input_points) = Val (i, start) ->
      In b (drop_loop_point input_points) -> In c (drop_loop_point input_points) -> wo_cmp start b c = None ->
      graham_scan_wo_atan2 input_points Panic
  | wo_scan i start sorted : 3 < length (drop_loop_point input_points) ->
      find_lowest_x (drop_loop_point input_points) = Val (i, start) ->
      sort_result (fun b c => match wo_cmp start b c with Some o => o | None => Eq end) (drop_loop_point input_points) sorted ->
      let rv := rev (wo_loop sorted [start]) in
      graham_scan_wo_atan2 input_points
        (Val (if negb (is_connected rv) then match rv with a :: _ => rv ++ [a] | [] => rv end else rv)).

  (* ---- indexed Graham scan ---- *)
  (* src/linestring_2d/convex_hull.rs:708-797  indexed_graham_scan_no_loop: one of its possible results *)
  Inductive indexed_graham_no_loop (vertices : list V) (indices : list nat) (start_index : option nat) : outcome (list nat) -> Prop :=
  | ig_small : length indices <= 1 \/ length (drop_loop_index indices) <= 2 ->
      indexed_graham_no_loop vertices indices start_index
        (Val (if Nat.leb (length indices) 1 then indices else drop_loop_index indices))
  | ig_three a b c : 1 < length indices -> drop_loop_index indices = [a; b; c] ->
      indexed_graham_no_loop vertices indices start_index (index_triangle vertices a b c)
  | ig_scan sorted : 3 < length (drop_loop_index indices) ->
      let inds := drop_loop_index indices in
      let find := match start_index with
                  | Some i => let* p := idx vertices i in Val (i, p)
                  | None => let* (ii, p) := indexed_find_lowest_x vertices inds in let* i := idx inds ii in Val (i, p)
                  end in
      (forall si sp pts, find = Val (si, sp) -> mapM (idx vertices) inds = Val pts ->
         sort_result key_cmp (map (keyed snd sp) (combine inds pts)) sorted) ->
      indexed_graham_no_loop vertices indices start_index
        (let* (si, sp) := find in
         let* pts := mapM (idx vertices) inds in
         Val (map fst (rev (graham_loop snd (fun ip => Nat.eqb (fst ip) si) (map unkey sorted) [(si, sp)])))).
  (* src/linestring_2d/convex_hull.rs:694-705  indexed_graham_scan *)
  Definition indexed_graham_scan (vertices : list V) (indices : list nat) (out : outcome (list nat)) : Prop :=
    exists r, indexed_graham_no_loop vertices indices None r /\ out = omap close_loop r.

  (* ---- parallel hull ---- *)
  (* src/linestring_2d/convex_hull.rs:826-834  struct VertexIndex *)
  Record VertexIndex := mkVI { from_a : bool; vindex : nat; index_index : nat }.
  (* lines 890-931: the first candidate, the successor in the same list *)
  Definition combine_next (ia ib : list nat) (cur : VertexIndex) : outcome VertexIndex :=
    if from_a cur then
      let ii := Nat.modulo (Nat.add (index_index cur) 1) (length ia) in
      let* i := idx ia ii in
      if negb (Nat.eqb i (vindex cur)) then Val (mkVI true i ii)
      else let* b := idx ib 0 in Val (mkVI false b 0)
    else
      let ii := Nat.modulo (Nat.add (index_index cur) 1) (length ib) in
      let* i := idx ib ii in
      if negb (Nat.eqb i (vindex cur)) then Val (mkVI false i ii)
      else let* a := idx ia 0 in Val (mkVI true a 0).
  (* lines 937-1008 and 1009-1052: the loop over the other list; [side] is the list the candidates come from *)
  Fixpoint combine_inner (vertices : list V) (side : bool) (cur : VertexIndex) (cands : list nat) (jj : nat)
      (end_point : VertexIndex) (found : bool) : outcome VertexIndex :=
    match cands with
    | [] => Val end_point
    | j :: t =>
        if (Nat.eqb j (vindex cur) || Nat.eqb j (vindex end_point))%bool
        then combine_inner vertices side cur t (Datatypes.S jj) end_point found
        else
          let* pc := idx vertices (vindex cur) in let* pe := idx vertices (vindex end_point) in let* pj := idx vertices j in
          match point_orientation pc pe pj with
          | ORight => combine_inner vertices side cur t (Datatypes.S jj) (mkVI side j jj) true
          | OCollinear =>
              if vdist2 pc pj >? vdist2 pc pe then combine_inner vertices side cur t (Datatypes.S jj) (mkVI side j jj) true
              else combine_inner vertices side cur t (Datatypes.S jj) end_point found
          | OLeft => if found then Val end_point else combine_inner vertices side cur t (Datatypes.S jj) end_point found
          end
    end.
  (* lines 870-1072: the outer loop *)
  Fixpoint combine_loop (fuel : nat) (vertices : list V) (ia ib : list nat) (start : nat) (cur : VertexIndex) (hull : list nat) : outcome (list nat) :=
    match fuel with
    | O => NoFuel
    | Datatypes.S f =>
        let hull := hull ++ [vindex cur] in
        let* e0 := combine_next ia ib cur in
        let* e := combine_inner vertices (negb (from_a cur)) cur (if from_a cur then ib else ia) 0 e0 false in
        if Nat.eqb (vindex e) start then Val hull else combine_loop f vertices ia ib start e hull
    end.
  (* src/linestring_2d/convex_hull.rs:843-1074  combine_indexed_convex_hull (on Ok arguments) *)
  Definition combine_hulls (fuel : nat) (vertices : list V) (ia ib : list nat) : outcome (list nat) :=
    match ia, ib with
    | [], _ => Val ib
    | _, [] => Val ia
    | a0 :: _, _ => combine_loop fuel vertices ia ib a0 (mkVI true a0 0) []
    end.

  (* rayon's reduce over the chunk hulls: every leaf folds its items starting from the identity, every inner
     node combines its two halves; which tree is used depends on the schedule *)
  Inductive tree (A : Type) := Leaf (items : list A) | Node (l r : tree A).
  Arguments Leaf {A}. Arguments Node {A}.
  Fixpoint leaves {A} (t : tree A) : list A := match t with Leaf l => l | Node l r => leaves l ++ leaves r end.
  Fixpoint reduce {A} (op : A -> A -> outcome A) (e : A) (t : tree A) : outcome A :=
    match t with
    | Leaf l => fold_left (fun acc x => let* a := acc in op a x) l (Val e)
    | Node l r => let* a := reduce op e l in let* b := reduce op e r in op a b
    end.
  (* slice::chunks(n), n > 0 *)
  Fixpoint chunks {A} (fuel : nat) (n : nat) (l : list A) : list (list A) :=
    match fuel, l with
    | O, _ | _, [] => []
    | Datatypes.S f, _ => firstn n l :: chunks f n (skipn n l)
    end.
  (* lines 1147-1159: start_index, the lowest of the lowest points of the chunks *)
  Definition par_start (vertices : list V) (cs : list (list nat)) : outcome nat :=
    let* starts := mapM (fun c => let* (ii, _) := indexed_find_lowest_x vertices c in idx c ii) cs in
    let* (k, _) := indexed_find_lowest_x vertices starts in idx starts k.
  (* src/linestring_2d/convex_hull.rs:1112-1186  convex_hull_par: one of its possible results. Panic when the
     chunk size is zero. When par_start succeeds every scan of a chunk returns Ok (the same points are compared). *)
  Inductive convex_hull_par (fuel : nat) (vertices : list V) (indices : list nat) (chunk : nat) : outcome (list nat) -> Prop :=
  | cp_small : length indices <= 1 \/ length (drop_loop_index indices) <= 2 ->
      convex_hull_par fuel vertices indices chunk
        (Val (if Nat.leb (length indices) 1 then indices else drop_loop_index indices))
  | cp_three a b c : 1 < length indices -> drop_loop_index indices = [a; b; c] ->
      convex_hull_par fuel vertices indices chunk (index_triangle vertices a b c)
  | cp_zero : 3 < length (drop_loop_index indices) -> chunk = 0%nat -> convex_hull_par fuel vertices indices chunk Panic
  | cp_error e : 3 < length (drop_loop_index indices) -> chunk <> 0%nat ->
      par_start vertices (chunks (length (drop_loop_index indices)) chunk (drop_loop_index indices)) = Fail e ->
      convex_hull_par fuel vertices indices chunk (Fail e)
  | cp_panic : 3 < length (drop_loop_index indices) -> chunk <> 0%nat ->
      par_start vertices (chunks (length (drop_loop_index indices)) chunk (drop_loop_index indices)) = Panic ->
      convex_hull_par fuel vertices indices chunk Panic
  | cp_run start (results : list (list nat)) (t : tree (list nat)) :
      3 < length (drop_loop_index indices) -> chunk <> 0%nat ->
      let inds := drop_loop_index indices in
      let cs := chunks (length inds) chunk inds in
      par_start vertices cs = Val start ->
      Forall2 (fun c r => indexed_graham_no_loop vertices c None (Val r)) cs results ->
      leaves t = results ->
      convex_hull_par fuel vertices indices chunk (omap close_loop (reduce (combine_hulls fuel vertices) [start] t)).

  (* the same lines (1144-1186) for a given reduction tree t; convex_hull_par takes any tree *)
  Definition convex_hull_par_by (t : tree (list nat)) (fuel : nat) (vertices : list V) (indices : list nat) (chunk : nat) (r : outcome (list nat)) : Prop :=
    3 < length (drop_loop_index indices) /\ chunk <> 0%nat /\ exists start,
      par_start vertices (chunks (length (drop_loop_index indices)) chunk (drop_loop_index indices)) = Val start /\
      Forall2 (fun c h => indexed_graham_no_loop vertices c None (Val h))
        (chunks (length (drop_loop_index indices)) chunk (drop_loop_index indices)) (leaves t) /\
      r = omap close_loop (reduce (combine_hulls fuel vertices) [start] t).
  (* every task of the reduction gets at most one chunk *)
  Fixpoint one_each {A} (t : tree A) : Prop :=
    match t with Leaf l => length l <= 1 | Node l r => one_each l /\ one_each r end.

  (* ---- containment ---- *)
  (* lines 1300-1335 and 1408-1443: the search; [o] is input[input_offset]; the result is the final slice and
     retain_index_0, or None when the point is right of a tested edge *)
  Fixpoint search (fuel : nat) (o : V) (p : V) (slice : list V) (retain : bool) : outcome (option (list V * bool)) :=
    if (Nat.ltb 3 (length slice) || (retain && Nat.ltb 2 (length slice)))%bool then
      match fuel with
      | O => NoFuel
      | Datatypes.S f =>
          let mid := if retain then Nat.sub (Nat.div (Nat.add (length slice) 1) 2) 1 else Nat.div (length slice) 2 in
          match mid with
          | O => Panic      (* slice[mid - 1] *)
          | Datatypes.S m =>
              let* a := idx slice m in let* b := idx slice mid in
              if negb (is_point_left_allow_collinear a b p) then Val None
              else
                let* z := idx slice 0 in
                if (retain && is_point_left_allow_collinear o b p) || (negb retain && is_point_left_allow_collinear z b p)
                then search f o p (skipn mid slice) true
                else search f o p (firstn (Datatypes.S mid) slice) retain
          end
      end
    else Val (Some (slice, retain)).
  (* lines 1339-1374 and 1447-1482: the last test, with the given edge predicate *)
  Definition final_test (left : V -> V -> V -> bool) (o p : V) (slice : list V) (retain : bool) : outcome bool :=
    match slice with
    | [] => Panic
    | z :: _ =>
        let zl := last slice z in
        let inner := forallb (fun w => left (fst w) (snd w) p) (windows slice) in
        if retain then Val (left o z p && inner && left zl o p)
        else Val (inner && left zl z p)
    end.
  Definition contains_with (left : V -> V -> V -> bool) (input : list V) (p : V) : outcome bool :=
    match input with
    | [] => Val false
    | [a] => Val (veqb p a)
    | a :: t =>
        if (Nat.eqb (length input) 2 && negb (veqb a (last t a)))%bool then Val false
        else
          let '(slice, off) := if veqb a (last t a) then (t, 1%nat) else (input, 0%nat) in
          let* o := idx input off in
          let* r := search (length slice) o p slice false in
          match r with
          | None => Val false
          | Some (sl, retain) => final_test left o p sl retain
          end
    end.
  (* src/linestring_2d/convex_hull.rs:1279-1376  contains_point_exclusive *)
  Definition contains_point_exclusive : list V -> V -> outcome bool := contains_with is_point_left.
  (* src/linestring_2d/convex_hull.rs:1399-1484  contains_point_inclusive *)
  Definition contains_point_inclusive : list V -> V -> outcome bool := contains_with is_point_left_allow_collinear.
  (* src/linestring_2d.rs:1041-1051  LineString2::contains_point_inclusive / _exclusive *)
  Definition ls_contains_inclusive (l : list V) (p : V) : outcome bool :=
    if is_connected l then contains_point_inclusive l p else Val false.
  Definition ls_contains_exclusive (l : list V) (p : V) : outcome bool :=
    if is_connected l then contains_point_exclusive l p else Val false.
  (* Iterator::all with a computation that may panic *)
  Fixpoint allM {A} (f : A -> outcome bool) (l : list A) : outcome bool :=
    match l with
    | [] => Val true
    | a :: t => let* b := f a in if b : bool then allM f t else Val false
    end.
  (* src/linestring_2d/convex_hull.rs:1212-1235  contains_convex_hull *)
  Definition contains_convex_hull (a b : list V) : outcome bool :=
    if Nat.leb (point_count a) 1 then Val false
    else
      match b with
      | [] => Val true
      | b0 :: _ =>
          let am := Nat.div (length a) 2 in
          let* e0 := idx a (Nat.sub am 1) in let* e1 := idx a am in
          let* bm := idx b (Nat.div (length b) 2) in
          if (negb (is_point_left_allow_collinear e0 e1 b0) || negb (is_point_left_allow_collinear e0 e1 bm))%bool then Val false
          else allM (contains_point_inclusive a) b
      end.
  (* src/linestring_2d/convex_hull.rs:1263-1272  contains_convex_hull_par; rayon's all may visit b in any order *)
  Definition contains_convex_hull_par (a b b_order : list V) : outcome bool :=
    if Nat.leb (point_count a) 1 then Val false
    else match b with [] => Val true | _ => allM (contains_point_inclusive a) b_order end.

  (* src/linestring_2d.rs:913-915  LineString2::convex_hull *)
  Definition ls_convex_hull (l : list V) (r : outcome (list V)) : Prop := graham_scan l r.
  (* src/linestring_2d.rs:919-928  LineString2::convex_hull_par *)
  Inductive ls_convex_hull_par (fuel : nat) (l : list V) (chunk : nat) : outcome (list V) -> Prop :=
  | lcp_assert : chunk <= 1 -> ls_convex_hull_par fuel l chunk Panic
  | lcp_run r : 1 < chunk -> convex_hull_par fuel l (seq 0 (length l)) chunk r ->
      ls_convex_hull_par fuel l chunk (let* is := r in mapM (idx l) is).
End Hull.
Arguments Leaf {A}. Arguments Node {A}.
