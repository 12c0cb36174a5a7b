(* Model of src/shape.rs *)
From Verif Require Import Prelude.

(* src/shape.rs:52-55  struct SetVob; the Vob is a list of bools. *)
Record setvob := { nset : nat; bits : list bool }.

(* src/shape.rs:58-65 *)
Definition fill_with_false (size : nat) : setvob := {| nset := 0; bits := repeat false size |}.

(* src/shape.rs:68-70  vob.get(index).unwrap() *)
Definition vget (v : setvob) (i : nat) : outcome bool := idx (bits v) i.

(* src/shape.rs:73-77  Vob::set panics out of range and returns true iff the bit changed *)
Definition vset (v : setvob) (i : nat) : outcome setvob :=
  let* old := idx (bits v) i in
  Val {| nset := (if old then nset v else S (nset v)); bits := set_nth (bits v) i true |}.

(* AHashMap<usize, SmallVec<[usize; 2]>>: only get / entry().or_default() are used, never iterated,
   so an association list is an exact model. *)
Definition adjm := list (nat * list nat).

Fixpoint adj_get (m : adjm) (k : nat) : option (list nat) :=
  match m with
  | [] => None
  | (k', l) :: t => if Nat.eqb k k' then Some l else adj_get t k
  end.

(* src/shape.rs:209-212 / 214-217: entry(i0).or_default(); if !contains(i1) push(i1) *)
Fixpoint adj_add (m : adjm) (k v : nat) : adjm :=
  match m with
  | [] => [(k, [v])]
  | (k', l) :: t =>
      if Nat.eqb k k'
      then (k', if existsb (Nat.eqb v) l then l else l ++ [v]) :: t
      else (k', l) :: adj_add t k v
  end.

(* src/shape.rs:205-218: body of the for_each over chunks_exact(2) *)
Definition adj_step (st : nat * adjm) (e : nat * nat) : nat * adjm :=
  let '(mx, m) := st in
  let '(i0, i1) := e in
  (Nat.max (Nat.max mx i0) i1, adj_add (adj_add m i0 i1) i1 i0).

(* src/shape.rs:202-220 *)
Definition adjacency_map (indices : list nat) : nat * adjm :=
  fold_left adj_step (chunks2 indices) (0, []).

(* src/shape.rs:235-245: body of the for loop; candidate_nodes is a Vec used as a stack:
   the list below has the top (last pushed) first. Each stored SmallVec is popped from its end
   later, so it is stored reversed (next to be popped first). *)
Definition term_step (m : adjm) (st : setvob * list (nat * list nat)) (v : nat)
  : outcome (setvob * list (nat * list nat)) :=
  let '(term, cands) := st in
  match adj_get m v with
  | Some ns =>
      if negb (Nat.eqb (length ns) 2)
      then let* term := vset term v in Val (term, (v, rev ns) :: cands)
      else Val (term, cands)
  | None => let* term := vset term v in Val (term, cands)
  end.

Fixpoint foldM {A B} (f : A -> B -> outcome A) (l : list B) (a : A) : outcome A :=
  match l with
  | [] => Val a
  | b :: t => let* a' := f a b in foldM f t a'
  end.

(* src/shape.rs:224-251 *)
Definition termination_candidate_nodes (max_index : nat) (m : adjm)
  : outcome (setvob * list (nat * list nat)) :=
  foldM (term_step m) (seq 0 (max_index + 1)) (fill_with_false (max_index + 1), []).

Definition prev_is (prev : option nat) (v : nat) : bool :=
  match prev with Some p => Nat.eqb p v | None => false end.

(* a || b with the Rust short circuit *)
Definition oor (a : outcome bool) (b : outcome bool) : outcome bool :=
  let* x := a in if x then Val true else b.

(* src/shape.rs:120-180: the loop of unwind_line *)
Fixpoint unwind_loop (fuel : nat) (m : adjm) (term : setvob)
    (visited : setvob) (prev : option nat) (current : nat) (line : list nat)
  : outcome (list nat * setvob) :=
  match fuel with
  | O => NoFuel
  | S fuel =>
    let* stop := oor (vget visited current) (vget term current) in
    if stop then Val (line ++ [current], visited)
    else
      let* visited := vset visited current in
      let line := line ++ [current] in
      match adj_get m current with
      | Some ns =>
          if negb (Nat.eqb (length ns) 2) then Val (line, visited)
          else
            let* n0 := idx ns 0 in
            let* skip0 := oor (vget visited n0) (Val (prev_is prev n0)) in
            if negb skip0 then unwind_loop fuel m term visited (Some current) n0 line
            else
              let* n1 := idx ns 1 in
              let* skip1 := oor (vget visited n1) (Val (prev_is prev n1)) in
              if negb skip1 then unwind_loop fuel m term visited (Some current) n1 line
              else Val (line, visited)
      | None => Val (line, visited)
      end
  end.

(* src/shape.rs:91-183 *)
Definition unwind_line (fuel : nat) (current : nat) (next : option nat) (m : adjm)
    (term visited : setvob) : outcome (list nat * setvob) :=
  match next with
  | Some nx =>
      let* t := vget term current in
      let* visited := (if negb t then vset visited current else Val visited) in
      unwind_loop fuel m term visited (Some current) nx [current]
  | None => unwind_loop fuel m term visited None current []
  end.

(* src/shape.rs:315-329: the innermost loop over one candidate's array. Returns the vertex to
   follow (None when the array is used up), the rest of the array, and the groups. *)
Fixpoint scan_array (term visited : setvob) (current : nat) (array : list nat)
    (groups : list (list nat)) : outcome (option nat * list nat * list (list nat)) :=
  match array with
  | [] => Val (None, [], groups)
  | n :: array' =>
      let* t := vget term n in
      if t then
        scan_array term visited current array'
          (if Nat.ltb current n then groups ++ [[current; n]] else groups)
      else
        let* v := vget visited n in
        if v then scan_array term visited current array' groups
        else Val (Some n, array', groups)
  end.

(* src/shape.rs:311-334: the loop labelled 'outer *)
Fixpoint find_next (term visited : setvob) (current : nat) (cands : list (nat * list nat))
    (groups : list (list nat))
  : outcome (option nat * nat * list (nat * list nat) * list (list nat)) :=
  match cands with
  | [] => Val (None, current, [], groups)
  | (c, array) :: rest =>
      let* (nx, array', groups) := scan_array term visited c array groups in
      match nx with
      | Some n => Val (Some n, c, (c, array') :: rest, groups)
      | None =>
          (* candidate_nodes.pop(), assert!(a.is_empty()) *)
          match array' with
          | [] => find_next term visited c rest groups
          | _ :: _ => Panic
          end
      end
  end.

(* src/shape.rs:309-346: first stage *)
Fixpoint stage1 (fuel ufuel : nat) (m : adjm) (term visited : setvob) (current : nat)
    (cands : list (nat * list nat)) (groups : list (list nat))
  : outcome (list (list nat) * setvob) :=
  match fuel with
  | O => NoFuel
  | S fuel =>
    match cands with
    | [] => Val (groups, visited)
    | _ :: _ =>
      let* (nx, current, cands, groups) := find_next term visited current cands groups in
      match nx with
      | Some n =>
          let* (line, visited) := unwind_line ufuel current (Some n) m term visited in
          stage1 fuel ufuel m term visited current cands (groups ++ [line])
      | None => stage1 fuel ufuel m term visited current cands groups
      end
    end
  end.

(* src/shape.rs:381-389: the scan for an unused vertex; returns (current, min_index) *)
Fixpoint scan_unused (fuel : nat) (term visited : setvob) (max_index current min_index : nat)
  : outcome (nat * nat) :=
  match fuel with
  | O => NoFuel
  | S fuel =>
    let* used := oor (vget visited current) (vget term current) in
    if used then
      let current := current + 1 in
      let min_index := current in
      if Nat.leb max_index current then Val (min_index, min_index)
      else scan_unused fuel term visited max_index current min_index
    else Val (current, min_index)
  end.

(* src/shape.rs:379-421: the loop labelled 'outer of the second stage *)
Fixpoint stage2 (fuel sfuel ufuel : nat) (m : adjm) (term visited : setvob)
    (max_index min_index : nat) (groups : list (list nat))
  : outcome (list (list nat) * setvob) :=
  match fuel with
  | O => NoFuel
  | S fuel =>
    let* (current, min_index) := scan_unused sfuel term visited max_index min_index min_index in
    if Nat.ltb max_index current && Nat.leb max_index (nset visited + nset term)
    then Val (groups, visited)
    else
      let current := (if Nat.ltb max_index current then min_index else current) in
      let* v := vget visited current in
      if v then Panic
      else
        let* (line, visited) := unwind_line ufuel current None m term visited in
        let groups :=
          match line with
          | a :: _ :: _ => groups ++ [line ++ [a]]
          | _ => groups
          end in
        if Nat.leb max_index (nset visited + nset term) then Val (groups, visited)
        else stage2 fuel sfuel ufuel m term visited max_index min_index groups
  end.

(* src/shape.rs:282-424. The fuel only bounds the model's recursion: the total-correctness theorem
   shows it never runs out. *)
Definition divide_fuel (indices : list nat) (max_index : nat) : nat :=
  length indices + max_index + 3.

Definition divide_into_shapes (indices : list nat) : outcome (list (list nat) * list bool) :=
  let '(max_index, m) := adjacency_map indices in
  let fuel := divide_fuel indices max_index in
  let* (term, cands) := termination_candidate_nodes max_index m in
  let visited := fill_with_false (max_index + 1) in
  let* (groups, visited) := stage1 fuel fuel m term visited 0 cands [] in
  let* (groups, visited) :=
    (if Nat.ltb (nset visited + nset term) (max_index + 1)
     then stage2 fuel fuel fuel m term visited max_index 0 groups
     else Val (groups, visited)) in
  Val (groups, bits visited).
