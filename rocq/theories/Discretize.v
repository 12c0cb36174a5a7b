(* Model of the DiscreteLineSegmentIterator: src/linestring_2d.rs:1579-1655 and src/linestring_3d.rs:704-780.
   The two files differ only in the vector type, so the iterator is written once over the vector
   operations it uses and instantiated twice. *)
From Coq Require Import NArith.
From Verif Require Import Prelude Scalar.

Section Discretize.
  Context {S : Scalar}.
  Variable V : Type.
  Variables (zeroV : V) (addV subV : V -> V -> V) (scaleV divV : V -> car S -> V) (magV : V -> car S).

  (* linestring_2d.rs:1579-1586 / linestring_3d.rs:704-711: the mutable fields (points and distance are
     constant and passed separately). num_substeps and substep_index are usize: unbounded N here. *)
  Record dstate := mkD { current_index : nat; substep_index : N; num_substeps : N; step : V }.

  (* linestring_2d.rs:1589-1598 / linestring_3d.rs:714-723  new *)
  Definition dnew : dstate := mkD 0 0 0 zeroV.

  (* linestring_2d.rs:1600-1614 / linestring_3d.rs:725-739  initialize_step. The two indexings cannot
     fail: it is called only when current_index < len - 1; out of range is modelled by leaving the state. *)
  Definition initialize_step (points : list V) (distance : car S) (st : dstate) : dstate :=
    match nth_error points (current_index st), nth_error points (current_index st + 1) with
    | Some start_point, Some end_point =>
        let direction := subV end_point start_point in
        let segment_length := magV direction in
        if sltb s0 segment_length then
          let ns := sceil (sdiv segment_length distance) in
          mkD (current_index st) (substep_index st) (s_to_usize ns) (divV direction ns)
        else mkD (current_index st) (substep_index st) 1 zeroV
    | _, _ => st
    end.

  (* linestring_2d.rs:1622-1654 / linestring_3d.rs:747-779  next. The Rust function calls itself only after
     current_index += 1, at most len times; [fuel] bounds that recursion and [dnext] supplies enough. *)
  Fixpoint dnext_ (fuel : nat) (points : list V) (distance : car S) (st : dstate) : option V * dstate :=
    match points with
    | [] => (None, st)
    | p0 :: _ =>
        let n := length points - 1 in
        if Nat.ltb (current_index st) n then
          let st := if N.eqb (substep_index st) 0 then initialize_step points distance st else st in
          if N.ltb (substep_index st) (num_substeps st) then
            let start_point := nth (current_index st) points p0 in
            (Some (addV start_point (scaleV (step st) (s_of_usize (substep_index st)))),
             mkD (current_index st) (substep_index st + 1) (num_substeps st) (step st))
          else
            match fuel with
            | O => (None, st)  (* not reached, see [dnext] *)
            | Datatypes.S f => dnext_ f points distance (mkD (current_index st + 1) 0 (num_substeps st) (step st))
            end
        else if Nat.eqb (current_index st) n then
          (Some (last points p0), mkD (current_index st + 1) 0 (num_substeps st) (step st))
        else (None, st)
    end.
  Definition dnext (points : list V) (distance : car S) (st : dstate) : option V * dstate :=
    dnext_ (length points) points distance st.
End Discretize.
Arguments mkD {V}. Arguments current_index {V}. Arguments substep_index {V}. Arguments num_substeps {V}. Arguments step {V}.

(* src/linestring_2d.rs:1106-1108, src/linestring_3d.rs:554-556  discretize *)
Definition v2zero {S : Scalar} : V2 S := mkV2 s0 s0.
Definition v3zero {S : Scalar} : V3 S := mkV3 s0 s0 s0.
Definition dnew2 {S : Scalar} := dnew (V2 S) v2zero.
Definition dnext2 {S : Scalar} := dnext (V2 S) v2zero vadd vsub vscale vdivs vmag.
Definition dnew3 {S : Scalar} := dnew (V3 S) v3zero.
Definition dnext3 {S : Scalar} := dnext (V3 S) v3zero wadd wsub wscale wdivs wmag.
