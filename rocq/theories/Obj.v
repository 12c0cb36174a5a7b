(* Model of save_to_obj_file, src/linestring_3d.rs:657-702.
   [Str] is the type of formatted vertex strings and [fmt] the formatting "v {:+e} {:+e} {:+e}" (any function).
   The HashMap is an association list; its iteration order and the unstable sort are oracles (any permutation
   sorted by index). Not modelled: I/O errors (every writeln! succeeds) and the characters of the records. *)
From Coq Require Import Sorting.Permutation Sorting.Sorted.
From Verif Require Import Prelude Scalar.

Section Obj.
  Context {P Str : Type} (str_dec : forall a b : Str, {a = b} + {a <> b}) (fmt : P -> Str).

  (* Line3 (start, end) *)
  Notation oline := (P * P)%type.
  Notation vmap := (list (Str * nat)).

  (* HashMap::get *)
  Fixpoint oget (m : vmap) (k : Str) : option nat :=
    match m with
    | [] => None
    | (k', v) :: t => if str_dec k k' then Some v else oget t k
    end.
  (* lines 667-668 / 670-671: let len = point_set.len(); point_set.entry(a_str).or_insert(len) *)
  Definition oinsert (m : vmap) (p : P) : vmap :=
    match oget m (fmt p) with Some _ => m | None => m ++ [(fmt p, length m)] end.
  (* lines 664-673: both nested loops *)
  Definition point_set (lines : list (list oline)) : vmap :=
    fold_left (fun m i => fold_left (fun m (j : oline) => oinsert (oinsert m (fst j)) (snd j)) i m) lines [].

  (* one line of the file *)
  Inductive record := RObj (name : Str) | RVert (s : Str) (comment : nat) | RLine (a b : nat).

  (* lines 679-699: the 'l' records, or the InternalError *)
  Definition line_record (m : vmap) (j : oline) : outcome record :=
    match oget m (fmt (fst j)) with
    | Some p0 => match oget m (fmt (snd j)) with Some p1 => Val (RLine (p0 + 1) (p1 + 1)) | None => Fail InternalError end
    | None => Fail InternalError
    end.
  (* the records written when the call returns Ok, for some iteration order of the map *)
  Inductive save_obj (name : Str) (lines : list (list oline)) : outcome (list record) -> Prop :=
  | save_intro (es : vmap) :
      Permutation es (point_set lines) -> Sorted (fun a b => snd a <= snd b) es ->
      save_obj name lines
        (let* ls := mapM (line_record (point_set lines)) (concat lines) in
         Val (RObj name :: map (fun kv => RVert (fst kv) (snd kv + 1)) es ++ ls)).
End Obj.
Arguments RObj {Str}. Arguments RVert {Str}. Arguments RLine {Str}.
