(* Further model: coordinate-wise [apply], constructors from arrays, and the window / chunk iterators as
   state machines (Geo2.v models them as the list of the items they yield). *)
From Coq Require Import NArith.
From Verif Require Import Prelude Scalar Geo2 Geo3.

Section Misc.
  Context {S : Scalar}.
  Notation F := (car S).

  (* src/linestring_2d.rs:1332-1340  Aabb2::apply: the closure is applied to both stored corners *)
  Definition aabb2_apply (f : V2 S -> V2 S) (a : Aabb2 S) : Aabb2 S :=
    match a with Some (mn, mx) => Some (f mn, f mx) | None => None end.
  (* src/linestring_3d.rs:288-292  Aabb3::apply *)
  Definition aabb3_apply (f : V3 S -> V3 S) (a : Aabb3 S) : Aabb3 S :=
    match a with Some (mn, mx) => Some (f mn, f mx) | None => None end.

  (* src/linestring_3d/impls.rs:132-141  From<[IT; 2]> for Aabb3 (with IT = T) *)
  Definition aabb3_of_corners (a b : V3 S) : Aabb3 S := Some (a, b).
  (* src/linestring_3d/impls.rs:143-152  From<[T::Scalar; 6]> for Aabb3 *)
  Definition aabb3_of_scalars (c0 c1 c2 c3 c4 c5 : F) : Aabb3 S := Some (mkV3 c0 c1 c2, mkV3 c3 c4 c5).

  (* src/linestring_2d/impls.rs:84-91  From<[T::Scalar; 4]> for Line2 *)
  Definition line2_of_4 (c0 c1 c2 c3 : F) : Line2 S := mkL (mkV2 c0 c1) (mkV2 c2 c3).
  (* src/linestring_2d/impls.rs:93-100  From<[[T::Scalar; 2]; 2]> for Line2 *)
  Definition line2_of_22 (a b : F * F) : Line2 S := mkL (mkV2 (fst a) (snd a)) (mkV2 (fst b) (snd b)).
  (* src/linestring_3d/impls.rs:79-86  From<[T::Scalar; 6]> for Line3 *)
  Definition line3_of_6 (c0 c1 c2 c3 c4 c5 : F) : Line3 S := mkL3 (mkV3 c0 c1 c2) (mkV3 c3 c4 c5).
  (* src/linestring_3d/impls.rs:103-107  From<[IT; 2]> for Line3 (with IT = T), src/linestring_3d.rs:161-163 *)
  Definition line3_of_2 (a b : V3 S) : Line3 S := mkL3 a b.

  (* src/linestring_2d.rs:1055-1062  LineString2::apply; src/linestring_3d.rs:508-510  LineString3::apply:
     every element is replaced in place, front to back *)
  Fixpoint ls_apply {T : Type} (f : T -> T) (l : list T) : list T :=
    match l with [] => [] | v :: t => f v :: ls_apply f t end.
  (* src/linestring_3d.rs:182-187  Line3::apply *)
  Definition line3_apply (f : V3 S -> V3 S) (l : Line3 S) : Line3 S := mkL3 (f (wstart l)) (f (wend l)).
End Misc.

(* ---- iterators as state machines, generic in the point type T (2D and 3D are the same text) ---- *)
Section Iter.
  Context {T : Type}.
  (* std::slice::Windows<T> with size 2: the part of the slice not yet passed *)
  Definition WindowIt := list T.
  (* src/linestring_2d.rs:884-886, src/linestring_3d.rs:481-483  window_iter *)
  Definition win_new (l : list T) : WindowIt := l.
  (* src/linestring_2d/impls.rs:158-163, src/linestring_3d/impls.rs:60-65  next, on std's Windows::next:
     None when fewer than two points are left, else the first two points and the slice advanced by one *)
  Definition win_next (it : WindowIt) : option (T * T) * WindowIt :=
    match it with
    | a :: b :: t => (Some (a, b), b :: t)
    | _ => (None, it)
    end.
  (* src/linestring_2d.rs:669-671, impls.rs:178-180, src/linestring_3d.rs:371-373  len
     (std: number of windows, len - size + 1 or 0) *)
  Definition win_len (it : WindowIt) : nat := if Nat.ltb (length it) 2 then 0 else length it - 2 + 1.
  (* src/linestring_2d.rs:665-667, src/linestring_3d.rs:366-368  is_empty *)
  Definition win_is_empty (it : WindowIt) : bool := Nat.eqb (win_len it) 0.
  (* Iterator::size_hint is not overridden in src/linestring_2d/impls.rs:155-164: core's default (0, None) *)
  Definition win_size_hint (it : WindowIt) : nat * option nat := (0, None).

  (* std::slice::ChunksExact<T> with size 2: the points still to come and the remainder *)
  Record ChunkIt := mkChunk { ck_v : list T; ck_rem : list T }.
  (* src/linestring_2d.rs:891-893, src/linestring_3d.rs:488-490  chunk_iter (std: split at len - len % 2) *)
  Definition ck_new (l : list T) : ChunkIt :=
    let k := length l - length l mod 2 in mkChunk (firstn k l) (skipn k l).
  (* src/linestring_2d/impls.rs:169-174, src/linestring_3d/impls.rs:71-76  next, on std's ChunksExact::next *)
  Definition ck_next (it : ChunkIt) : option (T * T) * ChunkIt :=
    match ck_v it with
    | a :: b :: t => (Some (a, b), mkChunk t (ck_rem it))
    | _ => (None, it)
    end.
  (* src/linestring_2d.rs:685-687, src/linestring_3d.rs:386-388  len *)
  Definition ck_len (it : ChunkIt) : nat := length (ck_v it) / 2.
  (* src/linestring_2d.rs:680-682, src/linestring_3d.rs:381-383  is_empty *)
  Definition ck_is_empty (it : ChunkIt) : bool := Nat.eqb (ck_len it) 0.
  (* src/linestring_2d.rs:691-693, src/linestring_3d.rs:392-394  remainder *)
  Definition ck_remainder (it : ChunkIt) : list T := ck_rem it.

  (* calling next k times: the results in order, and the iterator afterwards *)
  Fixpoint calls {I : Type} (next : I -> option (T * T) * I) (k : nat) (it : I) : list (option (T * T)) * I :=
    match k with
    | O => ([], it)
    | Datatypes.S k => let '(r, it) := next it in let '(rs, it) := calls next k it in (r :: rs, it)
    end.
End Iter.
