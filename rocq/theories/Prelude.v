(* Outcomes of Rust calls and generic list helpers used by every model file. *)
From Coq Require Export List Arith Lia Bool.
Export ListNotations.

(* src/lib.rs:82-103  enum LinestringError (message strings are not modelled). *)
Inductive err := SelfIntersectingData | InputNotPlane | InvalidData | InternalError
               | AabbError | TransformError | IoError.

(* Result of running a Rust function: a returned (Ok) value, a returned Err, a panic,
   or "the loop has not finished within the given number of iterations". *)
Inductive outcome (A : Type) : Type :=
| Val (a : A) | Fail (e : err) | Panic | NoFuel.
Arguments Val {A} a. Arguments Fail {A} e. Arguments Panic {A}. Arguments NoFuel {A}.

Definition obind {A B} (m : outcome A) (f : A -> outcome B) : outcome B :=
  match m with Val a => f a | Fail e => Fail e | Panic => Panic | NoFuel => NoFuel end.
Notation "'let*' x ':=' m 'in' k" := (obind m (fun x => k))
  (at level 200, x pattern, m at level 100, k at level 200, right associativity).

Definition omap {A B} (f : A -> B) (m : outcome A) : outcome B := let* a := m in Val (f a).

(* slice indexing v[i]: panics when out of range *)
Definition idx {A} (l : list A) (i : nat) : outcome A :=
  match nth_error l i with Some a => Val a | None => Panic end.

(* a computation mapped over a list, left to right, stopping at the first non-value *)
Fixpoint mapM {A B} (f : A -> outcome B) (l : list A) : outcome (list B) :=
  match l with
  | [] => Val []
  | a :: t => let* b := f a in let* bs := mapM f t in Val (b :: bs)
  end.

(* slice::windows(2) *)
Fixpoint windows {A} (l : list A) : list (A * A) :=
  match l with
  | a :: (b :: _) as t => (a, b) :: windows t
  | _ => []
  end.

(* slice::chunks_exact(2) *)
Fixpoint chunks2 {A} (l : list A) : list (A * A) :=
  match l with
  | a :: b :: t => (a, b) :: chunks2 t
  | _ => []
  end.

(* v[i] = a (no effect when out of range; callers check the range) *)
Fixpoint set_nth {A} (l : list A) (i : nat) (a : A) : list A :=
  match l, i with
  | [], _ => []
  | _ :: t, O => a :: t
  | x :: t, S j => x :: set_nth t j a
  end.

Lemma obind_val {A B} (m : outcome A) (f : A -> outcome B) b :
  obind m f = Val b -> exists a, m = Val a /\ f a = Val b.
Proof. destruct m; simpl; intros H; try discriminate; eauto. Qed.

Lemma idx_val {A} (l : list A) i a : idx l i = Val a <-> nth_error l i = Some a.
Proof. unfold idx; destruct (nth_error l i); split; congruence. Qed.

Lemma idx_in_range {A} (l : list A) i : i < length l -> exists a, idx l i = Val a.
Proof.
  intros H. unfold idx. destruct (nth_error l i) eqn:E; eauto.
  apply nth_error_None in E; lia.
Qed.

Lemma set_nth_length {A} (l : list A) i a : length (set_nth l i a) = length l.
Proof. revert i; induction l; intros [|i]; simpl; auto. Qed.

Lemma nth_error_set_nth {A} (l : list A) i j a :
  nth_error (set_nth l i a) j =
  if Nat.eqb i j then (if Nat.ltb j (length l) then Some a else None) else nth_error l j.
Proof.
  revert i j; induction l as [|x l IH]; intros i j; simpl.
  - destruct i; simpl; destruct (Nat.eqb_spec 0 j); destruct j; simpl; try congruence;
      try (destruct (Nat.eqb i j)); auto.
  - destruct i as [|i], j as [|j]; simpl; auto.
    rewrite IH. destruct (Nat.eqb_spec i j); auto.
Qed.

Lemma windows_app {A} (l : list A) a b r :
  windows (l ++ a :: b :: r) = windows (l ++ [a]) ++ (a, b) :: windows (b :: r).
Proof.
  induction l as [|x l IH]; simpl; auto.
  destruct l as [|y l]; simpl in *; auto.
  rewrite IH. reflexivity.
Qed.

Lemma windows_snoc {A} (l : list A) a b :
  windows (l ++ [a; b]) = windows (l ++ [a]) ++ [(a, b)].
Proof. exact (windows_app l a b []). Qed.

Lemma windows_length {A} (l : list A) : length (windows l) = length l - 1.
Proof. induction l as [|a [|b l] IH]; simpl in *; auto. rewrite IH. lia. Qed.

Lemma windows_In_l {A} (l : list A) a b : In (a, b) (windows l) -> In a l /\ In b l.
Proof.
  induction l as [|x [|y l] IH]; simpl; try tauto.
  intros [E|H]; [injection E as -> ->; auto|]. apply IH in H. simpl in H. tauto.
Qed.

Lemma NoDup_app_intro {A} (l1 l2 : list A) :
  NoDup l1 -> NoDup l2 -> (forall x, In x l1 -> ~ In x l2) -> NoDup (l1 ++ l2).
Proof.
  induction l1 as [|a l1 IH]; simpl; intros H1 H2 Hd; auto.
  inversion H1; subst. constructor.
  - rewrite in_app_iff. intros [?|?]; [auto|]. eapply Hd; eauto.
  - apply IH; auto.
Qed.

Lemma NoDup_app_inv {A} (l1 l2 : list A) :
  NoDup (l1 ++ l2) -> NoDup l1 /\ NoDup l2 /\ (forall x, In x l1 -> ~ In x l2).
Proof.
  induction l1 as [|a l1 IH]; simpl; intros H; [repeat split; auto; constructor|].
  inversion H as [|? ? Ha Hl]; subst. rewrite in_app_iff in Ha.
  destruct (IH Hl) as (I1 & I2 & I3). repeat split; auto.
  - constructor; auto.
  - intros x [<-|Hx]; auto.
Qed.
