(** Python-level vocabulary shared by the whole model: exceptions and the list operations
    that stand for numpy array operations. *)
From Coq Require Export String.
From Coq Require Export ZArith Lia Bool Arith Permutation List.
Export ListNotations.

(** Exceptions as values.  [UserError n]: an exception raised by user code (objective or
    callback), identified by [n].  [OutOfFuel] is not a Python exception: it marks a loop of the
    model that ran out of fuel, and is proved unreachable (or proved to be always reached, when
    the Python loop does not terminate). *)
Inductive Exn :=
| ValueError | TypeError | IndexError | KeyError | AttributeError
| RecursionError | ZeroDivisionError | LinAlgError | OverflowError
| UserError (n : nat)
| OutOfFuel.

(** Elementwise binary operation on arrays of the same length (numpy broadcasting of equal
    shapes; all call sites have equal lengths). *)
Fixpoint map2 {A B C} (f : A -> B -> C) (l1 : list A) (l2 : list B) : list C :=
  match l1, l2 with
  | a :: l1', b :: l2' => f a b :: map2 f l1' l2'
  | _, _ => []
  end.

Fixpoint map3 {A B C D} (f : A -> B -> C -> D) (l1 : list A) (l2 : list B) (l3 : list C)
  : list D :=
  match l1, l2, l3 with
  | a :: l1', b :: l2', c :: l3' => f a b c :: map3 f l1' l2' l3'
  | _, _, _ => []
  end.

(** [l[i] = a] (in-place item assignment; no effect out of range, where Python raises
    IndexError: every call site is in range). *)
Fixpoint upd {A} (i : nat) (a : A) (l : list A) : list A :=
  match l, i with
  | [], _ => []
  | _ :: t, O => a :: t
  | h :: t, S j => h :: upd j a t
  end.

(** [np.delete(l, i)]. *)
Fixpoint del {A} (i : nat) (l : list A) : list A :=
  match l, i with
  | [], _ => []
  | _ :: t, O => t
  | h :: t, S j => h :: del j t
  end.

(** [l[j : k]] for 0 <= j. *)
Definition slice {A} (j k : nat) (l : list A) : list A := firstn (k - j) (skipn j l).

Lemma map2_length {A B C} (f : A -> B -> C) l1 l2 :
  length (map2 f l1 l2) = Nat.min (length l1) (length l2).
Proof. revert l2; induction l1 as [|a l1 IH]; intros [|b l2]; simpl; auto. Qed.

Lemma map3_length {A B C D} (f : A -> B -> C -> D) l1 l2 l3 :
  length (map3 f l1 l2 l3) = Nat.min (length l1) (Nat.min (length l2) (length l3)).
Proof.
  revert l2 l3; induction l1 as [|a l1 IH]; intros [|b l2] [|c l3]; simpl; auto.
Qed.

Lemma map2_nth {A B C} (f : A -> B -> C) l1 l2 i a b c :
  i < length l1 -> i < length l2 ->
  nth i (map2 f l1 l2) c = f (nth i l1 a) (nth i l2 b).
Proof.
  revert l2 i; induction l1 as [|x l1 IH]; intros [|y l2] i H1 H2; simpl in *; try lia.
  destruct i as [|i]; [reflexivity|apply IH; lia].
Qed.

Lemma map3_nth {A B C D} (f : A -> B -> C -> D) l1 l2 l3 i a b c d :
  i < length l1 -> i < length l2 -> i < length l3 ->
  nth i (map3 f l1 l2 l3) d = f (nth i l1 a) (nth i l2 b) (nth i l3 c).
Proof.
  revert l2 l3 i; induction l1 as [|x l1 IH]; intros [|y l2] [|z l3] i H1 H2 H3;
    simpl in *; try lia.
  destruct i as [|i]; [reflexivity|apply IH; lia].
Qed.

Lemma upd_length {A} i (a : A) l : length (upd i a l) = length l.
Proof. revert i; induction l as [|h t IH]; intros [|i]; simpl; auto. Qed.

Lemma upd_nth_same {A} i (a d : A) l : i < length l -> nth i (upd i a l) d = a.
Proof. revert i; induction l as [|h t IH]; intros [|i] H; simpl in *; try lia; auto. apply IH; lia. Qed.

Lemma upd_nth_other {A} i j (a d : A) l : i <> j -> nth j (upd i a l) d = nth j l d.
Proof.
  revert i j; induction l as [|h t IH]; intros i j H; [destruct i; reflexivity|].
  destruct i as [|i], j as [|j]; simpl; auto; try congruence.
Qed.

Lemma upd_nth_error_same {A} i (a : A) l : i < length l -> nth_error (upd i a l) i = Some a.
Proof. revert i; induction l as [|h t IH]; intros [|i] H; simpl in *; try lia; auto. apply IH; lia. Qed.

Lemma upd_In {A} i (a b : A) l : In b (upd i a l) -> b = a \/ In b l.
Proof.
  revert i; induction l as [|h t IH]; intros [|i] H; simpl in *; auto.
  - destruct H as [H|H]; auto.
  - destruct H as [H|H]; auto. destruct (IH _ H); auto.
Qed.

Lemma Forall_upd {A} (P : A -> Prop) i a l : P a -> Forall P l -> Forall P (upd i a l).
Proof.
  intros Ha H; revert i; induction H as [|x l Hx Hl IH]; intros [|i]; simpl; auto.
Qed.

Lemma del_length {A} i (l : list A) : i < length l -> length (del i l) = length l - 1.
Proof.
  revert i; induction l as [|h t IH]; intros i H; simpl in *; [lia|].
  destruct i as [|i]; simpl; [lia|]. rewrite IH by lia. lia.
Qed.

Lemma del_In {A} i (b : A) l : In b (del i l) -> In b l.
Proof.
  revert i; induction l as [|h t IH]; intros [|i] H; simpl in *; auto.
  destruct H as [H|H]; auto. right; eauto.
Qed.

Lemma nth_seq0 n i d : i < n -> nth i (seq 0 n) d = i.
Proof. intros H; rewrite seq_nth by assumption; reflexivity. Qed.

Lemma Forall_map2 {A B C} (P : C -> Prop) (f : A -> B -> C) l1 l2 :
  (forall a b, In a l1 -> In b l2 -> P (f a b)) -> Forall P (map2 f l1 l2).
Proof.
  revert l2; induction l1 as [|a l1 IH]; intros [|b l2] H; simpl; constructor.
  - apply H; left; reflexivity.
  - apply IH; intros; apply H; right; assumption.
Qed.

Lemma map2_In {A B C} (f : A -> B -> C) l1 l2 c :
  In c (map2 f l1 l2) -> exists a b, In a l1 /\ In b l2 /\ c = f a b.
Proof.
  revert l2; induction l1 as [|a l1 IH]; intros [|b l2] H; simpl in *; try tauto.
  destruct H as [H|H].
  - exists a, b; auto.
  - destruct (IH _ H) as (a' & b' & Ha & Hb & Hc); exists a', b'; auto.
Qed.

Lemma nth_error_nth' {A} (l : list A) i d : i < length l -> nth_error l i = Some (nth i l d).
Proof.
  revert i; induction l as [|h t IH]; intros [|i] H; simpl in *; try lia; auto. apply IH; lia.
Qed.

Lemma list_ext {A} (d : A) (l1 l2 : list A) :
  length l1 = length l2 -> (forall i, i < length l1 -> nth i l1 d = nth i l2 d) -> l1 = l2.
Proof.
  revert l2; induction l1 as [|a l1 IH]; intros [|b l2] Hl H; simpl in *; try discriminate; auto.
  f_equal; [apply (H 0); lia|]. apply IH; [lia|].
  intros i Hi; apply (H (S i)); lia.
Qed.

Lemma Forall_nth' {A} (P : A -> Prop) l d :
  Forall P l <-> (forall i, i < length l -> P (nth i l d)).
Proof.
  split.
  - intros H i Hi; rewrite Forall_forall in H; apply H; apply nth_In; assumption.
  - intros H; apply Forall_forall; intros x Hx.
    destruct (In_nth _ _ d Hx) as (i & Hi & <-); auto.
Qed.
