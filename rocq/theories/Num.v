(** The numbers of the model. *)
From Verif Require Import Base.

(** Arithmetic: what the Python code uses of floats (no special values needed). *)
Class Arith := mkArith {
  T : Type;
  nadd : T -> T -> T;
  nsub : T -> T -> T;
  nmul : T -> T -> T;
  ndiv : T -> T -> T;
  nsqrt : T -> T;
  nexp : T -> T;
  nln : T -> T;
  ncos : T -> T;
  nabs : T -> T;
  npow : T -> T -> T;            (* x ** y *)
  nltb : T -> T -> bool;         (* x < y  *)
  nleb : T -> T -> bool;         (* x <= y *)
  neqb : T -> T -> bool;         (* x == y *)
  nlit : Z -> Z -> T             (* nlit m e: the literal m * 10^e *)
}.

(** Full Python/numpy floats: infinity and conversions to integers.
    [ntrunc x] is [int(x)] ([None]: raises, for NaN or infinities);
    [nceilZ x] is [int(np.ceil(x))]. *)
Class Num := mkNum {
  num_arith :> Arith;
  ninf : T;
  ntrunc : T -> option Z;
  nceilZ : T -> option Z
}.

Declare Scope num_scope.
Delimit Scope num_scope with num.
Infix "+" := nadd : num_scope.
Infix "-" := nsub : num_scope.
Infix "*" := nmul : num_scope.
Infix "/" := ndiv : num_scope.
Infix "<?" := nltb : num_scope.
Infix "<=?" := nleb : num_scope.
Infix "=?" := neqb : num_scope.

Section Derived.
  Context {A : Arith}.
  Local Open Scope num_scope.

  (** Conversion of a Python int to float, in mixed arithmetic. *)
  Definition nZ (z : Z) : T := nlit z 0.
  Definition nN (n : nat) : T := nZ (Z.of_nat n).
  Definition n0 : T := nZ 0.
  Definition n1 : T := nZ 1.

  (** [x ** 2] / [np.square(x)]. *)
  Definition nsq (x : T) : T := x * x.

  (** Python's builtin [min(a, b)] and [max(a, b)] (the first argument wins ties and NaNs). *)
  Definition pymin (a b : T) : T := if b <? a then b else a.
  Definition pymax (a b : T) : T := if a <? b then b else a.

  (** NaN test: [x != x]. *)
  Definition nisnan (x : T) : bool := negb (x =? x).

  (** [v.sum()]: left to right (numpy's order is unspecified, see DESIGN.md). *)
  Definition vsum (v : list T) : T := fold_left nadd v n0.

  (** [np.isfinite(x)] *)
  Definition nfinite (x : T) : bool := x - x =? n0.
  (** The test [np.random.uniform] makes of its arguments: every [high - low] is finite. *)
  Definition frange (lower upper : list T) : bool :=
    forallb (fun b => nfinite (snd b - fst b)) (combine lower upper).
  (** The exception of [int(x)]: OverflowError for infinities, ValueError for NaN. *)
  Definition int_exn (x : T) : Exn := if x =? x then OverflowError else ValueError.

  Lemma int_exn_user x n : int_exn x <> UserError n.
  Proof. unfold int_exn. destruct (x =? x); discriminate. Qed.
  Lemma int_exn_fuel x : int_exn x <> OutOfFuel.
  Proof. unfold int_exn. destruct (x =? x); discriminate. Qed.

  Definition vadd (u v : list T) : list T := map2 nadd u v.
  Definition vsub (u v : list T) : list T := map2 nsub u v.
  Definition vmul (u v : list T) : list T := map2 nmul u v.
  Definition vdiv (u v : list T) : list T := map2 ndiv u v.
  Definition vscale (a : T) (v : list T) : list T := map (fun x => a * x) v.
  (** [np.dot(u, v)]. *)
  Definition vdot (u v : list T) : T := vsum (vmul u v).
  (** [np.linalg.norm(v)]. *)
  Definition vnorm (v : list T) : T := nsqrt (vdot v v).
End Derived.

(** The order laws used by the selection theorems.  They hold of IEEE floats with NaN
    (comparisons with NaN are false) as well as of extended reals. *)
Class OrdLaws (A : Arith) : Prop := {
  ol_lt_le : forall x y : T, nltb x y = true -> nleb x y = true;
  ol_le_trans : forall x y z : T, nleb x y = true -> nleb y z = true -> nleb x z = true;
  ol_lt_nle : forall x y : T, nltb x y = true -> nleb y x = false;
  ol_total : forall x y : T, nleb x x = true -> nleb y y = true ->
                             nltb x y = false -> nleb y x = true;
  ol_le_num : forall x y : T, nleb x y = true -> nleb x x = true /\ nleb y y = true;
  ol_eq_num : forall x : T, neqb x x = nleb x x
}.

Section OrdFacts.
  Context {A : Arith} {L : OrdLaws A}.

  (** [isnum x]: x is not NaN. *)
  Definition isnum (x : T) : Prop := nleb x x = true.

  Lemma le_refl_num x : isnum x -> nleb x x = true.
  Proof. intro H; exact H. Qed.

  Lemma le_num_l x y : nleb x y = true -> isnum x.
  Proof. intros H; destruct (ol_le_num x y H) as [H1 H2]; exact H1. Qed.
  Lemma le_num_r x y : nleb x y = true -> isnum y.
  Proof. intros H; destruct (ol_le_num x y H) as [H1 H2]; exact H2. Qed.
  Lemma lt_num_l x y : nltb x y = true -> isnum x.
  Proof. intros H; eapply le_num_l, ol_lt_le, H. Qed.
  Lemma lt_num_r x y : nltb x y = true -> isnum y.
  Proof. intros H; eapply le_num_r, ol_lt_le, H. Qed.

  Lemma nle_lt x y : isnum x -> isnum y -> nleb x y = false -> nltb y x = true.
  Proof.
    intros Hx Hy H. destruct (nltb y x) eqn:E; [reflexivity|].
    rewrite (ol_total y x Hy Hx E) in H; discriminate.
  Qed.
  Lemma nlt_le x y : isnum x -> isnum y -> nltb x y = false -> nleb y x = true.
  Proof. intros Hx Hy H; apply ol_total; assumption. Qed.

  Lemma le_lt_trans x y z : nleb x y = true -> nltb y z = true -> nltb x z = true.
  Proof.
    intros H1 H2.
    destruct (nleb z x) eqn:E.
    - assert (nleb z y = true) by (eapply ol_le_trans; eassumption).
      rewrite (ol_lt_nle _ _ H2) in H; discriminate.
    - apply nle_lt; [eapply lt_num_r; eassumption|eapply le_num_l; eassumption|exact E].
  Qed.
  Lemma lt_le_trans x y z : nltb x y = true -> nleb y z = true -> nltb x z = true.
  Proof.
    intros H1 H2.
    destruct (nleb z x) eqn:E.
    - assert (nleb y x = true) by (eapply ol_le_trans; eassumption).
      rewrite (ol_lt_nle _ _ H1) in H; discriminate.
    - apply nle_lt; [eapply le_num_r; eassumption|eapply lt_num_l; eassumption|exact E].
  Qed.
  Lemma lt_trans x y z : nltb x y = true -> nltb y z = true -> nltb x z = true.
  Proof. intros H1 H2; eapply lt_le_trans; [exact H1|apply ol_lt_le, H2]. Qed.
  Lemma lt_irrefl x : nltb x x = false.
  Proof.
    destruct (nltb x x) eqn:E; [|reflexivity].
    pose proof (ol_lt_nle _ _ E) as H1. rewrite (ol_lt_le _ _ E) in H1; discriminate.
  Qed.
  Lemma le_nlt x y : nleb x y = true -> nltb y x = false.
  Proof.
    intros H; destruct (nltb y x) eqn:E; [|reflexivity].
    rewrite (ol_lt_nle _ _ E) in H; discriminate.
  Qed.
  Lemma nisnan_isnum x : nisnan x = false <-> isnum x.
  Proof.
    unfold nisnan, isnum; rewrite ol_eq_num. destruct (nleb x x); simpl; split; congruence.
  Qed.
  Lemma nan_le_l x y : ~ isnum x -> nleb x y = false.
  Proof. intros H; destruct (nleb x y) eqn:E; [|reflexivity]. exfalso; apply H; eapply le_num_l; eassumption. Qed.
  Lemma nan_le_r x y : ~ isnum y -> nleb x y = false.
  Proof. intros H; destruct (nleb x y) eqn:E; [|reflexivity]. exfalso; apply H; eapply le_num_r; eassumption. Qed.
  Lemma nan_lt_l x y : ~ isnum x -> nltb x y = false.
  Proof. intros H; destruct (nltb x y) eqn:E; [|reflexivity]. exfalso; apply H; eapply lt_num_l; eassumption. Qed.
  Lemma nan_lt_r x y : ~ isnum y -> nltb x y = false.
  Proof. intros H; destruct (nltb x y) eqn:E; [|reflexivity]. exfalso; apply H; eapply lt_num_r; eassumption. Qed.
  Lemma isnum_dec x : isnum x \/ ~ isnum x.
  Proof. unfold isnum; destruct (nleb x x); [left|right]; congruence. Qed.
End OrdFacts.
