(** The real-number instance. *)
From Coq Require Import Reals Lra.
From Verif Require Import Base Num.
Open Scope R_scope.

Definition Rltb (x y : R) : bool := if Rlt_dec x y then true else false.
Definition Rleb (x y : R) : bool := if Rle_dec x y then true else false.
Definition Reqb (x y : R) : bool := if Req_EM_T x y then true else false.

(** decimal literal m * 10^e *)
Definition Rlit (m e : Z) : R :=
  match e with
  | Z0 => IZR m
  | Zpos p => IZR m * IZR (Z.pow_pos 10 p)
  | Zneg p => IZR m / IZR (Z.pow_pos 10 p)
  end.

(** real power for the two uses in the code (positive base; 0 base gives 0) *)
Definition Rpw (x y : R) : R := if Rlt_dec 0 x then Rpower x y else 0.

#[export] Instance RArith : Arith := {|
  T := R; nadd := Rplus; nsub := Rminus; nmul := Rmult; ndiv := Rdiv;
  nsqrt := sqrt; nexp := exp; nln := ln; ncos := cos; nabs := Rabs; npow := Rpw;
  nltb := Rltb; nleb := Rleb; neqb := Reqb; nlit := Rlit |}.

Lemma Rltb_true x y : Rltb x y = true <-> x < y.
Proof. unfold Rltb; destruct (Rlt_dec x y); split; congruence || tauto. Qed.
Lemma Rltb_false x y : Rltb x y = false <-> y <= x.
Proof. unfold Rltb; destruct (Rlt_dec x y); split; intros; try discriminate; try lra; reflexivity. Qed.
Lemma Rleb_true x y : Rleb x y = true <-> x <= y.
Proof. unfold Rleb; destruct (Rle_dec x y); split; congruence || tauto. Qed.
Lemma Rleb_false x y : Rleb x y = false <-> y < x.
Proof. unfold Rleb; destruct (Rle_dec x y); split; intros; try discriminate; try lra; reflexivity. Qed.
Lemma Reqb_true x y : Reqb x y = true <-> x = y.
Proof. unfold Reqb; destruct (Req_EM_T x y); split; congruence || tauto. Qed.
Lemma Reqb_false x y : Reqb x y = false <-> x <> y.
Proof. unfold Reqb; destruct (Req_EM_T x y); split; congruence || tauto. Qed.

#[export] Instance ROrd : OrdLaws RArith.
Proof.
  constructor; cbn; intros.
  - rewrite Rltb_true in H; rewrite Rleb_true; lra.
  - rewrite Rleb_true in *; lra.
  - rewrite Rltb_true in H; rewrite Rleb_false; lra.
  - rewrite Rltb_false in H1; rewrite Rleb_true; lra.
  - rewrite !Rleb_true; lra.
  - replace (Rleb x x) with true by (symmetry; apply Rleb_true; lra).
    apply Reqb_true; reflexivity.
Qed.
