(** Binary64 through extended reals: every operation is the exact one followed by rounding. *)
From Coq Require Import Reals Lra Floats.
From Flocq Require Import Core BinarySingleNaN.
From Flocq Require IEEE754.PrimFloat.
From Verif Require Import Base Num NumR NumE NumF.
Open Scope R_scope.

Notation fl := PrimFloat.float.
Notation bf := (binary_float 53 1024).
Definition f2b (x : fl) : bf := Flocq.IEEE754.PrimFloat.Prim2B x.
#[local] Instance hprec : Prec_gt_0 53 := eq_refl.
#[local] Instance hmax : Prec_lt_emax 53 1024 := eq_refl.

Lemma f2b_add x y : f2b (x + y)%float = Bplus mode_NE (f2b x) (f2b y).
Proof. exact (Flocq.IEEE754.PrimFloat.add_equiv x y). Qed.
Lemma f2b_sub x y : f2b (x - y)%float = Bminus mode_NE (f2b x) (f2b y).
Proof. exact (Flocq.IEEE754.PrimFloat.sub_equiv x y). Qed.
Lemma f2b_mul x y : f2b (x * y)%float = Bmult mode_NE (f2b x) (f2b y).
Proof. exact (Flocq.IEEE754.PrimFloat.mul_equiv x y). Qed.
Lemma f2b_div x y : f2b (x / y)%float = Bdiv mode_NE (f2b x) (f2b y).
Proof. exact (Flocq.IEEE754.PrimFloat.div_equiv x y). Qed.
Lemma f2b_sqrt x : f2b (PrimFloat.sqrt x) = Bsqrt mode_NE (f2b x).
Proof. exact (Flocq.IEEE754.PrimFloat.sqrt_equiv x). Qed.
Lemma f2b_abs x : f2b (PrimFloat.abs x) = Babs (f2b x).
Proof. exact (Flocq.IEEE754.PrimFloat.abs_equiv x). Qed.
Lemma f2b_opp x : f2b (PrimFloat.opp x) = Bopp (f2b x).
Proof. exact (Flocq.IEEE754.PrimFloat.opp_equiv x). Qed.
Lemma f2b_ltb x y : PrimFloat.ltb x y = Bltb (f2b x) (f2b y).
Proof. exact (Flocq.IEEE754.PrimFloat.ltb_equiv x y). Qed.
Lemma f2b_leb x y : PrimFloat.leb x y = Bleb (f2b x) (f2b y).
Proof. exact (Flocq.IEEE754.PrimFloat.leb_equiv x y). Qed.
Lemma f2b_SF x : B2SF (f2b x) = FloatOps.Prim2SF x.
Proof. exact (Flocq.IEEE754.PrimFloat.B2SF_Prim2B x). Qed.

(** the value of a float *)
Definition bval (b : bf) : er :=
  match b with
  | B754_zero _ => Fin 0
  | B754_infinity s => if s then NInf else PInf
  | B754_nan => NaN
  | b => Fin (B2R b)
  end.
Definition fe (x : fl) : er := bval (f2b x).

Definition fexp64 := SpecFloat.fexp 53 1024.
(** rounding to nearest, ties to even, unbounded exponent range upwards *)
Definition rnd (r : R) : R := round radix2 fexp64 ZnearestE r.
Definition fmax : R := bpow radix2 1024.
Lemma fmax_pos : 0 < fmax.
Proof. apply bpow_gt_0. Qed.
Lemma fmax_eq : bpow radix2 1024 = fmax.
Proof. reflexivity. Qed.
Global Opaque fmax.

Definition er_rnd (x : er) : er :=
  match x with
  | Fin r => if Rlt_dec (Rabs (rnd r)) fmax then Fin (rnd r) else if Rlt_dec 0 r then PInf else NInf
  | x => x
  end.

Global Instance vexp64 : Valid_exp fexp64.
Proof. apply fexp_correct. reflexivity. Qed.
Global Instance mexp64 : Monotone_exp fexp64.
Proof. apply fexp_monotone. Qed.

Lemma rnd_mono a b : a <= b -> rnd a <= rnd b.
Proof. intros. apply round_le; [exact vexp64|apply valid_rnd_N|exact H]. Qed.
Lemma rnd_0 : rnd 0 = 0.
Proof. apply round_0. apply valid_rnd_N. Qed.
Lemma rnd_pos a : 0 <= a -> 0 <= rnd a.
Proof. intros. rewrite <- rnd_0. apply rnd_mono, H. Qed.
Lemma rnd_neg a : a <= 0 -> rnd a <= 0.
Proof. intros. rewrite <- rnd_0. apply rnd_mono, H. Qed.
Lemma rnd_opp a : rnd (- a) = - rnd a.
Proof. apply round_NE_opp. Qed.
Lemma rnd_id (b : bf) : rnd (B2R b) = B2R b.
Proof. apply round_generic; [apply valid_rnd_N|apply generic_format_B2R]. Qed.

Lemma B2R_lt (b : bf) : Rabs (B2R b) < fmax.
Proof.
  destruct (is_finite b) eqn:E; [|destruct b; try discriminate; cbn; rewrite Rabs_R0; apply fmax_pos].

  rewrite <- fmax_eq. apply abs_B2R_lt_emax.
Qed.

Lemma fe_fin x : is_finite (f2b x) = true -> fe x = Fin (B2R (f2b x)).
Proof. unfold fe. destruct (f2b x); try discriminate; reflexivity. Qed.
Lemma fe_Fin_inv x r : fe x = Fin r -> is_finite (f2b x) = true /\ B2R (f2b x) = r.
Proof.
  unfold fe. destruct (f2b x); try destruct s; try discriminate; intros H; injection H as <-; auto.
Qed.

Lemma er_rnd_fe x : er_rnd (fe x) = fe x.
Proof.
  destruct (is_finite (f2b x)) eqn:E.
  - rewrite (fe_fin x E). unfold er_rnd. rewrite rnd_id.
    destruct (Rlt_dec _ _) as [_|n]; [reflexivity|]. exfalso; apply n, B2R_lt.
  - unfold fe. destruct (f2b x); try discriminate; try destruct s; reflexivity.
Qed.

Lemma sign_pos (b : bf) : Bsign b = false -> 0 <= B2R b.
Proof. destruct b; cbn; try lra. intros ->. apply F2R_ge_0. cbn. lia. Qed.
Lemma sign_neg (b : bf) : Bsign b = true -> B2R b <= 0.
Proof. destruct b; cbn; try lra. intros ->. apply F2R_le_0. cbn. lia. Qed.

(** A correctly rounded result *)
Lemma er_rnd_intro (b : binary_float 53 1024) r s :
  (if Rlt_bool (Rabs (rnd r)) fmax then B2R b = rnd r /\ is_finite b = true
   else B2SF b = S754_infinity s /\ (if s then r <= 0 else 0 <= r)) ->
  bval b = er_rnd (Fin r).
Proof.
  unfold er_rnd. case Rlt_bool_spec; intros Hr.
  - intros [H1 H2]. destruct (Rlt_dec _ _) as [_|n]; [|contradiction].
    destruct b; try discriminate; rewrite <- H1; reflexivity.
  - intros [H1 H2]. destruct (Rlt_dec _ _) as [l|_]; [lra|].
    destruct b; try discriminate. injection H1 as ->.
    assert (r <> 0).
    { intros ->. rewrite rnd_0, Rabs_R0 in Hr. pose proof fmax_pos. lra. }
    destruct s; destruct (Rlt_dec 0 r); try reflexivity; lra.
Qed.

Lemma rnd_eq r : round radix2 (SpecFloat.fexp 53 1024) (round_mode mode_NE) r = rnd r.
Proof. reflexivity. Qed.

Lemma fe_add x y : fe (x + y)%float = er_rnd (er_add (fe x) (fe y)).
Proof.
  unfold fe at 1; rewrite f2b_add.
  destruct (is_finite (f2b x)) eqn:Ex; destruct (is_finite (f2b y)) eqn:Ey.
  - rewrite (fe_fin x Ex), (fe_fin y Ey). cbn [er_add].
    pose proof (Bplus_correct 53 1024 hprec hmax mode_NE (f2b x) (f2b y) Ex Ey) as H.
    rewrite rnd_eq in H. apply (er_rnd_intro _ _ (Bsign (f2b x))). revert H.
    rewrite fmax_eq. destruct (Rlt_bool _ _).
    + intros (H1 & H2 & _). auto.
    + intros [H1 H2]. split; [exact H1|].
      destruct (Bsign (f2b x)) eqn:Es.
      * pose proof (sign_neg _ Es). pose proof (sign_neg _ (eq_sym H2)). lra.
      * pose proof (sign_pos _ Es). pose proof (sign_pos _ (eq_sym H2)). lra.
  - unfold fe. destruct (f2b x) as [[]|[]| |[] ? ? ?]; try discriminate;
      destruct (f2b y) as [[]|[]| |[] ? ? ?]; try discriminate; reflexivity.
  - unfold fe. destruct (f2b x) as [[]|[]| |[] ? ? ?]; try discriminate;
      destruct (f2b y) as [[]|[]| |[] ? ? ?]; try discriminate; reflexivity.
  - unfold fe. destruct (f2b x) as [[]|[]| |[] ? ? ?]; try discriminate;
      destruct (f2b y) as [[]|[]| |[] ? ? ?]; try discriminate; reflexivity.
Qed.

Lemma fe_sub x y : fe (x - y)%float = er_rnd (er_sub (fe x) (fe y)).
Proof.
  unfold fe at 1; rewrite f2b_sub.
  destruct (is_finite (f2b x)) eqn:Ex; destruct (is_finite (f2b y)) eqn:Ey.
  - rewrite (fe_fin x Ex), (fe_fin y Ey). cbn [er_sub].
    pose proof (Bminus_correct 53 1024 hprec hmax mode_NE (f2b x) (f2b y) Ex Ey) as H.
    rewrite rnd_eq in H. apply (er_rnd_intro _ _ (Bsign (f2b x))). revert H.
    rewrite fmax_eq. destruct (Rlt_bool _ _).
    + intros (H1 & H2 & _). auto.
    + intros [H1 H2]. split; [exact H1|].
      destruct (Bsign (f2b x)) eqn:Es; symmetry in H2.
      * apply negb_true_iff in H2. pose proof (sign_neg _ Es). pose proof (sign_pos _ H2). lra.
      * apply negb_false_iff in H2. pose proof (sign_pos _ Es). pose proof (sign_neg _ H2). lra.
  - unfold fe. destruct (f2b x) as [[]|[]| |[] ? ? ?]; try discriminate;
      destruct (f2b y) as [[]|[]| |[] ? ? ?]; try discriminate; reflexivity.
  - unfold fe. destruct (f2b x) as [[]|[]| |[] ? ? ?]; try discriminate;
      destruct (f2b y) as [[]|[]| |[] ? ? ?]; try discriminate; reflexivity.
  - unfold fe. destruct (f2b x) as [[]|[]| |[] ? ? ?]; try discriminate;
      destruct (f2b y) as [[]|[]| |[] ? ? ?]; try discriminate; reflexivity.
Qed.

Lemma fin_pos (m : positive) e : 0 < F2R (Float radix2 (cond_Zopp false (Zpos m)) e).
Proof. apply F2R_gt_0. reflexivity. Qed.
Lemma fin_neg (m : positive) e : F2R (Float radix2 (cond_Zopp true (Zpos m)) e) < 0.
Proof. apply F2R_lt_0. reflexivity. Qed.

Ltac sgn :=
  unfold er_sgn; cbn [B2R xorb];
  repeat match goal with
  | |- context [F2R (Float radix2 (cond_Zopp false (Zpos ?m)) ?e)] =>
      generalize (fin_pos m e); generalize (F2R (Float radix2 (cond_Zopp false (Zpos m)) e)); intros ? ?
  | |- context [F2R (Float radix2 (cond_Zopp true (Zpos ?m)) ?e)] =>
      generalize (fin_neg m e); generalize (F2R (Float radix2 (cond_Zopp true (Zpos m)) e)); intros ? ?
  end;
  repeat match goal with |- context [Rlt_dec ?a ?b] => destruct (Rlt_dec a b) end;
  try reflexivity; try lra.

Lemma fe_mul x y : fe (x * y)%float = er_rnd (er_mul (fe x) (fe y)).
Proof.
  unfold fe at 1; rewrite f2b_mul.
  destruct (is_finite (f2b x)) eqn:Ex; destruct (is_finite (f2b y)) eqn:Ey.
  - rewrite (fe_fin x Ex), (fe_fin y Ey). cbn [er_mul].
    pose proof (Bmult_correct 53 1024 hprec hmax mode_NE (f2b x) (f2b y)) as H.
    rewrite rnd_eq in H. apply (er_rnd_intro _ _ (xorb (Bsign (f2b x)) (Bsign (f2b y)))). revert H.
    rewrite fmax_eq. destruct (Rlt_bool _ _).
    + intros (H1 & H2 & _). rewrite Ex, Ey in H2. auto.
    + intros H1. split; [exact H1|].
      destruct (Bsign (f2b x)) eqn:Es, (Bsign (f2b y)) eqn:Et; cbn;
        try apply sign_neg in Es; try apply sign_pos in Es;
        try apply sign_neg in Et; try apply sign_pos in Et; nra.
  - unfold fe. destruct (f2b x) as [[]|[]| |[] ? ? ?]; try discriminate;
      destruct (f2b y) as [[]|[]| |[] ? ? ?]; try discriminate; cbn [bval Bmult er_mul]; sgn.
  - unfold fe. destruct (f2b x) as [[]|[]| |[] ? ? ?]; try discriminate;
      destruct (f2b y) as [[]|[]| |[] ? ? ?]; try discriminate; cbn [bval Bmult er_mul]; sgn.
  - unfold fe. destruct (f2b x) as [[]|[]| |[] ? ? ?]; try discriminate;
      destruct (f2b y) as [[]|[]| |[] ? ? ?]; try discriminate; cbn [bval Bmult er_mul]; sgn.
Qed.

Lemma fe_div x y : fe y <> Fin 0 -> fe (x / y)%float = er_rnd (er_div (fe x) (fe y)).
Proof.
  intros Hy0. unfold fe at 1; rewrite f2b_div.
  destruct (is_finite (f2b x)) eqn:Ex; destruct (is_finite (f2b y)) eqn:Ey.
  - rewrite (fe_fin y Ey) in Hy0. rewrite (fe_fin x Ex), (fe_fin y Ey). cbn [er_div].
    assert (Hn : B2R (f2b y) <> 0) by congruence.
    destruct (Req_EM_T _ _) as [e|_]; [contradiction|].
    pose proof (Bdiv_correct 53 1024 hprec hmax mode_NE (f2b x) (f2b y) Hn) as H.
    rewrite rnd_eq in H. apply (er_rnd_intro _ _ (xorb (Bsign (f2b x)) (Bsign (f2b y)))). revert H.
    rewrite fmax_eq. destruct (Rlt_bool _ _).
    + intros (H1 & H2 & _). rewrite Ex in H2. auto.
    + intros H1. split; [exact H1|]. unfold Rdiv.
      destruct (Bsign (f2b x)) eqn:Es, (Bsign (f2b y)) eqn:Et; cbn;
        try apply sign_neg in Es; try apply sign_pos in Es;
        try apply sign_neg in Et; try apply sign_pos in Et;
        try (assert (B2R (f2b y) < 0) by lra; pose proof (Rinv_lt_0_compat _ H); nra);
        try (assert (0 < B2R (f2b y)) by lra; pose proof (Rinv_0_lt_compat _ H); nra).
  - unfold fe. destruct (f2b x) as [[]|[]| |[] ? ? ?]; try discriminate;
      destruct (f2b y) as [[]|[]| |[] ? ? ?]; try discriminate; cbn [bval Bdiv er_div er_rnd];
      rewrite ?rnd_0, ?Rabs_R0; try (destruct (Rlt_dec 0 fmax) as [|n];
        [reflexivity|exfalso; apply n, fmax_pos]); sgn.
  - unfold fe in *. destruct (f2b x) as [[]|[]| |[] ? ? ?]; try discriminate;
      destruct (f2b y) as [[]|[]| |[] ? ? ?]; try discriminate; cbn [bval Bdiv er_div] in *; try congruence; sgn.
  - unfold fe in *. destruct (f2b x) as [[]|[]| |[] ? ? ?]; try discriminate;
      destruct (f2b y) as [[]|[]| |[] ? ? ?]; try discriminate; cbn [bval Bdiv er_div] in *; try congruence; sgn.
Qed.

Lemma fe_ltb x y : PrimFloat.ltb x y = er_ltb (fe x) (fe y).
Proof.
  rewrite f2b_ltb.
  destruct (is_finite (f2b x)) eqn:Ex; destruct (is_finite (f2b y)) eqn:Ey.
  - rewrite (fe_fin x Ex), (fe_fin y Ey). rewrite Bltb_correct by assumption.
    cbn. unfold Rltb. case Rlt_bool_spec; intros; destruct (Rlt_dec _ _); try reflexivity; lra.
  - unfold fe. destruct (f2b x) as [[]|[]| |[] ? ? ?]; try discriminate;
      destruct (f2b y) as [[]|[]| |[] ? ? ?]; try discriminate; reflexivity.
  - unfold fe. destruct (f2b x) as [[]|[]| |[] ? ? ?]; try discriminate;
      destruct (f2b y) as [[]|[]| |[] ? ? ?]; try discriminate; reflexivity.
  - unfold fe. destruct (f2b x) as [[]|[]| |[] ? ? ?]; try discriminate;
      destruct (f2b y) as [[]|[]| |[] ? ? ?]; try discriminate; reflexivity.
Qed.
Lemma fe_leb x y : PrimFloat.leb x y = er_leb (fe x) (fe y).
Proof.
  rewrite f2b_leb.
  destruct (is_finite (f2b x)) eqn:Ex; destruct (is_finite (f2b y)) eqn:Ey.
  - rewrite (fe_fin x Ex), (fe_fin y Ey). rewrite Bleb_correct by assumption.
    cbn. unfold Rleb. case Rle_bool_spec; intros; destruct (Rle_dec _ _); try reflexivity; lra.
  - unfold fe. destruct (f2b x) as [[]|[]| |[] ? ? ?]; try discriminate;
      destruct (f2b y) as [[]|[]| |[] ? ? ?]; try discriminate; reflexivity.
  - unfold fe. destruct (f2b x) as [[]|[]| |[] ? ? ?]; try discriminate;
      destruct (f2b y) as [[]|[]| |[] ? ? ?]; try discriminate; reflexivity.
  - unfold fe. destruct (f2b x) as [[]|[]| |[] ? ? ?]; try discriminate;
      destruct (f2b y) as [[]|[]| |[] ? ? ?]; try discriminate; reflexivity.
Qed.

Lemma fe_abs x : fe (PrimFloat.abs x) = er_abs (fe x).
Proof.
  unfold fe at 1; rewrite f2b_abs. destruct (f2b x) as [s|[]| |s m e H] eqn:E; cbn -[B2R].
  - unfold fe; rewrite E; cbn. rewrite Rabs_R0. reflexivity.
  - unfold fe; rewrite E; reflexivity.
  - unfold fe; rewrite E; reflexivity.
  - unfold fe; rewrite E; reflexivity.
  - unfold fe; rewrite E. cbn -[F2R]. f_equal. rewrite <- F2R_Zabs, abs_cond_Zopp. reflexivity.
Qed.
Lemma fe_opp x : fe (PrimFloat.opp x) = er_opp (fe x).
Proof.
  unfold fe at 1; rewrite f2b_opp. destruct (f2b x) as [s|[]| |s m e H] eqn:E; cbn -[B2R].
  - unfold fe; rewrite E; cbn. f_equal. lra.
  - unfold fe; rewrite E; reflexivity.
  - unfold fe; rewrite E; reflexivity.
  - unfold fe; rewrite E; reflexivity.
  - unfold fe; rewrite E. cbn -[F2R]. f_equal. rewrite <- F2R_Zopp. destruct s; reflexivity.
Qed.
Lemma fe_sqrt x : fe (PrimFloat.sqrt x) = er_rnd (er_sqrt (fe x)).
Proof.
  unfold fe at 1; rewrite f2b_sqrt.
  pose proof (Bsqrt_correct 53 1024 hprec hmax mode_NE (f2b x)) as (H1 & H2 & _).
  rewrite rnd_eq in H1.
  assert (Hb : forall r, 0 <= r -> Rabs (rnd (B2R (Bsqrt mode_NE (f2b x)))) < fmax)
    by (intros; rewrite rnd_id; apply B2R_lt).
  unfold fe. destruct (f2b x) as [s|[]| |[] m e H] eqn:E; cbn -[B2R Bsqrt er_rnd sqrt] in *.
  - cbn. destruct (Rlt_dec 0 0); [lra|]. rewrite sqrt_0. unfold er_rnd. rewrite rnd_0, Rabs_R0.
    destruct (Rlt_dec _ _) as [_|n0]; [reflexivity|]. exfalso; apply n0, fmax_pos.
  - reflexivity.
  - reflexivity.
  - reflexivity.
  - destruct (Rlt_dec _ 0) as [_|n0]; [|exfalso; apply n0, fin_neg].
    reflexivity.
  - destruct (Rlt_dec _ 0) as [l|_];
      [exfalso; apply (Rlt_irrefl 0), (Rlt_trans _ _ _ (fin_pos m e) l)|].
    apply (er_rnd_intro _ _ false).
    assert (Hlt : Rabs (rnd (R_sqrt.sqrt (B2R (B754_finite false m e H)))) < fmax)
      by (rewrite <- H1; apply B2R_lt).
    rewrite Rlt_bool_true by exact Hlt. auto.
Qed.

(** ** Rounding is monotone, and exact on floats *)
Lemma er_rnd_mono a b : er_leb a b = true -> er_leb (er_rnd a) (er_rnd b) = true.
Proof.
  assert (Hf : 0 < fmax) by apply fmax_pos.
  assert (Hp : forall r, ~ Rabs (rnd r) < fmax -> 0 < r -> fmax <= rnd r).
  { intros r Hn Hr. pose proof (rnd_pos r (Rlt_le _ _ Hr)). rewrite Rabs_pos_eq in Hn by lra. lra. }
  assert (Hm : forall r, ~ Rabs (rnd r) < fmax -> ~ 0 < r -> rnd r <= - fmax).
  { intros r Hn Hr. assert (Hr' : r <= 0) by lra. pose proof (rnd_neg r Hr').
    rewrite Rabs_left1 in Hn by lra. lra. }
  assert (Hb : forall r, Rabs (rnd r) < fmax -> - fmax < rnd r < fmax).
  { intros r Hr. apply Rabs_def2 in Hr. lra. }
  destruct a as [a| | |], b as [b| | |]; cbn; try discriminate; try reflexivity; intros H.
  - rb. pose proof (rnd_mono a b H).
    destruct (Rlt_dec (Rabs (rnd a)) fmax) as [l|l]; destruct (Rlt_dec (Rabs (rnd b)) fmax) as [k|k].
    + cbn. rb. lra.
    + destruct (Rlt_dec 0 b) as [q|q]; [reflexivity|]. pose proof (Hm b k q). pose proof (Hb a l). lra.
    + destruct (Rlt_dec 0 a) as [q|q]; [|reflexivity]. pose proof (Hp a l q). pose proof (Hb b k). lra.
    + destruct (Rlt_dec 0 a), (Rlt_dec 0 b); try reflexivity. lra.
  - destruct (Rlt_dec (Rabs (rnd a)) fmax); [reflexivity|]. destruct (Rlt_dec 0 a); reflexivity.
  - destruct (Rlt_dec (Rabs (rnd b)) fmax); [reflexivity|]. destruct (Rlt_dec 0 b); reflexivity.
Qed.
