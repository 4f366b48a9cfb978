(** IEEE binary64 (Coq primitive floats). *)
From Coq Require Import Floats Uint63 FloatAxioms FloatOps SpecFloat.
From Verif Require Import Base Num.

(** The elementary functions that IEEE-754 leaves to the C library: a parameter. *)
Record FloatFuns := { f_exp : float -> float; f_ln : float -> float; f_cos : float -> float;
                      f_pow : float -> float -> float }.

(** Conversion of an integer: correctly rounded for |z| < 2^63 as every Python int -> float
    conversion the code performs (popsizes, iteration counts, dimensions). *)
Definition f_ofZ (z : Z) : float :=
  match z with
  | Z0 => 0%float
  | Zpos _ => PrimFloat.of_uint63 (Uint63.of_Z z)
  | Zneg p => PrimFloat.opp (PrimFloat.of_uint63 (Uint63.of_Z (Zpos p)))
  end.

Fixpoint f_pow10 (n : nat) : float :=
  match n with O => 1%float | S m => PrimFloat.mul 10%float (f_pow10 m) end.

(** The literal m * 10^e.  m and 10^|e| are exact for |m| < 2^53, |e| <= 22, so one division is
    the correctly rounded literal; 1e30 is the only other literal of the code. *)
Definition f_lit (m e : Z) : float :=
  match e with
  | Z0 => f_ofZ m
  | Zpos p => if Z.eqb m 1 && Pos.eqb p 30 then 0x1.93e5939a08ceap+99%float (* 1e30 *)
              else PrimFloat.mul (f_ofZ m) (f_pow10 (Pos.to_nat p))
  | Zneg p => PrimFloat.div (f_ofZ m) (f_pow10 (Pos.to_nat p))
  end.

(** [int(x)] by way of the exact decoding of the float. *)
Definition sf_trunc (x : spec_float) : option Z :=
  match x with
  | S754_zero _ => Some 0%Z
  | S754_infinity _ | S754_nan => None
  | S754_finite s m e =>
      let a := match e with
               | Z0 => Zpos m
               | Zpos p => (Zpos m * Z.pow_pos 2 p)%Z
               | Zneg p => (Zpos m / Z.pow_pos 2 p)%Z
               end in
      Some (if s then (- a)%Z else a)
  end.
Definition sf_ceil (x : spec_float) : option Z :=
  match x with
  | S754_zero _ => Some 0%Z
  | S754_infinity _ | S754_nan => None
  | S754_finite s m e =>
      let sm := if s then Zneg m else Zpos m in
      Some match e with
           | Z0 => sm
           | Zpos p => (sm * Z.pow_pos 2 p)%Z
           | Zneg p => (- ((- sm) / Z.pow_pos 2 p))%Z
           end
  end.

Definition FArith (F : FloatFuns) : Arith := {|
  T := float; nadd := PrimFloat.add; nsub := PrimFloat.sub; nmul := PrimFloat.mul;
  ndiv := PrimFloat.div; nsqrt := PrimFloat.sqrt; nexp := f_exp F; nln := f_ln F;
  ncos := f_cos F; nabs := PrimFloat.abs; npow := f_pow F;
  nltb := PrimFloat.ltb; nleb := PrimFloat.leb; neqb := PrimFloat.eqb; nlit := f_lit |}.

Definition FNum (F : FloatFuns) : Num := {|
  num_arith := FArith F; ninf := infinity;
  ntrunc := fun x => sf_trunc (Prim2SF x); nceilZ := fun x => sf_ceil (Prim2SF x) |}.

(** ** Order laws of binary64 comparisons *)

(** sign class, then exponent, then mantissa: a lexicographic key *)
Definition sfkey (x : spec_float) : option (Z * Z * Z) :=
  match x with
  | S754_nan => None
  | S754_zero _ => Some (0, 0, 0)%Z
  | S754_infinity s => Some ((if s then -2 else 2), 0, 0)%Z
  | S754_finite s m e =>
      Some (if s then (-1, (- e), Zneg m)%Z else (1, e, Zpos m)%Z)
  end.

Definition lexcmp (a b : Z * Z * Z) : comparison :=
  match a, b with
  | (a1, a2, a3), (b1, b2, b3) =>
      match Z.compare a1 b1 with
      | Eq => match Z.compare a2 b2 with Eq => Z.compare a3 b3 | c => c end
      | c => c
      end
  end.

Lemma SFcompare_key x y :
  SFcompare x y = match sfkey x, sfkey y with
                  | Some a, Some b => Some (lexcmp a b)
                  | _, _ => None
                  end.
Proof.
  destruct x as [s|s| |s m e], y as [t|t| |t n f]; cbn; try reflexivity;
    destruct s; try destruct t; cbn; try reflexivity.
  f_equal. rewrite (Z.compare_opp e f), (Z.compare_antisym e f).
  destruct (e ?= f)%Z; cbn; reflexivity.
Qed.

Lemma lexcmp_spec a b :
  lexcmp a b = Lt /\ (let '(a1,a2,a3) := a in let '(b1,b2,b3) := b in
      (a1 < b1 \/ a1 = b1 /\ (a2 < b2 \/ a2 = b2 /\ a3 < b3))%Z)
  \/ lexcmp a b = Eq /\ a = b
  \/ lexcmp a b = Gt /\ (let '(a1,a2,a3) := a in let '(b1,b2,b3) := b in
      (b1 < a1 \/ b1 = a1 /\ (b2 < a2 \/ b2 = a2 /\ b3 < a3))%Z).
Proof.
  destruct a as [[a1 a2] a3], b as [[b1 b2] b3]; cbn.
  destruct (Z.compare_spec a1 b1); cbn; try (intuition lia).
  destruct (Z.compare_spec a2 b2); cbn; try (intuition lia).
  destruct (Z.compare_spec a3 b3); cbn; try (intuition lia).
  right; left; split; [reflexivity|congruence].
Qed.

Section FOrd.
  Variable F : FloatFuns.

  Let k (x : float) := sfkey (Prim2SF x).

  Lemma f_ltb_key x y :
    PrimFloat.ltb x y = match k x, k y with
                        | Some a, Some b => match lexcmp a b with Lt => true | _ => false end
                        | _, _ => false end.
  Proof.
    unfold k. rewrite ltb_spec. unfold SFltb. rewrite SFcompare_key.
    destruct (sfkey (Prim2SF x)), (sfkey (Prim2SF y)); try reflexivity.
  Qed.
  Lemma f_leb_key x y :
    PrimFloat.leb x y = match k x, k y with
                        | Some a, Some b => match lexcmp a b with Gt => false | _ => true end
                        | _, _ => false end.
  Proof.
    unfold k. rewrite leb_spec. unfold SFleb. rewrite SFcompare_key.
    destruct (sfkey (Prim2SF x)), (sfkey (Prim2SF y)); try reflexivity.
  Qed.
  Lemma f_eqb_key x y :
    PrimFloat.eqb x y = match k x, k y with
                        | Some a, Some b => match lexcmp a b with Eq => true | _ => false end
                        | _, _ => false end.
  Proof.
    unfold k. rewrite FloatAxioms.eqb_spec. unfold SFeqb. rewrite SFcompare_key.
    destruct (sfkey (Prim2SF x)), (sfkey (Prim2SF y)); try reflexivity.
  Qed.

  Ltac lexs :=
    repeat match goal with
    | |- context [lexcmp ?a ?b] =>
        let H := fresh in let E := fresh in
        destruct (lexcmp_spec a b) as [[E H]|[[E H]|[E H]]]; rewrite ?E in *; clear E
    | K : context [lexcmp ?a ?b] |- _ =>
        let H := fresh in let E := fresh in
        destruct (lexcmp_spec a b) as [[E H]|[[E H]|[E H]]]; rewrite ?E in *; clear E
    end.

  Ltac fin :=
    lexs; try reflexivity; try discriminate; exfalso;
    repeat match goal with H : (_,_,_) = (_,_,_) |- _ => injection H as ? ? ?; subst end; lia.

  Global Instance FOrd : OrdLaws (FArith F).
  Proof.
    constructor; cbn.
    - intros x y; rewrite f_ltb_key, f_leb_key.
      destruct (k x) as [[[a1 a2] a3]|], (k y) as [[[b1 b2] b3]|]; try discriminate.
      intros H; fin.
    - intros x y z; rewrite !f_leb_key.
      destruct (k x) as [[[a1 a2] a3]|], (k y) as [[[b1 b2] b3]|],
        (k z) as [[[c1 c2] c3]|]; try discriminate.
      intros H H0; fin.
    - intros x y; rewrite f_ltb_key, f_leb_key.
      destruct (k x) as [[[a1 a2] a3]|], (k y) as [[[b1 b2] b3]|]; try discriminate.
      intros H; fin.
    - intros x y; rewrite f_ltb_key, !f_leb_key.
      destruct (k x) as [[[a1 a2] a3]|], (k y) as [[[b1 b2] b3]|]; try discriminate.
      intros H H0 H1; fin.
    - intros x y; rewrite !f_leb_key.
      destruct (k x) as [[[a1 a2] a3]|], (k y) as [[[b1 b2] b3]|]; try discriminate.
      intros H; split; fin.
    - intros x; rewrite f_eqb_key, f_leb_key.
      destruct (k x) as [[[a1 a2] a3]|]; try reflexivity. fin.
  Qed.
End FOrd.
