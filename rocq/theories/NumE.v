(** Exact real arithmetic with the IEEE special values: what the code would compute without
    rounding and overflow.  The only zero is +0. *)
From Coq Require Import Reals Lra R_Ifp.
From Verif Require Import Base Num NumR.
Open Scope R_scope.

Inductive er := Fin (r : R) | PInf | NInf | NaN.

Definition er_opp (x : er) : er :=
  match x with Fin r => Fin (- r) | PInf => NInf | NInf => PInf | NaN => NaN end.

Definition er_add (x y : er) : er :=
  match x, y with
  | Fin a, Fin b => Fin (a + b)
  | NaN, _ | _, NaN => NaN
  | PInf, NInf | NInf, PInf => NaN
  | PInf, _ | _, PInf => PInf
  | NInf, _ | _, NInf => NInf
  end.
Definition er_sub (x y : er) : er :=
  match x, y with
  | Fin a, Fin b => Fin (a - b)
  | _, _ => er_add x (er_opp y)
  end.

(** infinity times / over a finite number of the sign of [r]; [z] for r = 0 *)
Definition er_sgn (r : R) (p n z : er) : er :=
  if Rlt_dec 0 r then p else if Rlt_dec r 0 then n else z.

Definition er_mul (x y : er) : er :=
  match x, y with
  | Fin a, Fin b => Fin (a * b)
  | NaN, _ | _, NaN => NaN
  | PInf, Fin r | Fin r, PInf => er_sgn r PInf NInf NaN
  | NInf, Fin r | Fin r, NInf => er_sgn r NInf PInf NaN
  | PInf, PInf | NInf, NInf => PInf
  | PInf, NInf | NInf, PInf => NInf
  end.
Definition er_div (x y : er) : er :=
  match x, y with
  | Fin a, Fin b => if Req_EM_T b 0 then er_sgn a PInf NInf NaN else Fin (a / b)
  | NaN, _ | _, NaN => NaN
  | Fin _, PInf | Fin _, NInf => Fin 0
  | PInf, Fin r => er_sgn r PInf NInf PInf
  | NInf, Fin r => er_sgn r NInf PInf NInf
  | _, _ => NaN
  end.

Definition er_sqrt (x : er) : er :=
  match x with
  | Fin r => if Rlt_dec r 0 then NaN else Fin (sqrt r)
  | PInf => PInf | _ => NaN end.
Definition er_exp (x : er) : er :=
  match x with Fin r => Fin (exp r) | PInf => PInf | NInf => Fin 0 | NaN => NaN end.
Definition er_ln (x : er) : er :=
  match x with
  | Fin r => if Rlt_dec 0 r then Fin (ln r) else if Req_EM_T r 0 then NInf else NaN
  | PInf => PInf | _ => NaN end.
Definition er_cos (x : er) : er := match x with Fin r => Fin (cos r) | _ => NaN end.
Definition er_abs (x : er) : er :=
  match x with Fin r => Fin (Rabs r) | NaN => NaN | _ => PInf end.
(** [x ** y], used with 0 < x only; NaN elsewhere except 0 ** (y > 0) *)
Definition er_pow (x y : er) : er :=
  match x, y with
  | Fin a, Fin b =>
      if Rlt_dec 0 a then Fin (Rpower a b)
      else if Req_EM_T a 0 then (if Rlt_dec 0 b then Fin 0 else NaN) else NaN
  | _, _ => NaN
  end.

Definition er_ltb (x y : er) : bool :=
  match x, y with
  | NaN, _ | _, NaN => false
  | Fin a, Fin b => Rltb a b
  | PInf, _ => false
  | _, NInf => false
  | NInf, _ => true
  | Fin _, PInf => true
  end.
Definition er_leb (x y : er) : bool :=
  match x, y with
  | NaN, _ | _, NaN => false
  | Fin a, Fin b => Rleb a b
  | _, PInf => true
  | NInf, _ => true
  | _, _ => false
  end.
Definition er_eqb (x y : er) : bool :=
  match x, y with
  | Fin a, Fin b => Reqb a b
  | PInf, PInf | NInf, NInf => true
  | _, _ => false
  end.

(** floor and ceiling of a real *)
Definition Rfloor (r : R) : Z := Int_part r.
Definition Rceil (r : R) : Z := (- Int_part (- r))%Z.

Definition er_trunc (x : er) : option Z :=
  match x with
  | Fin r => Some (if Rlt_dec r 0 then Rceil r else Rfloor r)
  | _ => None end.
Definition er_ceilZ (x : er) : option Z :=
  match x with Fin r => Some (Rceil r) | _ => None end.

#[export] Instance EArith : Arith := {|
  T := er; nadd := er_add; nsub := er_sub; nmul := er_mul; ndiv := er_div;
  nsqrt := er_sqrt; nexp := er_exp; nln := er_ln; ncos := er_cos; nabs := er_abs;
  npow := er_pow; nltb := er_ltb; nleb := er_leb; neqb := er_eqb;
  nlit := fun m e => Fin (Rlit m e) |}.

#[export] Instance ENum : Num := {|
  num_arith := EArith; ninf := PInf; ntrunc := er_trunc; nceilZ := er_ceilZ |}.

Ltac rb := rewrite ?Rltb_true, ?Rltb_false, ?Rleb_true, ?Rleb_false in *.

#[export] Instance EOrd : OrdLaws EArith.
Proof.
  constructor; cbn.
  - intros [a| | |] [b| | |]; cbn; intros; try discriminate; try reflexivity; rb; lra.
  - intros [a| | |] [b| | |] [c| | |]; cbn; intros; try discriminate; try reflexivity; rb; lra.
  - intros [a| | |] [b| | |]; cbn; intros; try discriminate; try reflexivity; rb; lra.
  - intros [a| | |] [b| | |]; cbn; intros; try discriminate; try reflexivity; rb; lra.
  - intros [a| | |] [b| | |]; cbn; intros; try discriminate; split; try reflexivity; rb; lra.
  - intros [a| | |]; cbn; try reflexivity.
    replace (Rleb a a) with true by (symmetry; apply Rleb_true; lra).
    apply Reqb_true; reflexivity.
Qed.
