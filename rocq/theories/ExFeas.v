(** Computed binary64 runs for the feasibility claims: what C10 to C14 state in exact arithmetic is
    missed by one rounding in binary64. *)
From Coq Require Import Floats.
From Verif Require Import Base Num NumF FLaws Laws Env Common DE CPSO NA Mat CMAES VDCMA Hoare
  EvalRules Gen Steps Hist Runs Best Inst HistFacts HistBest PropPop PropRec CmaRun PropCma CmaStop
  Safe Feas Demo ExPop ExCma.

Definition fx (x : list float) : float := nth 0 x 0%float.
Definition row1 (l u : float) : @nd (@num_arith ND) := @D2 (FArith DF) 2 [[l; u]].
Definition col1 (l : list float) : option (@nd (@num_arith ND)) :=
  Some (@D2 (FArith DF) 1 (map (fun v => [v]) l)).
(** every coordinate of the rows is a number between the bounds *)
Definition inside (l u : float) (v : float) : bool := PrimFloat.leb l v && PrimFloat.leb v u.

Definition f_shift (x : list float) : float + nat :=
  inl (PrimFloat.abs (PrimFloat.sub (fx x) 0x1.428f5c28f5c29p-1))%float.

(** ** C11: the particle at -0.7265625 is attracted by the one at 0.63; the shrunk velocity carries
    it to 1 + 2^-52, above the upper bound 1, with a feasible initial swarm. *)
Definition pso_over : @PopCall ND :=
  CallPSO (@mkPSOArgs ND (@mkArgs ND true (row1 (-1) 1)
     (col1 [-0x1.74p-1; 0x1.428f5c28f5c29p-1]%float) true 2 2 None
     0x1p-30%float (-1)%float (Some "Shrink"%string) 1 None false 1%float CbFun)
     0.5%float 1%float 4%float "deferred").
Definition w_over : Script * unit := (mkScript [0.25; 0.25; 0.5625; 0.5625]%float [] [] [], tt).

Theorem C11_binary64_overshoot :
  exists res st', drun DF f_shift pso_over w_over None = (inl res, st') /\
    Forall (fun v => inside (-1) 1 v = true) [-0x1.74p-1; 0x1.428f5c28f5c29p-1]%float /\
    Exists (fun x => PrimFloat.ltb 1 (fx x) = true) (points (tr st')).
Proof.
  destruct (dran DF f_shift pso_over w_over None
    (fun _ st => existsb (fun x => PrimFloat.ltb 1 (fx x)) (points (tr st))))
    as (r & s & Hx & HP); [vm_compute; reflexivity|].
  exists r, s. split; [exact Hx|]. split; [repeat constructor|].
  apply Exists_exists, existsb_exists, HP.
Qed.

(** ** C12: the clipped standardised coordinate 1 is sent to 5.780000000000001 > 5.78. *)
Definition lo12 : float := (-0x1.4d33333333333p+6)%float.
Definition up12 : float := 0x1.71eb851eb851fp+2%float.
Definition c_over : @CMAArgs ND :=
  @mkCMAArgs ND (@mkArgs ND true (row1 lo12 up12) (Some (@D1 (FArith DF) [5.5%float])) true 2 4 None
     0x1p-30%float (-1000)%float (Some "Penalize"%string) 1 None false 1%float CbFun)
     0.25%float 0.5%float.
Theorem C12_binary64_overshoot :
  (exists res st', crun f_neg (CallCMA c_over) w_flat = (inl res, st') /\
    Exists (fun x => PrimFloat.ltb up12 (fx x) = true) (points (tr st'))) /\
  (exists res st', crun f_neg (CallVD c_over) w_two_vd = (inl res, st') /\
    Exists (fun x => PrimFloat.ltb up12 (fx x) = true) (points (tr st'))).
Proof.
  split.
  - destruct (cran f_neg (CallCMA c_over) w_flat
      (fun _ st => existsb (fun x => PrimFloat.ltb up12 (fx x)) (points (tr st))))
      as (r & s & Hx & HP); [vm_compute; reflexivity|].
    exists r, s. split; [exact Hx|]. apply Exists_exists, existsb_exists, HP.
  - destruct (cran f_neg (CallVD c_over) w_two_vd
      (fun _ st => existsb (fun x => PrimFloat.ltb up12 (fx x)) (points (tr st))))
      as (r & s & Hx & HP); [vm_compute; reflexivity|].
    exists r, s. split; [exact Hx|]. apply Exists_exists, existsb_exists, HP.
Qed.

(** ** C13: an initial individual on the upper bound is evaluated above it, because na stores
    positions in the unit cube. *)
Definition lo13 : float := (-0x1.081fddf8f95fcp-2)%float.
Definition up13 : float := 0x1.2a335bc934837p-5%float.
Definition na_over : @PopCall ND :=
  CallNA (@mkNAArgs ND (@mkArgs ND true (row1 lo13 up13) (col1 [0%float; up13]) true 2 2 None
     0x1p-30%float (-1)%float None 1 None false 1%float CbFun) 0.5%float).
Theorem C13_binary64_overshoot :
  exists res st', drun DF f_sphere na_over w0 None = (inl res, st') /\
    Forall (fun v => inside lo13 up13 v = true) [0%float; up13] /\
    Exists (fun x => PrimFloat.ltb up13 (fx x) = true) (firstn 2 (points (tr st'))).
Proof.
  destruct (dran DF f_sphere na_over w0 None
    (fun _ st => existsb (fun x => PrimFloat.ltb up13 (fx x)) (firstn 2 (points (tr st)))))
    as (r & s & Hx & HP); [vm_compute; reflexivity|].
  exists r, s. split; [exact Hx|]. split; [repeat constructor|].
  apply Exists_exists, existsb_exists, HP.
Qed.

(** ** C14: without x0 the Latin Hypercube point of the lowest stratum is below the lower bound. *)
Definition lo14 : float := 0x1.0000000000001p+0%float.
Definition de_low : @PopCall ND :=
  CallDE (@mkDEArgs ND (@mkArgs ND true (row1 lo14 2) None true 2 4 None
     0x1p-30%float (-1)%float (Some "Random"%string) 1 None false 1%float CbFun)
     0.5%float 0.5%float "rand1bin" "deferred").
Definition w_low : Script * unit := (mkScript [0; 0; 0; 0]%float [] [] [], tt).
Theorem C14_binary64_below :
  exists res st', drun DF f_sphere de_low w_low None = (inl res, st') /\
    Exists (fun x => PrimFloat.ltb (fx x) lo14 = true) (firstn 4 (points (tr st'))).
Proof.
  destruct (dran DF f_sphere de_low w_low None
    (fun _ st => existsb (fun x => PrimFloat.ltb (fx x) lo14) (firstn 4 (points (tr st)))))
    as (r & s & Hx & HP); [vm_compute; reflexivity|].
  exists r, s. split; [exact Hx|]. apply Exists_exists, existsb_exists, HP.
Qed.

(** ** Without constraints (or with the other solver's word) the methods do leave the box: the
    constraint argument matters. *)
Definition pso_free : @PopCall ND :=
  CallPSO (@mkPSOArgs ND (@mkArgs ND true (row1 (-1) 1) (col1 [-0x1.74p-1; 0x1.428f5c28f5c29p-1]%float)
     true 2 2 None 0x1p-30%float (-1)%float None 1 None false 1%float CbFun)
     0.5%float 1%float 4%float "deferred").
Theorem C11_needs_shrink :
  exists res st', drun DF f_shift pso_free w_over None = (inl res, st') /\
    Exists (fun x => PrimFloat.ltb 2 (fx x) = true) (points (tr st')).
Proof.
  destruct (dran DF f_shift pso_free w_over None
    (fun _ st => existsb (fun x => PrimFloat.ltb 2 (fx x)) (points (tr st))))
    as (r & s & Hx & HP); [vm_compute; reflexivity|].
  exists r, s. split; [exact Hx|]. apply Exists_exists, existsb_exists, HP.
Qed.
