(** Runs of cmaes and vdcma, computed by the kernel in binary64 arithmetic with the elementary
    functions of Demo.v: the hypotheses of PropCma.v and CmaStop.v are met by real runs, and C26
    and C30 have their counterexamples. *)
From Coq Require Import Floats.
From Verif Require Import Base Num NumF FLaws Laws Env Common DE CPSO NA Mat CMAES VDCMA Hoare
  EvalRules Gen Steps Hist Runs Best Inst HistFacts HistBest PropPop PropRec CmaRun PropCma CmaStop
  Demo ExPop.

Notation ND := (FNum DF).
Definition bnd1 : @nd (@num_arith ND) := @D2 (FArith DF) 2 [[-1; 1]]%float.
Definition cma_dargs (x0 : option (@nd (@num_arith ND))) (mx pop : Z) (xtol ftol : float)
    (con : option string) (ra : bool) (verb sigma muperc : float) : @CMAArgs ND :=
  @mkCMAArgs ND (@mkArgs ND true bnd1 x0 true mx pop None xtol ftol con 1 None ra verb CbFun)
             sigma muperc.
Definition half0 : option (@nd (@num_arith ND)) := Some (@D1 (FArith DF) [0.5%float]).
Definition crun (f : list float -> float + nat) (c : @CmaCall ND) (w : Script * unit) :=
  @exec ND (DemoEnv DF f) _ (@cma_run ND (DemoEnv DF f) c) w None.
Definition f_const (y : float) (x : list float) : float + nat := inl y.

Definition c_two : @CMAArgs ND :=
  cma_dargs half0 2 4 0x1p-10%float 0%float None true 1%float 0.25%float 0.5%float.
Definition w_two : Script * unit := (mkScript [] [0;1;2;3;1;2;3;4]%float [] [], tt).
Definition w_two_vd : Script * unit := (mkScript [] [1;0;1;2;3;1;2;3;4;1;1;1]%float [] [], tt).

Definition w_flat : Script * unit :=
  (mkScript [] [0;1;2;3;1;2;3;4;0;1;2;3;2;4;0;2;3]%float [] [], tt).
Definition f_half (x : list float) : float + nat :=
  inl (PrimFloat.abs (fold_left PrimFloat.add x 0 - 0.5))%float.
Definition f_neg (x : list float) : float + nat :=
  inl (PrimFloat.opp (fold_left PrimFloat.add x 0))%float.
Definition c_flat (mx : Z) : @CMAArgs ND :=
  cma_dargs half0 mx 4 0x1p-10%float (-1)%float None false 1%float 0.25%float 0.5%float.
Definition c_pen : @CMAArgs ND :=
  cma_dargs half0 3 4 0x1p-10%float (-10)%float (Some "Penalize"%string) true 1%float 0.25%float
            0.5%float.

Lemma cran f c w P :
  match crun f c w with (inl r, s) => P r s | _ => false end = true ->
  exists r s, crun f c w = (inl r, s) /\ P r s = true.
Proof. apply ran. Qed.

(** ** C26: the better point of the first generation is not returned.
    The runs also meet the hypotheses of C01_nit_cma, C02, C03, C04_status_cma, C18_shape_cma,
    C18_rows_cma and C26_last_generation. *)
Lemma c26_use (f : list float -> float + nat) (c : @CmaCall ND) w :
  (exists r s, crun f c w = (inl r, s) /\
     existsb (fun z => PrimFloat.ltb (snd z) (r_fun r)) (evals (tr s)) &&
     forallb (fun z => PrimFloat.leb (snd z) (snd z)) (evals (tr s)) &&
     Z.eqb (r_nit r) 2 && Z.eqb (r_nfev r) 8 = true) ->
  exists res st', crun f c w = (inl res, st') /\ r_nit res = 2%Z /\ r_nfev res = 8%Z /\
    Forall (fun z => @isnum (FArith DF) (snd z)) (evals (tr st')) /\
    Exists (fun z => PrimFloat.ltb (snd z) (r_fun res) = true) (evals (tr st')).
Proof.
  intros (r & s & Hx & HP). rewrite !andb_true_iff, !Z.eqb_eq in HP.
  destruct HP as (((H1 & H2) & H3) & H4). exists r, s.
  split; [exact Hx|]. split; [exact H3|]. split; [exact H4|]. split.
  - apply Forall_forall. rewrite forallb_forall in H2. exact H2.
  - apply Exists_exists, existsb_exists. exact H1.
Qed.

Theorem C26_better_point_not_returned_cmaes :
  exists res st', crun f_sphere (CallCMA c_two) w_two = (inl res, st') /\
    r_nit res = 2%Z /\ r_nfev res = 8%Z /\
    Forall (fun z => @isnum (FArith DF) (snd z)) (evals (tr st')) /\
    Exists (fun z => PrimFloat.ltb (snd z) (r_fun res) = true) (evals (tr st')).
Proof. apply c26_use, cran. vm_compute. reflexivity. Qed.

Theorem C26_better_point_not_returned_vdcma :
  exists res st', crun f_half (CallVD (c_flat 2)) w_two_vd = (inl res, st') /\
    r_nit res = 2%Z /\ r_nfev res = 8%Z /\
    Forall (fun z => @isnum (FArith DF) (snd z)) (evals (tr st')) /\
    Exists (fun z => PrimFloat.ltb (snd z) (r_fun res) = true) (evals (tr st')).
Proof. apply c26_use, cran. vm_compute. reflexivity. Qed.

Lemma c_two_not_mpi : @c_not_mpi ND (CallCMA c_two) /\ @c_not_mpi ND (CallVD (c_flat 2)).
Proof. split; discriminate. Qed.

(** ** C01: maxiter = 0 evaluates one population and then fails. *)
Theorem C01_maxiter_zero_cma :
  exists st', crun f_sphere (CallCMA
      (cma_dargs half0 0 4 0x1p-10%float 0%float None true 1%float 0.25%float 0.5%float)) w_two
    = (inr IndexError, st') /\ ncalls (tr st') = 4.
Proof.
  destruct (raised (@cma_run ND (DemoEnv DF f_sphere) (CallCMA
      (cma_dargs half0 0 4 0x1p-10%float 0%float None true 1%float 0.25%float 0.5%float))) w_two None
      IndexError (fun s => Nat.eqb (ncalls (tr s)) 4)) as (s & H1 & H2); [vm_compute; reflexivity|].
  exists s. split; [exact H1|]. apply Nat.eqb_eq, H2.
Qed.

(** ** C29: both stagnation tests fire for values near zero, none for the constant 1.  The
    hypotheses of C29_measured_against_zero and C29_no_stagnation_stop hold. *)
Definition st_check (k n : Z) (r : @OptRes ND) : bool := Z.eqb (r_status r) k && Z.eqb (r_nit r) n.
Lemma st_use f c w k n :
  (exists r s, crun f c w = (inl r, s) /\ st_check k n r = true) ->
  exists r s, crun f c w = (inl r, s) /\ r_status r = k /\ r_nit r = n.
Proof.
  intros (r & s & Hx & HP). unfold st_check in HP. rewrite andb_true_iff, !Z.eqb_eq in HP.
  exists r, s. split; [exact Hx|exact HP].
Qed.

Theorem C29_runs :
  (exists r s, crun (f_const 0) (CallCMA (c_flat 12)) w_flat = (inl r, s) /\
     r_status r = (-7)%Z /\ r_nit r = 3%Z) /\
  (exists r s, crun (f_const 0) (CallVD (c_flat 12)) w_two_vd = (inl r, s) /\
     r_status r = (-7)%Z /\ r_nit r = 3%Z) /\
  (exists r s, crun (f_const 0x1p-34) (CallCMA (c_flat 30)) w_flat = (inl r, s) /\
     r_status r = (-5)%Z /\ r_nit r = 17%Z) /\
  (exists r s, crun (f_const 1) (CallCMA (c_flat 30)) w_flat = (inl r, s) /\
     r_status r = (-1)%Z /\ r_nit r = 30%Z).
Proof.
  split; [apply st_use, (cran _ _ _ (fun r _ => st_check (-7) 3 r)); vm_compute; reflexivity|].
  split; [apply st_use, (cran _ _ _ (fun r _ => st_check (-7) 3 r)); vm_compute; reflexivity|].
  split; [apply st_use, (cran _ _ _ (fun r _ => st_check (-5) 17 r)); vm_compute; reflexivity|].
  apply st_use, (cran _ _ _ (fun r _ => st_check (-1) 30 r)); vm_compute; reflexivity.
Qed.

Theorem C29_hypotheses mx :
  SubLaw (@num_arith ND) /\
  @IlimLaw ND (nd_len (a_bounds (cma_args (CallCMA (c_flat mx)))))
             (a_popsize (cma_args (CallCMA (c_flat mx)))) /\
  @nleb (FArith DF) (@nlit (FArith DF) 1 (-12)) (@nlit (FArith DF) 1 (-10)) = true.
Proof.
  split; [apply FNum_SubLaw|]. split; [|vm_compute; reflexivity].
  apply FNum_IlimLaw; cbn; lia.
Qed.

(** ** C30: with Penalize the returned fun exceeds the objective at the returned x. *)
Theorem C30_fun_is_not_the_objective :
  exists res st' y, crun f_neg (CallCMA c_pen) w_flat = (inl res, st') /\
    f_neg (r_x res) = inl y /\ PrimFloat.ltb y (r_fun res) = true.
Proof.
  destruct (cran f_neg (CallCMA c_pen) w_flat (fun r _ => match f_neg (r_x r) with
     | inl y => PrimFloat.ltb y (r_fun r) | _ => false end)) as (r & s & Hx & HP);
    [vm_compute; reflexivity|].
  destruct (f_neg (r_x r)) as [y|] eqn:Hy; [|discriminate].
  exists r, s, y. split; [exact Hx|]. split; [exact Hy|exact HP].
Qed.
