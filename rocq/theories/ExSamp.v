(** Runs of the samplers, computed by the kernel on binary64: the hypotheses of the sampler theorems
    are met, and the claims the code does not satisfy have counterexamples. *)
From Coq Require Import Floats.
From Verif Require Import Base Num NumF Env Common DE CPSO Sample Hoare EvalRules Gen Steps Best Inst
  Disc Valid Accept Chain Mcmc PropMc Hmc PropHmc PropCb Demo ExPop SampInst.

Notation NDF := (FNum DF).
Definition bsq : @nd (@num_arith NDF) := @D2 (FArith DF) 2 [[-1; 1]; [-1; 1]]%float.
Definition bcube : @nd (@num_arith NDF) := @D2 (FArith DF) 2 [[-1; 1]; [-1; 1]; [-1; 1]]%float.

Definition sargs b (x0 : list float) (mx : Z) (step : float) con ra cb : @SArgs NDF :=
  @mkSArgs NDF true b (Some (@D1 (FArith DF) x0)) mx (@D0 (FArith DF) step) false None con ra cb.
Definition mcargs b x0 mx step con perc : @MCArgs NDF := @mkMCArgs NDF (sargs b x0 mx step con true CbFun) perc.

Definition mcrun (f : list float -> float + nat) A (w : Script * unit) a0 :=
  @exec NDF (DemoEnv DF f) _ (@mcmc_sample NDF (DemoEnv DF f) A) w a0.
Definition hmrun (f : list float -> float + nat) A (w : Script * unit) a0 :=
  @exec NDF (DemoEnv DF f) _ (@hmc_sample NDF (DemoEnv DF f) A) w a0.

Definition script (u n : list float) : Script * unit := (mkScript u n [] [], tt).
Definition feq (x y : float) : bool := PrimFloat.eqb x y.
Fixpoint veq (x y : list float) : bool :=
  match x, y with [], [] => true | a :: x, b :: y => feq a b && veq x y | _, _ => false end.


Definition u999 : float := 0x1.ff7ced916872bp-1%float.   (* 0.999 *)

Lemma mcran f A w a0 P :
  match mcrun f A w a0 with (inl r, s) => P r s | _ => false end = true ->
  exists r s, mcrun f A w a0 = (inl r, s) /\ P r s = true.
Proof. apply ran. Qed.
Lemma hmran f A w a0 P :
  match hmrun f A w a0 with (inl r, s) => P r s | _ => false end = true ->
  exists r s, hmrun f A w a0 = (inl r, s) /\ P r s = true.
Proof. apply ran. Qed.

(** *** mcmc: a run with blocks of one coordinate, an accepted downhill proposal, a rejected uphill
    one and an accepted equal one.  Meets the hypotheses of C32, C34, C35_returns, C50. *)
Definition mc1 := mcargs bsq [0.5; 0.5]%float 4 0.5%float None 0.5%float.
Definition w1 := script [0.5; u999; 0.5]%float [-0.5; 2; -1]%float.
Theorem C32_run :
  exists res st', mcrun f_sphere mc1 w1 None = (inl res, st') /\
    0 < nd_len (s_bounds (mca mc1)) /\ s_has_cb (mca mc1) = true /\
    length (evals (tr st')) = 4 /\ length (scbs (tr st')) = 4 /\
    feq (sr_accept res) 0.5 = true /\ feq (sr_fun res) 0.3125 = true /\
    veq (sr_x res) [0.25; 0.5]%float = true.
Proof.
  destruct (mcran f_sphere mc1 w1 None (fun res st =>
    (length (evals (tr st)) =? 4) && (length (scbs (tr st)) =? 4) &&
    feq (sr_accept res) 0.5 && feq (sr_fun res) 0.3125 && veq (sr_x res) [0.25; 0.5]%float))
    as (res & st & Hx & HP); [vm_compute; reflexivity|].
  rewrite !andb_true_iff, !Nat.eqb_eq in HP. destruct HP as [[[[H1 H2] H3] H4] H5].
  exists res, st. split; [exact Hx|]. split; [cbn; lia|]. auto 7.
Qed.

(** *** C34: the start is the best sample of the chain, but is not reported *)
Definition mc2 := mcargs bsq [0; 0]%float 3 0.5%float None 1%float.
Definition w2 := script [0; 0]%float [0.5; 0.5; 0.5; 0.5]%float.
Theorem C34_start_not_reported :
  exists res st' X F, mcrun f_sphere mc2 w2 None = (inl res, st') /\
    sr_all res = Some (X, F) /\ PrimFloat.ltb (nth 0 F 0%float) (sr_fun res) = true /\
    PrimFloat.ltb (sr_fun res) infinity = true.
Proof.
  destruct (mcran f_sphere mc2 w2 None (fun res st =>
    match sr_all res with
    | Some (X, F) => PrimFloat.ltb (nth 0 F 0%float) (sr_fun res) && PrimFloat.ltb (sr_fun res) infinity
    | None => false end))
    as (res & st & Hx & HP); [vm_compute; reflexivity|].
  destruct (sr_all res) as [[X F]|] eqn:Ha; [|discriminate]. apply andb_true_iff in HP.
  exists res, st, X, F. split; [exact Hx|]. split; [exact Ha|]. exact HP.
Qed.
(** no proposal is accepted: fun is infinite although every sample has value 0 *)
Definition w3 := script [u999; u999]%float [0.5; 0.5; 0.5; 0.5]%float.
Theorem C34_infinite_fun :
  exists res st' X F, mcrun f_sphere mc2 w3 None = (inl res, st') /\
    sr_all res = Some (X, F) /\ veq F [0; 0; 0]%float = true /\ feq (sr_fun res) infinity = true.
Proof.
  destruct (mcran f_sphere mc2 w3 None (fun res st =>
    match sr_all res with
    | Some (X, F) => veq F [0; 0; 0]%float && feq (sr_fun res) infinity
    | None => false end))
    as (res & st & Hx & HP); [vm_compute; reflexivity|].
  destruct (sr_all res) as [[X F]|] eqn:Ha; [|discriminate]. apply andb_true_iff in HP.
  exists res, st, X, F. split; [exact Hx|]. split; [exact Ha|]. exact HP.
Qed.

(** *** C35: three coordinates, blocks of int(0.75 * 3) = 2: the second block has one coordinate *)
Definition mc3 := mcargs bcube [0; 0; 0]%float 3 0.5%float None 0.75%float.
Theorem C35_run : exists st', mcrun f_sphere mc3 w3 None = (inr ValueError, st') /\
    length (evals (tr st')) = 2.
Proof.
  destruct (raised (E := DemoEnv DF f_sphere) (@mcmc_sample NDF (DemoEnv DF f_sphere) mc3) w3 None ValueError
    (fun st => length (evals (tr st)) =? 2)) as (st & Hx & HP); [vm_compute; reflexivity|].
  apply Nat.eqb_eq in HP. exists st. split; [exact Hx|exact HP].
Qed.

(** *** C36: feasible proposals, none accepted *)
Definition mc4 := mcargs bsq [0; 0]%float 3 0.5%float (Some "Reject"%string) 1%float.
Theorem C36_run : exists res st', mcrun f_sphere mc4 w2 None = (inl res, st') /\
    length (evals (tr st')) = 1 /\ feq (sr_fun res) infinity = true.
Proof.
  destruct (mcran f_sphere mc4 w2 None (fun res st =>
    (length (evals (tr st)) =? 1) && feq (sr_fun res) infinity))
    as (res & st & Hx & HP); [vm_compute; reflexivity|].
  rewrite andb_true_iff, Nat.eqb_eq in HP. exists res, st. split; [exact Hx|exact HP].
Qed.

(** *** C48: a NaN is accepted from a finite value, and then everything *)
Definition f_nan (x : list float) : float + nat :=
  if PrimFloat.ltb 0.375 (nth 0 x 0%float) then inl nan else f_sphere x.
Definition mc5 := mcargs bsq [0.25; 0]%float 3 0.5%float None 1%float.
Definition w5 := script [u999; u999]%float [0.5; 0; -3; 0]%float.
Theorem C48_run : exists res st' X F, mcrun f_nan mc5 w5 None = (inl res, st') /\
    sr_all res = Some (X, F) /\
    PrimFloat.eqb (nth 1 F 0%float) (nth 1 F 0%float) = false /\
    PrimFloat.ltb (nth 0 F 0%float) (nth 2 F 0%float) = true /\ feq (sr_accept res) (2/3)%float = true.
Proof.
  destruct (mcran f_nan mc5 w5 None (fun res st =>
    match sr_all res with
    | Some (X, F) => negb (PrimFloat.eqb (nth 1 F 0%float) (nth 1 F 0%float)) &&
        PrimFloat.ltb (nth 0 F 0%float) (nth 2 F 0%float) && feq (sr_accept res) (2/3)%float
    | None => false end))
    as (res & st & Hx & HP); [vm_compute; reflexivity|].
  destruct (sr_all res) as [[X F]|] eqn:Ha; [|discriminate].
  rewrite !andb_true_iff, negb_true_iff in HP. destruct HP as [[H1 H2] H3].
  exists res, st, X, F. split; [exact Hx|]. split; [exact Ha|]. auto.
Qed.

(** *** hmc: meets the hypotheses of C37, C50; 37 = 1 + 2 * (2 * 2 * (2 + 2) + 2) *)
Definition hm1 : @HMCArgs NDF :=
  @mkHMCArgs NDF (sargs bsq [0.5; 0.5]%float 3 0.125%float None true CbFun) 2 JacNone 0.03125%float.
Theorem C37_run : exists res st', hmrun f_sphere hm1 w2 None = (inl res, st') /\
    hma_jac hm1 = JacNone /\ s_has_cb (hma hm1) = true /\ s_constraints (hma hm1) <> Some "Reject"%string /\
    sr_nfev res = Some 37%Z /\ ncalls (tr st') = 37 /\ feq (sr_fun res) 0.5 = true /\
    feq (sr_accept res) (2/3)%float = true.
Proof.
  destruct (hmran f_sphere hm1 w2 None (fun res st =>
    match sr_nfev res with Some z => Z.eqb z 37 | None => false end && (ncalls (tr st) =? 37) &&
    feq (sr_fun res) 0.5 && feq (sr_accept res) (2/3)%float))
    as (res & st & Hx & HP); [vm_compute; reflexivity|].
  rewrite !andb_true_iff, Nat.eqb_eq in HP. destruct HP as [[[H1 H2] H3] H4].
  exists res, st. split; [exact Hx|]. split; [reflexivity|]. split; [reflexivity|].
  split; [discriminate|]. split; [|auto]. destruct (sr_nfev res) as [z|]; [|discriminate].
  apply Z.eqb_eq in H1. subst; auto.
Qed.

(** *** C38 *)
Definition hm2 : @HMCArgs NDF :=
  @mkHMCArgs NDF (sargs bsq [0.5; 0.5]%float 3 0.125%float None true CbFun) 2 JacFun 0.03125%float.
Theorem C38_run : exists st', hmrun f_sphere hm2 w2 None = (inr RecursionError, st') /\
    ncalls (tr st') = 1.
Proof.
  destruct (raised (E := DemoEnv DF f_sphere) (@hmc_sample NDF (DemoEnv DF f_sphere) hm2) w2 None RecursionError
    (fun st => ncalls (tr st) =? 1)) as (st & Hx & HP); [vm_compute; reflexivity|].
  apply Nat.eqb_eq in HP. exists st. split; [exact Hx|exact HP].
Qed.
Lemma hm2_valid : @ValidHM NDF hm2.
Proof.
  constructor; [|cbn; lia|discriminate]. constructor; [reflexivity| |discriminate|cbn; lia|discriminate].
  exists 2. split; [exists [[-1; 1]; [-1; 1]]%float; split; [reflexivity|]|].
  - reflexivity.
  - split; [exists [0.5; 0.5]%float; split; reflexivity|exact Logic.I].
Qed.

(** *** C22: without x0 the bounds of a sampler must be finite *)
Definition mc_inf : @MCArgs NDF :=
  @mkMCArgs NDF (@mkSArgs NDF true (@D2 (FArith DF) 2 [[0; PrimFloat.infinity]]%float) None 4 (@D0 (FArith DF) 0.5%float)
                   false None None true CbFun) 0.5%float.
Theorem C22_infinite_bound : ~ ValidMC mc_inf /\
  exists st', mcrun f_sphere mc_inf w2 None = (inr OverflowError, st') /\ ncalls (tr st') = 0.
Proof.
  split.
  - intros [H _]. specialize (vs_range _ H eq_refl). cbn. intros HF. inversion HF as [|? ? Hx]; subst. vm_compute in Hx. discriminate Hx.
  - destruct (raised (E := DemoEnv DF f_sphere) (@mcmc_sample NDF (DemoEnv DF f_sphere) mc_inf) w2 None OverflowError
      (fun st => ncalls (tr st) =? 0)) as (st & Hx & HP); [vm_compute; reflexivity|].
    apply Nat.eqb_eq in HP. exists st. split; [exact Hx|exact HP].
Qed.

(** *** C40: in binary64 the first coordinate is not restored before the second is differentiated *)
Theorem C40_not_restored :
  exists r st', @exec NDF (DemoEnv DF f_sphere) _
      (@numerical_gradient NDF (DemoEnv DF f_sphere) (f_lit 1 (-4)) 0 [0x1p-70; 0.5]%float) (script [] []) None
      = (inl r, st') /\
    length (evals (tr st')) = 4 /\
    feq (nth 0 (fst (nth 2 (evals (tr st')) ([], 0%float))) 1%float) 0 = true.
Proof.
  destruct (ran (E := DemoEnv DF f_sphere)
      (@numerical_gradient NDF (DemoEnv DF f_sphere) (f_lit 1 (-4)) 0 [0x1p-70; 0.5]%float) (script [] []) None
      (fun r st => (length (evals (tr st)) =? 4) &&
         feq (nth 0 (fst (nth 2 (evals (tr st)) ([], 0%float))) 1%float) 0))
    as (r & st & Hx & HP); [vm_compute; reflexivity|].
  rewrite andb_true_iff, Nat.eqb_eq in HP. exists r, st. split; [exact Hx|exact HP].
Qed.

(** *** C49: empty bounds *)
Definition mc6 := mcargs (@D2 (FArith DF) 2 []) [] 2 0.5%float None 1%float.
Lemma mc6_valid : @ValidMC NDF mc6 /\ nd_len (s_bounds (mca mc6)) = 0 /\ (2 <= s_maxiter (mca mc6))%Z /\
  @ntrunc NDF (@nmul (FArith DF) (mca_perc mc6) (nN 0)) <> None.
Proof.
  repeat split; try reflexivity; try (cbn; lia); try discriminate.
  - exists 0. split; [exists []; split; reflexivity|]. split; [exists []; split; reflexivity|exact Logic.I].
Qed.

(** *** C51: an ndarray stepsize of 0.5 on [-2, 2] reads 1 after the call *)
Definition mc7 : @MCArgs NDF := @mkMCArgs NDF
  (@mkSArgs NDF true (@D2 (FArith DF) 2 [[-2; 2]]%float) (Some (@D1 (FArith DF) [0]%float)) 2
     (@D1 (FArith DF) [0.5]%float) true None None true CbNone) 1%float.
Theorem C51_run : exists res st', mcrun f_sphere mc7 (script [] []) (Some [[0.5]]%float) = (inl res, st') /\
    changed (argbuf st') 0 0 1 = true.
Proof.
  destruct (mcran f_sphere mc7 (script [] []) (Some [[0.5]]%float) (fun res st => changed (argbuf st) 0 0 1))
    as (res & st & Hx & HP); [vm_compute; reflexivity|].
  exists res, st. split; [exact Hx|exact HP].
Qed.
