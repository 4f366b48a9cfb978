(** C65: calls in binary64 that meet the conditions, and calls outside them that raise. *)
From Coq Require Import Floats.
From Verif Require Import Base Num NumF FLaws Laws Env Common DE CPSO NA Mat CMAES VDCMA Sample Hoare EvalRules Gen
  Steps Hist Runs Best Inst Safe Valid Accept Disc HistFacts HistBest PropPop PropRec CmaRun PropCma CmaStop Calm
  Chain Mcmc PropMc Hmc PropHmc CalmCma Demo ExPop ExCma ExSamp SampInst.

(** ** Calls that meet the conditions: they return, whatever numbers the generator yields *)
Definition cma_ok (con : option string) : @CMAArgs ND :=
  @mkCMAArgs ND (@mkArgs ND true bsq (Some (@D1 (FArith DF) [0.5; 0.75]%float)) true 50 4 (Some 7%Z) 0x1p-10%float
                   0%float con 1 None true 1%float CbFun) 0.5%float 0.5%float.
Lemma cma_ok_ready con : In con [None; Some "Penalize"%string] -> ReadyCMA (cma_ok con).
Proof.
  intros Hc. constructor.
  - constructor; try reflexivity; try discriminate.
    + exists 2. split; [exists [[-1; 1]; [-1; 1]]%float; split; reflexivity|].
      exists [0.5; 0.75]%float. split; reflexivity.
    + split; vm_compute; reflexivity.
    + exact Hc.
  - cbn. lia.
  - cbn. lia.
  - constructor; try (cbn; lia); vm_compute; discriminate.
  - intros _. exists 4%Z. split; [vm_compute; reflexivity | cbn; lia].
Qed.
Lemma demo_no_raise f n : (forall x, exists y, f x = inl y) -> ~ @user_raises ND (DemoEnv DF f) n.
Proof.
  intros Hf [(x & w & w' & H)|(X & st & w & w' & H)]; cbn in H; [|discriminate].
  destruct (Hf x) as [y Hy]. rewrite Hy in H. discriminate.
Qed.
Lemma demo_samp_raise f n : (forall x, exists y, f x = inl y) -> ~ @samp_raises ND (DemoEnv DF f) n.
Proof.
  intros Hf [(x & w & w' & H)|(X & st & w & w' & H)]; cbn in H; [|discriminate].
  destruct (Hf x) as [y Hy]. rewrite Hy in H. discriminate.
Qed.

Theorem C65_hypotheses f w a0 : (forall x, exists y, f x = inl y) ->
  (exists res st', @exec ND (DemoEnv DF f) _ (cmaes_minimize (cma_ok None)) w a0 = (inl res, st')) /\
  (exists res st', @exec ND (DemoEnv DF f) _ (vdcma_minimize (cma_ok None)) w a0 = (inl res, st')) /\
  (exists res st', hmrun f hm1 w a0 = (inl res, st')) /\
  (exists res st', mcrun f mc1 w a0 = (inl res, st')).
Proof.
  intros Hf. pose proof (cma_ok_ready None (or_introl eq_refl)) as HR.
  split; [|split; [|split]].
  - apply (@C65_cmaes_returns ND (DemoEnv DF f)); try assumption; try reflexivity.
    + apply DemoEnv_OK.
    + intro n. apply demo_no_raise, Hf.
    + intros C. discriminate.
  - apply (@C65_vdcma_returns ND (DemoEnv DF f)); try assumption; try reflexivity.
    + apply DemoEnv_OK.
    + cbn. lia.
    + intro n. apply demo_no_raise, Hf.
  - apply (@C65_hmc_returns ND (DemoEnv DF f)).
    + constructor; [|cbn; lia|discriminate]. constructor; [reflexivity| |discriminate|cbn; lia|discriminate].
      exists 2. split; [exists [[-1; 1]; [-1; 1]]%float; split; reflexivity|].
      split; [exists [0.5; 0.5]%float; split; reflexivity|exact Logic.I].
    + reflexivity.
    + intro n. apply demo_samp_raise, Hf.
  - apply (@C65_mcmc_returns ND (DemoEnv DF f) (FOrd DF)).
    + cbn. lia.
    + constructor; [|vm_compute; auto]. constructor; [reflexivity| |discriminate|cbn; lia|discriminate].
      exists 2. split; [exists [[-1; 1]; [-1; 1]]%float; split; reflexivity|].
      split; [exists [0.5; 0.5]%float; split; reflexivity|exact Logic.I].
    + vm_compute. discriminate.
    + intro n. apply demo_samp_raise, Hf.
    + intros (b & (z & Hz & ->) & Hm & _). vm_compute in Hz. injection Hz as <-. apply Hm. reflexivity.
Qed.

(** ** The exceptions of the theorems do occur *)
(** Penalize: objective values that are NaN in one generation and all equal in a later one. *)
Definition f_hole (x : list float) : float + nat :=
  inl (if PrimFloat.ltb 0.75 (nth 0 x 0%float) then nan else 0%float).
Definition c_hole : @CMAArgs ND :=
  cma_dargs half0 3 4 0x1p-10%float (-10)%float (Some "Penalize"%string) true 1%float 0.25%float 0.5%float.
Lemma c_hole_ready : ReadyCMA c_hole.
Proof.
  constructor.
  - constructor; try reflexivity; try discriminate.
    + exists 1. split; [exists [[-1; 1]]%float; split; reflexivity|].
      exists [0.5]%float. split; reflexivity.
    + split; vm_compute; reflexivity.
    + right. left. reflexivity.
  - cbn. lia.
  - cbn. lia.
  - constructor; try (cbn; lia); vm_compute; discriminate.
  - intros _. exists 4%Z. split; [vm_compute; reflexivity | cbn; lia].
Qed.
Definition w_hole : Script * unit := (mkScript [] [2;2;2;2;-40;-40;-40;-40]%float [] [], tt).
Definition w_hole_vd : Script * unit := (mkScript [] [1;2;2;2;2;-40;-40;-40;-40]%float [] [], tt).
Theorem C65_penalize_raises :
  ReadyCMA c_hole /\
  (exists st', crun f_hole (CallCMA c_hole) w_hole = (inr ValueError, st') /\ Nat.eqb (length (evals (tr st'))) 8 = true) /\
  (exists st', crun f_hole (CallVD c_hole) w_hole_vd = (inr ValueError, st') /\ Nat.eqb (length (evals (tr st'))) 12 = true).
Proof.
  split; [apply c_hole_ready|].
  split; apply (raised (E := DemoEnv DF f_hole)); vm_compute; reflexivity.
Qed.

(** cmaes: an eigendecomposition that does not converge. *)
Definition no_eigh (E : Env ND) : Env ND :=
  @mkEnv ND RNG US e_seed e_rand e_randn e_perm e_randint e_fun e_cb e_scb e_sched (@e_rank ND E) (@e_mpisize ND E) e_bcast e_allreduce
         e_argsort e_percentile e_median (fun _ => None) e_empty.
Definition EN : Env ND := no_eigh (DemoEnv DF f_half).
Definition c_ok1 : @CMAArgs ND :=
  cma_dargs half0 9 4 0x1p-10%float (-10)%float None true 1%float 0.25%float 0.5%float.
Lemma c_ok1_ready : ReadyCMA c_ok1.
Proof.
  constructor.
  - constructor; try reflexivity; try discriminate.
    + exists 1. split; [exists [[-1; 1]]%float; split; reflexivity|].
      exists [0.5]%float. split; reflexivity.
    + split; vm_compute; reflexivity.
    + left. reflexivity.
  - cbn. lia.
  - cbn. lia.
  - constructor; try (cbn; lia); vm_compute; discriminate.
  - intros _. exists 4%Z. split; [vm_compute; reflexivity | cbn; lia].
Qed.
Theorem C65_eigh_raises :
  @EnvOK ND EN /\ ReadyCMA c_ok1 /\
  exists st', @exec ND EN _ (cmaes_minimize c_ok1) w_flat None = (inr LinAlgError, st') /\
    Nat.leb 4 (length (evals (@tr ND EN st'))) = true.
Proof.
  split; [|split; [apply c_ok1_ready | apply (raised (E := EN)); vm_compute; reflexivity]].
  destruct (DemoEnv_OK DF f_half). constructor; assumption.
Qed.

(** ** Why the conditions are there *)
(** maxiter = 0: the first iteration is run and its record has no place. *)
Definition c_none : @CMAArgs ND :=
  cma_dargs half0 0 4 0x1p-10%float (-10)%float None false 1%float 0.25%float 0.5%float.
(** vdcma with one point per iteration. *)
Definition c_single : @CMAArgs ND :=
  cma_dargs half0 5 1 0x1p-10%float (-10)%float None false 1%float 0.25%float 1%float.
(** a record of more points than there are. *)
Definition c_loud : @CMAArgs ND :=
  cma_dargs half0 3 4 0x1p-10%float (-10)%float None true 1.5%float 0.25%float 0.5%float.
Theorem C65_conditions_needed :
  (exists st', crun f_half (CallCMA c_none) w_flat = (inr IndexError, st') /\ Nat.eqb (length (evals (tr st'))) 4 = true) /\
  (exists st', crun f_half (CallVD c_none) w_flat = (inr IndexError, st') /\ Nat.eqb (length (evals (tr st'))) 4 = true) /\
  (exists st', crun f_half (CallVD c_single) w_flat = (inr IndexError, st') /\ Nat.leb 1 (length (evals (tr st'))) = true) /\
  (exists st', crun f_half (CallCMA c_loud) w_flat = (inr ValueError, st') /\ Nat.eqb (length (evals (tr st'))) 4 = true).
Proof.
  split; [|split; [|split]]; apply (raised (E := DemoEnv DF f_half)); vm_compute; reflexivity.
Qed.
