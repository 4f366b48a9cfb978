(** C74: a call of vdcma that meets the hypotheses of C74_vdcma. *)
From Coq Require Import Reals Lra Lia.
From Verif Require Import Base Num NumR NumE Env Common DE Mat CMAES VDCMA EvalVal Inst PenRunEx VdPenEx Adapt VAdapt Reasons Slow SlowEx SlowVd.
Open Scope R_scope.
#[local] Existing Instance EQ.

Theorem C74_vdcma_hypotheses w a0 :
  @EnvOK ENum EQ /\ @EmptyShape ENum EQ /\
  a_bounds (caa pargs) = D2 2 prows /\ a_backend (caa pargs) <> Some "mpi"%string /\
  @ntrunc ENum (caa_muperc pargs * nZ (a_popsize (caa pargs)))%num = Some 1%Z /\
  (1 <= length prows)%nat /\ caa_sigma pargs = Fin 1 /\
  exists res st', exec (vdcma_minimize pargs) w a0 = (inl res, st') /\
    exists D F h, @Course ENum _ (@VdGen ENum pargs 1 1 2) D F h (Z.to_nat (r_nit res)) (Some (r_status res)) /\
      forall i, (i <= Z.to_nat (r_nit res))%nat -> exists s, v_size (D i) = Fin s /\ exp (- INR (i - 1)) <= s <= exp (INR (i - 1)).
Proof.
  split; [apply eq_ok|]. split; [exact eq_empty|]. split; [reflexivity|]. split; [discriminate|]. split; [apply pargs_k|].
  split; [cbn; lia|]. split; [reflexivity|].
  destruct (C65_vdcma_penalize_hypotheses w a0) as (_ & _ & _ & res & st' & Hx & _). exists res, st'. split; [exact Hx|].
  destruct (C74_vdcma eq_ok eq_empty pargs prows 1 1 w a0 res st' eq_refl ltac:(discriminate) pargs_k ltac:(cbn; lia) ltac:(cbn; lia) eq_refl ltac:(lra) Hx)
    as (D & F & h & _ & HC & HW).
  exists D, F, h. split; [exact HC|]. intros i Hi. destruct (HW i Hi) as (s & Hs & H). exists s. split; [exact Hs|].
  change (length prows) with 1%nat in H. change (INR 1) with 1 in H. rewrite sqrt_1 in H. unfold Rdiv in H. rewrite Rinv_1, !Rmult_1_r, !Rmult_1_l in H. exact H.
Qed.
