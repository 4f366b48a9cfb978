(** C74: a call that meets the hypotheses; its nine generations are too few for the statuses -3 and -8. *)
From Coq Require Import Reals Lra Lia.
From Verif Require Import Base Num NumR NumE Env Common DE Mat CMAES VDCMA EvalVal Inst FeasPso Valid Accept PropPop PropCma Calm VdReal VdRun CmRun CmRunEx
  Pen PenRun PenRunEx CalmCma PenCalm PenCalmEx Weights Adapt Reasons Slow.
Open Scope R_scope.
#[local] Existing Instance EP.

Lemma ep_eighshape : @EighShape ENum EP.
Proof.
  intros d C lam V [HC HF] He. cbn in He. injection He as <- <-. split; [rewrite map_length; exact HC|]. split; [exact HC|exact HF].
Qed.
Lemma ep_emptyshape : @EmptyShape ENum EP.
Proof. intros n. cbn. apply repeat_length. Qed.
Lemma pargs_k : @ntrunc ENum (caa_muperc pargs * nZ (a_popsize (caa pargs)))%num = Some 1%Z.
Proof.
  cbn [ntrunc ENum caa_muperc pargs]. change (er_trunc (Fin (1 / 2 * Rlit 2 0)) = Some 1%Z).
  replace (1 / 2 * Rlit 2 0) with 1 by (unfold Rlit; lra). cbn. destruct (Rlt_dec 1 0); [lra|]. f_equal. unfold Rfloor.
  destruct (base_Int_part 1) as [H1 H2].
  assert (Int_part 1 < 2)%Z by (apply lt_IZR; lra). assert (0 < Int_part 1)%Z by (apply lt_IZR; lra). lia.
Qed.

Theorem C74_hypotheses w a0 :
  EnvOK /\ EighShape /\ EmptyShape /\
  a_bounds (caa pargs) = D2 2 prows /\ a_backend (caa pargs) <> Some "mpi"%string /\
  @ntrunc ENum (caa_muperc pargs * nZ (a_popsize (caa pargs)))%num = Some 1%Z /\ (1 <= 1 <= a_popsize (caa pargs))%Z /\
  (1 <= length prows)%nat /\ caa_sigma pargs = Fin 1 /\
  (3 * 1 <= (Z.of_nat (length prows) + 1) * (Z.of_nat (length prows) + 1))%Z /\
  exists res st', exec (cmaes_minimize pargs) w a0 = (inl res, st') /\ (1 <= r_nit res <= 9)%Z /\
    r_status res <> (-3)%Z /\ r_status res <> (-8)%Z.
Proof.
  split; [apply ep_ok|]. split; [apply ep_eighshape|]. split; [apply ep_emptyshape|]. split; [reflexivity|]. split; [discriminate|].
  split; [apply pargs_k|]. split; [cbn; lia|]. split; [cbn; lia|]. split; [reflexivity|]. split; [cbn; lia|].
  destruct (C65_penalize_hypotheses w a0) as (_ & res & st' & Hx). exists res, st'. split; [exact Hx|].
  pose proof (C01_nit_cma (CallCMA pargs) w a0 res st' ep_ok Hx) as Hn. unfold cma_args in Hn. cbn [cma_cargs] in Hn.
  change (a_maxiter (caa pargs)) with 9%Z in Hn.
  destruct (C74_generations ep_ok ep_eighshape ep_emptyshape pargs prows 1 1 w a0 res st' eq_refl ltac:(discriminate) pargs_k
    ltac:(cbn; lia) ltac:(cbn; lia) eq_refl ltac:(lra) ltac:(cbn; lia) Hx) as [H8 H3].
  change (Z.of_nat (length prows)) with 1%Z in *.
  split; [lia|]. split; intros Hst.
  - specialize (H3 Hst ltac:(lra)). lia.
  - specialize (H8 Hst). lia.
Qed.
