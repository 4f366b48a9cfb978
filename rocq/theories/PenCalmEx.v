(** C65 with Penalize in exact arithmetic: a call that meets the hypotheses, and so returns. *)
From Coq Require Import Reals Lra.
From Verif Require Import Base Num NumR NumE Env Common DE Mat CMAES VDCMA EvalVal Inst FeasPso Valid Accept PropPop Calm VdReal VdRun CmRun CmRunEx Pen PenRun PenRunEx CalmCma PenCalm.
Open Scope R_scope.
#[local] Existing Instance EP.

Lemma pargs_ready : @ReadyCMA ENum pargs.
Proof.
  constructor.
  - constructor; try reflexivity; try discriminate.
    + exists 1%nat. split; [exists prows; split; reflexivity|]. exists [Fin (-2)]. split; reflexivity.
    + cbn. unfold Rlit. cbn. apply Rleb_false. lra.
    + split; cbn; unfold Rlit; cbn; [apply Rltb_true|apply Rleb_true]; lra.
    + right. left. reflexivity.
  - cbn. lia.
  - cbn. lia.
  - constructor; try (cbn; lia); try discriminate.
    rewrite nN_E. unfold nZ. cbn [num_arith ENum EArith nadd nmul ndiv nlit er_mul caa pargs a_popsize a_bounds nd_len length].
    rewrite div_fin by (unfold Rlit; cbn; lra). discriminate.
  - discriminate.
Qed.

Theorem C65_penalize_hypotheses w a0 :
  a_constraints (caa pargs) = Some "Penalize"%string /\
  exists res st', exec (cmaes_minimize pargs) w a0 = (inl res, st').
Proof.
  split; [reflexivity|].
  apply (C65_penalize_returns ep_ok ep_randn ep_eigh ep_pct ep_med ep_empty ep_fin pargs prows 1 (1 / 2) pargs_ok).
  - discriminate.
  - apply pargs_rates.
  - discriminate.
  - reflexivity.
  - apply pargs_ready.
  - intros n [(x & u & u' & H)|(X & st & u & u' & H)]; cbn in H; discriminate.
  - intros C. discriminate.
Qed.
