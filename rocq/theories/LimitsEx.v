(** C63, C64: runs that meet the hypotheses, and what fails without them. *)
From Coq Require Import Reals Lra Floats.
From Verif Require Import Base Num NumR NumE NumF Env Common DE CPSO NA Mat CMAES VDCMA Sample Rel Hoare
  EvalRules Gen Steps Hist Runs Best Inst HistFacts HistBest PropPop Mono Demo ExPop MonoEx ExSamp
  Laws Valid Safe Feas Limits LimitsClaims LimitsSamp.
Open Scope nat_scope.

(** The order laws and 0 <= 0 hold in exact arithmetic and in binary64. *)
Theorem C63_arithmetic :
  OrdLaws EArith /\ @nleb EArith n0 n0 = true /\ OrdLaws (FArith DF) /\ @nleb (FArith DF) n0 n0 = true.
Proof.
  split; [exact EOrd|]. split; [|split; [exact (FOrd DF) | vm_compute; reflexivity]].
  cbn. unfold Rleb. destruct (Rle_dec _ _) as [|Hn]; [reflexivity|]. exfalso. apply Hn. apply Rle_refl.
Qed.

(** The call returns with this status after this many iterations. *)
Definition ends (m : @M NDF EL (@OptRes NDF)) w (st nit : Z) : bool :=
  match @exec NDF EL _ m w None with
  | (inl r, _) => Z.eqb (r_status r) st && Z.eqb (r_nit r) nit
  | _ => false
  end.
Lemma ends_ok (m : @M NDF EL (@OptRes NDF)) w st nit : ends m w st nit = true ->
  exists r s, @exec NDF EL (@OptRes NDF) m w None = (inl r, s) /\ r_status r = st /\ r_nit r = nit.
Proof.
  unfold ends. destruct (@exec NDF EL _ m w None) as [[r|e] s]; [|discriminate].
  rewrite andb_true_iff, !Z.eqb_eq. intros [H1 H2]. exists r, s. auto.
Qed.
Definition Ends (m : @M NDF EL (@OptRes NDF)) w st nit : Prop :=
  exists r s, @exec NDF EL (@OptRes NDF) m w None = (inl r, s) /\ r_status r = st /\ r_nit r = nit.

Definition des mi xt ft := @de_minimize NDF EL (@de_limits NDF mi xt ft de_levels).
Definition cps mi xt ft := @cpso_minimize NDF EL (@cpso_limits NDF mi xt ft cpso_levels).
Definition nas mi xt ft := @na_minimize NDF EL (@na_limits NDF mi xt ft na_levels).
Definition cms vd mi xt ft := cma_or_vd EL vd (@cma_limits NDF mi xt ft (cma_levels 3)).

(** The same call stopped by a budget, by a larger one, by ftol with status 1, and, with a large
    xtol, in the same iteration with status 0. *)
Theorem C63_runs :
  (Ends (des 4 (-1)%float 0.5%float) w0 (-1) 4 /\ Ends (des 7 (-1)%float 0.5%float) w0 (-1) 7 /\
   Ends (des 7 (-1)%float 1%float) w0 1 2 /\ Ends (des 7 10%float 1%float) w0 0 2) /\
  (Ends (nas 4 (-1)%float 0.5%float) w0 (-1) 4 /\ Ends (nas 7 (-1)%float 0.5%float) w0 (-1) 7 /\
   Ends (nas 7 (-1)%float 2%float) w0 1 2 /\ Ends (nas 7 10%float 2%float) w0 0 2) /\
  (Ends (cps 7 (-1)%float 0.5%float) w0 (-1) 7 /\ Ends (cps 7 10%float 4%float) w0 0 2) /\
  forall vd,
   Ends (cms vd 3 (-1)%float (-1)%float) w_levels (-1) 3 /\
   Ends (cms vd 5 (-1)%float (-1)%float) w_levels (-1) 5 /\
   Ends (cms vd 5 (-1)%float 2%float) w_levels 1 1 /\ Ends (cms vd 5 10%float 2%float) w_levels 0 1.
Proof.
  repeat match goal with |- _ /\ _ => split | |- forall _ : bool, _ => intros [|] end;
    (apply ends_ok; vm_compute; reflexivity).
Qed.

(** The hypotheses of the theorems hold for these calls. *)
Theorem C63_hypotheses mi : (4 <= mi)%Z ->
  Extends Spent (@de_minimize NDF EL de_levels) (des mi (-1)%float 0.5%float) /\
  Extends Spent (@na_minimize NDF EL na_levels) (nas mi (-1)%float 0.5%float) /\
  (forall vd, Extends Spent (cms vd 3 (-1)%float (-1)%float) (cms vd mi (-1)%float (-1)%float)) /\
  SameUntilStop (@cpso_minimize NDF EL cpso_levels) (cps 4 10%float 4%float) /\
  (forall xt, SameButLabel (des 7 (-1)%float 1%float) (des 7 xt 1%float)).
Proof.
  intro Hm. split; [|split; [|split; [|split]]].
  - apply (@C63_budget_de NDF EL de_levels mi); [right; cbn; lia | cbn; lia].
  - apply (@C63_budget_na NDF EL na_levels mi); [right; cbn; lia | cbn; lia].
  - intros [|]; cbn [cms cma_or_vd].
    + apply (@C63_budget_vdcma NDF EL eq_refl (cma_levels 3) mi). cbn. lia.
    + apply (@C63_budget_cmaes NDF EL eq_refl (cma_levels 3) mi). cbn. lia.
  - apply (@C63_cpso NDF EL cpso_levels 4 10%float 4%float); [right; cbn; lia | left; reflexivity].
  - intro xt. apply (@C64_de NDF EL (@de_limits NDF 7 (-1)%float 1%float de_levels) xt). right; cbn; lia.
Qed.

(** cpso with competition looks at maxiter: the swarm restarted after the first iteration is
    another one, although neither call has stopped. *)
Definition cpso_close mi : @CPSOArgs NDF :=
  @mkCPSOArgs NDF
    (demo_args DF (Some (@D2 (FArith DF) 2 [[0.5; 0.5]; [0.5; 0.5]; [0.5; 0.5]]%float)) mi 3 (-1)%float 0.5%float
       (Some "Shrink"%string) false 1%float)
    0.75%float 1%float 1%float (Some 1%float) "deferred".
Definition w_close : Script * unit := (mkScript (repeat 0.5%float 12 ++ repeat 0.125%float 12) [] [] [], tt).
Definition pts mi := points (@tr NDF EL (snd (@exec NDF EL _ (@cpso_minimize NDF EL (cpso_close mi)) w_close None))).
Theorem C63_competition_needed :
  truthy (pa_competitivity (cpso_close 3)) <> None /\
  Ends (@cpso_minimize NDF EL (cpso_close 3)) w_close (-1) 3 /\
  Ends (@cpso_minimize NDF EL (cpso_close 4)) w_close (-1) 4 /\
  length (pts 3) = 9 /\ length (pts 4) = 12 /\
  veq (nth 8 (pts 3) []) [0.5; 0.5]%float = true /\ veq (nth 8 (pts 4) []) [0.25; 0.25]%float = true.
Proof.
  split; [vm_compute; discriminate|]. split; [apply ends_ok; vm_compute; reflexivity|].
  split; [apply ends_ok; vm_compute; reflexivity|]. repeat split; vm_compute; reflexivity.
Qed.

(** With return_all and maxiter = 1 there is no room for the record: the longer call succeeds. *)
Theorem C63_room_needed :
  (exists s, @exec NDF EL _ (des 1 (-1)%float 0.5%float) w0 None = (inr IndexError, s) /\
             (0 <? length (@tr NDF EL s)) = true) /\
  Ends (des 4 (-1)%float 0.5%float) w0 (-1) 4.
Proof.
  split; [|apply ends_ok; vm_compute; reflexivity].
  apply (raised (E := EL)). vm_compute. reflexivity.
Qed.

(** Chains of three and of five samples. *)
Definition mc_n n : @MCArgs NDF := mcargs bsq [0.5; 0.5]%float n 0.125%float None 1%float.
Definition hm_n n : @HMCArgs NDF :=
  @mkHMCArgs NDF (sargs bsq [0.5; 0.5]%float n 0.125%float None true CbFun) 2 JacNone 0.03125%float.
Definition samples (r : (@SampRes NDF + Exn) * @St NDF (DemoEnv DF f_sphere)) : nat :=
  match fst r with inl r => match sr_all r with Some (xs, _) => length xs | None => 0 end | _ => 0 end.
Theorem C63_chains :
  samples (mcrun f_sphere (mc_n 3) w2 None) = 3 /\ samples (mcrun f_sphere (mc_n 5) w2 None) = 5 /\
  samples (hmrun f_sphere (hm_n 3) w2 None) = 3 /\ samples (hmrun f_sphere (hm_n 5) w2 None) = 5 /\
  @ChainExtends NDF (DemoEnv DF f_sphere) (@mcmc_sample NDF _ (mc_n 3)) (@mcmc_sample NDF _ (mc_n 5)) /\
  @ChainExtends NDF (DemoEnv DF f_sphere) (@hmc_sample NDF _ (hm_n 3)) (@hmc_sample NDF _ (hm_n 5)).
Proof.
  do 4 (split; [vm_compute; reflexivity|]). split.
  - apply (@C63_mcmc NDF (DemoEnv DF f_sphere) (mc_n 3) 5); cbn; lia.
  - apply (@C63_hmc NDF (DemoEnv DF f_sphere) (hm_n 3) 5); cbn; lia.
Qed.
