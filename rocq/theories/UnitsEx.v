(** C62: calls that meet its hypotheses, and what it excludes. *)
From Coq Require Import Reals Lra Floats.
From Verif Require Import Base Num NumR NumE NumF Env Common DE CPSO NA Mat CMAES VDCMA Sample Rel
  Hoare EvalRules Gen Steps Hist Runs Best Inst Laws Safe Feas FeasPso PlainEnv Valid Accept Enough Disc PropPop
  Calm FeasEx CalmEx Demo ExPop ExSamp MonoEx Units UnitsRun UnitsSamp UnitsClaims.
Local Open Scope nat_scope.

(** Lengths three times as large on the first axis, ten times on the others; new origins. *)
Definition U310 : Units := fun i => match i with 0 => (3, -1)%R | _ => (10, 7)%R end.
Lemma U310_pos : PosUnits U310.
Proof. intros [|i]; cbn; lra. Qed.
Lemma U310_not_rigid : ~ rigid U310.
Proof. intro H. specialize (H 0). cbn in H. lra. Qed.

Lemma two_returned {E : Env ENum} cb' scb' raw same (m : @M ENum E OptRes)
    (m' : @M ENum (rescaled U310 E cb' scb') OptRes) w a0 res st :
  exec m w a0 = (inl res, st) -> SameRunUnits U310 cb' scb' raw same m m' ->
  exists res' st', exec m' w (option_map (upop U310) a0) = (inl res', st') /\
    SameResult U310 raw same res res' /\ tr st' = map (uevent U310 raw) (tr st).
Proof.
  intros Hx H. specialize (H w a0). rewrite Hx in H.
  destruct (exec m' w (option_map (upop U310) a0)) as [[r'|e'] st']; destruct H as (_ & _ & H3 & H4); [|contradiction].
  exists r', st'. auto.
Qed.

(** The runs of de and na of C56_hypotheses, in the old and in the new units: both return. *)
Definition TwoRuns (E : Env ENum) (raw : bool) (same : Prop) (m : @M ENum E OptRes)
    (m' : @M ENum (rescaled U310 E (undo_cb U310 raw) (undo_scb U310)) OptRes) w a0 : Prop :=
  exists res st res' st',
    exec m w a0 = (inl res, st) /\ exec m' w (option_map (upop U310) a0) = (inl res', st') /\
    SameResult U310 raw same res res' /\ tr st' = map (uevent U310 raw) (tr st).

Definition e_pso x0 : @PSOArgs ENum :=
  mkPSOArgs (eargs (Some "Shrink"%string) x0) (Fin (1/2)) (Fin 1) (Fin 1) "deferred".

Theorem C62_runs f w a0 x0 : x0 = Some ex0 \/ x0 = None -> let E := EE f in
  TwoRuns E false (rigid U310) (de_minimize (e_de x0)) (de_minimize (uDE U310 (e_de x0))) w a0 /\
  TwoRuns E false (rigid U310) (pso_minimize (e_pso x0)) (pso_minimize (uPSO U310 (e_pso x0))) w a0 /\
  TwoRuns E true True (na_minimize p_na) (na_minimize (uNA U310 p_na)) w a0.
Proof.
  intros Hx0 E. pose proof (C56_hypotheses f w a0 x0 Hx0) as HF.
  inversion HF as [|? ? [_ (r1 & s1 & H1)] HF2]; subst.
  assert (HP : Pairs (@D2 EArith 2 ebox)) by (repeat constructor).
  split; [|split].
  - destruct (two_returned (undo_cb U310 false) (undo_scb U310) false (rigid U310) _
                (de_minimize (uDE U310 (e_de x0))) w a0 r1 s1 H1) as (r' & s' & K1 & K2 & K3).
    { apply C62_de; [apply U310_pos | apply C62_callback, U310_pos | exact HP | discriminate]. }
    exists r1, s1, r', s'. auto.
  - destruct within_ex as (W1 & W2 & W3 & W4 & W5).
    assert (HV : forall c, ValidPop (eargs c x0)) by (intros c; destruct Hx0 as [-> | ->]; apply eargs_valid).
    destruct (C56_exact_returns (EE_OK f) (CallPSO (e_pso x0)) w a0) as (r2 & s2 & H2).
    { split; [apply eargs_fit|]. split; [|intros _; reflexivity].
      constructor; try apply HV; try exact W1; try exact W2; try exact W3; try exact W4; cbn; auto. }
    { apply EE_no_raise. }
    destruct (two_returned (undo_cb U310 false) (undo_scb U310) false (rigid U310) _
                (pso_minimize (uPSO U310 (e_pso x0))) w a0 r2 s2 H2) as (r' & s' & K1 & K2 & K3).
    { apply C62_pso; [apply U310_pos | apply C62_callback, U310_pos | exact HP | discriminate]. }
    exists r2, s2, r', s'. auto.
  - assert (HV : ValidNA p_na).
    { constructor; [|apply within_ex]. constructor; try reflexivity; try discriminate.
      exists 2%nat. split; [exists pbox; split; reflexivity|exact I]. }
    destruct (C56_exact_returns (EE_OK f) (CallNA p_na) w a0) as (r3 & s3 & H3).
    { split; [discriminate|]. split; [exact HV|discriminate]. }
    { apply EE_no_raise. }
    destruct (two_returned (undo_cb U310 true) (undo_scb U310) true True _
                (na_minimize (uNA U310 p_na)) w a0 r3 s3 H3) as (r' & s' & K1 & K2 & K3).
    { apply C62_na; [apply U310_pos | apply C62_callback, U310_pos | | | discriminate].
      - repeat constructor.
      - repeat constructor; cbn; rb; lra. }
    exists r3, s3, r', s'. auto.
Qed.

(** ** Binary64: lengths doubled, which rounding does not notice *)
Definition fa (x : float) : float := PrimFloat.mul 2 x.
Definition fu (y : float) : float := PrimFloat.div y 2.
Definition f_new (y : list float) : float + nat := f_sphere (map fu y).
Definition b_new : @nd (@num_arith NDF) := @D2 (FArith DF) 2 [[-2; 2]; [-2; 2]]%float.
Definition pop_old : list (list float) := [[0.5; 0.5]; [0.75; -0.5]; [-1; 1]; [0.25; 0.75]]%float.
Definition new (X : list (list float)) : list (list float) := map (map fa) X.
Definition u_args b x0 xtol ftol con : @Args NDF :=
  @mkArgs NDF true b (Some (@D2 (FArith DF) 2 x0)) true 4 4 (Some 0%Z) xtol ftol con 1 None true 1%float CbFun.
Definition w_units : Script * unit :=
  (mkScript [0.125; 0.75; 0.0625; 0.5; 0.25; 0.875]%float
            [-1; 0.5; 0.25; -0.5; -1; 1; 0.5; 0.75; -0.25; -1; 1; 0.5]%float [] [], tt).

Definition pts (s : list (@event (@num_arith NDF))) : list (list float) := map fst (evals s).
Fixpoint meq (X Y : list (list float)) : bool :=
  match X, Y with [], [] => true | a :: X, b :: Y => veq a b && meq X Y | _, _ => false end.
(** The points of the second run are those of the first in the new units. *)
Definition agree {A} (p : (@OptRes NDF + A) * list (@event (@num_arith NDF)))
    (q : (@OptRes NDF + A) * list (@event (@num_arith NDF))) : bool :=
  match p, q with
  | (inl r, s), (inl r', s') =>
      veq (r_x r') (map fa (r_x r)) && feq (r_fun r') (r_fun r) && Z.eqb (r_nit r') (r_nit r) &&
      meq (pts s') (map (map fa) (pts s))
  | _, _ => false
  end.
Definition go (f : list float -> float + nat) (m : @M NDF (DemoEnv DF f) (@OptRes NDF)) :=
  let (r, s) := @exec NDF (DemoEnv DF f) _ m w_levels None in (r, @tr NDF (DemoEnv DF f) s).

Definition u_de b x0 xtol ftol : @DEArgs NDF :=
  @mkDEArgs NDF (u_args b x0 xtol ftol (Some "Random"%string)) 0.5%float 0.5%float "rand1bin" "immediate".
Definition u_cp b x0 g : @CPSOArgs NDF :=
  @mkCPSOArgs NDF (u_args b x0 0.125%float 0%float None) 0.5%float 0.5%float 0.5%float g "deferred".
Definition u_na b x0 : @NAArgs NDF := @mkNAArgs NDF (u_args b x0 0.125%float 0%float None) 0.5%float.
Definition u_cma b x0 : @CMAArgs NDF :=
  @mkCMAArgs NDF (@mkArgs NDF true b (Some (@D1 (FArith DF) x0)) true 4 4 None (-1)%float (-1)%float (Some "Penalize"%string) 1 None true 1%float CbFun)
    0.5%float 0.5%float.
Definition near : list (list float) := [[0.5; 0.5]; [0.625; 0.5]; [0.5; 0.625]; [0.625; 0.625]]%float.
Definition both {A} (run : forall f, A -> @M NDF (DemoEnv DF f) (@OptRes NDF)) (old new : A) : bool :=
  agree (go f_sphere (run f_sphere old)) (go f_new (run f_new new)).
Definition run_de f := @de_minimize NDF (DemoEnv DF f).
Definition run_cpso f := @cpso_minimize NDF (DemoEnv DF f).
Definition run_na f := @na_minimize NDF (DemoEnv DF f).
Definition run_cmaes f := @cmaes_minimize NDF (DemoEnv DF f).
Definition run_vdcma f := @vdcma_minimize NDF (DemoEnv DF f).

Theorem C62_binary64 :
  both run_de (u_de bsq pop_old 0.125%float 0%float) (u_de b_new (new pop_old) 0.125%float 0%float) = true /\
  both run_cpso (u_cp bsq near None) (u_cp b_new (new near) None) = true /\
  both run_na (u_na bsq pop_old) (u_na b_new (new pop_old)) = true /\
  both run_cmaes (u_cma bsq [0.5; 0.75]%float) (u_cma b_new [1; 1.5]%float) = true /\
  both run_vdcma (u_cma bsq [0.5; 0.75]%float) (u_cma b_new [1; 1.5]%float) = true.
Proof. vm_compute. repeat split. Qed.

(** The competition of cpso measures the swarm radius in the units of the caller: with the same
    particles in smaller units it restarts none, and another search follows. *)
Theorem C62_competition_depends_on_units :
  both run_cpso (u_cp bsq near (Some 1%float)) (u_cp b_new (new near) (Some 1%float)) = false.
Proof. vm_compute. reflexivity. Qed.

(** Whether a de run that reaches ftol reports 0 or 1 depends on the units of xtol. *)
Definition status_of (p : (@OptRes NDF + Exn) * list (@event (@num_arith NDF))) : option Z :=
  match p with (inl r, _) => Some (r_status r) | _ => None end.
Theorem C62_status_depends_on_units :
  status_of (go f_sphere (run_de f_sphere (u_de bsq pop_old 0.5%float 0.5%float))) = Some 0%Z /\
  status_of (go f_new (run_de f_new (u_de b_new (new pop_old) 0.5%float 0.5%float))) = Some 1%Z.
Proof. vm_compute. split; reflexivity. Qed.

(** The samplers. *)
Definition sgo (f : list float -> float + nat) (m : @M NDF (DemoEnv DF f) (@SampRes NDF)) :=
  let (r, s) := @exec NDF (DemoEnv DF f) _ m w_units None in (r, @tr NDF (DemoEnv DF f) s).
Definition sagree {A} (p q : (@SampRes NDF + A) * list (@event (@num_arith NDF))) : bool :=
  match p, q with
  | (inl r, s), (inl r', s') =>
      veq (sr_x r') (map fa (sr_x r)) && feq (sr_fun r') (sr_fun r) && feq (sr_accept r') (sr_accept r) &&
      meq (pts s') (map (map fa) (pts s))
  | _, _ => false
  end.
Definition u_mc b x0 : @MCArgs NDF := mcargs b x0 6 0.5%float None 0.5%float.
Definition u_hm b x0 h : @HMCArgs NDF := @mkHMCArgs NDF (sargs b x0 4 0.25%float None true CbFun) 2 JacNone h.
Theorem C62_samplers_binary64 :
  sagree (sgo f_sphere (@mcmc_sample NDF _ (u_mc bsq [0.75; 0.5]%float)))
         (sgo f_new (@mcmc_sample NDF _ (u_mc b_new [1.5; 1]%float))) = true /\
  sagree (sgo f_sphere (@hmc_sample NDF _ (u_hm bsq [0.75; 0.5]%float 0.125%float)))
         (sgo f_new (@hmc_sample NDF _ (u_hm b_new [1.5; 1]%float 0.25%float))) = true.
Proof. vm_compute. split; reflexivity. Qed.
(** Without changing the finite-difference step the hmc run differs. *)
Theorem C62_hmc_needs_the_step :
  sagree (sgo f_sphere (@hmc_sample NDF _ (u_hm bsq [0.75; 0.5]%float 0.125%float)))
         (sgo f_new (@hmc_sample NDF _ (u_hm b_new [1.5; 1]%float 0.125%float))) = false.
Proof. vm_compute. reflexivity. Qed.
