(** C26 with Penalize: a computed binary64 run whose result is the worst point of its last generation. *)
From Verif Require Import Base Num Env NumF Common DE CPSO NA Mat CMAES VDCMA Hoare EvalRules Gen Steps
  Hist Runs Best Inst HistFacts HistBest PropPop CmaRun PropCma Demo ExPop ExCma FLaws LastGen.
From Coq Require Import Floats.

Definition c_back : @CMAArgs ND :=
  cma_dargs half0 2 4 0x1p-10%float (-10)%float (Some "Penalize"%string) true 1%float 0.25%float 0.5%float.
Definition w_back : Script * unit := (mkScript [] [0; 1; 2; 3; -4; 2; 3; 4]%float [] [], tt).

(** The objective is -x on [-1, 1].  The last generation evaluates one point inside (where no penalty
    applies) and three at the best place, 1; the three are ranked after it. *)
Theorem C26_penalised_run_returns_worst :
  exists res st' older last, crun f_neg (CallCMA c_back) w_back = (inl res, st') /\
    evals (tr st') = older ++ last /\ length last = 4 /\
    (exists y, f_neg (r_x res) = inl y /\ PrimFloat.eqb y (r_fun res) = true) /\
    length (filter (fun z => PrimFloat.ltb (snd z) (r_fun res)) last) = 3 /\
    Forall (fun z => PrimFloat.leb (snd z) (r_fun res) = true) last.
Proof.
  destruct (cran f_neg (CallCMA c_back) w_back (fun r s =>
    let l := skipn 4 (evals (tr s)) in
    Nat.eqb (length l) 4 &&
    Nat.eqb (length (filter (fun z => PrimFloat.ltb (snd z) (r_fun r)) l)) 3 &&
    forallb (fun z => PrimFloat.leb (snd z) (r_fun r)) l &&
    match f_neg (r_x r) with inl y => PrimFloat.eqb y (r_fun r) | _ => false end))
    as (r & s & Hx & HP); [vm_compute; reflexivity|].
  cbn zeta in HP. rewrite !andb_true_iff, !Nat.eqb_eq, forallb_forall in HP. destruct HP as (((H1 & H2) & H3) & H4).
  exists r, s, (firstn 4 (evals (tr s))), (skipn 4 (evals (tr s))).
  split; [exact Hx|]. split; [symmetry; apply firstn_skipn|]. split; [exact H1|]. split.
  { destruct (f_neg (r_x r)) as [y|]; [|discriminate]. exists y. auto. }
  split; [exact H2|]. apply Forall_forall. exact H3.
Qed.

Theorem C26_best_rank_hypotheses :
  @EnvOK ND (DemoEnv DF f_neg) /\ @c_not_mpi ND (CallCMA c_back) /\
  a_bounds (@cma_args ND (CallCMA c_back)) = @D2 (FArith DF) 2 [[-1; 1]]%float /\
  a_constraints (@cma_args ND (CallCMA c_back)) = Some "Penalize"%string.
Proof. split; [apply DemoEnv_OK|]. split; [discriminate|]. split; reflexivity. Qed.
