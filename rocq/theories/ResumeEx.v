(** Runs that meet the hypotheses of C80, and runs outside them that cannot be resumed, binary64. *)
From Coq Require Import Floats Permutation.
From Verif Require Import Base Num NumF Env Common DE CPSO Rel Hoare EvalRules Gen Steps Best Inst Resume Demo ExPop.
Open Scope nat_scope.

Definition sphere80 (x : list float) : float := fold_left (fun a v => (a + v * v)%float) x 0%float.
Definition EV (f : list float -> float) : Env (FNum DF) := DemoEnv DF (fun x => inl (f x)).
Lemma EV_memoryless f : @Memoryless (FNum DF) (EV f) f.
Proof. split; reflexivity. Qed.
Lemma EV_sched f : @SchedOK (FNum DF) (EV f).
Proof. exact (@eo_sched _ _ (DemoEnv_OK DF (fun x => inl (f x)))). Qed.

Definition start80 : @nd (FArith DF) := @D2 (FArith DF) 2 [[0.5; 0.5]; [0.75; -0.5]; [-0.5; 0.75]; [0.25; 0.75]]%float.
Definition args80 (x0 : @nd (FArith DF)) (mi : Z) : @Args (FNum DF) :=
  @mkArgs (FNum DF) true (b11 DF) (Some x0) true mi 4 None (-1)%float (-1)%float None 1 None false 1%float CbFun.
Definition de80 (strat up : string) (x0 : @nd (FArith DF)) (mi : Z) : @DEArgs (FNum DF) :=
  @mkDEArgs (FNum DF) (args80 x0 mi) 0.75%float 0.9375%float strat up.
Definition pso80 (up : string) (x0 : @nd (FArith DF)) (mi : Z) : @PSOArgs (FNum DF) :=
  @mkPSOArgs (FNum DF) (args80 x0 mi) 0.75%float 1.5%float 1.5%float up.
Definition w80 : Script * unit :=
  (mkScript [0.25; 0.75; 0.125; 0.5; 0.875; 0.0625; 0.375; 0.625; 0.25; 0.5; 0.75; 0.875; 0.125; 0.375; 0.625; 0.25;
             0.75; 0.25; 0.5; 0.125; 0.875; 0.375; 0.0625; 0.625; 0.25; 0.75; 0.125; 0.5; 0.875; 0.0625; 0.375; 0.625]%float
            [] [[2; 0; 1]; [1; 2; 0]; [0; 2; 1]; [2; 1; 0]; [1; 0; 2]; [0; 1; 2]; [2; 0; 1]; [1; 2; 0]; [0; 2; 1];
                [2; 1; 0]; [1; 0; 2]; [0; 1; 2]] [0; 1; 1; 0; 1; 0; 0; 1; 1; 0], tt).

(** A run with maxiter 3, the long run with maxiter 5, and the run resumed from the population of
    the last callback with maxiter 3; [same]: do the last two return the same point? *)
Definition last_pop (t : list (@event (FArith DF))) : list (list float) :=
  match rev t with ECb X _ _ :: _ => X | _ => [] end.
Definition feq_vec (x y : list float) : bool :=
  Nat.eqb (length x) (length y) && forallb (fun p => PrimFloat.eqb (fst p) (snd p)) (combine x y).
Definition Taken (f : list float -> float)
    (m : @nd (FArith DF) -> Z -> @M (FNum DF) (EV f) (@OptRes (FNum DF))) (same : bool) : Prop :=
  exists r1 s1 rl sl rr sr,
    @exec (FNum DF) (EV f) _ (m start80 3%Z) w80 None = (inl r1, s1) /\ r_status r1 = (-1)%Z /\ r_nit r1 = 3%Z /\
    @exec (FNum DF) (EV f) _ (m start80 5%Z) w80 None = (inl rl, sl) /\ r_nit rl = 5%Z /\
    @exec (FNum DF) (EV f) _ (m (@D2 (FArith DF) 2 (last_pop (tr s1))) 3%Z) (rs s1) None = (inl rr, sr) /\
    r_nit rr = 3%Z /\ feq_vec (r_x rl) (r_x rr) = same /\
    feq_vec (r_x rl) (r_x r1) = false /\ length (evals (tr sl)) = 20 /\ length (evals (tr sr)) = 12.

Lemma taken (f : list float -> float) (m : @nd (FArith DF) -> Z -> @M (FNum DF) (EV f) (@OptRes (FNum DF))) (same : bool) :
  match @exec (FNum DF) (EV f) _ (m start80 3%Z) w80 None with
  | (inl r1, s1) =>
      match @exec (FNum DF) (EV f) _ (m start80 5%Z) w80 None,
            @exec (FNum DF) (EV f) _ (m (@D2 (FArith DF) 2 (last_pop (tr s1))) 3%Z) (rs s1) None with
      | (inl rl, sl), (inl rr, sr) =>
          Z.eqb (r_status r1) (-1) && Z.eqb (r_nit r1) 3 && Z.eqb (r_nit rl) 5 && Z.eqb (r_nit rr) 3 &&
          Bool.eqb (feq_vec (r_x rl) (r_x rr)) same && negb (feq_vec (r_x rl) (r_x r1)) &&
          Nat.eqb (length (evals (tr sl))) 20 && Nat.eqb (length (evals (tr sr))) 12
      | _, _ => false
      end
  | _ => false
  end = true -> Taken f m same.
Proof.
  unfold Taken.
  destruct (@exec (FNum DF) (EV f) _ (m start80 3%Z) w80 None) as [[r1|] s1]; [|discriminate].
  destruct (@exec (FNum DF) (EV f) _ (m start80 5%Z) w80 None) as [[rl|] sl]; [|discriminate].
  destruct (@exec (FNum DF) (EV f) _ (m (@D2 (FArith DF) 2 (last_pop (tr s1))) 3%Z) (rs s1) None) as [[rr|] sr] eqn:E;
    [|discriminate].
  rewrite !andb_true_iff, !Z.eqb_eq, !Nat.eqb_eq, negb_true_iff.
  intros (((((((H1 & H2) & H3) & H4) & H5) & H6) & H7) & H8). apply Bool.eqb_prop in H5.
  exists r1, s1, rl, sl, rr, sr. repeat split; assumption.
Qed.

(** The deferred run goes on; the immediate run of a constant objective does not (its best point is
    the last one evaluated, and a new run takes the first row), and neither does pso (the
    velocities are lost). *)
Theorem C80_runs :
  Taken sphere80 (fun x0 mi => @de_minimize (FNum DF) (EV sphere80) (de80 "best1bin" "deferred" x0 mi)) true.
Proof. apply taken. vm_compute. reflexivity. Qed.
Theorem C80_not_immediate :
  Taken (fun _ => 1%float)
        (fun x0 mi => @de_minimize (FNum DF) (EV (fun _ => 1%float)) (de80 "best1bin" "immediate" x0 mi)) false.
Proof. apply taken. vm_compute. reflexivity. Qed.
Theorem C80_not_pso :
  Taken sphere80 (fun x0 mi => @pso_minimize (FNum DF) (EV sphere80) (pso80 "deferred" x0 mi)) false.
Proof. apply taken. vm_compute. reflexivity. Qed.

(** The hypotheses of C80_resume hold for the first of these runs. *)
Theorem C80_hypotheses :
  exists g A w r1 s1, @Memoryless (FNum DF) (EV sphere80) g /\ @SchedOK (FNum DF) (EV sphere80) /\
    is_sync (dea_updating A) (dea A) = true /\ a_backend (dea A) <> Some "mpi"%string /\
    a_return_all (dea A) = false /\ a_callback (dea A) = CbFun /\
    @exec (FNum DF) (EV sphere80) _ (de_minimize A) w None = (inl r1, s1) /\ r_status r1 = (-1)%Z.
Proof.
  destruct C80_runs as (r1 & s1 & _ & _ & _ & _ & H1 & H2 & _).
  exists sphere80, (de80 "best1bin" "deferred" start80 3), w80, r1, s1.
  split; [apply EV_memoryless|]. split; [apply EV_sched|].
  repeat split; try assumption. discriminate.
Qed.
