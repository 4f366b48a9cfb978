(** C15 and C47 at work: binary64 and real runs that meet their hypotheses, and the runs that the
    hypotheses exclude. *)
From Coq Require Import Permutation Floats.
From Verif Require Import Base Num NumF Env Common DE CPSO NA Mat CMAES VDCMA Hoare Feas
  EvalRules Gen Steps Hist Runs Best Inst HistFacts HistBest PropPop PropRec CmaRun PropCma Rel Vary
  Par PropPar Demo ExPop ExCma.

(** ** C15 *)

(** In binary64 adding 0.0 changes only the value -0.0. *)
Theorem C15_adds_zero F (x : float) :
  x <> (-0)%float -> @adds_zero (FNum F) x.
Proof.
  intro H. unfold adds_zero. change (@n0 (@num_arith (FNum F))) with 0%float.
  change (@nadd (@num_arith (FNum F))) with PrimFloat.add.
  assert (H0 : Prim2SF 0 = S754_zero false) by reflexivity.
  split; apply Prim2SF_inj; rewrite add_spec, H0; unfold SF64add, SFadd;
    destruct (Prim2SF x) as [[]|[]| |s m e] eqn:E; try reflexivity;
    exfalso; apply H; apply Prim2SF_inj; rewrite E; reflexivity.
Qed.

(** the distance of the sum of the coordinates from 0.5 *)
Definition half (x : list float) : float :=
  PrimFloat.abs (PrimFloat.sub (fold_left PrimFloat.add x 0%float) 0.5%float).
Lemma half_not_minus_zero x : half x <> (-0)%float.
Proof.
  intro H. apply (f_equal Prim2SF) in H. unfold half in H. rewrite abs_spec in H.
  destruct (Prim2SF _) in H; discriminate.
Qed.

Section Ex15.
  Variable F : FloatFuns.
  Notation NF := (FNum F).
  Notation ED := (DemoEnv F f_half).

  Definition de_def : @DEArgs NF :=
    @mkDEArgs NF (demo_args F None 5 4 0.0009765625%float 0.001%float (Some "Random"%string)
                            true 1%float)
              0.5%float 0.125%float "rand1bin" "deferred".

  (** joblib finishes the tasks in reverse order *)
  Definition sched_rev (n : nat) (_ : @RNG NF ED * @US NF ED) : list nat := rev (seq 0 n).
  (** two MPI ranks; the sum starts with the other rank *)
  Definition tr2 : rtree := Node (Leaf 1) (Leaf 0).
  Definition ar2 (n : nat) (X : list (list float)) (own : list float) : list float :=
    map (fun i => @tsum (FArith F) tr2
                    (fun r => if (r =? 0)%nat then nth i own 0%float
                              else @contrib NF half 2 X r i))
        (seq 0 (length own)).
  Definition bc2 (n : nat) (X : list (list float)) : list (list float) := X.

  Lemma mpi2 : @MpiSum NF half 0 2 bc2 ar2.
  Proof.
    constructor; [lia | reflexivity |]. exists (fun _ _ => tr2). split.
    - intros _ _. apply perm_swap.
    - reflexivity.
  Qed.

  (** The hypotheses of C15 are met by a de run with joblib and with MPI evaluation; the run
      returns after four iterations, and the first generation is evaluated in another order. *)
  Theorem C15_hypotheses :
    (forall x w, @e_fun NF ED x w = (inl (half x), w)) /\
    selects Serial (a_workers (dea de_def)) (a_backend (dea de_def)) /\
    dea_updating de_def = "deferred"%string /\
    selects Joblib 4 (Some "loky"%string) /\ selects Mpi 1 (Some "mpi"%string) /\
    @mode_ok NF ED half sched_rev 0 2 bc2 ar2 Joblib /\
    @mode_ok NF ED half sched_rev 0 2 bc2 ar2 Mpi.
  Proof.
    split; [reflexivity|]. split; [split; [right; left; reflexivity | discriminate]|].
    split; [reflexivity|].
    split; [split; [intros [H|[H|[]]]; discriminate | right; right; left; reflexivity]|].
    split; [reflexivity|]. split.
    - intros n w. symmetry. apply Permutation_rev.
    - split; [apply mpi2|]. split.
      + apply C15_adds_zero. intro H. apply (f_equal Prim2SF) in H. discriminate.
      + intro x. apply C15_adds_zero, half_not_minus_zero.
  Qed.

  Definition E15 : Env NF := vary ED sched_rev 0 2 bc2 ar2 (@e_empty NF ED).
  Definition de_par (workers : Z) (backend : option string) : @DEArgs NF :=
    @mkDEArgs NF (set_workers workers backend (dea de_def)) 0.5%float 0.125%float "rand1bin" "deferred".
  (** the first coordinate of the first point *)
  Definition x00 (l : list (@event (FArith F))) : float := nth 0 (nth 0 (points l) []) nan.

  Theorem C15_runs :
    exists r s, @exec NF ED _ (de_minimize de_def) w0 None = (inl r, s) /\
      r_nit r = 5%Z /\ length (points (tr s)) = 20 /\
      (exists s', @exec NF E15 _ (de_minimize (de_par 4 (Some "loky"%string))) w0 None = (inl r, s') /\
         points (tr s') <> points (tr s)) /\
      (exists s', @exec NF E15 _ (de_minimize (de_par 1 (Some "mpi"%string))) w0 None = (inl r, s') /\
         length (points (tr s')) = 10).
  Proof.
    destruct C15_hypotheses as [HP [HS [HU [HJ [HM [OJ OM]]]]]].
    pose proof (@C15_de NF ED half HP sched_rev 0 2 bc2 ar2 Joblib 4 _ HJ OJ de_def w0 None HS HU) as CJ.
    pose proof (@C15_de NF ED half HP sched_rev 0 2 bc2 ar2 Mpi 1 _ HM OM de_def w0 None HS HU) as CM.
    change (vary ED sched_rev 0 2 bc2 ar2 (@e_empty NF ED)) with E15 in *.
    change (mkDEArgs (set_workers 4 (Some "loky"%string) (dea de_def)) _ _ _ _)
      with (de_par 4 (Some "loky"%string)) in CJ.
    change (mkDEArgs (set_workers 1 (Some "mpi"%string) (dea de_def)) _ _ _ _)
      with (de_par 1 (Some "mpi"%string)) in CM.
    assert (H1 : (match @exec NF ED _ (de_minimize de_def) w0 None,
                       @exec NF E15 _ (de_minimize (de_par 4 (Some "loky"%string))) w0 None,
                       @exec NF E15 _ (de_minimize (de_par 1 (Some "mpi"%string))) w0 None with
                 | (inl r, s), (_, s'), (_, s'') =>
                     (r_nit r =? 5)%Z && (length (points (tr s)) =? 20)%nat &&
                     PrimFloat.eqb (x00 (tr s)) (x00 (tr s)) &&
                     negb (PrimFloat.eqb (x00 (tr s')) (x00 (tr s))) &&
                     (length (points (tr s'')) =? 10)%nat
                 | _, _, _ => false end) = true) by (vm_compute; reflexivity).
    destruct (@exec NF ED _ (de_minimize de_def) w0 None) as [[r|e] s]; [|discriminate].
    destruct (@exec NF E15 _ (de_minimize (de_par 4 (Some "loky"%string))) w0 None) as [r' s'].
    destruct (@exec NF E15 _ (de_minimize (de_par 1 (Some "mpi"%string))) w0 None) as [r'' s''].
    rewrite !andb_true_iff, Z.eqb_eq, !Nat.eqb_eq in H1.
    destruct H1 as [[[[H1 H2] H3] H4] H5].
    destruct CJ as [CJ _], CM as [CM _]. cbn [fst] in CJ, CM. subst r' r''.
    exists r, s. split; [reflexivity|]. split; [exact H1|]. split; [exact H2|]. split.
    - exists s'. split; [reflexivity|]. intro He.
      assert (HX : x00 (tr s') = x00 (tr s)).
      { unfold x00. exact (f_equal (fun l => nth 0 (nth 0 l []) nan) He). }
      rewrite HX, H3 in H4. discriminate.
    - exists s''. auto.
  Qed.

  (** -0.0 is excluded for a reason: an objective with value -0.0 gives 0.0 under MPI. *)
  Definition f_mz (x : list float) : float + nat := inl (-0)%float.
  Definition ar2z (n : nat) (X : list (list float)) (own : list float) : list float :=
    map (fun i => @tsum (FArith F) tr2
                    (fun r => if (r =? 0)%nat then nth i own 0%float
                              else @contrib NF (fun _ => (-0)%float) 2 X r i))
        (seq 0 (length own)).
  Theorem C15_minus_zero :
    exists r s r' s',
      @exec NF (DemoEnv F f_mz) _ (de_minimize de_def) w0 None = (inl r, s) /\
      @exec NF (vary (DemoEnv F f_mz) sched_rev 0 2 bc2 ar2z (@e_empty NF (DemoEnv F f_mz))) _
            (de_minimize (de_par 1 (Some "mpi"%string))) w0 None = (inl r', s') /\
      @MpiSum NF (fun _ => (-0)%float) 0 2 bc2 ar2z /\
      r_fun r = (-0)%float /\ r_fun r' = 0%float.
  Proof.
    assert (H1 : (match @exec NF (DemoEnv F f_mz) _ (de_minimize de_def) w0 None,
       @exec NF (vary (DemoEnv F f_mz) sched_rev 0 2 bc2 ar2z (@e_empty NF (DemoEnv F f_mz))) _
            (de_minimize (de_par 1 (Some "mpi"%string))) w0 None with
       | (inl r, s), (inl r', s') => (Prim2SF (r_fun r), Prim2SF (r_fun r'))
       | _, _ => (S754_nan, S754_nan) end) = (S754_zero true, S754_zero false))
      by (vm_compute; reflexivity).
    destruct (@exec NF (DemoEnv F f_mz) _ (de_minimize de_def) w0 None) as [[r|e] s];
      [|discriminate].
    destruct (@exec NF (vary (DemoEnv F f_mz) sched_rev 0 2 bc2 ar2z (@e_empty NF (DemoEnv F f_mz))) _
            (de_minimize (de_par 1 (Some "mpi"%string))) w0 None) as [[r'|e] s']; [|discriminate].
    exists r, s, r', s'. injection H1 as H1 H2. split; [reflexivity|]. split; [reflexivity|].
    split; [|split; apply Prim2SF_inj; assumption].
    constructor; [lia | reflexivity |]. exists (fun _ _ => tr2). split.
    - intros _ _. apply perm_swap.
    - reflexivity.
  Qed.
End Ex15.

(** ** C47: with constraints="Penalize" and a first mean above the upper bound, the result depends
    on what np.empty returned. *)
Definition c_out : @CMAArgs ND :=
  cma_dargs (Some (@D1 (FArith DF) [1.75%float])) 1 4 0x1p-10%float (-10)%float
            (Some "Penalize"%string) true 1%float 0x1p-4%float 0.5%float.
Definition ED47 : Env ND := DemoEnv DF f_half.
Definition E47 (v : float) : Env ND := @with_empty ND ED47 (fun n => repeat v n).

Theorem C47_reads_memory :
  exists r1 s1 r2 s2,
    @exec ND (E47 0%float) _ (cmaes_minimize c_out) w_two None = (inl r1, s1) /\
    @exec ND (E47 4%float) _ (cmaes_minimize c_out) w_two None = (inl r2, s2) /\
    PrimFloat.ltb (r_fun r2) (r_fun r1) = true.
Proof.
  assert (H : match @exec ND (E47 0%float) _ (cmaes_minimize c_out) w_two None,
                    @exec ND (E47 4%float) _ (cmaes_minimize c_out) w_two None with
              | (inl r1, _), (inl r2, _) => PrimFloat.ltb (r_fun r2) (r_fun r1)
              | _, _ => false end = true) by (vm_compute; reflexivity).
  destruct (@exec ND (E47 0%float) _ (cmaes_minimize c_out) w_two None) as [[r1|] s1];
    [|discriminate].
  destruct (@exec ND (E47 4%float) _ (cmaes_minimize c_out) w_two None) as [[r2|] s2];
    [|discriminate].
  exists r1, s1, r2, s2. auto.
Qed.

(** The hypothesis of C47 is met by a run with the penalty that starts inside the box. *)
Theorem C47_hypotheses :
  a_constraints (caa c_pen) = Some "Penalize"%string /\
  @first_mean_inside ND ED47 (caa c_pen) /\
  exists r s, @exec ND ED47 _ (cmaes_minimize c_pen) w_flat None = (inl r, s) /\ r_nit r = 3%Z.
Proof.
  split; [reflexivity|]. split.
  - intros rows H. injection H as <-. repeat constructor.
  - assert (H : match @exec ND ED47 _ (cmaes_minimize c_pen) w_flat None with
                | (inl r, s) => (r_nit r =? 3)%Z | _ => false end = true)
      by (vm_compute; reflexivity).
    destruct (@exec ND ED47 _ (cmaes_minimize c_pen) w_flat None) as [[r|e] s]; [|discriminate].
    exists r, s. split; [reflexivity|]. apply Z.eqb_eq. exact H.
Qed.
