(** C68: common random numbers, and runs with a generator that writes down what is drawn. *)
From Coq Require Import Floats.
From Verif Require Import Base Num NumF Env Common DE CPSO NA Mat CMAES VDCMA Sample Hoare EvalRules
  Demo ExPop ExCma ParEx LockEx ExSamp Ranks Draws DrawsAlg.

Section Common.
  Context {N : Num}.
  (** Two calls with the same arguments and the same generator, but different user code (objective,
      callback), ranks and schedulers: if both return after the same number of iterations, they
      leave the generator in the same state. *)
  Theorem C68_common_numbers (E0 : Env N) U fn cb scb sched rank size bc ar
      (c : OptCall) w0 w1 a0 a1 r0 r1 s0 s1 :
    let E1 := peer E0 U fn cb scb sched rank size bc ar in
    @Gentle N E0 -> @Gentle N E1 -> @MpiShape N E0 -> @MpiShape N E1 ->
    match c with PCpso A => competes (pa_competitivity A) = None | _ => True end ->
    begin (a_seed (opt_args c)) (fst w0) = begin (a_seed (opt_args c)) (fst w1) ->
    @exec N E0 _ (opt_run c) w0 a0 = (inl r0, s0) ->
    @exec N E1 _ (opt_run c) w1 a1 = (inl r1, s1) ->
    r_nit r0 = r_nit r1 ->
    fst (rs s0) = fst (rs s1).
  Proof.
    intros E1 G0 G1 M0 M1 HC HB H0 H1 HN.
    destruct c as [A|A|A|A|A|A]; cbn [opt_run opt_args] in *.
    - apply (@C68_de N E0 G0) in H0 as [_ H0]; [|exact M0]. apply (@C68_de N E1 G1) in H1 as [_ H1]; [|exact M1].
      rewrite H0, HN, HB. symmetry. exact H1.
    - apply (@C68_no_competition N E0 G0 _ _ _ _ _ HC) in H0 as [_ H0].
      apply (@C68_no_competition N E1 G1 _ _ _ _ _ HC) in H1 as [_ H1].
      rewrite H0, HN, HB. symmetry. exact H1.
    - apply (@C68_pso N E0 G0) in H0 as [_ H0]. apply (@C68_pso N E1 G1) in H1 as [_ H1].
      rewrite H0, HN, HB. symmetry. exact H1.
    - apply (@C68_na N E0 G0) in H0 as [_ H0]. apply (@C68_na N E1 G1) in H1 as [_ H1].
      rewrite H0, HN, HB. symmetry. exact H1.
    - apply (@C68_cmaes N E0 G0) in H0 as [_ H0]. apply (@C68_cmaes N E1 G1) in H1 as [_ H1].
      rewrite H0, HN, HB. symmetry. exact H1.
    - apply (@C68_vdcma N E0 G0) in H0 as [_ H0]. apply (@C68_vdcma N E1 G1) in H1 as [_ H1].
      rewrite H0, HN, HB. symmetry. exact H1.
  Qed.

  Inductive SampCall := SMcmc (A : MCArgs) | SHmc (A : HMCArgs).
  Definition samp_args (c : SampCall) : SArgs := match c with SMcmc A => mca A | SHmc A => hma A end.
  Definition samp_run {E : Env N} (c : SampCall) : M SampRes :=
    match c with SMcmc A => mcmc_sample A | SHmc A => hmc_sample A end.
  (** For the samplers the number of iterations is given: the generator is left in the same state
      whatever the objective. *)
  Theorem C68_common_samples (E0 : Env N) U fn cb scb sched rank size bc ar
      (c : SampCall) w0 w1 a0 a1 r0 r1 s0 s1 :
    let E1 := peer E0 U fn cb scb sched rank size bc ar in
    @Gentle N E0 -> @Gentle N E1 ->
    begin (s_seed (samp_args c)) (fst w0) = begin (s_seed (samp_args c)) (fst w1) ->
    @exec N E0 _ (samp_run c) w0 a0 = (inl r0, s0) ->
    @exec N E1 _ (samp_run c) w1 a1 = (inl r1, s1) ->
    fst (rs s0) = fst (rs s1).
  Proof.
    intros E1 G0 G1 HB H0 H1. destruct c as [A|A]; cbn [samp_run samp_args] in *.
    - apply (@C68_mcmc N E0 G0) in H0 as [_ H0]. apply (@C68_mcmc N E1 G1) in H1 as [_ H1].
      rewrite H0, HB. symmetry. exact H1.
    - apply (@C68_hmc N E0 G0) in H0 as [_ H0]. apply (@C68_hmc N E1 G1) in H1 as [_ H1].
      rewrite H0, HB. symmetry. exact H1.
  Qed.
End Common.

(** ** A generator that keeps a log *)
Definition Log : Type := (list Use * Script)%type.
Definition logged {A} (u : Use) (f : Script -> A * Script) (g : Log) : A * Log :=
  let '(a, s) := f (snd g) in (a, (fst g ++ [u], s)).
Definition LogEnv (f : list float -> float + nat) : Env ND :=
  @mkEnv ND Log unit
     (fun _ => ([], noscript))
     (logged URand d_rand) (logged UNormal d_randn)
     (fun n => logged (UPerm n) (d_perm n)) (fun n => logged (UInt n) (d_randint n))
     (fun x w => (f x, w))
     (fun _ _ w => (None, w)) (fun _ _ w => (None, w))
     (fun n _ => rev (seq 0 n))
     0 1 (fun _ X => X) (fun _ _ f => f)
     d_argsort d_percentile d_median d_eigh (fun n => repeat nan n).
Lemma log_gentle f : @Gentle ND (LogEnv f).
Proof.
  split.
  - intros x w y w' H. cbn in H. injection H as _ <-. reflexivity.
  - intros X st w w' H. cbn in H. injection H as <-. reflexivity.
  - intros x st w w' H. cbn in H. injection H as <-. reflexivity.
Qed.
Lemma log_shape f : @MpiShape ND (LogEnv f).
Proof. split; reflexivity. Qed.
Lemma log_consume f us : forall g, fst (@consume ND (LogEnv f) us g) = fst g ++ us.
Proof.
  induction us as [|u us IH]; intros g; [cbn; rewrite app_nil_r; reflexivity|].
  cbn [consume fold_left]. change (fold_left _ us ?h) with (@consume ND (LogEnv f) us h).
  rewrite IH. destruct u; cbn; unfold logged;
    [destruct (d_rand (snd g))|destruct (d_randn (snd g))|destruct (d_perm n (snd g))|
     destruct (d_randint n (snd g))]; cbn; rewrite <- app_assoc; reflexivity.
Qed.

Definition f_sq (x : list float) : float + nat :=
  inl (fold_left (fun a v => a + (v - 0.75) * (v - 0.75))%float x 0.25%float).
Definition args68 (mx : Z) (con : option string) : @Args ND :=
  @mkArgs ND true (b11 DF) None true mx 4 None 0x1p-20%float 0%float con 1 None true 1%float CbFun.
Definition log0 (w : Script * unit) : Log * unit := (([], fst w), tt).
Definition de68 upd : @OptCall ND :=
  @PDe ND (@mkDEArgs ND (args68 3 (Some "Random"%string)) 0.5%float 0.125%float "best1bin" upd).
Definition pso68 : @OptCall ND :=
  @PPso ND (@mkPSOArgs ND (args68 3 None) 0.5%float 1%float 1%float "deferred").
Definition na68 : @OptCall ND := @PNa ND (@mkNAArgs ND (args68 3 None) 0.5%float).
Definition cma68 : @OptCall ND :=
  @PCmaes ND (@mkCMAArgs ND (args68 3 (Some "Penalize"%string)) 0.25%float 0.5%float).
Definition vd68 : @OptCall ND := @PVdcma ND (@mkCMAArgs ND (args68 3 None) 0.25%float 0.5%float).

Definition log_of (f : list float -> float + nat) (c : @OptCall ND) : option (Z * list Use) :=
  match @exec ND (LogEnv f) _ (opt_run c) (log0 wa) None with
  | (inl r, s) => Some (r_nit r, fst (fst (rs s)))
  | _ => None
  end.
(** The log of each run is what the theorems say; with both objectives the same. *)
Definition plan68 (c : @OptCall ND) (nit : Z) : list Use :=
  let lhs := times 8 [URand] ++ [UPerm 4; UPerm 4] in
  let k := Z.to_nat nit in
  match c with
  | PDe A =>
      lhs ++ times (k - 1) (times 8 [URand] ++
        (if String.eqb (dea_updating A) "deferred"
         then [UPerm 3; UPerm 3; UPerm 3; UPerm 3; UInt 2; UInt 2; UInt 2; UInt 2] ++ times 8 [URand]
         else times 4 [UPerm 3; UInt 2; URand; URand]))
  | PNa _ => lhs ++ times (k - 1) (times 8 [URand])
  | PCmaes _ => [URand; URand] ++ times k (times 8 [UNormal])
  | PVdcma _ => [URand; URand; UNormal; UNormal] ++ times 8 [UNormal] ++ times (k - 1) (times 10 [UNormal])
  | _ => lhs ++ times (k - 1) (times 16 [URand])
  end.
Definition calls68 : list (@OptCall ND) := [de68 "deferred"; de68 "immediate"; pso68; na68; cma68; vd68].
Theorem C68_logs :
  Forall (fun c => log_of f_half c = Some (3%Z, plan68 c 3) /\ log_of f_sq c = Some (3%Z, plan68 c 3)) calls68.
Proof. repeat (apply Forall_cons; [split; vm_compute; reflexivity|]). apply Forall_nil. Qed.

(** The two objectives lead de to different points. *)
Theorem C68_different_searches :
  exists r0 s0 r1 s1,
    @exec ND (LogEnv f_half) _ (opt_run (de68 "deferred")) (log0 wa) None = (inl r0, s0) /\
    @exec ND (LogEnv f_sq) _ (opt_run (de68 "deferred")) (log0 wa) None = (inl r1, s1) /\
    r_nit r0 = 3%Z /\ r_nit r1 = 3%Z /\
    veq (r_x r0) (r_x r1) = false /\
    @Gentle ND (LogEnv f_half) /\ @Gentle ND (LogEnv f_sq) /\ @MpiShape ND (LogEnv f_half).
Proof.
  assert (H : match @exec ND (LogEnv f_half) _ (opt_run (de68 "deferred")) (log0 wa) None with
    | (inl r0, _) =>
        match @exec ND (LogEnv f_sq) _ (opt_run (de68 "deferred")) (log0 wa) None with
        | (inl r1, _) => (r_nit r0 =? 3)%Z && (r_nit r1 =? 3)%Z && negb (veq (r_x r0) (r_x r1))
        | _ => false
        end
    | _ => false
    end = true) by (vm_compute; reflexivity).
  destruct (@exec ND (LogEnv f_half) _ (opt_run (de68 "deferred")) (log0 wa) None) as [[r0|] s0];
    [|discriminate].
  destruct (@exec ND (LogEnv f_sq) _ (opt_run (de68 "deferred")) (log0 wa) None) as [[r1|] s1];
    [|discriminate].
  rewrite !andb_true_iff, !Z.eqb_eq, negb_true_iff in H. destruct H as [[H1 H2] H3].
  exists r0, s0, r1, s1. repeat (split; [assumption || reflexivity|]).
  split; [apply log_gentle|]. split; [apply log_gentle|apply log_shape].
Qed.

(** The samplers; for hmc four gradients in each iteration. *)
Definition slog_of (f : list float -> float + nat) (c : @SampCall ND) : option (list Use) :=
  match @exec ND (LogEnv f) _ (samp_run c) (log0 wa) None with
  | (inl r, s) => Some (fst (fst (rs s)))
  | _ => None
  end.
Definition sargs68 con : @SArgs ND :=
  @mkSArgs ND true (b11 DF) None 4 (@D0 (FArith DF) 0.25%float) false None con true CbFun.
Theorem C68_sampler_logs :
  slog_of f_half (@SMcmc ND (@mkMCArgs ND (sargs68 None) 0.5%float))
    = Some ([URand; URand] ++ times 3 [UNormal; URand]) /\
  slog_of f_half (@SMcmc ND (@mkMCArgs ND (sargs68 (Some "Reject"%string)) 1%float))
    = Some ([URand; URand] ++ times 3 [UNormal; UNormal]) /\
  slog_of f_sq (@SHmc ND (@mkHMCArgs ND (sargs68 None) 2 JacNone 0.125%float))
    = Some ([URand; URand] ++ times 3 [UNormal; UNormal; URand]).
Proof. repeat split; vm_compute; reflexivity. Qed.

(** With competition it depends on the objective how many particles are drawn anew: nobody moves
    here, and the swarm is within the restart radius of its best particle only if that one is in
    the middle. *)
Definition x68 : @nd (@num_arith ND) :=
  @D2 (FArith DF) 2 [[-0.12; 0]; [0; 0]; [0.05; 0]; [0.12; 0]]%float.
Definition cpso68 : @CPSOArgs ND :=
  @mkCPSOArgs ND (@mkArgs ND true (b11 DF) (Some x68) true 3 4 None 0x1p-20%float 0%float None 1 None
                          true 1%float CbFun) 0%float 0%float 0%float (Some 2%float) "deferred".
Definition f_mid (x : list float) : float + nat := inl (1 + abs (nth 0 x 0))%float.
Definition f_edge (x : list float) : float + nat := inl (1 + nth 0 x 0)%float.
Theorem C68_competition_varies :
  log_of f_mid (PCpso cpso68) = Some (3%Z, times 16 [URand] ++ times 4 [URand] ++ times 16 [URand]) /\
  log_of f_edge (PCpso cpso68) = Some (3%Z, times 16 [URand] ++ times 16 [URand]).
Proof. split; vm_compute; reflexivity. Qed.
