(** C15: parallel evaluation does not change the run; C47: the run does not depend on the contents
    of uninitialised memory. *)
From Coq Require Import Permutation.
From Verif Require Import Base Num Env Common DE CPSO NA CMAES VDCMA Hoare Feas Rel Vary Par.

(** The evaluation a caller selects with [workers] and [backend]. *)
Definition selects (m : Mode) (workers : Z) (backend : option string) : Prop :=
  match m with
  | Serial => In workers [0; 1]%Z /\ backend <> Some "mpi"%string
  | Joblib => ~ In workers [0; 1]%Z /\
              In backend [None; Some "threading"; Some "loky"]%string
  | Mpi => backend = Some "mpi"%string
  end.

Lemma selects_kind m w b : selects m w b -> eval_kind true w b = inl m.
Proof.
  destruct m; cbn [selects]; unfold eval_kind.
  - intros [Hw Hb].
    assert (Ew : (Z.eqb w 0 || Z.eqb w 1) = true)
      by (destruct Hw as [<-|[<-|[]]]; reflexivity).
    rewrite Ew. cbn [negb]. rewrite andb_false_r. unfold wrapper_kind.
    destruct b as [b|]; [|reflexivity]. destruct (String.eqb b ""); [reflexivity|].
    destruct (String.eqb_spec b "mpi") as [->|]; [congruence | reflexivity].
  - intros [Hw Hb].
    assert (Ew : (Z.eqb w 0 || Z.eqb w 1) = false).
    { apply orb_false_iff. rewrite !Z.eqb_neq. split; intros ->; apply Hw; cbn; auto. }
    rewrite Ew. destruct Hb as [<-|[<-|[<-|[]]]]; reflexivity.
  - intros ->. reflexivity.
Qed.

Lemma deferred_is_sync {N : Num} (a : Args) : is_sync "deferred" a = true.
Proof. reflexivity. Qed.

Section C15.
  Context {N : Num} {E : Env N}.
  Variable f : vec -> T.

  (** Two runs (in two environments) with the same outcome: the same result or exception, the same
      state of the generator and of the user's code, the same content of the caller's array, and
      related calls. *)
  Definition same_run {E1 E2 : Env N} (rel_rs : @RNG N E1 * @US N E1 -> @RNG N E2 * @US N E2 -> Prop)
      (calls : list event -> list event -> Prop)
      (o1 : (OptRes + Exn) * @St N E1) (o2 : (OptRes + Exn) * @St N E2) : Prop :=
    fst o1 = fst o2 /\ rel_rs (rs (snd o1)) (rs (snd o2)) /\
    argbuf (snd o1) = argbuf (snd o2) /\ calls (tr (snd o1)) (tr (snd o2)).

  Section Runs.
    Hypothesis PURE : forall x w, @e_fun N E x w = (inl (f x), w).
    Variables (sched : nat -> @RNG N E * @US N E -> list nat) (rank size : nat)
              (bc : nat -> matrix -> matrix) (ar : nat -> matrix -> vec -> vec).
    (** the same program, run with parallel evaluation *)
    Let E' : Env N := vary E sched rank size bc ar (@e_empty N E).
    Variables (m : Mode) (workers : Z) (backend : option string).
    Hypothesis SEL : selects m workers backend.
    Hypothesis OK : mode_ok f sched rank size bc ar m.

    Notation same := (@same_run E E' eq (same_calls m rank size)).

    Lemma rel_same (m1 : @M N E OptRes) (m2 : @M N E' OptRes) w a0 :
      rel (RS sched rank size bc ar (@e_empty N E) (same_calls m rank size)) m1 m2 eq ->
      same (exec m1 w a0) (@exec N E' _ m2 w a0).
    Proof.
      intro H. destruct (rel_exec _ m1 m2 eq w w a0 a0 H) as [[R1 [R2 R3]] HE].
      - unfold RS. cbn. repeat split; auto.
        destruct m; cbn; auto.
      - unfold same_run. repeat split; auto; try apply R3.
        destruct (fst (exec m1 w a0)) eqn:E1, (fst (exec m2 w a0)) eqn:E2; cbn in HE;
          rewrite ?E1, ?E2; try contradiction; congruence.
    Qed.

    Theorem C15_de A w a0 :
      selects Serial (a_workers (dea A)) (a_backend (dea A)) ->
      dea_updating A = "deferred"%string ->
      same (exec (de_minimize A) w a0)
           (@exec N E' _ (de_minimize (mkDEArgs (set_workers workers backend (dea A))
              (dea_mutation A) (dea_recombination A) (dea_strategy A) (dea_updating A))) w a0).
    Proof.
      intros HS HU. apply rel_same.
      apply (rel_de_minimize sched rank size bc ar _ (same_calls m rank size)
               (same_calls_cb m rank size) false
               (fun H => match Bool.diff_false_true H with end) Serial m
               (fun X => rel_eval f PURE sched rank size bc ar m X OK));
        rewrite HU, ?deferred_is_sync; auto using selects_kind.
    Qed.

    Theorem C15_cpso A w a0 :
      selects Serial (a_workers (pa A)) (a_backend (pa A)) ->
      pa_updating A = "deferred"%string ->
      same (exec (cpso_minimize A) w a0)
           (@exec N E' _ (cpso_minimize (mkCPSOArgs (set_workers workers backend (pa A))
              (pa_inertia A) (pa_cognitivity A) (pa_sociability A) (pa_competitivity A)
              (pa_updating A))) w a0).
    Proof.
      intros HS HU. apply rel_same.
      apply (rel_cpso_minimize sched rank size bc ar _ (same_calls m rank size)
               (same_calls_cb m rank size) false
               (fun H => match Bool.diff_false_true H with end) Serial m
               (fun X => rel_eval f PURE sched rank size bc ar m X OK));
        rewrite HU, ?deferred_is_sync; auto using selects_kind.
    Qed.

    Theorem C15_pso A w a0 :
      selects Serial (a_workers (psa A)) (a_backend (psa A)) ->
      psa_updating A = "deferred"%string ->
      same (exec (pso_minimize A) w a0)
           (@exec N E' _ (pso_minimize (mkPSOArgs (set_workers workers backend (psa A))
              (psa_inertia A) (psa_cognitivity A) (psa_sociability A) (psa_updating A))) w a0).
    Proof. intros HS HU. exact (C15_cpso (mkCPSOArgs _ _ _ _ None _) w a0 HS HU). Qed.

    Theorem C15_na A w a0 :
      selects Serial (a_workers (naa A)) (a_backend (naa A)) ->
      same (exec (na_minimize A) w a0)
           (@exec N E' _ (na_minimize (mkNAArgs (set_workers workers backend (naa A))
              (naa_nrperc A))) w a0).
    Proof.
      intros HS. apply rel_same.
      apply (rel_na_minimize sched rank size bc ar _ (same_calls m rank size)
               (same_calls_cb m rank size) Serial m
               (fun X => rel_eval f PURE sched rank size bc ar m X OK)); auto using selects_kind.
    Qed.

    Theorem C15_cmaes A w a0 :
      selects Serial (a_workers (caa A)) (a_backend (caa A)) ->
      same (exec (cmaes_minimize A) w a0)
           (@exec N E' _ (cmaes_minimize (mkCMAArgs (set_workers workers backend (caa A))
              (caa_sigma A) (caa_muperc A))) w a0).
    Proof.
      intros HS. apply rel_same.
      apply (rel_cmaes_minimize sched rank size bc ar _ (same_calls m rank size)
               (same_calls_cb m rank size) Serial m
               (fun X => rel_eval f PURE sched rank size bc ar m X OK)); auto using selects_kind.
      left. reflexivity.
    Qed.

    Theorem C15_vdcma A w a0 :
      selects Serial (a_workers (caa A)) (a_backend (caa A)) ->
      same (exec (vdcma_minimize A) w a0)
           (@exec N E' _ (vdcma_minimize (mkCMAArgs (set_workers workers backend (caa A))
              (caa_sigma A) (caa_muperc A))) w a0).
    Proof.
      intros HS. apply rel_same.
      apply (rel_vdcma_minimize sched rank size bc ar _ (same_calls m rank size)
               (same_calls_cb m rank size) Serial m
               (fun X => rel_eval f PURE sched rank size bc ar m X OK)); auto using selects_kind.
      left. reflexivity.
    Qed.
  End Runs.
End C15.

(** Every position of a broadcast population belongs to exactly one rank. *)
Theorem C15_shares {A : Arith} size (X : matrix) : 0 < size ->
  Permutation (concat (map (fun r => share r size X) (seq 0 size))) X.
Proof. apply share_partition. Qed.

Section C47.
  Context {N : Num} {E : Env N}.
  Variable emp : nat -> vec.
  (** [E] with other contents of [np.empty]. *)
  Definition with_empty : Env N :=
    vary E (@e_sched N E) (@e_rank N E) (@e_mpisize N E) (@e_bcast N E) (@e_allreduce N E) emp.
  Let E' := with_empty.

  Let RT (l1 l2 : list (@event (@num_arith N))) : Prop := l1 = l2.
  Notation rel' := (rel (RS e_sched e_rank e_mpisize e_bcast e_allreduce emp RT)).

  Lemma RT_snoc l1 l2 e : RT l1 l2 -> RT (l1 ++ [e]) (l2 ++ [e]).
  Proof. unfold RT. congruence. Qed.

  Lemma rel_eval_same m X : rel' (@eval_pop N E m X) (@eval_pop N E' m X) eq.
  Proof.
    assert (HF : forall x, rel' (@call_fun N E x) (@call_fun N E' x) eq).
    { intro x. apply (rel_call_fun _ _ _ _ _ _ RT true (fun _ _ _ x r => RT_snoc _ _ (EEval x r))).
      reflexivity. }
    destruct m; cbn [eval_pop].
    - eapply rel_bind; [apply rel_mapM; intros; apply HF|]. intros a ? <-.
      apply rel_ret. reflexivity.
    - apply rel_bind with (Q := eq); [|intros a ? <-; apply rel_ret; reflexivity].
      apply rel_bind with (Q := eq).
      + intros s1 s2 HR. split; [exact HR|]. cbn. destruct HR as [HR _].
        change (@e_sched N E') with (@e_sched N E).
        exact (f_equal (e_sched (length X)) HR).
      + intros o ? <-. apply rel_foldM. intros a i.
        eapply rel_bind; [apply HF|]. intros y ? <-. apply rel_ret. reflexivity.
    - unfold eval_mpi. apply rel_bind with (Q := eq).
      + intros s1 s2 [R1 [R2 R3]]. unfold mpi_bcast, RS, RT in *. cbn.
        change (@e_bcast N E') with (@e_bcast N E). rewrite R3.
        split; [|reflexivity]. split; [exact R1|]. split; [exact R2 | reflexivity].
      + intros X' ? <-. apply rel_bind with (Q := eq).
        * change (@e_rank N E') with (@e_rank N E). change (@e_mpisize N E') with (@e_mpisize N E).
          apply rel_foldM. intros a i.
          eapply rel_bind; [apply HF|]. intros y ? <-. apply rel_ret. reflexivity.
        * intros fm ? <-. apply rel_bind with (Q := eq).
          -- intros s1 s2 [R1 [R2 R3]]. unfold mpi_allreduce, RS, RT in *. cbn.
             change (@e_allreduce N E') with (@e_allreduce N E). rewrite R3.
             split; [|reflexivity]. split; [exact R1|]. split; [exact R2 | reflexivity].
          -- intros g ? <-. apply rel_ret. reflexivity.
  Qed.

  Lemma set_workers_id a : set_workers (a_workers a) (a_backend a) a = a.
  Proof. destruct a. reflexivity. Qed.

  (** The mean of the first generation lies in the box, in standardised coordinates. *)
  Definition inside (v : vec) : Prop :=
    Forall (fun x => nltb x (nZ (-1)) = false /\ nltb n1 x = false) v.
  Definition first_mean_inside (a : Args) : Prop :=
    match a_x0 a with
    | Some x => forall rows, a_bounds a = D2 2 rows ->
        inside (standardize (cma_xm (lows rows) (ups rows)) (cma_xstd (lows rows) (ups rows))
                            (nd_vec x))
    | None => forall r : @RNG N E,
        inside [nadd (nZ (-1)) (nmul (nsub (nZ 1) (nZ (-1))) (fst (e_rand r)))]
    end.

  Notation same := (@same_run N E E' eq eq).

  Lemma rel_same_mem (m1 : @M N E OptRes) (m2 : @M N E' OptRes) w a0 :
    rel' m1 m2 eq -> same (exec m1 w a0) (@exec N E' _ m2 w a0).
  Proof.
    intro H. destruct (rel_exec _ m1 m2 eq w w a0 a0 H) as [[R1 [R2 R3]] HE].
    - unfold RS, RT. cbn. auto.
    - unfold same_run. repeat split; auto.
      destruct (fst (exec m1 w a0)) eqn:E1, (fst (exec m2 w a0)) eqn:E2; cbn in HE;
        rewrite ?E1, ?E2; try contradiction; congruence.
  Qed.

  Lemma no_kind {B} A e (k1 : vec * CMAParams -> @M N E B) (k2 : vec * CMAParams -> @M N E' B) :
    eval_kind true (a_workers (caa A)) (a_backend (caa A)) = inr e ->
    rel' (bind (cma_setup A) k1) (bind (cma_setup A) k2) eq.
  Proof.
    intro H. apply rel_bind with (Q := fun _ _ => False); [|intros ? ? []].
    unfold cma_setup, eval_kindM. rewrite H.
    apply rel_bind with (Q := fun _ _ => False); [apply rel_raise | intros ? ? []].
  Qed.

  Lemma mem_check A : rel' (@cma_check N E A) (@cma_check N E' A) eq.
  Proof.
    pose proof (rel_cma_check e_sched e_rank e_mpisize e_bcast e_allreduce emp RT A
                  (a_workers (caa A)) (a_backend (caa A))) as H.
    rewrite set_workers_id in H. destruct A. exact H.
  Qed.

  Theorem C47_cmaes A w a0 :
    a_constraints (caa A) = None \/ first_mean_inside (caa A) ->
    same (exec (cmaes_minimize A) w a0) (@exec N E' _ (cmaes_minimize A) w a0).
  Proof.
    intro H. apply rel_same_mem.
    destruct (eval_kind true (a_workers (caa A)) (a_backend (caa A))) as [m|e] eqn:EK.
    - pose proof (rel_cmaes_minimize e_sched e_rank e_mpisize e_bcast e_allreduce emp RT
                    (fun _ _ X st r => RT_snoc _ _ (ECb X st r)) m m (rel_eval_same m) A
                    (a_workers (caa A)) (a_backend (caa A)) EK EK (or_intror H)) as HR.
      rewrite set_workers_id in HR. destruct A. exact HR.
    - unfold cmaes_minimize. eapply rel_bind; [apply mem_check|]. intros _ _ _.
      apply no_kind with (e := e). exact EK.
  Qed.

  Theorem C47_vdcma A w a0 :
    a_constraints (caa A) = None \/ first_mean_inside (caa A) ->
    same (exec (vdcma_minimize A) w a0) (@exec N E' _ (vdcma_minimize A) w a0).
  Proof.
    intro H. apply rel_same_mem.
    destruct (eval_kind true (a_workers (caa A)) (a_backend (caa A))) as [m|e] eqn:EK.
    - pose proof (rel_vdcma_minimize e_sched e_rank e_mpisize e_bcast e_allreduce emp RT
                    (fun _ _ X st r => RT_snoc _ _ (ECb X st r)) m m (rel_eval_same m) A
                    (a_workers (caa A)) (a_backend (caa A)) EK EK (or_intror H)) as HR.
      rewrite set_workers_id in HR. destruct A. exact HR.
    - unfold vdcma_minimize. eapply rel_bind; [apply mem_check|]. intros _ _ _.
      apply no_kind with (e := e). exact EK.
  Qed.
End C47.
