(** C23: which mode runs. *)
From Verif Require Import Base Num Env Common DE CPSO NA Mat CMAES VDCMA Hoare EvalRules Gen Steps Hist
  Runs Best Inst Disc Valid FirstPop Strat Trial Feas.

Section Modes.
  Context {N : Num} {E : Env N}.

  (** The documented condition. *)
  Definition Deferred (updating : string) (a : Args) : Prop :=
    updating = "deferred"%string \/ ~ In (a_workers a) [0; 1]%Z \/ a_backend a = Some "mpi"%string.

  (** The same arguments with other values of workers and backend. *)
  Definition with_mode (workers : Z) (backend : option string) (a : Args) : Args :=
    mkArgs (a_callable a) (a_bounds a) (a_x0 a) (a_x0_array a) (a_maxiter a) (a_popsize a) (a_seed a)
           (a_xtol a) (a_ftol a) (a_constraints a) workers backend (a_return_all a) (a_verbosity a)
           (a_callback a).
  Definition de_with (u : string) (workers : Z) (backend : option string) (A : DEArgs) : DEArgs :=
    mkDEArgs (with_mode workers backend (dea A)) (dea_mutation A) (dea_recombination A)
             (dea_strategy A) u.
  Definition cpso_with (u : string) (workers : Z) (backend : option string) (A : CPSOArgs) : CPSOArgs :=
    mkCPSOArgs (with_mode workers backend (pa A)) (pa_inertia A) (pa_cognitivity A)
               (pa_sociability A) (pa_competitivity A) u.

  Lemma deferred_sync u a : is_sync u a = true <-> Deferred u a.
  Proof.
    unfold is_sync, Deferred. rewrite !orb_true_iff, negb_true_iff, orb_false_iff, !Z.eqb_neq, String.eqb_eq.
    cbn [In]. split.
    - intros [[H|[H1 H2]]|H]; [tauto|right; left; intros [H|[H|[]]]; congruence|].
      right; right. destruct (a_backend a) as [b|]; [|discriminate]. apply String.eqb_eq in H. now subst.
    - intros [H|[H|H]]; [tauto|left; right; split; intros H1; apply H; [left|right; left]; congruence|].
      right. rewrite H. reflexivity.
  Qed.
  Lemma not_deferred_sync u a : ~ Deferred u a -> is_sync u a = false.
  Proof. rewrite <- deferred_sync. destruct (is_sync u a); [intros H; now destruct H|auto]. Qed.

  Lemma de_with_same A u w b :
    check_updating u = check_updating (dea_updating A) ->
    is_sync u (with_mode w b (dea A)) = is_sync (dea_updating A) (dea A) ->
    eval_kind (is_sync (dea_updating A) (dea A)) w b
    = eval_kind (is_sync (dea_updating A) (dea A)) (a_workers (dea A)) (a_backend (dea A)) ->
    de_minimize (de_with u w b A) = de_minimize A.
  Proof.
    intros H1 H2 H3. unfold de_minimize, de_with.
    cbn [dea dea_mutation dea_recombination dea_strategy dea_updating]. rewrite H1, H2.
    unfold de, eval_kindM. cbn [with_mode a_workers a_backend]. rewrite H3. reflexivity.
  Qed.
  Lemma cpso_with_same A u w b :
    check_updating u = check_updating (pa_updating A) ->
    is_sync u (with_mode w b (pa A)) = is_sync (pa_updating A) (pa A) ->
    eval_kind (is_sync (pa_updating A) (pa A)) w b
    = eval_kind (is_sync (pa_updating A) (pa A)) (a_workers (pa A)) (a_backend (pa A)) ->
    cpso_minimize (cpso_with u w b A) = cpso_minimize A.
  Proof.
    intros H1 H2 H3. unfold cpso_minimize, cpso_with.
    cbn [pa pa_inertia pa_cognitivity pa_sociability pa_competitivity pa_updating]. rewrite H1, H2.
    unfold cpso, eval_kindM. cbn [with_mode a_workers a_backend]. rewrite H3. reflexivity.
  Qed.

  Lemma check_updating_in u u' : In u ["immediate"; "deferred"]%string ->
    In u' ["immediate"; "deferred"]%string -> check_updating u = check_updating u'.
  Proof. cbn. intros [<-|[<-|[]]] [<-|[<-|[]]]; reflexivity. Qed.
  Lemma kind_immediate w b : eval_kind false w b = inl Serial.
  Proof. unfold eval_kind, wrapper_kind. now destruct (in_prefer _ && _). Qed.
  Lemma with_mode_same a : with_mode (a_workers a) (a_backend a) a = a.
  Proof. now destruct a. Qed.

  (** There are only two kinds of runs: a deferred one is the run with updating="deferred" and the
      same workers and backend; any other is the run with updating="immediate" and without workers
      and backend. *)
  Theorem C23_two_modes_de A : In (dea_updating A) ["immediate"; "deferred"]%string ->
    (Deferred (dea_updating A) (dea A) -> forall w a0,
       exec (de_minimize A) w a0
       = exec (de_minimize (de_with "deferred" (a_workers (dea A)) (a_backend (dea A)) A)) w a0) /\
    (~ Deferred (dea_updating A) (dea A) -> forall w a0,
       exec (de_minimize A) w a0 = exec (de_minimize (de_with "immediate" 1 None A)) w a0).
  Proof.
    intros Hu. split; intros HD w a0.
    - apply deferred_sync in HD. rewrite de_with_same; [reflexivity| | |reflexivity].
      + apply check_updating_in; [cbn; tauto|assumption].
      + rewrite with_mode_same, HD. apply deferred_sync. now left.
    - apply not_deferred_sync in HD. rewrite de_with_same; [reflexivity| | |].
      + apply check_updating_in; [cbn; tauto|assumption].
      + rewrite HD. reflexivity.
      + rewrite HD. now rewrite !kind_immediate.
  Qed.
  Theorem C23_two_modes_cpso A : In (pa_updating A) ["immediate"; "deferred"]%string ->
    (Deferred (pa_updating A) (pa A) -> forall w a0,
       exec (cpso_minimize A) w a0
       = exec (cpso_minimize (cpso_with "deferred" (a_workers (pa A)) (a_backend (pa A)) A)) w a0) /\
    (~ Deferred (pa_updating A) (pa A) -> forall w a0,
       exec (cpso_minimize A) w a0 = exec (cpso_minimize (cpso_with "immediate" 1 None A)) w a0).
  Proof.
    intros Hu. split; intros HD w a0.
    - apply deferred_sync in HD. rewrite cpso_with_same; [reflexivity| | |reflexivity].
      + apply check_updating_in; [cbn; tauto|assumption].
      + rewrite with_mode_same, HD. apply deferred_sync. now left.
    - apply not_deferred_sync in HD. rewrite cpso_with_same; [reflexivity| | |].
      + apply check_updating_in; [cbn; tauto|assumption].
      + rewrite HD. reflexivity.
      + rewrite HD. now rewrite !kind_immediate.
  Qed.

  (** A backend that the code does not know is not an error: the run is the serial one. *)
  Definition UnknownBackend (b : option string) : Prop :=
    exists s, b = Some s /\ ~ In s [""; "loky"; "threading"; "mpi"]%string.

  Lemma kind_unknown sync w b : UnknownBackend b -> eval_kind sync w b = inl Serial.
  Proof.
    intros [s [-> H]]. unfold eval_kind. destruct (String.eqb s "") eqn:H0.
    { apply String.eqb_eq in H0. subst. exfalso. apply H. cbn. tauto. }
    assert (Hp : in_prefer s = false).
    { unfold in_prefer. destruct (_ || _) eqn:Hp; [|reflexivity]. exfalso. apply H.
      apply orb_true_iff in Hp. destruct Hp as [Hp|Hp]; apply String.eqb_eq in Hp; subst; cbn; tauto. }
    rewrite Hp. cbn [andb]. unfold wrapper_kind.
    assert (Hm : String.eqb s "mpi" = false).
    { apply String.eqb_neq. intros ->. apply H. cbn. tauto. }
    rewrite Hm. now destruct sync.
  Qed.

  Theorem C23_unknown_backend_de A :
    In (dea_updating A) ["immediate"; "deferred"]%string -> UnknownBackend (a_backend (dea A)) ->
    exists u, (u = "deferred"%string <-> Deferred (dea_updating A) (dea A)) /\
      forall w a0, exec (de_minimize A) w a0 = exec (de_minimize (de_with u 1 None A)) w a0.
  Proof.
    intros Hu HB. destruct (is_sync (dea_updating A) (dea A)) eqn:HD.
    - exists "deferred"%string. split; [split; [intros _; now apply deferred_sync|auto]|].
      intros w a0. rewrite de_with_same; [reflexivity| | |].
      + apply check_updating_in; [cbn; tauto|assumption].
      + rewrite HD. reflexivity.
      + rewrite HD, (kind_unknown true _ _ HB). reflexivity.
    - exists "immediate"%string. split.
      { split; [discriminate|]. intros H. apply deferred_sync in H. congruence. }
      intros w a0. rewrite de_with_same; [reflexivity| | |].
      + apply check_updating_in; [cbn; tauto|assumption].
      + rewrite HD. reflexivity.
      + rewrite HD. now rewrite !kind_immediate.
  Qed.
  Theorem C23_unknown_backend_cpso A :
    In (pa_updating A) ["immediate"; "deferred"]%string -> UnknownBackend (a_backend (pa A)) ->
    exists u, (u = "deferred"%string <-> Deferred (pa_updating A) (pa A)) /\
      forall w a0, exec (cpso_minimize A) w a0 = exec (cpso_minimize (cpso_with u 1 None A)) w a0.
  Proof.
    intros Hu HB. destruct (is_sync (pa_updating A) (pa A)) eqn:HD.
    - exists "deferred"%string. split; [split; [intros _; now apply deferred_sync|auto]|].
      intros w a0. rewrite cpso_with_same; [reflexivity| | |].
      + apply check_updating_in; [cbn; tauto|assumption].
      + rewrite HD. reflexivity.
      + rewrite HD, (kind_unknown true _ _ HB). reflexivity.
    - exists "immediate"%string. split.
      { split; [discriminate|]. intros H. apply deferred_sync in H. congruence. }
      intros w a0. rewrite cpso_with_same; [reflexivity| | |].
      + apply check_updating_in; [cbn; tauto|assumption].
      + rewrite HD. reflexivity.
      + rewrite HD. now rewrite !kind_immediate.
  Qed.
  (** na, cmaes and vdcma have no updating; with an unknown backend they run serially as well. *)
  Theorem C23_unknown_backend_other (a : Args) nr sg mu w a0 : UnknownBackend (a_backend a) ->
    exec (na_minimize (mkNAArgs a nr)) w a0 = exec (na_minimize (mkNAArgs (with_mode 1 None a) nr)) w a0
    /\ exec (cmaes_minimize (mkCMAArgs a sg mu)) w a0
       = exec (cmaes_minimize (mkCMAArgs (with_mode 1 None a) sg mu)) w a0
    /\ exec (vdcma_minimize (mkCMAArgs a sg mu)) w a0
       = exec (vdcma_minimize (mkCMAArgs (with_mode 1 None a) sg mu)) w a0.
  Proof.
    intros HB. pose proof (kind_unknown true (a_workers a) (a_backend a) HB) as HK.
    assert (HM : eval_kindM true (a_workers a) (a_backend a) = eval_kindM true 1 None)
      by (unfold eval_kindM; now rewrite HK).
    repeat split.
    - unfold na_minimize. cbn [naa naa_nrperc]. unfold na. rewrite HM. reflexivity.
    - unfold cmaes_minimize, cmaes, cma_setup. cbn [caa caa_sigma caa_muperc]. rewrite HM. reflexivity.
    - unfold vdcma_minimize, vdcma, cma_setup. cbn [caa caa_sigma caa_muperc]. rewrite HM. reflexivity.
  Qed.

  (** What the two modes of de are (with C21_trials): one generation at a time, or one individual at
      a time. *)
  Theorem C23_evolution_de (HE : EnvOK) A rows w a0 res st' deferred :
    a_bounds (dea A) = D2 2 rows ->
    (forall x, a_x0 (dea A) = Some x -> nd_wf x) ->
    a_backend (dea A) <> Some "mpi"%string ->
    exec (de_minimize A) w a0 = (inl res, st') ->
    (deferred = true <-> dea_updating A = "deferred"%string \/ ~ In (a_workers (dea A)) [0; 1]%Z) ->
    exists X f,
      Evolution (Z.to_nat (a_popsize (dea A))) deferred (one_worker (a_workers (dea A)))
                (Len (length rows)) (Trial A rows) X f (r_x res) (r_fun res) (evals (tr st')).
  Proof.
    intros Hb Hwf Hm Hx Hd. replace deferred with (is_sync (dea_updating A) (dea A)).
    - exact (C21_trials HE A rows w a0 res st' Hb Hwf Hm Hx).
    - apply eq_true_iff_eq. rewrite deferred_sync, Hd. unfold Deferred. tauto.
  Qed.
End Modes.
