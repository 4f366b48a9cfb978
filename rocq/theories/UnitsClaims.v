(** C62: the units of the variables do not matter (exact arithmetic): the claims. *)
From Coq Require Import Reals Lra.
From Verif Require Import Base Num NumR NumE Env Common DE CPSO NA Mat CMAES VDCMA Sample Rel Units UnitsRun UnitsSamp.
Local Open Scope nat_scope.

Local Notation vec := (@Env.vec (@num_arith ENum)).
Local Notation matrix := (@Env.matrix (@num_arith ENum)).
Local Notation CbState := (@Env.CbState (@num_arith ENum)).
Local Notation SCbState := (@Env.SCbState (@num_arith ENum)).

Section Claims.
  Context {E : Env ENum}.
  Variable U : Units.
  Hypothesis HU : PosUnits U.
  Variable cb' : matrix -> CbState -> @RNG ENum E * @US ENum E -> option nat * (@RNG ENum E * @US ENum E).
  Variable scb' : vec -> SCbState -> @RNG ENum E * @US ENum E -> option nat * (@RNG ENum E * @US ENum E).
  Let E' : Env ENum := rescaled U E cb' scb'.

  (** The callback, called with points in the new units, does what the old one does. *)
  Definition SameCallback (raw : bool) : Prop :=
    forall X st w, cb' (upop U X) (ustate U raw st) w = e_cb X st w.
  Definition SameSCallback : Prop :=
    forall x st w, scb' (amap U x) (usstate U st) w = e_scb x st w.

  Definition SameRunUnits (raw : bool) (same : Prop) (m : @M ENum E OptRes) (m' : @M ENum E' OptRes) : Prop :=
    forall w a0,
      let (r, st) := exec m w a0 in
      let (r', st') := exec m' w (option_map (upop U) a0) in
      rs st' = rs st /\ argbuf st' = option_map (upop U) (argbuf st) /\
      tr st' = map (uevent U raw) (tr st) /\
      match r, r' with
      | inl a, inl a' => SameResult U raw same a a'
      | inr e, inr e' => e' = e
      | _, _ => False
      end.

  Lemma rel_SameRunUnits raw same (m : @M ENum E OptRes) (m' : @M ENum E' OptRes) :
    @rel ENum E E' (RU U raw cb' scb') _ _ m m' (SameResult U raw same) -> SameRunUnits raw same m m'.
  Proof.
    intros H w a0.
    destruct (H (mkSt w [] a0) (@mkSt ENum E' w [] (option_map (upop U) a0))) as [(H1 & H2 & H3) H4].
    { repeat split. }
    unfold exec. destruct (m _) as [r st], (m' _) as [r' st']. cbn [fst snd] in *.
    repeat split; auto. destruct r, r'; auto.
  Qed.

  Definition uDE (A : DEArgs) : DEArgs :=
    mkDEArgs (uargs U (dea A)) (dea_mutation A) (dea_recombination A) (dea_strategy A) (dea_updating A).
  Definition uCPSO (A : CPSOArgs) : CPSOArgs :=
    mkCPSOArgs (uargs U (pa A)) (pa_inertia A) (pa_cognitivity A) (pa_sociability A) (pa_competitivity A)
               (pa_updating A).
  Definition uPSO (A : PSOArgs) : PSOArgs :=
    mkPSOArgs (uargs U (psa A)) (psa_inertia A) (psa_cognitivity A) (psa_sociability A) (psa_updating A).
  Definition uNA (A : NAArgs) : NAArgs := mkNAArgs (uargs U (naa A)) (naa_nrperc A).

  (** de: the status, 0 or 1, depends on xtol, which is a length; all else agrees. *)
  Theorem C62_de A : SameCallback false -> Pairs (a_bounds (dea A)) -> a_backend (dea A) <> Some "mpi"%string ->
    SameRunUnits false (rigid U) (de_minimize A) (de_minimize (uDE A)).
  Proof.
    intros HCB HP HB. apply rel_SameRunUnits. unfold de_minimize.
    cbn [uDE dea dea_mutation dea_recombination dea_strategy dea_updating]. cbv zeta.
    eapply rel_bind; [apply t_check_pop|]. intros _ _ _.
    eapply rel_bind; [apply rel_raise_if|]. intros _ _ _.
    eapply rel_bind; [apply rel_raise_if|]. intros _ _ _.
    eapply rel_bind; [apply rel_check_updating|]. intros _ _ _.
    eapply rel_bind; [apply rel_orelse|]. intros st ? <-.
    eapply rel_bind; [apply t_seed_and_cb|]. intros _ _ _.
    change (is_sync (dea_updating A) (uargs U (dea A))) with (is_sync (dea_updating A) (dea A)).
    apply t_de; auto.
  Qed.

  (** cpso: the swarm radius is a length, so with competition only the origin may move. *)
  Theorem C62_cpso A : SameCallback false -> Pairs (a_bounds (pa A)) -> a_backend (pa A) <> Some "mpi"%string ->
    truthy (pa_competitivity A) = None \/ rigid U ->
    SameRunUnits false (rigid U) (cpso_minimize A) (cpso_minimize (uCPSO A)).
  Proof.
    intros HCB HP HB HG. apply rel_SameRunUnits. unfold cpso_minimize.
    cbn [uCPSO pa pa_inertia pa_cognitivity pa_sociability pa_competitivity pa_updating]. cbv zeta.
    eapply rel_bind; [apply t_check_pop|]. intros _ _ _.
    eapply rel_bind; [apply rel_raise_if|]. intros _ _ _.
    eapply rel_bind; [apply rel_raise_if|]. intros _ _ _.
    eapply rel_bind; [apply rel_raise_if|]. intros _ _ _.
    eapply rel_bind; [apply rel_raise_if|]. intros _ _ _.
    eapply rel_bind; [apply rel_check_updating|]. intros _ _ _.
    eapply rel_bind; [apply t_seed_and_cb|]. intros _ _ _.
    change (is_sync (pa_updating A) (uargs U (pa A))) with (is_sync (pa_updating A) (pa A)).
    apply t_cpso; auto.
  Qed.
  Theorem C62_pso A : SameCallback false -> Pairs (a_bounds (psa A)) -> a_backend (psa A) <> Some "mpi"%string ->
    SameRunUnits false (rigid U) (pso_minimize A) (pso_minimize (uPSO A)).
  Proof.
    intros HCB HP HB.
    exact (C62_cpso (mkCPSOArgs (psa A) (psa_inertia A) (psa_cognitivity A) (psa_sociability A) None
                                (psa_updating A)) HCB HP HB (or_introl eq_refl)).
  Qed.

  (** na: lower < upper on every axis; the first recorded generation is in internal coordinates. *)
  Theorem C62_na A : SameCallback true -> Pairs (a_bounds (naa A)) -> Proper (a_bounds (naa A)) ->
    a_backend (naa A) <> Some "mpi"%string ->
    SameRunUnits true True (na_minimize A) (na_minimize (uNA A)).
  Proof.
    intros HCB HP HW HB. apply rel_SameRunUnits. unfold na_minimize. cbn [uNA naa naa_nrperc]. cbv zeta.
    eapply rel_bind; [apply t_check_pop|]. intros _ _ _.
    eapply rel_bind; [apply rel_raise_if|]. intros _ _ _.
    eapply rel_bind; [apply t_seed_and_cb|]. intros _ _ _. apply t_na; auto.
  Qed.

  Theorem C62_cmaes A : SameCallback false -> Pairs (a_bounds (caa A)) -> a_backend (caa A) <> Some "mpi"%string ->
    SameRunUnits false True (cmaes_minimize A) (cmaes_minimize (uCMA U A)).
  Proof.
    intros HCB HP HB. apply rel_SameRunUnits. unfold cmaes_minimize.
    eapply rel_bind; [apply t_cma_check|]. intros _ _ _. apply t_cmaes; auto.
  Qed.
  Theorem C62_vdcma A : SameCallback false -> Pairs (a_bounds (caa A)) -> a_backend (caa A) <> Some "mpi"%string ->
    SameRunUnits false True (vdcma_minimize A) (vdcma_minimize (uCMA U A)).
  Proof.
    intros HCB HP HB. apply rel_SameRunUnits. unfold vdcma_minimize.
    eapply rel_bind; [apply t_cma_check|]. intros _ _ _. apply t_vdcma; auto.
  Qed.

  (** ** The samplers *)
  Definition SameSamplesUnits (m : @M ENum E SampRes) (m' : @M ENum E' SampRes) : Prop :=
    forall w a0,
      let (r, st) := exec m w a0 in
      let (r', st') := exec m' w a0 in
      rs st' = rs st /\
      (argbuf st' = argbuf st \/ argbuf st' = option_map (map (smap U)) (argbuf st)) /\
      tr st' = map (usevent U) (tr st) /\
      match r with
      | inl a => r' = inl (usresult U a)
      | inr e => r' = inr e
      end.
  Lemma rel_SameSamplesUnits (m : @M ENum E SampRes) (m' : @M ENum E' SampRes) :
    @rel ENum E E' (RV U cb' scb') _ _ m m' (fun r r' => r' = usresult U r) -> SameSamplesUnits m m'.
  Proof.
    intros H w a0.
    destruct (H (mkSt w [] a0) (@mkSt ENum E' w [] a0)) as [(H1 & H2 & H3) H4].
    { split; [|split]; [reflexivity | left; reflexivity | reflexivity]. }
    unfold exec. destruct (m _) as [r st], (m' _) as [r' st']. cbn [fst snd] in *.
    repeat (split; [auto|]). destruct r, r'; try contradiction; congruence.
  Qed.
  Theorem C62_mcmc A : SameSCallback -> Pairs (s_bounds (mca A)) ->
    SameSamplesUnits (mcmc_sample A) (mcmc_sample (uMCA U A)).
  Proof. intros HCB HP. apply rel_SameSamplesUnits. apply v_mcmc; auto. Qed.
  (** hmc: one unit of length for all axes, and for the finite-difference step. *)
  Theorem C62_hmc A k : SameSCallback -> Pairs (s_bounds (hma A)) -> even U k ->
    SameSamplesUnits (hmc_sample A) (hmc_sample (uHMA U k A)).
  Proof. intros HCB HP Hk. apply rel_SameSamplesUnits. apply v_hmc; auto. Qed.
End Claims.

(** Every callback has its counterpart in the new units: undo the change and call it. *)
Section Callback.
  Context {E : Env ENum}.
  Variable U : Units.
  Definition unslices (raw : bool) (xs : list matrix) : list matrix :=
    match raw, xs with
    | true, s :: t => s :: map (map (unmap U)) t
    | _, _ => map (map (unmap U)) xs
    end.
  Definition undo_cb (raw : bool) (X : matrix) (st : CbState) (w : @RNG ENum E * @US ENum E) :=
    e_cb (map (unmap U) X)
      {| cb_x := unmap U (cb_x st); cb_fun := cb_fun st; cb_nfev := cb_nfev st; cb_nit := cb_nit st;
         cb_all := match cb_all st with Some (xs, fs) => Some (unslices raw xs, fs) | None => None end |} w.
  Definition undo_scb (x : vec) (st : SCbState) (w : @RNG ENum E * @US ENum E) :=
    e_scb (unmap U x)
      {| scb_x := unmap U (scb_x st); scb_fun := scb_fun st; scb_nit := scb_nit st;
         scb_accept := scb_accept st;
         scb_all := match scb_all st with Some (xs, fs) => Some (map (unmap U) xs, fs) | None => None end |} w.
  Lemma un_upop X : PosUnits U -> map (unmap U) (upop U X) = X.
  Proof.
    intro HU. unfold upop. rewrite map_map. rewrite <- (map_id X) at 2. apply map_ext. intro x.
    apply unmap_amap, HU.
  Qed.
  Lemma un_slices raw xs : PosUnits U -> unslices raw (uslices U raw xs) = xs.
  Proof.
    intro HU. assert (HM : forall ys, map (map (unmap U)) (map (upop U) ys) = ys).
    { intro ys. rewrite map_map. rewrite <- (map_id ys) at 2. apply map_ext. intro y. apply un_upop, HU. }
    destruct raw, xs as [|s t]; cbn; try reflexivity; rewrite HM; [reflexivity|]. rewrite un_upop by exact HU.
    reflexivity.
  Qed.
  Lemma C62_callback raw : PosUnits U -> SameCallback U (undo_cb raw) raw.
  Proof.
    intros HU X st w. unfold undo_cb. rewrite un_upop by exact HU. f_equal.
    destruct st as [x f nf ni [[xs fs]|]]; cbn; rewrite unmap_amap by exact HU; [|reflexivity].
    rewrite un_slices by exact HU. reflexivity.
  Qed.
  Lemma C62_scallback : PosUnits U -> SameSCallback U undo_scb.
  Proof.
    intros HU x st w. unfold undo_scb. rewrite unmap_amap by exact HU. f_equal.
    destruct st as [y f nf ni [[xs fs]|]]; cbn; rewrite unmap_amap by exact HU; [|reflexivity].
    rewrite un_upop by exact HU. reflexivity.
  Qed.
End Callback.
