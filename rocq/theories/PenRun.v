(** C30 for the runs of cmaes with constraints = "Penalize" (exact arithmetic). *)
From Coq Require Import Reals Lra Psatz Permutation.
From Verif Require Import Base Num NumR NumE Env Common DE Mat CMAES VDCMA Weights Hoare EvalRules EvalVal Gen Steps Runs Inst Laws Safe Feas FeasPso DimCma
  VdReal Visit VdRun Cov CmReal CmRun Pen.
Open Scope R_scope.

(** np.empty(n) has n entries *)
Definition EmptyLen {E : Env ENum} : Prop := forall n, length (e_empty n) = n.

Section Run.
  Context {E : Env ENum} (HE : EnvOK) (HN : forall g, isfin (fst (e_randn g))) (HD : EighPD) (HPct : PctOK) (HMed : MedOK).
  Hypothesis HV : forall (x : list er) (y : er), Val x y -> isfin y.
  Variable d : nat.

  (** [y] is a value of the objective at [x] plus a non-negative amount *)
  Definition Above (x : list er) (y : er) : Prop :=
    exists v q : R, Val x (Fin v) /\ 0 <= q /\ y = Fin (v + q).

  Definition PenP (P : @CMAParams ENum) (valid : list (list er)) (fit : list er) : Prop :=
    Forall2 (fun x y => Above (cma_un P x) y) valid fit.

  Lemma above_of P (valid arx : list (list er)) fit :
    length valid = length arx -> Penalized (fun x y => Val (cma_un P x) y) valid arx fit -> PenP P valid fit.
  Proof.
    intros Hl (f & pen & HF & Lp & Pp & -> & _). unfold PenP. rewrite <- Hl in Lp. clear Hl arx. revert pen Lp Pp.
    induction HF as [|x y valid f Hx HF IH]; intros [|q pen] Lp Pp; try discriminate; cbn [map2]; constructor.
    - pose proof (HV _ _ Hx) as Hy. destruct y as [v| | |]; try contradiction. inversion Pp; subst. exists v, q. auto.
    - inversion Pp; subst. apply IH; [cbn in Lp; lia|assumption].
  Qed.

  Lemma diag_posf (s : @CMAS ENum) : CmI d s -> Forall posf (@mdiag EArith (cs_C s)) /\ length (@mdiag EArith (cs_C s)) = d.
  Proof.
    intros HI. destruct (ci_C _ _ HI) as (C & EC & SC & YC & PC). rewrite EC, mdiag_fin. destruct SC as [LC FC].
    unfold mdiag. rewrite map_length, map_length, seq_length. split; [|exact LC].
    apply Forall_forall. intros x Hx. apply in_map_iff in Hx. destruct Hx as (r & <- & Hr). apply in_map_iff in Hr. destruct Hr as (i & <- & Hi).
    apply in_seq in Hi. apply (C28_diagonal d C i PC). lia.
  Qed.

  Lemma eval_val P X : ModeOK (cm_mode P) -> cm_mode P <> Mpi ->
    gives (cma_eval P X) (Forall2 (fun x y => Val (cma_un P x) y) X).
  Proof.
    intros HM Hm. unfold cma_eval. eapply gives_bind; [apply gives_eval_pop; assumption|]. intros [x f] Hf. cbn [snd] in Hf.
    apply gives_ret. clear - Hf. revert f Hf. induction X as [|a X IH]; intros [|b f] Hf; inversion Hf; subst; constructor; auto.
  Qed.

  Lemma fitness_pen P it s (arx : list (list er)) : CRun d P -> CmI d s -> PenI d (cs_pen s) -> length (cs_xold s) = d -> cm_mode P <> Mpi -> cm_pen P = true ->
    length arx = cm_p P -> Forall (FinPt d) arx ->
    gives (cma_fitness P arx (cs_xmean s) (cs_xold s) (cs_sigma s) (@mdiag EArith (cs_C s)) it (cs_pen s))
      (fun r : evec * @matrix EArith * @PenState ENum => PenI d (snd r) /\ PenP P (snd (fst r)) (fst (fst r))).
  Proof.
    intros HP HI Hpen Lo Hm Hpt La Fa.
    unfold cma_fitness. rewrite Hpt, (cr_d _ _ HP). destruct (diag_posf s HI) as [FC LC]. destruct (cr_mu _ _ HP) as [Hmu1 Hmup].
      assert (Em : cm_mueff P = Fin (@cma_mueff RArith (@cma_weights RArith (cm_mu P)))) by (rewrite (cr_m _ _ HP), (cr_w _ _ HP); apply cma_mueff_E, Hmu1).
      rewrite Em. pose proof (C27_mueff _ Hmu1) as [Hm1 _].
      eapply gives_conseq.
      + eapply safe_gives, (pen_safe HPct HMed (FinPt d) (fun _ _ => True) (fun x y => Val (cma_un P x) y)).
        * intros x y. apply HV.
        * exact (cr_d1 _ _ HP).
        * elia.
        * eapply Forall_impl; [|exact Fa]. intros x Hx. apply Hx.
        * exact (ci_sg _ _ HI).
        * intros HC. pose proof (cr_d1 _ _ HP). change (@num_arith ENum) with EArith in HC. rewrite HC in LC. cbn in LC. lia.
        * exact FC.
        * lra.
        * exact Hpen.
        * apply (ci_x _ _ HI).
        * exact LC.
        * exact Lo.
        * eapply safe_and_gives; [apply (cm_eval d (fun _ _ => True) P _ HP)|apply eval_val; [apply (cr_mode _ _ HP)|exact Hm]].
          apply Forall_forall. intros y Hy. apply in_map_iff in Hy. destruct Hy as (x & <- & Hx). rewrite Forall_forall in Fa.
          destruct (Fa x Hx) as [L F]. split; [rewrite map_length; exact L|]. apply fins_map; [apply clip1_isfin|exact F].
      + intros [[fit valid] st'] (-> & H1 & H2). cbn [fst snd]. split; [exact H1|]. eapply above_of; [|exact H2]. apply map_length.
  Qed.

  Lemma step_pen P it s : CRun d P -> CmI d s -> PenI d (cs_pen s) -> length (cs_xold s) = d -> cm_mode P <> Mpi -> cm_pen P = true ->
    gives (cma_step P it s) (fun r : @CMAS ENum * option Z => PenI d (cs_pen (fst r)) /\ PenP P (cs_valid (fst r)) (cs_fit (fst r))).
  Proof.
    intros HP HI Hpen Lo Hm Hpt. unfold cma_step. cbv zeta.
    eapply gives_bind; [eapply safe_gives, (sample_ok HN d (fun _ _ => True) P s HP HI)|]. intros arx [La Fa]. cbv beta in La, Fa.
    eapply gives_bind with (R := fun r : evec * @matrix EArith * @PenState ENum => PenI d (snd r) /\ PenP P (snd (fst r)) (fst (fst r))).
    - apply fitness_pen; assumption.
    - intros [[fit valid] pen] [H1 H2]. cbn [fst snd] in H1, H2.
      eapply gives_bind; [apply gives_any|]. intros r _. eapply gives_bind; [apply gives_any|]. intros hist _.
      eapply gives_bind; [apply gives_any|]. intros [[[[B D] C] inv] ee] _. apply gives_ret. cbn [fst cs_pen cs_valid cs_fit]. split; assumption.
  Qed.
End Run.

Section Thm.
  Context {E : Env ENum} (HE : EnvOK) (HN : forall g, isfin (fst (e_randn g))) (HD : EighPD) (HPct : PctOK) (HMed : MedOK) (HEl : EmptyLen).
  Hypothesis HV : forall (x : list er) (y : er), Val x y -> isfin y.
  Variables (A : @CMAArgs ENum) (rows : list (list er)) (sg mp : R).
  Context (HA : FiniteArgs A rows sg mp) (Hrows : rows <> []) (HR : RatesLt (length rows) mp (a_popsize (caa A))).
  Context (HB : a_backend (caa A) <> Some "mpi"%string) (HC : a_constraints (caa A) = Some "Penalize"%string).

  Lemma rows1 : (1 <= length rows)%nat.
  Proof. clear - Hrows. destruct rows; [congruence|cbn; lia]. Qed.
  Lemma hb_mpi : a_backend (caa A) = Some "mpi"%string -> BcastKeeps (FinPt (length rows)).
  Proof. intros H. contradiction. Qed.

  Lemma start_pen : gives (cm_start A) (fun Ps : @CMAParams ENum * @CMAS ENum =>
    cm_mode (fst Ps) <> Mpi /\ cm_pen (fst Ps) = true /\ PenI (length rows) (cs_pen (snd Ps)) /\ length (cs_xold (snd Ps)) = length rows).
  Proof.
    unfold cm_start. eapply gives_bind; [apply gives_any|]. intros _ _. unfold cm_prefix.
    eapply gives_bind with (R := fun xP : evec * @CMAParams ENum =>
      cm_mode (snd xP) <> Mpi /\ cm_pen (snd xP) = true /\ cm_d (snd xP) = length rows).
    - unfold cma_setup. eapply gives_bind with (R := fun m => m <> Mpi).
      { unfold eval_kindM. destruct (eval_kind true (a_workers (caa A)) (a_backend (caa A))) as [m|e] eqn:Ek; [|apply gives_raise].
        apply gives_ret. intros ->. clear - Ek HB. unfold eval_kind in Ek. destruct (a_backend (caa A)) as [b|].
        - destruct (String.eqb_spec b "").
          + subst b. cbn in Ek. destruct (negb _); discriminate.
          + unfold wrapper_kind in Ek. destruct (in_prefer b) eqn:Ep.
            * destruct (true && _); [discriminate|]. destruct (String.eqb_spec b "mpi"); [subst; discriminate|discriminate].
            * cbn [andb] in Ek. destruct (String.eqb_spec b "mpi"); [congruence|discriminate].
        - cbn in Ek. destruct (negb _); discriminate. }
      intros mode Hmode. rewrite (fa_bounds _ _ _ _ HA). cbn [nd_len].
      eapply gives_bind; [apply gives_any|]. intros [lo up] _. rewrite HC.
      eapply gives_bind; [apply (gives_ret _ (fun m => m = true)); reflexivity|]. intros pen ->.
      eapply gives_bind; [apply gives_any|]. intros xm _. eapply gives_bind; [apply gives_any|]. intros mu _.
      apply gives_ret. cbn. auto.
    - intros [xm P0] (Hmode & Hpen & Hd). cbn [fst snd] in *.
      eapply gives_bind; [apply gives_any|]. intros [nout ilim] _. apply gives_ret. cbn [fst snd cm_mode cm_pen cs_pen cs_xold].
      rewrite Hd. split; [exact Hmode|]. split; [exact Hpen|]. split; [apply pen_start|apply HEl].
  Qed.

  Definition PI (s : @CMAS ENum) : Prop := CmI (length rows) s /\ PenI (length rows) (cs_pen s) /\ length (cs_xold s) = length rows.
  Definition PP (P : @CMAParams ENum) (s : @CMAS ENum) : Prop := CmP (length rows) P s /\ PenP P (cs_valid s) (cs_fit s).
  Lemma step_both Pc P it s : CRun (length rows) P -> cm_mode P <> Mpi -> cm_pen P = true -> PI s ->
    safe (FinPt (length rows)) Pc (cma_step P it s) (fun r : @CMAS ENum * option Z => PI (fst r) /\ PP P (fst r)).
  Proof.
    intros HP Hm Hpt (HI & Hpen & Lo).
    pose proof (CmRun.step_ok HE HN HD (length rows) Pc P it s HP HI) as HS.
    eapply safe_and_gives; [exact HS|].
    intros w r w' Hr. destruct (safe_gives _ _ _ _ HS _ _ _ Hr) as [H1 H2].
    destruct (step_pen HN HPct HMed HV (length rows) P it s HP HI Hpen Lo Hm Hpt _ _ _ Hr) as [H3 H4].
    split; [split; [exact H1|split; [exact H3|apply (cp_old _ _ _ H2)]]|split; assumption].
  Qed.

  Lemma run_inv w P s0 w0 cb j t : cm_start A w = (inl (P, s0), w0) -> visited (cma_drv P) cb (fun _ => True) 0 s0 w0 j t ->
    CRun (length rows) P /\ cm_mode P <> Mpi /\ cm_pen P = true /\ PI t /\ PP P t.
  Proof.
    intros Hs HVis. destruct (CmRun.start_gives HE A rows sg mp HA Hrows HR hb_mpi _ _ _ Hs) as (HP & HI & _).
    destruct (start_pen _ _ _ Hs) as (Hm & Hpt & Hpen & Lo). cbn [fst snd] in *.
    split; [exact HP|]. split; [exact Hm|]. split; [exact Hpt|].
    eapply (visited_inv (N := ENum) (cma_drv P) cb _ (fun _ => PI) (fun _ s => PI s /\ PP P s)); [| |exact HVis|].
    - intros it s H. eapply safe_gives, (step_both (fun _ _ => True)); assumption.
    - intros it s [H _] _. apply gives_ret. exact H.
    - split; [exact HI|split; assumption].
  Qed.

  (** C30.  In every state of every run the fitness of a row is a value of the objective at the
      (clipped) row plus a non-negative amount. *)
  Theorem C30_states w P s0 w0 cb j t : cm_start A w = (inl (P, s0), w0) -> visited (cma_drv P) cb (fun _ => True) 0 s0 w0 j t ->
    Forall2 Above (map (cma_un P) (cs_valid t)) (cs_fit t).
  Proof.
    intros Hs HVis. destruct (run_inv _ _ _ _ _ _ _ Hs HVis) as (_ & _ & _ & _ & HPo).
    destruct HPo as [_ HPP]. unfold PenP in HPP. clear - HPP. induction HPP; constructor; auto.
  Qed.

  (** C30.  The fun of the result, and of every state handed to the callback, is a value of the
      objective at its x plus a non-negative amount. *)
  Theorem C30_fun w a0 r st' : exec (cmaes_minimize A) w a0 = (r, st') ->
    (forall X st, In (X, st) (cbs (tr st')) -> Above (cb_x st) (cb_fun st)) /\
    (forall res, r = inl res -> Above (r_x res) (r_fun res)).
  Proof.
    intros Hx.
    assert (HSafe : safe (FinPt (length rows)) (fun _ st => Above (cb_x st) (cb_fun st)) (cmaes_minimize A) (fun r => Above (r_x r) (r_fun r))).
    { intros w1. rewrite cmaes_start. revert w1.
      fold (safe (N := ENum) (FinPt (length rows)) (fun _ st => Above (cb_x st) (cb_fun st))
        (bind (cm_start A) (fun Ps => drive (cma_drv (fst Ps)) (has_cb (caa A)) (fuel (a_maxiter (caa A))) 0 (snd Ps))) (fun r => Above (r_x r) (r_fun r))).
      eapply safe_bind.
      { eapply safe_and_gives; [exact (CmRun.start_ok HE (length rows) _ A rows sg mp HA eq_refl rows1 HR hb_mpi)|].
        intros w1 Ps w2 HPs. exact (conj (CmRun.start_gives HE A rows sg mp HA Hrows HR hb_mpi _ _ _ HPs) (start_pen _ _ _ HPs)). }
      intros [P s0] ((HP & HI & _) & Hm & Hpt & Hpen & Lo). cbn [fst snd] in *.
      assert (HX : forall s, PP P s -> Above (d_x (cma_drv P) s) (d_fun (cma_drv P) s)).
      { intros s [[H1 H2 H3 H4 H5] H6]. cbn [d_x d_fun cma_drv]. unfold cma_best. rewrite H4.
        pose proof (proj1 (eo_argsort HE) (cs_fit s)) as Hperm. pose proof (cr_mu _ _ HP) as Hmu.
        assert (Hin : In (nth 0 (e_argsort (cs_fit s)) 0%nat) (e_argsort (cs_fit s))).
        { apply nth_In. rewrite (Permutation_length Hperm), seq_length. elia. }
        apply (Permutation_in _ Hperm), in_seq in Hin.
        assert (Hk : (nth 0 (e_argsort (cs_fit s)) 0%nat < length (cs_valid s))%nat) by elia. clear - H6 Hk.
        revert Hk. generalize (nth 0 (e_argsort (cs_fit s)) 0%nat). induction H6 as [|x y l l' Hxy H6 IH]; intros [|k] Hk; cbn [length nth] in *; try lia; [exact Hxy|]. apply IH. lia. }
      eapply safe_conseq.
      - apply (safe_drive2 (N := ENum) _ _ (cma_drv P) PI (PP P)).
        + intros it s H. apply step_both; assumption.
        + intros it s H. apply safe_ret, H.
        + intros it s H _. apply HX, H.
        + split; [exact HI|split; assumption].
      - intros res (s & H & -> & ->). apply HX, H. }
    destruct (safe_exec _ _ _ _ _ _ _ _ HSafe Hx) as (_ & H2 & H3). split; [exact H2|exact H3].
  Qed.

  (** C30.  In every run, in every iteration after the initial phase: the weight of a coordinate is
      multiplied by a number above one when the condition [grows] holds of the mean, the previous mean,
      the variance and the step size, and does not change otherwise. *)
  Theorem C30_growth w P s0 w0 cb j t w1 t' st w2 : cm_start A w = (inl (P, s0), w0) ->
    visited (cma_drv P) cb (fun _ => True) 0 s0 w0 j t -> pen_ini (cs_pen t) = false ->
    cma_step P (j + 1) t w1 = (inl (t', st), w2) ->
    exists (xm xo C : list R) (s m : R), cs_xmean t = map Fin xm /\ cs_xold t = map Fin xo /\ @mdiag EArith (cs_C t) = map Fin C /\
      cs_sigma t = Fin s /\ cm_mueff P = Fin m /\
      length (pen_w (cs_pen t')) = length rows /\ pen_ini (cs_pen t') = false /\
      forall i, (i < length rows)%nat ->
        (grows (length rows) m s (nth i C 0) (nth i xm 0) (nth i xo 0) ->
           exists k, 1 < k /\ nth i (pen_w (cs_pen t')) (Fin 0) = er_mul (nth i (pen_w (cs_pen t)) (Fin 0)) (Fin k)) /\
        (~ grows (length rows) m s (nth i C 0) (nth i xm 0) (nth i xo 0) ->
           nth i (pen_w (cs_pen t')) (Fin 0) = nth i (pen_w (cs_pen t)) (Fin 0)).
  Proof.
    intros Hs HVis Hini Hstep. destruct (run_inv _ _ _ _ _ _ _ Hs HVis) as (HP & Hm & Hpt & (HI' & Hpen' & Lo') & HPc & _). clear HVis Hs.
    destruct (diag_posf (length rows) t HI') as [FC LC]. destruct (posf_list _ FC) as (C & EC & PC).
    destruct (ci_x _ _ HI') as [Lx Fx]. destruct (isfin_fin _ Fx) as [xm Exm]. destruct (cp_old _ _ _ HPc) as [Lxo Fxo].
    destruct (isfin_fin _ Fxo) as [xo Exo]. pose proof (ci_sg _ _ HI') as Hsg. destruct (cs_sigma t) as [s| | |] eqn:Esg; try contradiction.
    destruct (cr_mu _ _ HP) as [Hmu1 Hmup].
    assert (Em : cm_mueff P = Fin (@cma_mueff RArith (@cma_weights RArith (cm_mu P)))) by (rewrite (cr_m _ _ HP), (cr_w _ _ HP); apply cma_mueff_E, Hmu1).
    pose proof (C27_mueff _ Hmu1) as [Hm1 _]. destruct (pi_w _ _ Hpen') as [LW _].
    rewrite EC in LC. rewrite Exm in Lx. rewrite Exo in Lxo. rewrite map_length in LC, Lx, Lxo.
    exists xm, xo, C, s, (@cma_mueff RArith (@cma_weights RArith (cm_mu P))).
    split; [exact Exm|]. split; [exact Exo|]. split; [exact EC|]. split; [reflexivity|]. split; [exact Em|].
    pattern (cs_pen t') at 1 2 3 4. match goal with |- ?G _ => enough (HG : gives (cma_step P (j + 1) t) (fun r => G (cs_pen (fst r)))) by exact (HG _ _ _ Hstep);
      unfold cma_step; cbv zeta; eapply gives_bind; [apply gives_any|]; intros arx _;
      eapply gives_bind with (R := fun r : evec * @matrix EArith * @PenState ENum => G (snd r)); [|intros [[fit valid] pen] HW;
      eapply gives_bind; [apply gives_any|]; intros r _; eapply gives_bind; [apply gives_any|]; intros hist _;
      eapply gives_bind; [apply gives_any|]; intros [[[[B D] C'] inv] ee] _; apply gives_ret; cbn [fst cs_pen]; exact HW] end.
    unfold cma_fitness. rewrite Hpt, (cr_d _ _ HP). intros w3 [[fit valid] st'] w4 HPen.
    change (@num_arith ENum) with EArith in HPen. rewrite Em, Exm, Exo, Esg in HPen. rewrite EC in HPen.
    cbn [snd]. exact (C30_weights (cm_p P) (length rows) arx xm xo C s _ (j + 1) (cs_pen t) (cma_eval P) w3 fit valid st' w4 rows1 (Rlt_le_trans _ _ _ Rlt_0_1 Hm1) Hsg PC LC Lx Lxo LW Hini HPen).
  Qed.

  (** C30.  So a mean below the lower bound never makes the weight of its coordinate grow. *)
  Theorem C30_lower_bound w P s0 w0 cb j t w1 t' st w2 i x : cm_start A w = (inl (P, s0), w0) ->
    visited (cma_drv P) cb (fun _ => True) 0 s0 w0 j t -> pen_ini (cs_pen t) = false ->
    cma_step P (j + 1) t w1 = (inl (t', st), w2) ->
    (i < length rows)%nat -> nth i (cs_xmean t) (Fin 0) = Fin x -> x < -1 ->
    nth i (pen_w (cs_pen t')) (Fin 0) = nth i (pen_w (cs_pen t)) (Fin 0).
  Proof.
    intros Hs HVis Hini Hstep Hi Hx Hlt.
    destruct (C30_growth _ _ _ _ _ _ _ _ _ _ _ Hs HVis Hini Hstep) as (xm & xo & C & s & m & Exm & _ & _ & _ & _ & _ & _ & HW).
    apply (HW i Hi). apply below_no_growth. rewrite Exm, map_nth in Hx. injection Hx as ->. exact Hlt.
  Qed.
End Thm.
