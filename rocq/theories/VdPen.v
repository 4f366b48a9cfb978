(** C30 and C65 for the runs of vdcma with constraints = "Penalize" (exact arithmetic). *)
From Coq Require Import Reals Lra Psatz Permutation.
From Verif Require Import Base Num NumR NumE Env Common DE CPSO NA Mat CMAES VDCMA Weights Hoare EvalRules EvalVal Gen Steps Runs Inst Laws
  Safe Feas FeasPso DimCma VdReal Visit VdRun Cov CmReal CmRun Pen PenRun VdFin Disc Valid Accept Enough PropPop PropCma Calm CalmCma PenCalm.
Open Scope R_scope.

(** The diagonal of the covariance matrix D (I + v v^T) D *)
Lemma vd_diag (dv vv : list R) d : length dv = d -> length vv = d ->
  @vd_diagC EArith d (fin dv) (fin vv) = fin (map2 (fun a v => a * (1 + v * v) * a) dv vv).
Proof.
  intros Ld Lv. unfold vd_diagC. rewrite diagm_fin, eye_fin, outer_fin, madd_fin, !mmul_fin, mdiag_fin. f_equal.
  set (D := @diagm RArith dv). set (M := @madd RArith (@eye RArith d) (@outer RArith vv vv)).
  assert (SD : Cov.Shape d d D) by (rewrite <- Ld; apply Shape_diagm).
  assert (SE : Cov.Shape d d (@eye RArith d)) by apply Shape_mtab.
  assert (SO : Cov.Shape d d (@outer RArith vv vv)) by (apply Shape_outer; assumption).
  assert (SM : Cov.Shape d d M) by (apply Shape_madd; assumption).
  assert (SDM : Cov.Shape d d (@mmul RArith d D M)) by (eapply Shape_mmul; exact SD).
  assert (SDD : Cov.Shape d d (@mmul RArith d (@mmul RArith d D M) D)) by (eapply Shape_mmul; exact SDM).
  destruct SDD as [LDD _]. change (@T RArith) with R in *. rewrite LDD.
  apply nth_ext with (d := 0) (d' := 0); [rewrite map_length, seq_length, map2_length, Ld, Lv; symmetry; apply Nat.min_id|].
  intros i Hi. rewrite map_length, seq_length in Hi.
  rewrite (nth_map_R _ (seq 0 d) i 0%nat) by (rewrite seq_length; exact Hi). rewrite nth_seq0 by exact Hi.
  rewrite (map2_nth _ dv vv i 0 0 0) by congruence.
  rewrite (ent_mmul d d d _ _ i i SDM SD Hi Hi).
  rewrite (sumn_ext _ (fun k => if (k =? i)%nat then nth i dv 0 * ent M i k * nth k dv 0 else 0)).
  - rewrite (sumn_delta (fun k => nth i dv 0 * ent M i k * nth k dv 0)) by exact Hi.
    unfold M. rewrite (ent_madd d d _ _ i i SE SO Hi Hi), (ent_outer d) by assumption.
    unfold eye. rewrite ent_mtab by exact Hi. rewrite Nat.eqb_refl. change (@n1 RArith) with 1. reflexivity.
  - intros k Hk. rewrite (ent_mmul d d d _ _ i k SD SM Hi Hk).
    rewrite (sumn_ext _ (fun l => if (l =? i)%nat then nth i dv 0 * ent M l k else 0)).
    + rewrite (sumn_delta (fun l => nth i dv 0 * ent M l k)) by exact Hi. unfold D. rewrite ent_diagm by congruence.
      destruct (k =? i)%nat; lra.
    + intros l Hl. unfold D. rewrite ent_diagm by congruence. rewrite Nat.eqb_sym. destruct (l =? i)%nat; lra.
Qed.

Section Run.
  Context {E : Env ENum} (HE : EnvOK) (HN : forall g, isfin (fst (e_randn g))) (HPct : PctOK) (HMed : MedOK).
  Hypothesis HV : forall (x : list er) (y : er), Val x y -> isfin y.
  Variable d : nat.

  Lemma vdiag_posf (P : @CMAParams ENum) (s : @VDS ENum) : VPar d P -> VInv P s ->
    Forall posf (@vd_diagC EArith d (vs_dvec s) (vs_vvec s)) /\ length (@vd_diagC EArith d (vs_dvec s) (vs_vvec s)) = d.
  Proof.
    intros HP ((dv & vv & Hdv & Ldv & Pdv & Hvv & Lvv & _) & _). rewrite (vp_d _ _ HP) in Ldv, Lvv. rewrite Hdv, Hvv, (vd_diag dv vv d Ldv Lvv).
    split; [|rewrite map_length, map2_length, Ldv, Lvv; apply Nat.min_id].
    assert (L : length dv = length vv) by congruence. clear - Pdv L. revert vv L. induction Pdv as [|a dv Ha Pdv IH]; intros [|v vv] L; try discriminate; [constructor|].
    cbn [map2 map]. constructor; [|apply IH; cbn in L; lia]. cbn. assert (0 <= v * v) by nra. nra.
  Qed.

  Lemma vfitness_pen P it s (arx : list (list er)) : VPar d P -> VI P s -> PenI d (vs_pen s) -> length (vs_xold s) = d -> cm_mode P <> Mpi -> cm_pen P = true ->
    length arx = cm_p P -> Forall (FinPt d) arx ->
    gives (cma_fitness P arx (vs_xmean s) (vs_xold s) (vs_sigma s) (@vd_diagC EArith (cm_d P) (vs_dvec s) (vs_vvec s)) it (vs_pen s))
      (fun r : evec * @matrix EArith * @PenState ENum => PenI d (snd r) /\ PenP P (snd (fst r)) (fst (fst r))).
  Proof.
    intros HP [HI Hsg] Hpen Lo Hm Hpt La Fa.
    unfold cma_fitness. rewrite Hpt, (vp_d _ _ HP). destruct (vdiag_posf P s HP HI) as [FC LC]. destruct (vp_mu _ _ HP) as [Hmu1 Hmup].
    destruct (vp_mueff d P HP) as (m & Em & Hm1). rewrite Em.
    destruct HI as (_ & (Fx & Lx & _) & _). rewrite (vp_d _ _ HP) in Lx.
    eapply gives_conseq.
    + eapply safe_gives, (pen_safe HPct HMed (FinPt d) (fun _ _ => True) (fun x y => Val (cma_un P x) y)).
      * intros x y. apply HV.
      * exact (vp_d1 _ _ HP).
      * elia.
      * eapply Forall_impl; [|exact Fa]. intros x Hx. apply Hx.
      * exact Hsg.
      * intros HC. pose proof (vp_d1 _ _ HP). change (@num_arith ENum) with EArith in HC. rewrite HC in LC. cbn in LC. lia.
      * exact FC.
      * lra.
      * exact Hpen.
      * exact Lx.
      * exact LC.
      * exact Lo.
      * eapply (safe_and_gives d (fun _ _ => True)); [apply (vd_eval d (fun _ _ => True) P _ HP), clip_fins, Fa|apply eval_val; [apply (vp_mode _ _ HP)|exact Hm]].
    + intros [[fit valid] st'] (-> & H1 & H2). cbn [fst snd]. split; [exact H1|]. eapply (above_of HV); [|exact H2]. apply map_length.
  Qed.

  Lemma vstep_pen P it s : VPar d P -> VI P s -> PenI d (vs_pen s) -> length (vs_xold s) = d -> cm_mode P <> Mpi -> cm_pen P = true ->
    gives (vd_step P it s) (fun r : @VDS ENum * option Z => PenI d (vs_pen (fst r)) /\ PenP P (vs_valid (fst r)) (vs_fit (fst r))).
  Proof.
    intros HP HI Hpen Lo Hm Hpt. unfold vd_step. cbv zeta.
    eapply gives_bind; [eapply safe_gives, (vd_sample_ok HN d (fun _ _ => True) P s HP (proj1 HI))|]. intros ary [La Fa]. cbv beta in La, Fa.
    eapply gives_bind with (R := fun r : evec * @matrix EArith * @PenState ENum => PenI d (snd r) /\ PenP P (snd (fst r)) (fst (fst r))).
    - apply vfitness_pen; try assumption; [rewrite map_length; exact La|apply (arx_fins d P s ary HP HI Fa)].
    - intros [[fit valid] pen] [H1 H2]. cbn [fst snd] in H1, H2.
      eapply gives_bind; [apply gives_any|]. intros r _. eapply gives_bind; [apply gives_any|]. intros hist _.
      destruct (vd_sigma P s (e_argsort fit)) as [[ps sigma] cond].
      match goal with |- gives (match ?X with pair _ _ => _ end) _ => destruct X as [v dv] end. apply gives_ret.
      cbn [fst vs_pen vs_valid vs_fit]. split; assumption.
  Qed.

  (** invariants of a run with the penalty *)
  Definition WI (P : @CMAParams ENum) (s : @VDS ENum) : Prop := VI P s /\ PenI d (vs_pen s) /\ length (vs_xold s) = d.
  Record WP (P : @CMAParams ENum) (s : @VDS ENum) : Prop := { wp_vp : VP d P s; wp_pen : PenI d (vs_pen s); wp_above : PenP P (vs_valid s) (vs_fit s) }.
  Lemma wp_wi P s : VPar d P -> WP P s -> Moved s -> WI P s.
  Proof.
    intros HP [H1 H2 H3] HM. split; [eapply post_vi; eassumption|]. split; [exact H2|].
    destruct (vq_post _ _ _ H1) as (_ & _ & xo & dx & -> & L & _). rewrite map_length. rewrite <- (vp_d _ _ HP). exact L.
  Qed.
  Lemma vstep_both Pc P it s : VPar d P -> cm_mode P <> Mpi -> cm_pen P = true -> WI P s ->
    safe (FinPt d) Pc (vd_step P it s) (fun r : @VDS ENum * option Z => WP P (fst r)).
  Proof.
    intros HP Hm Hpt (HI & Hpen & Lo). pose proof (vd_step_ok HN d Pc P it s HP HI) as HS.
    eapply (safe_and_gives d Pc); [exact HS|]. intros w r w' Hr. pose proof (safe_gives _ _ _ _ HS _ _ _ Hr) as H1.
    destruct (vstep_pen P it s HP HI Hpen Lo Hm Hpt _ _ _ Hr) as [H3 H4]. constructor; assumption.
  Qed.
End Run.

(** [cal] and [safe] of one run of the loop, with a condition on the states it visits *)
Section Drive.
  Context {N : Num} {E : Env N}.
  Lemma cal_drive_vis {S} (X : Exn -> Prop) (d : Drv S) mx cb (Inv Post Q : S -> Prop) : (forall e, foreign e -> X e) ->
    (forall it s, (it <= mx)%Z -> Inv s -> cal X (d_step d it s) (fun r => known it mx (snd r) /\ Post (fst r))) ->
    (forall it s, Post s -> Q s -> cal X (d_post d it s) Inv) ->
    forall fuel it s w, (it < mx)%Z -> Inv s -> (forall j t, visited d cb (fun _ => True) it s w j t -> Q t) ->
    forall e, fst (drive d cb fuel it s w) = inr e -> X e.
  Proof.
    intros HX H1 H2. induction fuel as [|k IH]; intros it s w Hi HI HQ e; cbn [drive].
    { intros He. injection He as <-. apply HX. right. reflexivity. }
    pose proof (H1 (it + 1)%Z s ltac:(lia) HI w) as G1. rewrite bind_at.
    destruct (d_step d (it + 1)%Z s w) as [[[s1 st]|e1] w1] eqn:E1; cbn [fst snd] in *; [|intros He; injection He as <-; exact G1].
    destruct G1 as [Ho HP1].
    assert (HC : cal X (when cb (call_cb (d_pop d s1) (cb_state d (it + 1) s1))) (fun _ => True)) by (eapply cal_calm; [apply calm_when, calm_cb | exact HX]).
    specialize (HC w1). rewrite bind_at.
    destruct (when cb (call_cb (d_pop d s1) (cb_state d (it + 1) s1)) w1) as [[[]|e2] w2] eqn:E2; cbn [fst snd] in *; [|intros He; injection He as <-; exact HC].
    destruct st as [c|]; cbn [known] in Ho.
    - unfold result. rewrite bind_at. destruct (message c) as [msg|]; [|congruence]. cbn. discriminate.
    - assert (HQ1 : Q s1) by (apply (HQ (it + 1)%Z); eapply vis_here; exact E1).
      pose proof (H2 (it + 1)%Z s1 HP1 HQ1 w2) as G3. rewrite bind_at.
      destruct (d_post d (it + 1)%Z s1 w2) as [[s2|e3] w3] eqn:E3; cbn [fst snd] in *; [|intros He; injection He as <-; exact G3].
      apply IH; [exact Ho|exact G3|].
      intros j t HV. apply (HQ j t). eapply vis_next; [|exact I|exact E3|exact HV]. unfold iterate, bind. rewrite E1, E2. reflexivity.
  Qed.
End Drive.

Section Thm.
  Context {E : Env ENum} (HE : EnvOK) (HN : forall g, isfin (fst (e_randn g))) (HPct : PctOK) (HMed : MedOK) (HEl : EmptyLen).
  Hypothesis HV : forall (x : list er) (y : er), Val x y -> isfin y.
  Variables (A : @CMAArgs ENum) (rows : list (list er)) (sg mp : R).
  Context (HA : FiniteArgs A rows sg mp) (Hrows : rows <> []).
  Context (HB : a_backend (caa A) <> Some "mpi"%string) (HC : a_constraints (caa A) = Some "Penalize"%string).
  Notation d := (length rows).

  Lemma begin_pen : gives (vd_begin A) (fun Ps : @CMAParams ENum * @VDS ENum =>
    cm_mode (fst Ps) <> Mpi /\ cm_pen (fst Ps) = true /\ PenI d (vs_pen (snd Ps)) /\ length (vs_xold (snd Ps)) = d).
  Proof.
    unfold vd_begin. eapply gives_bind; [apply gives_any|]. intros _ _. unfold vd_prefix.
    eapply gives_bind with (R := fun xP : evec * @CMAParams ENum =>
      cm_mode (snd xP) <> Mpi /\ cm_pen (snd xP) = true /\ cm_d (snd xP) = length rows).
    - unfold cma_setup. eapply gives_bind with (R := fun m => m <> Mpi).
      { unfold eval_kindM. destruct (eval_kind true (a_workers (caa A)) (a_backend (caa A))) as [m|e] eqn:Ek; [|apply gives_raise].
        apply gives_ret. intros ->. clear - Ek HB. unfold eval_kind in Ek. destruct (a_backend (caa A)) as [b|].
        - destruct (String.eqb_spec b "").
          + subst b. cbn in Ek. destruct (negb _); discriminate.
          + unfold wrapper_kind in Ek. destruct (in_prefer b) eqn:Ep.
            * destruct (true && _); [discriminate|]. destruct (String.eqb_spec b "mpi"); [subst; discriminate|discriminate].
            * cbn [andb] in Ek. destruct (String.eqb_spec b "mpi"); [congruence|discriminate].
        - cbn in Ek. destruct (negb _); discriminate. }
      intros mode Hmode. rewrite (fa_bounds _ _ _ _ HA). cbn [nd_len].
      eapply gives_bind; [apply gives_any|]. intros [lo up] _. rewrite HC.
      eapply gives_bind; [apply (gives_ret _ (fun m => m = true)); reflexivity|]. intros pen ->.
      eapply gives_bind; [apply gives_any|]. intros xm _. eapply gives_bind; [apply gives_any|]. intros mu _.
      apply gives_ret. cbn. auto.
    - intros [xm P0] (Hmode & Hpen & Hd). cbn [fst snd] in *. cbv zeta.
      eapply gives_bind; [apply gives_any|]. intros z _.
      eapply gives_bind; [apply gives_any|]. intros [nout ilim] _. apply gives_ret. cbn [fst snd cm_mode cm_pen vs_pen vs_xold].
      rewrite Hd. split; [exact Hmode|]. split; [exact Hpen|]. split; [apply pen_start|apply HEl].
  Qed.

  Lemma vbest_above P s : VPar d P -> WP d P s -> Above (d_x (vd_drv P) s) (d_fun (vd_drv P) s).
  Proof.
    intros HP [H1 _ H6]. cbn [d_x d_fun vd_drv]. unfold vd_best. rewrite (vq_index _ _ _ H1).
    pose proof (proj1 (eo_argsort HE) (vs_fit s)) as Hperm. pose proof (vp_mu _ _ HP) as Hmu.
    pose proof (vq_fit _ _ _ H1) as Lf. pose proof (vq_p _ _ _ H1) as Lp.
    assert (Hin : In (nth 0 (e_argsort (vs_fit s)) 0%nat) (e_argsort (vs_fit s))).
    { apply nth_In. rewrite (Permutation_length Hperm), seq_length. change (length (vs_fit s)) with (length (vs_fit s : list er)). elia. }
    apply (Permutation_in _ Hperm), in_seq in Hin.
    assert (Hk : (nth 0 (e_argsort (vs_fit s)) 0%nat < length (vs_valid s))%nat) by elia. clear - H6 Hk.
    revert Hk. generalize (nth 0 (e_argsort (vs_fit s)) 0%nat). induction H6 as [|x y l l' Hxy H6 IH]; intros [|k] Hk; cbn [length nth] in *; try lia; [exact Hxy|]. apply IH. lia.
  Qed.

  Lemma vrun_inv w P s0 w0 cb j t : vd_begin A w = (inl (P, s0), w0) -> (exists x, In x (vs_vvec s0) /\ x <> Fin 0) ->
    visited (vd_drv P) cb Moved 0 s0 w0 j t -> VPar d P /\ cm_mode P <> Mpi /\ cm_pen P = true /\ WP d P t.
  Proof.
    intros Hs Hv HVis. destruct (safe_gives _ _ _ _ (begin_ok HE HN A rows sg mp HA Hrows (fun H => match HB H with end) (fun _ _ => True)) _ _ _ Hs) as (HP & _ & _ & HI).
    destruct (begin_pen _ _ _ Hs) as (Hm & Hpt & Hpen & Lo). cbn [fst snd] in *.
    split; [exact HP|]. split; [exact Hm|]. split; [exact Hpt|].
    eapply (visited_inv (N := ENum) (vd_drv P) cb _ (fun _ => WI d P) (fun _ s => WP d P s)); [| |exact HVis|].
    - intros it s H. eapply safe_gives, (vstep_both HN HPct HMed HV d (fun _ _ => True)); assumption.
    - intros it s H HM. apply gives_ret. eapply wp_wi; eassumption.
    - split; [apply HI, Hv|split; assumption].
  Qed.

  (** C30 for vdcma.  In every state the loop reaches while the mean keeps moving, the fitness of a row
      is a value of the objective at the (clipped) row plus a non-negative amount. *)
  Theorem C30_states_vdcma w P s0 w0 cb j t : vd_begin A w = (inl (P, s0), w0) -> (exists x, In x (vs_vvec s0) /\ x <> Fin 0) ->
    visited (vd_drv P) cb Moved 0 s0 w0 j t -> Forall2 Above (map (cma_un P) (vs_valid t)) (vs_fit t).
  Proof.
    intros Hs Hv HVis. destruct (vrun_inv _ _ _ _ _ _ _ Hs Hv HVis) as (_ & _ & _ & [_ _ HPP]).
    unfold PenP in HPP. clear - HPP. induction HPP; constructor; auto.
  Qed.

  (** what [safe] says of one run *)
  Lemma vpen_run w : Moves A w ->
    exists evs, tr (snd (vdcma_minimize A w)) = tr w ++ evs /\ Forall (shown (FinPt d) (fun _ st => Above (cb_x st) (cb_fun st))) evs /\
      (forall r, fst (vdcma_minimize A w) = inl r -> Above (r_x r) (r_fun r)).
  Proof.
    intros HM. rewrite vdcma_begin, bind_at.
    destruct (begin_ok HE HN A rows sg mp HA Hrows (fun H => match HB H with end) (fun _ st => Above (cb_x st) (cb_fun st)) w) as (e1 & T1 & F1 & G1).
    unfold Moves in HM. pose proof (begin_pen w) as HG.
    destruct (vd_begin A w) as [[[P s0]|e] w0]; cbn [fst snd] in *.
    2: { exists e1. split; [exact T1|]. split; [exact F1|discriminate]. }
    destruct (G1 _ eq_refl) as (HP & _ & _ & HI). cbn [fst snd] in *. destruct (HM _ _ _ eq_refl) as [Hv HQ].
    destruct (HG _ _ eq_refl) as (Hm & Hpt & Hpen & Lo). cbn [fst snd] in *.
    destruct (safe_drive_vis (N := ENum) (FinPt d) (fun _ st => Above (cb_x st) (cb_fun st)) (vd_drv P) (WI d P) (WP d P) Moved (has_cb (caa A)))
      with (fuel := fuel (a_maxiter (caa A))) (it := 0%Z) (s := s0) (w := w0) as (e2 & T2 & F2 & G2).
    - intros it s Hs. apply vstep_both; assumption.
    - intros it s Hs Hq. apply safe_ret. eapply wp_wi; eassumption.
    - intros it s Hs _. apply vbest_above; assumption.
    - split; [apply HI, Hv|split; assumption].
    - exact HQ.
    - exists (e1 ++ e2). rewrite T2, T1, app_assoc. split; [reflexivity|]. split; [apply Forall_app; auto|].
      intros r Hr. destruct (G2 r Hr) as (t & Ht & -> & ->). apply vbest_above; assumption.
  Qed.

  (** C30 for vdcma.  The fun of the result, and of every state handed to the callback, is a value of
      the objective at its x plus a non-negative amount. *)
  Theorem C30_fun_vdcma w a0 r st' : Moves A (mkSt w [] a0) -> exec (vdcma_minimize A) w a0 = (r, st') ->
    (forall X st, In (X, st) (cbs (tr st')) -> Above (cb_x st) (cb_fun st)) /\
    (forall res, r = inl res -> Above (r_x res) (r_fun res)).
  Proof.
    intros HM Hx. destruct (vpen_run _ HM) as (evs & HT & HF & HR). unfold exec in Hx. rewrite Hx in HT, HR. cbn [fst snd tr app] in HT, HR.
    rewrite HT. split; [|exact HR]. intros X st Hin. clear - Hin HF. induction HF as [|ev evs Hev HF IH]; [destruct Hin|].
    destruct ev; cbn in Hin; auto. destruct Hin as [Hin|Hin]; auto. injection Hin as <- <-. exact Hev.
  Qed.

  (** C65 *)
  Lemma cal_begin : ReadyCMA A -> cal (cma_exn false false) (vd_begin A) (fun Ps : @CMAParams ENum * @VDS ENum =>
    room1 (cm_p (fst Ps)) (cm_nout (fst Ps)) /\ cm_maxiter (fst Ps) = a_maxiter (caa A) /\ HistP (vs_pen (snd Ps)) /\ cm_p (fst Ps) = Z.to_nat (a_popsize (caa A))).
  Proof.
    intros HRd. unfold vd_begin. eapply cal_bind; [apply cal_silent, silent_cma_check, HRd|]. intros _ _.
    unfold vd_prefix. cbv zeta. eapply cal_bind; [apply cal_setup, HRd|]. intros [xm P0] (H1 & H2 & H3). cbn [snd] in *.
    eapply cal_bind; [apply cal_silent, silent_randn_vec|]. intros z _.
    eapply cal_bind; [apply cal_alloc, HRd|]. intros [nout ilim] H4. cbn [fst] in H4. rewrite <- H1 in H4.
    apply cal_ret. cbn [fst snd cm_p cm_nout cm_maxiter vs_pen]. split; [exact H4|]. split; [exact H3|]. split; [apply hist_start|exact H1].
  Qed.

  Lemma cal_vfit P it s (arx : list (list er)) : VPar d P -> VI P s -> PenI d (vs_pen s) -> HistP (vs_pen s) -> cm_mode P <> Mpi -> cm_pen P = true ->
    length arx = cm_p P -> Forall (FinPt d) arx ->
    cal (cma_exn false false) (cma_fitness P arx (vs_xmean s) (vs_xold s) (vs_sigma s) (@vd_diagC EArith (cm_d P) (vs_dvec s) (vs_vvec s)) it (vs_pen s))
      (fun r : evec * @matrix EArith * @PenState ENum => HistP (snd r)).
  Proof.
    intros HP [HI Hsg] Hpen HH Hm Hpt La Fa. unfold cma_fitness. rewrite Hpt, (vp_d _ _ HP). destruct (vdiag_posf d P s HP HI) as [FC LC].
    destruct (vp_mu _ _ HP) as [Hmu1 Hmup]. pose proof (vp_d1 _ _ HP) as Hd.
    apply (cal_pen HPct); try assumption.
    - intros ->. cbn in La. elia.
    - intros HCC. change (@num_arith ENum) with EArith in HCC. rewrite HCC in LC. cbn in LC. lia.
    - exact (pi_hist _ _ Hpen).
    - match goal with |- cal _ ?m _ => pose proof (cal_gives _ m _ _ (cal_cma_eval false false P _ HE) (eval_val P _ (EnvOK_mode HE _) Hm)) as HG end.
      eapply cal_conseq; [exact HG | auto |]. intros f [H1 H2]. rewrite map_length in H1. split; [exact H1|].
      clear - H2 HV. induction H2; constructor; eauto.
  Qed.

  Lemma cal_vstep P it s : VPar d P -> WI d P s -> HistP (vs_pen s) -> cm_mode P <> Mpi -> cm_pen P = true ->
    (2 <= cm_p P)%nat -> room1 (cm_p P) (cm_nout P) -> (it <= cm_maxiter P)%Z ->
    cal (cma_exn false false) (vd_step P it s)
      (fun r : @VDS ENum * option Z => known it (cm_maxiter P) (snd r) /\ HistP (vs_pen (fst r))).
  Proof.
    intros HP (HI & Hpen & Lo) HH Hm Hpt H2p Hr Hi. unfold vd_step. cbv zeta.
    eapply cal_bind with (R := fun ary : list (list er) => length ary = cm_p P /\ Forall (FinPt d) ary).
    { eapply cal_conseq; [apply cal_gives; [exact (cal_vd_sample (N := ENum) _ P s H2p)|eapply safe_gives, (vd_sample_ok HN d (fun _ _ => True) P s HP (proj1 HI))] | intros e He; exact He |].
      intros arx [_ H]. exact H. }
    intros ary [La Fa].
    eapply cal_bind with (R := fun r : evec * @matrix EArith * @PenState ENum =>
      HistP (snd r) /\ length (fst (fst r)) = cm_p P /\ length (snd (fst r)) = cm_p P).
    { apply cal_gives; [apply cal_vfit; try assumption; [rewrite map_length; exact La|apply (arx_fins d P s ary HP HI Fa)]|].
      intros w [[fit valid] pen] w' Hx.
      match type of Hx with @cma_fitness _ _ ?P ?arx ?xm ?xo ?sg ?dc ?it ?pn _ = _ => pose proof (cal_fitness false P arx xm xo sg dc it pn HE ltac:(rewrite map_length; exact La) w) as H end.
      change (@num_arith ENum) with EArith in *. rewrite Hx in H. exact H. }
    intros [[fit valid] pen] (H1 & H2 & H3). cbn [fst snd] in H1, H2, H3.
    eapply cal_bind; [eapply cal_calm; [apply calm_record; assumption | left; assumption]|]. intros r _.
    eapply cal_bind; [eapply cal_calm; [apply calm_hist_set; assumption | left; assumption]|]. intros hist _.
    destruct (vd_sigma P s (e_argsort fit)) as [[ps sigma] cond].
    match goal with |- cal _ (match ?X with pair _ _ => _ end) _ => destruct X as [v dv] end.
    apply cal_ret. split; [apply known_converge | exact H1].
  Qed.

  (** C65 in exact arithmetic for vdcma with Penalize: only user code can raise. *)
  Theorem C65_penalize_vdcma w a0 e st' : ReadyCMA A -> (2 <= a_popsize (caa A))%Z -> Moves A (mkSt w [] a0) ->
    exec (vdcma_minimize A) w a0 = (inr e, st') -> exists n, e = UserError n /\ user_raises n.
  Proof.
    intros HRd H2p HM Hx. assert (H : cma_exn false false e).
    { unfold exec in Hx. rewrite vdcma_begin, bind_at in Hx. unfold Moves in HM.
      pose proof (cal_begin HRd (mkSt w [] a0)) as G1. pose proof (begin_pen (mkSt w [] a0)) as G2.
      pose proof (safe_gives _ _ _ _ (begin_ok HE HN A rows sg mp HA Hrows (fun H => match HB H with end) (fun _ _ => True)) (mkSt w [] a0)) as G3.
      destruct (vd_begin A (mkSt w [] a0)) as [[[P s0]|e0] w0]; cbn [fst snd] in *.
      2: { injection Hx as <- <-. exact G1. }
      destruct G1 as (K1 & K2 & K3 & K4). destruct (G2 _ _ eq_refl) as (Hm & Hpt & Hpen & Lo). destruct (G3 _ _ eq_refl) as (HP & _ & _ & HI).
      destruct (HM _ _ _ eq_refl) as [Hv HQ]. cbn [fst snd] in *.
      refine (cal_drive_vis (N := ENum) (cma_exn false false) (vd_drv P) (a_maxiter (caa A)) (has_cb (caa A))
        (fun s => WI d P s /\ HistP (vs_pen s)) (fun s => WP d P s /\ HistP (vs_pen s)) Moved _ _ _ (fuel (a_maxiter (caa A))) 0%Z s0 w0 _ _ HQ e _).
      - intros e1 He. left. exact He.
      - intros it s Hit [HW HH]. cbn [d_step vd_drv]. rewrite <- K2 in *.
        eapply cal_conseq; [apply cal_gives; [apply cal_vstep; try assumption; elia|
          eapply safe_gives, (vstep_both HN HPct HMed HV d (fun _ _ => True)); eassumption] | auto |].
        intros r ((J1 & J2) & J3). split; [exact J1|]. split; assumption.
      - intros it s [HW HH] Hq. apply cal_ret. split; [eapply wp_wi; eassumption|exact HH].
      - pose proof (rc_mx _ HRd). lia.
      - split; [split; [apply HI, Hv|split; assumption]|exact K3].
      - rewrite Hx. reflexivity. }
    destruct H as [[H| ->] | [[H _] | (H & _)]]; try discriminate; [|destruct (C01_terminates_cma (CallVD A) w a0 st' HE Hx)].
    exact H.
  Qed.
  Theorem C65_penalize_vdcma_returns w a0 : ReadyCMA A -> (2 <= a_popsize (caa A))%Z -> Moves A (mkSt w [] a0) -> (forall n, ~ user_raises n) ->
    exists res st', exec (vdcma_minimize A) w a0 = (inl res, st').
  Proof.
    intros HRd H2p HM Hn. destruct (exec (vdcma_minimize A) w a0) as [[res|e] st'] eqn:Hx; [eauto|].
    destruct (C65_penalize_vdcma w a0 e st' HRd H2p HM Hx) as (n & _ & H). destruct (Hn n H).
  Qed.
End Thm.
