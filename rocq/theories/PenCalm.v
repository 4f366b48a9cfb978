(** C65 in exact arithmetic: cmaes with Penalize does not raise ValueError when the objective values
    are finite. *)
From Coq Require Import Reals Lra Psatz Permutation.
From Verif Require Import Base Num NumR NumE Env Common DE CPSO NA Mat CMAES VDCMA Weights Hoare EvalRules EvalVal Gen Steps Runs Inst Laws
  Safe Feas FeasPso DimCma VdReal Visit VdRun Cov CmReal CmRun Pen PenRun Disc Valid Accept Enough PropPop PropCma Calm CalmCma.
Open Scope R_scope.

Section Meet.
  Context {N : Num} {E : Env N}.
  Lemma cal_gives {A} (X : Exn -> Prop) (m : M A) (Q R : A -> Prop) : cal X m Q -> gives m R -> cal X m (fun a => Q a /\ R a).
  Proof.
    intros H1 H2 s. specialize (H1 s). destruct (m s) as [[a|e] s'] eqn:Hm; cbn in *; [|exact H1].
    split; [exact H1 | exact (H2 _ _ _ Hm)].
  Qed.
  Lemma cal_drive_inv {S} (X : Exn -> Prop) (d : Drv S) mx cb (Inv : S -> Prop) : (forall e, foreign e -> X e) ->
    (forall it s, (it <= mx)%Z -> Inv s -> cal X (d_step d it s) (fun r => known it mx (snd r) /\ Inv (fst r))) ->
    (forall it s, Inv s -> cal X (d_post d it s) Inv) ->
    forall fuel it s, (it < mx)%Z -> Inv s -> cal X (drive d cb fuel it s) (fun _ => True).
  Proof.
    intros HX H1 H2. induction fuel as [|k IH]; intros it s Hi Hs; cbn [drive].
    { intros st. apply HX. right. reflexivity. }
    eapply cal_bind; [apply H1; [lia|exact Hs]|]. intros [s' o] [Ho Hs']. cbn [fst snd] in *.
    eapply cal_bind; [eapply cal_calm; [apply calm_when, calm_cb | exact HX]|]. intros _ _.
    destruct o as [c|]; cbn [known] in Ho.
    - unfold result. destruct (message c) as [msg|]; [|congruence].
      eapply cal_bind; [apply (cal_ret _ msg (fun _ => True) I)|]. intros; apply cal_ret; exact I.
    - eapply cal_bind; [apply H2, Hs'|]. intros s'' Hs''. apply IH; assumption.
  Qed.
End Meet.

(** the history of the penalty has a positive entry *)
Definition HistP (st : @PenState ENum) : Prop := filter (fun x => @nltb EArith (@n0 EArith) x) (pen_hist st) <> [].
Lemma hist_last (l : list er) x : posf x -> filter (fun x => @nltb EArith (@n0 EArith) x) (l ++ [x]) <> [].
Proof.
  intros Hx H. rewrite filter_app in H. apply app_eq_nil in H. destruct H as [_ H]. cbn [filter] in H.
  destruct x as [r| | |]; try contradiction. cbn in H, Hx. replace (Rltb _ r) with true in H; [discriminate|].
  symmetry. apply Rltb_true. unfold Rlit. cbn. lra.
Qed.
Lemma hist_start d : HistP (@cma_init_pen ENum d).
Proof.
  unfold HistP, cma_init_pen. cbn [pen_hist]. apply (hist_last []). cbn. unfold Rlit. cbn. lra.
Qed.

Section Run.
  Context {E : Env ENum} (HE : EnvOK) (HN : forall g, isfin (fst (e_randn g))) (HD : EighPD) (HPct : PctOK) (HMed : MedOK).
  Hypothesis HV : forall (x : list er) (y : er), Val x y -> isfin y.
  Variable d : nat.

  Lemma cal_pen (X : Exn -> Prop) p (arx : list (list er)) xmean xold sigma diagC mueff it (st : @PenState ENum) fn :
    (1 <= d)%nat -> arx <> [] -> posf sigma -> diagC <> [] -> Forall posf diagC -> Forall nnf (pen_hist st) -> HistP st ->
    cal X (fn (map (map (@clip1 EArith)) arx)) (fun f => length f = length arx /\ fins f) ->
    cal X (penalize p d arx xmean xold sigma diagC mueff it st fn)
      (fun r : evec * @matrix EArith * @PenState ENum => HistP (snd r)).
  Proof.
    intros Hd Ha Hs HC FC FH HH Hfn. unfold penalize. cbv zeta.
    eapply cal_bind; [exact Hfn|]. intros f [Lf Ff]. cbv beta in Lf, Ff.
    assert (Nf : f <> []) by (intros ->; destruct arx; [congruence|discriminate]).
    pose proof (delta_nnf HPct f d diagC sigma Nf Ff Hd HC FC Hs) as Hdel.
    change (@num_arith ENum) with EArith in *.
    match goal with |- context [@neqb _ ?x _] => set (delta := x : er) in * end. change (nnf delta) in Hdel. clearbody delta.
    eapply cal_bind with (R := fun r : er * evec * bool => posf (fst (fst r))).
    { destruct (@neqb EArith delta _) eqn:Hz.
      - unfold HistP in HH. destruct (filter _ _) as [|q l] eqn:EF; [congruence|]. apply cal_ret. cbn [fst].
        assert (Hin : In (@vmin ENum (q :: l)) (filter (fun x => @nltb EArith (@n0 EArith) x) (pen_hist st))) by (rewrite EF; apply vmin_in; discriminate).
        apply filter_In in Hin. destruct Hin as [Hin0 Hin]. rewrite Forall_forall in FH. specialize (FH _ Hin0). change (@num_arith ENum) with EArith in *.
        destruct (@vmin ENum (q :: l)) as [r| | |]; cbn in Hin, FH |- *; try contradiction.
        apply Rltb_true in Hin. unfold Rlit in Hin. cbn in Hin. lra.
      - assert (Hp : posf delta).
        { destruct delta as [r| | |]; try contradiction. unfold n0, nZ in Hz. cbn [neqb nlit EArith er_eqb] in Hz. rewrite Rlit_0 in Hz.
          cbn in Hdel |- *. destruct (Req_EM_T r 0) as [->|Hne]; [|lra].
          exfalso. assert (Reqb 0 0 = true) by (apply Reqb_true; reflexivity). congruence. }
        destruct (negb _); apply cal_ret; exact Hp. }
    intros [[delta' hist] valid] Hp. cbn [fst] in Hp.
    match goal with |- context [mkPen _ ?h _ _] => set (hist' := h) end.
    assert (Hh' : filter (fun x => @nltb EArith (@n0 EArith) x) hist' <> []).
    { unfold hist'. match goal with |- context [if ?b then _ else _] => destruct b end; apply hist_last, Hp. }
    clearbody hist'.
    match goal with |- cal _ (match ?x with pair _ _ => _ end) _ => destruct x as [w0 ini] end.
    apply cal_ret. exact Hh'.
  Qed.

  Lemma cal_fit P it s (arx : list (list er)) : CRun d P -> CmI d s -> PenI d (cs_pen s) -> HistP (cs_pen s) -> cm_mode P <> Mpi -> cm_pen P = true ->
    length arx = cm_p P -> Forall (FinPt d) arx ->
    cal (cma_exn false true) (cma_fitness P arx (cs_xmean s) (cs_xold s) (cs_sigma s) (@mdiag EArith (cs_C s)) it (cs_pen s))
      (fun r : evec * @matrix EArith * @PenState ENum => HistP (snd r)).
  Proof.
    intros HP HI Hpen HH Hm Hpt La Fa. unfold cma_fitness. rewrite Hpt, (cr_d _ _ HP). destruct (diag_posf d s HI) as [FC LC].
    destruct (cr_mu _ _ HP) as [Hmu1 Hmup]. pose proof (cr_d1 _ _ HP) as Hd.
    apply cal_pen; try assumption.
    - intros ->. cbn in La. elia.
    - exact (ci_sg _ _ HI).
    - intros HC. change (@num_arith ENum) with EArith in HC. rewrite HC in LC. cbn in LC. lia.
    - exact (pi_hist _ _ Hpen).
    - match goal with |- cal _ ?m _ => pose proof (cal_gives _ m _ _ (cal_cma_eval false true P _ HE) (eval_val P _ (EnvOK_mode HE _) Hm)) as HG end.
      eapply cal_conseq; [exact HG | auto |]. intros f [H1 H2]. rewrite map_length in H1. split; [exact H1|].
      clear - H2 HV. induction H2; constructor; eauto.
  Qed.

  Lemma cal_step_pen P it s : CRun d P -> CmI d s -> PenI d (cs_pen s) -> HistP (cs_pen s) -> cm_mode P <> Mpi -> cm_pen P = true ->
    room1 (cm_p P) (cm_nout P) -> (it <= cm_maxiter P)%Z ->
    cal (cma_exn false true) (cma_step P it s)
      (fun r : @CMAS ENum * option Z => known it (cm_maxiter P) (snd r) /\ HistP (cs_pen (fst r))).
  Proof.
    intros HP HI Hpen HH Hm Hpt Hr Hi. unfold cma_step. cbv zeta.
    eapply cal_bind with (R := fun arx : list (list er) => length arx = cm_p P /\ Forall (FinPt d) arx).
    { eapply cal_conseq; [apply cal_gives; [|eapply safe_gives, (sample_ok HN d (fun _ _ => True) P s HP HI)] | intros e He; exact He |].
      - apply cal_silent. unfold cma_sample. eapply silent_replicateM. eapply silent_bind; [apply silent_randn_vec|].
        intros z _. apply (silent_ret _ (fun _ => True)). exact I.
      - intros arx [_ H]. exact H. }
    intros arx [La Fa].
    eapply cal_bind with (R := fun r : evec * @matrix EArith * @PenState ENum =>
      HistP (snd r) /\ length (fst (fst r)) = cm_p P /\ length (snd (fst r)) = cm_p P).
    { apply cal_gives; [apply cal_fit; assumption|].
      intros w [[fit valid] pen] w' Hx.
      pose proof (cal_fitness true P arx (cs_xmean s) (cs_xold s) (cs_sigma s) (@mdiag EArith (cs_C s)) it (cs_pen s) HE La w) as H.
      change (@num_arith ENum) with EArith in *. rewrite Hx in H. exact H. }
    intros [[fit valid] pen] (H1 & H2 & H3). cbn [fst snd] in H1, H2, H3.
    eapply cal_bind; [eapply cal_calm; [apply calm_record; assumption | left; assumption]|]. intros r _.
    eapply cal_bind; [eapply cal_calm; [apply calm_hist_set; assumption | left; assumption]|]. intros hist _.
    eapply cal_bind with (R := fun _ => True).
    { destruct (nltb _ _); [|apply cal_ret; exact I].
      destruct (e_eigh _) as [[D B]|] eqn:He.
      - eapply cal_bind; [apply (cal_ret _ (D, B) (fun _ => True)); exact I|]. intros [D' B'] _.
        apply cal_ret; exact I.
      - eapply cal_bind with (R := fun _ => True); [|intros [D' B'] _; apply cal_ret; exact I].
        apply cal_raise. right. right. eauto. }
    intros [[[[B D] C] inv] ee] _. apply cal_ret. split; [apply known_converge | exact H1].
  Qed.
End Run.

Section Thm.
  Context {E : Env ENum} (HE : EnvOK) (HN : forall g, isfin (fst (e_randn g))) (HD : EighPD) (HPct : PctOK) (HMed : MedOK) (HEl : EmptyLen).
  Hypothesis HV : forall (x : list er) (y : er), Val x y -> isfin y.
  Variables (A : @CMAArgs ENum) (rows : list (list er)) (sg mp : R).
  Context (HA : FiniteArgs A rows sg mp) (Hrows : rows <> []) (HR : RatesLt (length rows) mp (a_popsize (caa A))).
  Context (HB : a_backend (caa A) <> Some "mpi"%string) (HC : a_constraints (caa A) = Some "Penalize"%string).

  Lemma cal_start : ReadyCMA A -> cal (cma_exn false true) (cm_start A) (fun Ps : @CMAParams ENum * @CMAS ENum =>
    room1 (cm_p (fst Ps)) (cm_nout (fst Ps)) /\ cm_maxiter (fst Ps) = a_maxiter (caa A) /\ HistP (cs_pen (snd Ps))).
  Proof.
    intros HRd. unfold cm_start. eapply cal_bind; [apply cal_silent, silent_cma_check, HRd|]. intros _ _.
    unfold cm_prefix. cbv zeta. eapply cal_bind; [apply cal_setup, HRd|]. intros [xm P0] (H1 & H2 & H3). cbn [snd] in *.
    eapply cal_bind; [apply cal_alloc, HRd|]. intros [nout ilim] H4. cbn [fst] in H4. rewrite <- H1 in H4.
    apply cal_ret. cbn [fst snd cm_p cm_nout cm_maxiter cs_pen]. split; [exact H4|]. split; [exact H3|apply hist_start].
  Qed.

  Lemma cal_run : ReadyCMA A -> cal (cma_exn false true) (cmaes_minimize A) (fun _ => True).
  Proof.
    intros HRd s. rewrite cmaes_start. revert s.
    match goal with |- forall s, match fst (?m s) with _ => _ end => change (cal (cma_exn false true) m (fun _ => True)) end.
    eapply cal_bind; [apply cal_gives; [apply cal_start, HRd|]|].
    { intros w1 Ps w2 HPs. exact (conj (CmRun.start_gives HE A rows sg mp HA Hrows HR (hb_mpi A rows HB) _ _ _ HPs) (start_pen HEl A rows sg mp HA HB HC _ _ _ HPs)). }
    intros [P s0] ((H1 & H2 & H3) & (HP & HI & _) & Hm & Hpt & Hpen & Lo). cbn [fst snd] in *.
    apply (cal_drive_inv _ _ (a_maxiter (caa A)) _ (fun s => PenRun.PI rows s /\ HistP (cs_pen s))).
    - intros e He. left. exact He.
    - intros it s Hit [(HI' & Hpen' & Lo') HH]. cbn [d_step cma_drv]. rewrite <- H2 in *.
      eapply cal_conseq; [apply cal_gives; [eapply (cal_step_pen HE HN HPct HV (length rows)); eassumption|
        eapply safe_gives, (step_both HE HN HD HPct HMed HV rows (fun _ _ => True)); try eassumption; split; [exact HI'|split; assumption]] | auto |].
      intros r ((K1 & K2) & K3 & _). split; [exact K1|]. split; assumption.
    - intros it s Hs. apply cal_ret. exact Hs.
    - pose proof (rc_mx _ HRd). lia.
    - split; [split; [exact HI|split; assumption]|exact H3].
  Qed.

  (** C65 in exact arithmetic, with Penalize and finite objective values: no ValueError. *)
  Theorem C65_penalize_exact w a0 e st' : ReadyCMA A -> exec (cmaes_minimize A) w a0 = (inr e, st') ->
    (exists n, e = UserError n /\ user_raises n) \/ (e = LinAlgError /\ exists C, e_eigh C = None).
  Proof.
    intros HRd Hx. pose proof (cal_run HRd (mkSt w [] a0)) as H. unfold exec in Hx. rewrite Hx in H.
    destruct H as [[H| ->] | [[H _] | (_ & -> & H)]]; auto; [|discriminate].
    destruct (C01_terminates_cma (CallCMA A) w a0 st' HE Hx).
  Qed.
  Theorem C65_penalize_returns w a0 : ReadyCMA A -> (forall n, ~ user_raises n) -> (forall C, e_eigh C <> None) ->
    exists res st', exec (cmaes_minimize A) w a0 = (inl res, st').
  Proof.
    intros HRd Hn He. destruct (exec (cmaes_minimize A) w a0) as [[res|e] st'] eqn:Hx; [eauto|].
    destruct (C65_penalize_exact w a0 e st' HRd Hx) as [(n & _ & H) | (_ & C & H)]; [destruct (Hn n H) | destruct (He C H)].
  Qed.
End Thm.
