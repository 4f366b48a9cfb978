(** C28 and C54: calls of cmaes that meet the hypotheses of the theorems (exact arithmetic). *)
From Coq Require Import Reals Lra.
From Verif Require Import Base Num NumR NumE Env Common DE Mat CMAES VDCMA Weights Inst PlainEnv FeasPso FeasEx VdReal Visit VdRun VdRunEx Cov CmReal CmRun.
Open Scope R_scope.
#[local] Existing Instance EV.

Lemma ev_eigh : EighPD.
Proof.
  intros d C D B [LC FC] _ _ H. cbn in H. injection H as <- <-. rewrite !map_length.
  split; [exact LC|]. split; [|split; [exact LC|apply mfin_fins]].
  apply Forall_forall. intros x Hx. apply in_map_iff in Hx. destruct Hx as (r & <- & _). cbn. unfold Rlit. cbn. lra.
Qed.

Lemma total_raise_if b e : b = false -> total (raise_if b e).
Proof. intros ->. apply total_ret. Qed.

Lemma total_cm_start d : total (cm_start (vargs d)).
Proof.
  unfold cm_start. apply total_bind0.
  - unfold cma_check. cbv zeta.
    apply total_bind0; [apply total_raise_if; reflexivity|]. intros _.
    apply total_bind0; [apply total_raise_if; reflexivity|]. intros _.
    apply total_bind0; [apply total_raise_if|].
    { cbn [vargs caa a_x0 a_bounds nd_len ndim_is]. unfold vrows. rewrite !repeat_length, Nat.eqb_refl. reflexivity. }
    intros _. apply total_bind0; [apply total_raise_if|].
    { cbn. apply Rleb_false. lra. }
    intros _. apply total_bind0; [apply total_raise_if|].
    { unfold outside_open. cbn. apply Bool.negb_false_iff, andb_true_iff. split; [apply Rltb_true|apply Rleb_true]; lra. }
    intros _. unfold seed_and_cb. apply total_bind0; [intros w; eexists; eexists; reflexivity|]. intros _. apply total_raise_if. reflexivity.
  - intros _. unfold cm_prefix. apply total_bind0.
    + unfold cma_setup. cbn. apply total_bind0; [apply total_ret|]. intros mode. apply total_bind0; [apply total_ret|]. intros [lo up].
      apply total_bind0; [apply total_ret|]. intros pen. apply total_bind0; [apply total_ret|]. intros xm.
      apply total_bind0; [apply total_ret|]. intros mu. apply total_ret.
    + intros [xm P0]. apply total_bind0; [|intros [nout ilim]; apply total_ret].
      unfold cma_alloc. cbv zeta. apply total_bind0; [apply total_ret|]. intros nout.
      apply total_bind0; [apply total_ret|]. intros _. apply total_bind0; [apply total_ret|]. intros _. apply total_bind0; [apply total_ret|]. intros _.
      apply total_bind0; [|intros; apply total_ret]. rewrite nN_E. unfold nZ. cbn [num_arith ENum EArith nadd nmul ndiv nlit er_mul].
      rewrite div_fin by (unfold Rlit; cbn; lra). apply total_ret.
Qed.

Lemma start_facts d : gives (cm_start (vargs d)) (fun Ps => let P := fst Ps in
  cm_pen P = false /\ cm_mode P = Serial /\ cm_nout P = None /\ cm_maxiter P = 5%Z).
Proof.
  unfold cm_start. eapply gives_bind; [apply gives_any|]. intros _ _. unfold cm_prefix.
  eapply gives_bind with (R := fun xP : evec * @CMAParams ENum =>
    cm_pen (snd xP) = false /\ cm_mode (snd xP) = Serial /\ cm_maxiter (snd xP) = 5%Z).
  - unfold cma_setup. eapply gives_bind; [apply (gives_ret _ (fun m => m = Serial)); reflexivity|]. intros mode ->.
    eapply gives_bind; [apply gives_any|]. intros [lo up] _.
    eapply gives_bind; [apply (gives_ret _ (fun m => m = false)); reflexivity|]. intros pen ->.
    eapply gives_bind; [apply gives_any|]. intros xm _. eapply gives_bind; [apply gives_any|]. intros mu _.
    apply gives_ret. cbn. auto.
  - intros [xm P0] (Hpen & Hmode & Hmax). cbn [fst snd] in *.
    eapply gives_bind with (R := fun x => fst x = None).
    + unfold cma_alloc. eapply gives_bind; [apply (gives_ret _ (fun m => m = None)); reflexivity|]. intros nout ->.
      eapply gives_bind; [apply gives_any|]. intros _ _. eapply gives_bind; [apply gives_any|]. intros _ _. eapply gives_bind; [apply gives_any|]. intros _ _.
      eapply gives_bind; [apply gives_any|]. intros ilim _. apply gives_ret. reflexivity.
    + intros [nout ilim] Hn. cbn [fst] in Hn. subst nout. apply gives_ret. cbn. auto.
Qed.

Lemma total_cm_step P s it : cm_pen P = false -> cm_mode P = Serial -> cm_nout P = None -> (it <= cm_maxiter P)%Z ->
  total (cma_step P it s).
Proof.
  intros H1 H2 H3 H4. unfold cma_step. cbv zeta. apply total_bind0.
  - unfold cma_sample. apply total_replicateM, total_bind0; [apply total_replicateM, total_draw|]. intros. apply total_ret.
  - intros arx. apply total_bind0.
    + unfold cma_fitness. rewrite H1. apply total_bind0; [|intros; apply total_ret]. unfold cma_eval. rewrite H2.
      apply total_bind0; [|intros [x f]; apply total_ret]. apply total_bind0; [|intros; apply total_ret].
      apply total_mapM. intros x w. eexists. eexists. reflexivity.
    + intros [[fit valid] pen]. apply total_bind0.
      * unfold cma_record, rec_write. rewrite H3. apply total_ret.
      * intros r. apply total_bind0.
        { unfold hist_set. destruct (Z.ltb_spec (cm_maxiter P) it); [lia|]. apply total_ret. }
        intros hist. apply total_bind0; [|intros [[[[B D] C] inv] ee]; apply total_ret].
        match goal with |- total (if ?b then _ else _) => destruct b end; [|apply total_ret].
        apply total_bind0; [apply total_ret|]. intros [D B]. apply total_ret.
Qed.

(** A call of cmaes on the box [-1,1]^d whose first iteration is carried out. *)
Theorem C28_hypotheses d : (1 <= d)%nat -> exists w P s0 w0 t,
  EnvOK /\ (forall g, isfin (fst (e_randn g))) /\ EighPD /\ FiniteArgs (vargs d) (vrows d) (1 / 10) (1 / 2) /\
  length (vrows d) = d /\ vrows d <> [] /\ RatesLt d (1 / 2) (a_popsize (caa (vargs d))) /\ a_backend (caa (vargs d)) = None /\
  cm_start (vargs d) w = (inl (P, s0), w0) /\ visited (cma_drv P) false (fun _ => True) 0 s0 w0 1 t.
Proof.
  intros Hd. destruct (total_cm_start d (@mkSt ENum EV (0%nat, tt) [] None)) as ([P s0] & w0 & EP).
  destruct (start_facts d _ _ _ EP) as (H1 & H2 & H3 & H4). cbn [fst] in *.
  destruct (total_cm_step P s0 1 H1 H2 H3 ltac:(lia) w0) as ([t st] & w1 & ET).
  exists (@mkSt ENum EV (0%nat, tt) [] None), P, s0, w0, t.
  split; [exact ev_ok|]. split; [exact ev_randn|]. split; [exact ev_eigh|]. split; [apply vargs_ok|]. split; [apply repeat_length|].
  split; [destruct d; [lia|discriminate]|]. split.
  { apply rates_enough; [exact Hd| |]; cbn [caa vargs a_popsize]; [lra|]. assert (1 <= INR d) by (apply (le_INR 1), Hd). nra. }
  split; [reflexivity|]. split; [exact EP|]. exact (vis_here (cma_drv P) false _ 0 s0 w0 t st w1 ET).
Qed.
