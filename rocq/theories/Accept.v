(** C22, second half: valid arguments are accepted, i.e. the run reaches the objective. *)
From Verif Require Import Base Num Env Common DE CPSO NA Mat CMAES VDCMA Sample Hoare EvalRules
  Steps Best Inst Disc Valid.

Section Accept.
  Context {N : Num} {E : Env N}.

  Local Hint Resolve disc_uniform disc_eval_pop disc_np_argmin disc_eval_kindM disc_uniform_vec
    disc_rand_mat disc_randn_vec disc_lhs disc_selection_async disc_selection_sync disc_rec_write
    disc_rec_alloc disc_unpack_bounds disc_mc_outer disc_s_first_cb disc_hmc_loop : disc.

  Lemma silent_seed_and_cb a : a_callback a <> CbBad -> silent (seed_and_cb a) (fun _ => True).
  Proof.
    intros H. unfold seed_and_cb. eapply silent_bind; [apply silent_seed|]. intros _ _.
    apply silent_if. destruct (a_callback a); congruence.
  Qed.
  Lemma within_outside lo x hi : within lo x hi -> outside (nZ lo) x (nZ hi) = false.
  Proof. intros [H1 H2]. unfold outside. rewrite H1, H2. reflexivity. Qed.
  Lemma within_outside_open lo x hi : within_open lo x hi -> outside_open (nZ lo) x (nZ hi) = false.
  Proof. intros [H1 H2]. unfold outside_open. rewrite H1, H2. reflexivity. Qed.

  Lemma silent_check_pop a : ValidPop a -> silent (check_pop a) (fun _ => True).
  Proof.
    intros [H1 (nd & (rows & H2 & H2') & H3) H4 H5]. unfold check_pop.
    eapply silent_bind; [apply silent_if; rewrite H1; reflexivity|]. intros _ _.
    eapply silent_bind; [apply silent_if; rewrite H2; reflexivity|]. intros _ _.
    eapply silent_bind.
    { apply silent_if. destruct (a_x0 a) as [x|]; auto. destruct H3 as (m & -> & H3).
      rewrite H2. cbn. rewrite <- H2', Nat.eqb_refl. reflexivity. }
    intros _ _.
    eapply silent_bind; [apply silent_if, Z.ltb_ge; lia|]. intros _ _.
    apply silent_if. destruct (a_x0 a) as [x|]; auto. destruct H3 as (m & -> & H3). cbn.
    apply negb_false_iff, Z.eqb_eq. exact H3.
  Qed.
  Lemma silent_check_updating u :
    In u ["immediate"; "deferred"]%string -> silent (check_updating u) (fun _ => True).
  Proof. intros [<-|[<-|[]]]; apply silent_if; reflexivity. Qed.
  Lemma silent_eval_kindM s w b : silent (eval_kindM s w b) (fun _ => True).
  Proof.
    unfold eval_kindM. destruct (C23_no_backend_error s w b) as (m & -> & _).
    apply silent_ret. exact Logic.I.
  Qed.
  Lemma silent_unpack b rows : b = D2 2 rows -> silent (unpack_bounds b) (fun _ => True).
  Proof. intros ->. apply silent_ret. exact Logic.I. Qed.
  Lemma strategy_ok s : In s ["rand1bin"; "rand2bin"; "best1bin"; "best2bin"]%string ->
    exists st, strategy_map s = Some st.
  Proof. intros [<-|[<-|[<-|[<-|[]]]]]; eexists; reflexivity. Qed.

  Lemma silent_x0 a lo hi d : ValidPop a ->
    silent (match a_x0 a with Some x => ret (nd_rows x) | None => lhs (Z.to_nat (a_popsize a)) d lo hi end)
           (fun X => X <> []).
  Proof.
    intros [_ (ndim & _ & H3) H4 _]. destruct (a_x0 a) as [x|].
    - destruct H3 as (m & -> & H3). apply silent_ret. cbn. intros ->. cbn in H3. lia.
    - intros s. destruct (silent_lhs (Z.to_nat (a_popsize a)) d lo hi s) as (X & s' & H1 & H2 & HX).
      exists X, s'. repeat split; auto. intros ->. cbn in HX. lia.
  Qed.

  (** The same for every run: the first event of the trace is an evaluation. *)
  Definition FirstEval {A} (m : M A) (w : RNG * US) (a0 : option matrix) : Prop :=
    exists e evs, tr (snd (exec m w a0)) = e :: evs /\ evaluates e.

  (** a list x0 has no attribute ndim *)
  Definition x0_usable (a : Args) (sync : bool) : Prop :=
    match a_x0 a with Some _ => a_x0_array a = true \/ sync = true | None => True end.

  Lemma usable_false a sync : x0_usable a sync ->
    (match a_x0 a with Some _ => negb (a_x0_array a) | None => false end && negb sync)%bool = false.
  Proof.
    unfold x0_usable. destruct (a_x0 a); auto. intros [-> | ->]; cbn; auto. apply andb_false_r.
  Qed.

  Tactic Notation "sil" uconstr(L) := eapply speaks_r; [eapply L|].

  Theorem C22_accepted_de A w a0 :
    EnvOK -> ValidDE A -> x0_usable (dea A) (is_sync (dea_updating A) (dea A)) ->
    FirstEval (de_minimize A) w a0.
  Proof.
    intros HE [H1 H2 H3 H4 H5 H6] Hx. change (speaks (de_minimize A) (mkSt w [] a0)).
    unfold de_minimize. cbn zeta.
    sil silent_check_pop; [exact H1|]. intros _ s1 _ _.
    sil silent_if; [apply within_outside, H2|]. intros _ s2 _ _.
    sil silent_if; [apply within_outside, H3|]. intros _ s3 _ _.
    sil silent_check_updating; [exact H5|]. intros _ s4 _ _.
    destruct (strategy_ok _ H4) as [st Hst].
    sil silent_orelse; [exact Hst|]. intros st' s5 -> _.
    sil silent_seed_and_cb; [apply H1|]. intros _ s6 _ _.
    unfold de. sil silent_eval_kindM. intros m s7 _ _. cbn zeta.
    destruct (vp_bounds _ H1) as (ndim & (rows & Hb & Hl) & _).
    sil silent_unpack; [exact Hb|]. intros [lo hi] s8 _ _.
    assert (Hc : exists c, de_cons_map (a_constraints (dea A)) = Some c)
      by (destruct H6 as [<-|[<-|[]]]; eexists; reflexivity).
    destruct Hc as [c Hc]. sil silent_orelse; [exact Hc|]. intros c' s9 -> _.
    sil silent_x0; [exact H1|]. intros X s10 HX _.
    sil silent_if; [apply usable_false, Hx|]. intros _ s11 _ _.
    apply speaks_l; [apply speaks_eval_pop; [apply EnvOK_mode, HE|exact HX]|].
    intros [X' pf]. d1. apply disc_drive; intros; cbn [d_step d_post de_drv];
      [apply disc_de_step|d1].
  Qed.

  Theorem C22_accepted_cpso A w a0 :
    EnvOK -> ValidCPSO A -> x0_usable (pa A) (is_sync (pa_updating A) (pa A)) ->
    FirstEval (cpso_minimize A) w a0.
  Proof.
    intros HE [H1 H2 H3 H4 H4' H5 H6] Hx. change (speaks (cpso_minimize A) (mkSt w [] a0)).
    unfold cpso_minimize. cbn zeta.
    sil silent_check_pop; [exact H1|]. intros _ s1 _ _.
    sil silent_if; [apply within_outside, H2|]. intros _ s2 _ _.
    sil silent_if; [apply within_outside, H3|]. intros _ s3 _ _.
    sil silent_if; [apply within_outside, H4|]. intros _ s3' _ _.
    sil silent_if; [destruct (pa_competitivity A); auto; apply within_outside, H4'|]. intros _ s3'' _ _.
    sil silent_check_updating; [exact H5|]. intros _ s4 _ _.
    sil silent_seed_and_cb; [apply H1|]. intros _ s6 _ _.
    unfold cpso. sil silent_eval_kindM. intros m s7 _ _. cbn zeta.
    destruct (vp_bounds _ H1) as (ndim & (rows & Hb & Hl) & _).
    sil silent_unpack; [exact Hb|]. intros [lo hi] s8 _ _.
    assert (Hc : exists c, pso_cons_map (a_constraints (pa A)) = Some c)
      by (destruct H6 as [<-|[<-|[]]]; eexists; reflexivity).
    destruct Hc as [c Hc]. sil silent_orelse; [exact Hc|]. intros c' s9 -> _.
    sil silent_x0; [exact H1|]. intros X s10 HX _.
    sil silent_if; [apply usable_false, Hx|]. intros _ s11 _ _.
    apply speaks_l; [apply speaks_eval_pop; [apply EnvOK_mode, HE|exact HX]|].
    intros [X' pf]. d1. apply disc_drive; intros; cbn [d_step d_post pso_drv];
      [apply disc_pso_step|apply disc_pso_post].
  Qed.

  Theorem C22_accepted_pso A w a0 :
    EnvOK ->
    ValidCPSO (mkCPSOArgs (psa A) (psa_inertia A) (psa_cognitivity A) (psa_sociability A)
                          None (psa_updating A)) ->
    x0_usable (psa A) (is_sync (psa_updating A) (psa A)) ->
    FirstEval (pso_minimize A) w a0.
  Proof. intros H1 H2 H3. exact (C22_accepted_cpso _ w a0 H1 H2 H3). Qed.

  Theorem C22_accepted_na A w a0 :
    EnvOK -> ValidNA A -> ntrunc (nmul (naa_nrperc A) (nZ (a_popsize (naa A)))) <> None ->
    FirstEval (na_minimize A) w a0.
  Proof.
    intros HE [H1 H2] Hx. change (speaks (na_minimize A) (mkSt w [] a0)).
    unfold na_minimize. cbn zeta.
    sil silent_check_pop; [exact H1|]. intros _ s1 _ _.
    sil silent_if; [apply within_outside_open, H2|]. intros _ s2 _ _.
    sil silent_seed_and_cb; [apply H1|]. intros _ s6 _ _.
    unfold na. sil silent_eval_kindM. intros m s7 _ _. cbn zeta.
    destruct (vp_bounds _ H1) as (ndim & (rows & Hb & Hl) & _).
    sil silent_unpack; [exact Hb|]. intros [lo hi] s8 _ _.
    destruct (ntrunc (nmul (naa_nrperc A) (nZ (a_popsize (naa A))))) as [nr|] eqn:Hnr; [|congruence].
    sil silent_orelse; [reflexivity|]. intros nr' s9 -> _.
    sil silent_x0; [exact H1|]. intros X s10 HX _.
    apply speaks_l.
    { unfold na_eval. apply speaks_l; [|intros []; apply disc_ret].
      apply speaks_eval_pop; [apply EnvOK_mode, HE|].
      intros Hn. apply map_eq_nil, map_eq_nil in Hn. contradiction. }
    intros [X' pf]. d1. apply disc_drive; intros; cbn [d_step d_post na_drv];
      [apply disc_na_step|d1].
  Qed.

  (** *** cmaes, vdcma *)
  Lemma silent_cma_check A : ValidCMA A -> silent (cma_check A) (fun _ => True).
  Proof.
    intros [H1 (nd & (rows & H2 & H2') & H3) H4 H5 H6 H7]. unfold cma_check. cbn zeta.
    eapply silent_bind; [apply silent_if; rewrite H1; reflexivity|]. intros _ _.
    eapply silent_bind; [apply silent_if; rewrite H2; reflexivity|]. intros _ _.
    eapply silent_bind.
    { apply silent_if. destruct (a_x0 (caa A)) as [x|]; auto. destruct H3 as (m & -> & H3).
      rewrite H2. cbn. rewrite H2', <- H3, Nat.eqb_refl. reflexivity. }
    intros _ _.
    eapply silent_bind; [apply silent_if, H4|]. intros _ _.
    eapply silent_bind; [apply silent_if, within_outside_open, H5|]. intros _ _.
    apply silent_seed_and_cb, H7.
  Qed.

  (** Beyond the documented checks cmaes and vdcma compute int(muperc * popsize),
      int(10 + 30 * ndim / popsize) and, with return_all, int(ceil(verbosity * popsize)). *)
  Record Computable (a : Args) (mu : T) : Prop := {
    cp_pop : (1 <= a_popsize a)%Z;
    cp_mx : (0 <= a_maxiter a)%Z;
    cp_mu : ntrunc (nmul mu (nZ (a_popsize a))) <> None;
    cp_ilim : ntrunc (nadd (nZ 10) (ndiv (nmul (nZ 30) (nN (nd_len (a_bounds a)))) (nZ (a_popsize a))))
              <> None;
    cp_rec : a_return_all a = true -> nceilZ (nmul (a_verbosity a) (nZ (a_popsize a))) <> None }.

  Lemma silent_cma_setup A : ValidCMA A -> Computable (caa A) (caa_muperc A) ->
    silent (cma_setup A) (fun xP => cm_p (snd xP) = Z.to_nat (a_popsize (caa A))).
  Proof.
    intros [H1 (nd & (rows & H2 & H2') & H3) H4 H5 H6 H7] [C1 C2 C3 C4 C5]. unfold cma_setup.
    cbn zeta. eapply silent_bind; [apply silent_eval_kindM|]. intros m _.
    eapply silent_bind; [eapply silent_unpack, H2|]. intros [lo hi] _.
    assert (Hc : exists b, silent (cma_cons_check (a_constraints (caa A))) (fun x => x = b))
      by (destruct H6 as [<-|[<-|[]]]; eexists; apply silent_ret; reflexivity).
    destruct Hc as [b Hc]. eapply silent_bind; [exact Hc|]. intros b' _.
    eapply (silent_bind _ _ (fun _ => True)).
    { destruct (a_x0 (caa A)).
      - apply silent_ret; exact Logic.I.
      - intros s.
        destruct (silent_replicateM (nd_len (a_bounds (caa A))) (uniform (nZ (-1)) (nZ 1)) (fun _ => True)) with (s := s)
          as (x & s' & Ha & Hb & _); [|exists x, s'; auto].
        unfold uniform, rand. eapply silent_bind; [apply silent_draw|].
        intros; apply silent_ret; exact Logic.I. }
    intros xm _.
    destruct (ntrunc (nmul (caa_muperc A) (nZ (a_popsize (caa A))))) as [mu|]; [|congruence].
    eapply silent_bind; [apply silent_orelse; reflexivity|]. intros mu' _.
    apply silent_ret. reflexivity.
  Qed.

  Lemma silent_cma_alloc a mu : Computable a mu -> silent (cma_alloc a) (fun _ => True).
  Proof.
    intros [C1 C2 C3 C4 C5]. unfold cma_alloc. cbn zeta.
    eapply (silent_bind _ _ (fun _ => True)).
    { unfold rec_alloc. destruct (a_return_all a); [|apply silent_ret; exact Logic.I].
      unfold rec_nout. destruct (nceilZ (nmul (a_verbosity a) (nZ (a_popsize a)))) as [n|];
        [|exfalso; apply C5; auto].
      eapply silent_bind; [apply silent_orelse; reflexivity|]. intros n' _.
      destruct (Z.ltb_spec (a_maxiter a) 0); [lia|]. apply silent_ret; exact Logic.I. }
    intros nout _.
    eapply silent_bind; [apply silent_if; apply Z.ltb_ge; lia|]. intros _ _.
    eapply silent_bind; [apply silent_if; apply Z.eqb_neq; lia|]. intros _ _.
    eapply silent_bind; [apply silent_if; apply Z.ltb_ge; lia|]. intros _ _.
    destruct (ntrunc (nadd (nZ 10) (ndiv (nmul (nZ 30) (nN (nd_len (a_bounds a)))) (nZ (a_popsize a)))))
      as [i|]; [|congruence].
    eapply silent_bind; [apply silent_orelse; reflexivity|]. intros i' _.
    apply silent_ret; exact Logic.I.
  Qed.

  Lemma silent_randn_vec d : silent (randn_vec d) (fun v => length v = d).
  Proof. unfold randn_vec, randn. eapply silent_replicateM, silent_draw. Qed.

  Lemma speaks_cma_fitness P arx xm xo sg dc it pen s :
    EnvOK -> arx <> [] -> speaks (cma_fitness P arx xm xo sg dc it pen) s.
  Proof.
    intros HE Hx.
    assert (Hev : forall X s, X <> [] -> speaks (cma_eval P X) s).
    { intros X s' HX. unfold cma_eval. apply speaks_l; [|intros []; apply disc_ret].
      apply speaks_eval_pop; [apply EnvOK_mode, HE|]. intros Hn. apply map_eq_nil in Hn. auto. }
    unfold cma_fitness. destruct (cm_pen P).
    - unfold penalize. cbn zeta. apply speaks_l.
      + apply Hev. intros Hn. apply map_eq_nil in Hn. auto.
      + intros; d1.
    - apply speaks_l; [apply Hev, Hx|intros; apply disc_ret].
  Qed.

  Lemma speaks_drive {S} (D : Drv S) cb fl it s st :
    (forall it s, disc (d_step D it s)) -> (forall it s, disc (d_post D it s)) ->
    fl <> 0 -> speaks (d_step D (it + 1) s) st -> speaks (drive D cb fl it s) st.
  Proof.
    intros H1 H2 Hf H. destruct fl as [|k]; [congruence|]. cbn [drive]. cbn zeta.
    apply speaks_l; [exact H|]. intros [s' c]. apply disc_bind; [d1|]. intros _.
    destruct c as [c|].
    - unfold result. d1.
    - apply disc_bind; auto. intros. apply disc_drive; auto.
  Qed.

  Theorem C22_accepted_cmaes A w a0 :
    EnvOK -> ValidCMA A -> Computable (caa A) (caa_muperc A) -> FirstEval (cmaes_minimize A) w a0.
  Proof.
    intros HE HV HC. change (speaks (cmaes_minimize A) (mkSt w [] a0)).
    unfold cmaes_minimize. sil silent_cma_check; [exact HV|]. intros _ s1 _ _.
    unfold cmaes. cbn zeta. sil silent_cma_setup; [exact HV|exact HC|]. intros [xm P] s2 HP _.
    sil silent_cma_alloc; [exact HC|]. intros [nout ilim] s3 _ _. cbn zeta. cbn [snd] in HP.
    apply speaks_drive; cbn [d_step d_post cma_drv].
    - intros; apply disc_cma_step.
    - intros; apply disc_ret.
    - unfold fuel. lia.
    - unfold cma_step. cbn zeta. eapply speaks_r.
      { unfold cma_sample. cbn [cm_p]. apply (silent_replicateM _ _ (fun _ => True)).
        eapply silent_bind; [apply silent_randn_vec|]. intros z _. apply silent_ret. exact Logic.I. }
      intros arx s4 Hl _. apply speaks_l.
      + apply speaks_cma_fitness; [exact HE|]. intros ->. cbn in Hl. rewrite HP in Hl.
        destruct HC as [C1 _ _ _ _]. lia.
      + intros [[fit valid] pen]. d1; try apply disc_cma_record; try apply disc_hist_set.
  Qed.

  Theorem C22_accepted_vdcma A w a0 :
    EnvOK -> ValidCMA A -> Computable (caa A) (caa_muperc A) -> FirstEval (vdcma_minimize A) w a0.
  Proof.
    intros HE HV HC. change (speaks (vdcma_minimize A) (mkSt w [] a0)).
    unfold vdcma_minimize. sil silent_cma_check; [exact HV|]. intros _ s1 _ _.
    unfold vdcma. cbn zeta. sil silent_cma_setup; [exact HV|exact HC|]. intros [xm P] s2 HP _.
    sil silent_randn_vec. intros z s2' _ _.
    sil silent_cma_alloc; [exact HC|]. intros [nout ilim] s3 _ _. cbn zeta. cbn [snd] in HP.
    apply speaks_drive; cbn [d_step d_post vd_drv].
    - intros; apply disc_vd_step.
    - intros; apply disc_ret.
    - unfold fuel. lia.
    - unfold vd_step. cbn zeta. apply (speaks_r _ _ (fun ary => length ary = cm_p P)).
      { unfold vd_sample. cbn [cm_p vs_inj]. eapply silent_bind.
        - eapply silent_replicateM. apply silent_randn_vec.
        - intros arz Ha. apply silent_ret. cbn. rewrite map_length. exact Ha. }
      cbn beta. intros ary s4 Hl _. apply speaks_l.
      + apply speaks_cma_fitness; [exact HE|]. intros Hn. apply map_eq_nil in Hn. subst ary.
        cbn in Hl. destruct HC as [C1 _ _ _ _]. lia.
      + intros [[fit valid] pen]. cbn zeta. d1; try apply disc_cma_record; try apply disc_hist_set.
  Qed.

  (** *** samplers *)
  Definition Opens (a : SArgs) (lo hi : vec) : Prop := s_x0 a = None -> frange lo hi = true.
  Lemma silent_s_check a : ValidS a -> silent (s_check_x0 a) (fun l => Opens a (fst l) (snd l)).
  Proof.
    intros [H1 (nd & (rows & H2 & H2') & H3 & H4) HR H5 H6]. unfold s_check_x0.
    eapply silent_bind; [apply silent_if; rewrite H1; reflexivity|]. intros _ _.
    eapply silent_bind; [apply silent_if; rewrite H2; reflexivity|]. intros _ _.
    rewrite H2 in HR |- *. cbn [unpack_bounds].
    eapply silent_bind with (Q := fun l => Opens a (fst l) (snd l)).
    { apply silent_ret. intros Hx. apply frange_rows, HR, Hx. }
    intros [lo hi] Hl.
    eapply (silent_bind _ _ (fun _ => True)); [|intros; apply silent_ret; exact Hl].
    destruct (s_x0 a) as [x|]; [|apply silent_ret; exact Logic.I].
    destruct H3 as (v & -> & H3). apply silent_if. cbn.
    rewrite H2', H3, Nat.eqb_refl. reflexivity.
  Qed.
  Lemma silent_s_steps a lo hi : ValidS a -> silent (s_steps a lo hi) (fun _ => True).
  Proof.
    intros [H1 (nd & (rows & H2 & H2') & H3 & H4) _ H5 H6]. unfold s_steps. cbn zeta.
    rewrite H2. cbn [nd_len]. destruct (s_stepsize a) as [x|v|c m]; [| |contradiction].
    - eapply silent_bind; [apply silent_if; cbn; rewrite repeat_length, Nat.eqb_refl; reflexivity|].
      intros _ _. eapply silent_bind; [apply (silent_ret tt (fun _ => True)); exact Logic.I|].
      intros _ _. apply silent_ret; exact Logic.I.
    - eapply silent_bind; [apply silent_if; cbn; rewrite H4, H2', Nat.eqb_refl; reflexivity|].
      intros _ _. eapply (silent_bind _ _ (fun _ => True)).
      + destruct (s_stepsize_array a); [|apply silent_ret; exact Logic.I].
        intros s. eexists; eexists; split; [reflexivity|]. cbn; auto.
      + intros _ _. apply silent_ret; exact Logic.I.
  Qed.
  Lemma silent_s_seed_cb a : ValidS a -> silent (s_seed_cb a) (fun _ => True).
  Proof.
    intros [_ _ _ _ H]. unfold s_seed_cb. eapply silent_bind; [apply silent_seed|]. intros _ _.
    apply silent_if. destruct (s_callback a); congruence.
  Qed.
  Lemma silent_s_first a lo hi : ValidS a -> Opens a lo hi -> silent (s_first a lo hi) (fun _ => True).
  Proof.
    intros [H1 (nd & (rows & H2 & H2') & H3 & H4) _ H5 H6] HO. unfold Opens in HO. unfold s_first.
    eapply silent_bind; [apply silent_if, Z.ltb_ge; lia|]. intros _ _.
    eapply (silent_bind _ _ (fun _ => True)).
    - destruct (s_x0 a) as [x|].
      + destruct H3 as (v & -> & _). apply silent_ret; exact Logic.I.
      + intros s. destruct (uniform_vec_run lo hi s (HO eq_refl)) as (v & r & ->).
        eexists; eexists; split; [reflexivity|]. cbn; auto.
    - intros x _. eapply silent_bind; [apply silent_if, Z.eqb_neq; lia|]. intros _ _.
      apply silent_ret; exact Logic.I.
  Qed.

  Lemma accepted_mcmc_fuel fl A w a0 :
    ValidMC A -> ntrunc (nmul (mca_perc A) (nN (nd_len (s_bounds (mca A))))) <> None ->
    FirstEval (mcmc_fuel fl A) w a0.
  Proof.
    intros [H1 H2] Hn. change (speaks (mcmc_fuel fl A) (mkSt w [] a0)).
    unfold mcmc_fuel. cbn zeta.
    sil silent_s_check; [exact H1|]. intros [lo hi] s1 HO _. cbn [fst snd] in HO.
    sil silent_s_steps; [exact H1|]. intros v s2 _ _.
    sil silent_if; [apply within_outside, H2|]. intros _ s3 _ _.
    destruct (ntrunc (nmul (mca_perc A) (nN (nd_len (s_bounds (mca A)))))) as [b|]; [|congruence].
    sil silent_orelse; [reflexivity|]. intros b' s4 -> _.
    sil silent_s_seed_cb; [exact H1|]. intros _ s5 _ _.
    sil silent_s_first; [exact H1|exact HO|]. intros x s6 _ _.
    apply speaks_l; [apply speaks_call_fun|]. intros; d1.
  Qed.

  Theorem C22_accepted_mcmc A w a0 :
    ValidMC A -> ntrunc (nmul (mca_perc A) (nN (nd_len (s_bounds (mca A))))) <> None ->
    FirstEval (mcmc_sample A) w a0.
  Proof. apply accepted_mcmc_fuel. Qed.

  Theorem C22_accepted_hmc A w a0 : ValidHM A -> FirstEval (hmc_sample A) w a0.
  Proof.
    intros [H1 H2 H3]. change (speaks (hmc_sample A) (mkSt w [] a0)).
    unfold hmc_sample. cbn zeta.
    sil silent_s_check; [exact H1|]. intros [lo hi] s1 HO _. cbn [fst snd] in HO.
    sil silent_if; [apply Z.ltb_ge; lia|]. intros _ s2 _ _.
    sil silent_s_steps; [exact H1|]. intros v s3 _ _.
    sil silent_if; [destruct (hma_jac A); congruence|]. intros _ s4 _ _.
    sil silent_s_seed_cb; [exact H1|]. intros _ s5 _ _.
    sil silent_s_first; [exact H1|exact HO|]. intros x s6 _ _.
    apply speaks_l; [|intros; d1].
    unfold count_fun. apply speaks_l; [apply speaks_call_fun|intros; apply disc_ret].
  Qed.
End Accept.
