(** C28 and C54 for the runs of cmaes (exact arithmetic): the covariance matrix stays symmetric
    positive definite, and every point handed to the objective is a vector of finite numbers. *)
From Coq Require Import Reals Lra Psatz Permutation.
From Verif Require Import Base Num NumR NumE Env Common DE Mat CMAES VDCMA Weights Hoare EvalRules Gen Steps Runs Inst Laws Safe Feas FeasPso DimCma
  VdReal Visit VdRun Cov CmReal.
Open Scope R_scope.

Section SafeGives.
  Context {N : Num} {E : Env N}.
  Lemma safe_gives Pe Pc {A} (m : M A) Q : safe Pe Pc m Q -> gives m Q.
  Proof.
    intros H w a w' Hm. destruct (H w) as (evs & _ & _ & HQ). apply HQ. rewrite Hm. reflexivity.
  Qed.
End SafeGives.

(** The part of cmaes before its loop. *)
Section Prefix.
  Context {E : Env ENum}.
  Definition cm_prefix (A : CMAArgs) : M (CMAParams * CMAS) :=
    let a := caa A in
    '(xmean, P0) <- cma_setup A ;;
    '(nout, ilim) <- cma_alloc a ;;
    let d := cm_d P0 in
    let P := mkCMAParams (cm_p P0) d (cm_mu P0) (cm_w P0) (cm_mueff P0) (cm_xm P0) (cm_xstd P0)
                         (cm_pen P0) (cm_maxiter P0) (cm_xtol P0) (cm_ftol P0) (cm_insigma P0)
                         ilim (cm_mode P0) nout in
    ret (P, mkCMAS xmean (e_empty d) (repeat (Fin 0) d) (repeat (Fin 0) d) (eye d) (repeat (Fin 1) d) (eye d)
                    (eye d) (caa_sigma A) (cma_init_pen d) 0 0
                    (repeat (Fin 0) (Z.to_nat (a_maxiter a))) [] [] []
                    (match nout with Some _ => Some ([], []) | None => None end)).
  (** the argument checks, and everything before the loop *)
  Definition cm_start (A : CMAArgs) : M (CMAParams * CMAS) := cma_check A ;;; cm_prefix A.
  Lemma cmaes_start A w : cmaes_minimize A w =
    bind (cm_start A) (fun Ps => drive (cma_drv (fst Ps)) (has_cb (caa A)) (fuel (a_maxiter (caa A))) 0 (snd Ps)) w.
  Proof.
    unfold cmaes_minimize, cm_start, cmaes, cm_prefix, bind. destruct (cma_check A w) as [[[]|e] w0]; [|reflexivity].
    destruct (cma_setup A w0) as [[[xmean P0]|e] w1]; [|reflexivity].
    destruct (cma_alloc (caa A) w1) as [[[nout ilim]|e] w3]; reflexivity.
  Qed.
End Prefix.

(** What [np.linalg.eigh] delivers for a symmetric positive definite matrix: as many positive numbers
    and rows of finite numbers as the matrix has rows. *)
Definition EighPD {E : Env ENum} : Prop :=
  forall d C (D : list er) (B : list (list er)), Shape d d C -> Symmetric d C -> PosDef d C -> e_eigh (mfin C) = Some (D, B) ->
    length D = d /\ Forall posf D /\ length B = d /\ Forall (fun r => fins r) B.

Lemma fins_mvec (m : list (list er)) (v : list er) : Forall (fun r => fins r) m -> fins v -> fins (@mvec EArith m v).
Proof.
  intros Hm Hv. unfold mvec. apply Forall_forall. intros x Hx. apply in_map_iff in Hx. destruct Hx as (r & <- & Hr).
  rewrite Forall_forall in Hm. apply fins_vdot; [exact (Hm r Hr)|exact Hv].
Qed.
Lemma fins_mmul c (a b : list (list er)) : Forall (fun r => fins r) a -> Forall (fun r => fins r) b -> Forall (fun r => fins r) (@mmul EArith c a b).
Proof.
  intros Ha Hb. unfold mmul. apply Forall_forall. intros x Hx. apply in_map_iff in Hx. destruct Hx as (r & <- & Hr).
  rewrite Forall_forall in Ha. apply fins_vmat; [exact (Ha r Hr)|exact Hb].
Qed.
Lemma fins_mtrans c (m : list (list er)) : Forall (fun r => fins r) m -> Forall (fun r => fins r) (@mtrans EArith c m).
Proof.
  intros Hm. unfold mtrans. apply Forall_forall. intros x Hx. apply in_map_iff in Hx. destruct Hx as (j & <- & _).
  unfold col. apply Forall_forall. intros y Hy. apply in_map_iff in Hy. destruct Hy as (r & <- & Hr).
  rewrite Forall_forall in Hm. apply fins_nth, (Hm r Hr).
Qed.
Lemma fins_diagm (v : list er) : fins v -> Forall (fun r => fins r) (@diagm EArith v).
Proof. intros Hv. destruct (isfin_fin v Hv) as [r ->]. rewrite diagm_fin. apply Forall_forall. intros x Hx. apply in_map_iff in Hx. destruct Hx as (y & <- & _). apply fin_isfin. Qed.
Lemma mfin_fins (m : list (list R)) : Forall (fun r => fins r) (mfin m).
Proof. apply Forall_forall. intros x Hx. apply in_map_iff in Hx. destruct Hx as (y & <- & _). apply fin_isfin. Qed.
Lemma fins_mfin (m : list (list er)) : Forall (fun r => fins r) m -> exists r, m = mfin r.
Proof.
  induction 1 as [|x l Hx Hl (r & ->)]; [exists []; reflexivity|]. destruct (isfin_fin x Hx) as [a ->]. exists (a :: r). reflexivity.
Qed.
Lemma posf_div1 (x : er) : posf x -> isfin (er_div (Fin 1) x).
Proof. intros H. apply fin_div; [exact I|exact H]. Qed.
Lemma posf_sqrt (x : er) : posf x -> posf (er_sqrt x).
Proof. destruct x; try contradiction. intros H. cbn in H. rewrite sqrt_fin by lra. apply sqrt_lt_R0, H. Qed.
Lemma norm_fin0 (z : list er) : fins z -> exists r, 0 <= r /\ @vnorm EArith z = Fin r.
Proof.
  intros H. destruct (isfin_fin z H) as [r ->]. unfold vnorm. rewrite vdot_fin. cbn [nsqrt EArith].
  rewrite sqrt_fin by apply rdot_self_nonneg. eexists. split; [apply sqrt_pos|reflexivity].
Qed.
Lemma map2_len {A B C} (f : A -> B -> C) a b n : length a = n -> length b = n -> length (map2 f a b) = n.
Proof. intros H1 H2. rewrite map2_length, H1, H2. apply Nat.min_id. Qed.
Lemma clip1_isfin x : isfin x -> isfin (@clip1 EArith x).
Proof.
  intros H. unfold clip1. repeat match goal with |- context [if ?b then _ else _] => destruct b end; solve [exact I|exact H].
Qed.

Section Run.
  Context {E : Env ENum} (HE : EnvOK) (HN : forall g, isfin (fst (e_randn g))) (HD : EighPD).
  Variable d : nat.
  Definition FinPt (x : list er) : Prop := length x = d /\ fins x.
  Variable Pc : list (list er) -> @CbState EArith -> Prop.
  Notation sf := (safe (N := ENum) FinPt Pc).

  (** the parameters of a run *)
  Record CRun (P : @CMAParams ENum) : Prop := {
    cr_d : cm_d P = d; cr_d1 : (1 <= d)%nat; cr_mu : (1 <= cm_mu P <= cm_p P)%nat;
    cr_w : cm_w P = @cma_weights EArith (cm_mu P); cr_m : cm_mueff P = @cma_mueff EArith (cm_w P);
    cr_xm : FinPt (cm_xm P); cr_xstd : FinPt (cm_xstd P); cr_mode : ModeKeeps FinPt (cm_mode P);
    cr_lt : let m := @cma_mueff RArith (@cma_weights RArith (cm_mu P)) in
            @cma_c1 RArith (INR d) m + @cma_cmu RArith (INR d) m < 1 }.

  Record CmI (s : @CMAS ENum) : Prop := {
    ci_x : FinPt (cs_xmean s); ci_pc : FinPt (cs_pc s); ci_ps : fins (cs_ps s); ci_sg : posf (cs_sigma s);
    ci_C : exists C, cs_C s = mfin C /\ Shape d d C /\ Symmetric d C /\ PosDef d C;
    ci_B : length (cs_B s) = d /\ Forall (fun r => fins r) (cs_B s);
    ci_D : length (cs_D s) = d /\ Forall posf (cs_D s);
    ci_inv : Forall (fun r => fins r) (cs_inv s) }.
  Record CmP (P : @CMAParams ENum) (s : @CMAS ENum) : Prop := {
    cp_valid : Forall FinPt (cs_valid s); cp_p : length (cs_valid s) = cm_p P; cp_fit : length (cs_fit s) = cm_p P; cp_index : cs_index s = e_argsort (cs_fit s);
    cp_old : FinPt (cs_xold s) }.

  Lemma safe_randn n : sf (randn_vec n) (fun z : evec => length z = n /\ fins z).
  Proof. apply safe_replicateM, safe_draw, HN. Qed.

  Lemma un_fin P x : CRun P -> FinPt x -> FinPt (cma_un P x).
  Proof.
    intros HP [Lx Hx]. destruct (cr_xm _ HP) as [L1 F1]. destruct (cr_xstd _ HP) as [L2 F2]. unfold cma_un, unstandardize.
    change (@num_arith ENum) with EArith. split.
    - apply map2_len; [apply map2_len; assumption|exact L1].
    - apply fins_add; [apply fins_mul; assumption|exact F1].
  Qed.
  Lemma un_fins P X : CRun P -> Forall FinPt X -> Forall FinPt (map (cma_un P) X).
  Proof.
    intros HP HX. apply Forall_forall. intros y Hy. apply in_map_iff in Hy. destruct Hy as (x & <- & Hx).
    rewrite Forall_forall in HX. apply un_fin; [exact HP|apply HX, Hx].
  Qed.
  Lemma cm_eval P X : CRun P -> Forall FinPt X -> sf (cma_eval P X) (fun f : evec => length f = length X).
  Proof.
    intros HP HX. unfold cma_eval. eapply safe_bind.
    - apply (safe_eval_pop (N := ENum) FinPt Pc FinPt _ _ (cr_mode _ HP)); [auto|]. apply un_fins; assumption.
    - intros [x f] (_ & _ & H & _). apply safe_ret. rewrite map_length in H. exact H.
  Qed.

  Lemma cm_fitness P arx xmean xold sigma diagC it ps : CRun P -> Forall FinPt arx ->
    sf (cma_fitness P arx xmean xold sigma diagC it ps)
      (fun r : evec * @matrix EArith * @PenState ENum => length (fst (fst r)) = length arx /\ length (snd (fst r)) = length arx /\ Forall FinPt (snd (fst r))).
  Proof.
    intros HP HX. unfold cma_fitness. destruct (cm_pen P).
    - assert (HV : Forall FinPt (map (map (@clip1 EArith)) arx)).
      { apply Forall_forall. intros y Hy. apply in_map_iff in Hy. destruct Hy as (x & <- & Hx).
        rewrite Forall_forall in HX. destruct (HX x Hx) as [L F]. split; [rewrite map_length; exact L|]. apply fins_map; [apply clip1_isfin|exact F]. }
      unfold penalize. eapply safe_bind; [apply cm_eval; [exact HP|exact HV]|]. intros fit Hf. cbv beta in Hf.
      eapply safe_bind with (R := fun _ => True).
      { destruct (neqb _ _).
        - destruct (filter _ _); [apply safe_raise|apply safe_ret; exact I].
        - destruct (negb _); apply safe_ret; exact I. }
      intros [[delta hist] valid] _. cbv zeta.
      destruct (if _ && _ then _ else _) as [w ini].
      apply safe_ret. cbn [fst snd]. split; [|split; [apply map_length|exact HV]].
      rewrite map3_length, !map_length. rewrite map_length in Hf. elia.
    - eapply safe_bind; [apply cm_eval; [exact HP|exact HX]|]. intros f Hf.
      apply safe_ret. cbn. auto.
  Qed.

  Lemma sel_fins (fit : evec) (arx : list (list er)) mu : length fit = length arx -> (mu <= length arx)%nat -> Forall FinPt arx ->
    let sel := map (fun k => nth k arx []) (firstn mu (e_argsort fit)) in length sel = mu /\ Forall FinPt sel.
  Proof.
    intros Hl Hmu HX sel. pose proof (proj1 (eo_argsort HE) fit) as HP.
    assert (HL : length (e_argsort fit) = length fit) by (rewrite (Permutation_length HP); apply seq_length).
    split.
    - subst sel. rewrite map_length, firstn_length, HL. elia.
    - apply Forall_forall. intros y Hy. apply in_map_iff in Hy. destruct Hy as (k & <- & Hk).
      rewrite Forall_forall in HX. apply HX, nth_In.
      assert (Hin : In k (e_argsort fit)) by (rewrite <- (firstn_skipn mu); apply in_or_app; left; exact Hk).
      apply (Permutation_in _ HP), in_seq in Hin. elia.
  Qed.

  Lemma safe_hist P it v h : sf (hist_set P it v h) (fun _ => True).
  Proof. unfold hist_set. destruct (_ <? _)%Z; [apply safe_raise|apply safe_ret; exact I]. Qed.

  Lemma nth_posf (D : list er) (idx : list nat) : Permutation idx (seq 0 (length D)) -> Forall posf D ->
    length (map (fun k => er_sqrt (nth k D (@n0 EArith))) idx) = length D /\ Forall posf (map (fun k => er_sqrt (nth k D (@n0 EArith))) idx).
  Proof.
    intros HP HF. split; [rewrite map_length, (Permutation_length HP); apply seq_length|].
    apply Forall_forall. intros x Hx. apply in_map_iff in Hx. destruct Hx as (k & <- & Hk).
    apply posf_sqrt. rewrite Forall_forall in HF. apply HF, nth_In. apply (Permutation_in _ HP), in_seq in Hk. lia.
  Qed.

  Lemma sample_ok P s : CRun P -> CmI s -> sf (cma_sample P s) (fun arx : @matrix EArith => length arx = cm_p P /\ Forall FinPt arx).
  Proof.
    intros HP [[Lx Fx] _ _ Psg _ [LB FB] [LD FD] _].
    unfold cma_sample. apply safe_replicateM. rewrite (cr_d _ HP). eapply safe_bind; [apply safe_randn|]. intros z [Lz Fz].
    apply safe_ret. change (@num_arith ENum) with EArith. split.
    - apply map2_len; [exact Lx|]. unfold vscale. rewrite map_length. unfold mvec. rewrite map_length. exact LB.
    - apply fins_add; [exact Fx|]. apply fins_scale; [apply posf_fin, Psg|]. apply fins_mvec; [exact FB|].
      apply fins_mul; [apply fins_posf, FD|exact Fz].
  Qed.

  Lemma step_ok P it s : CRun P -> CmI s ->
    sf (cma_step P it s) (fun r : @CMAS ENum * option Z => CmI (fst r) /\ CmP P (fst r)).
  Proof.
    intros HP [[Lx Fx] [Lpc Fpc] Fps Psg (C & EC & SC & YC & PC) [LB FB] [LD FD] Finv].
    destruct (cr_mu _ HP) as [Hmu1 Hmup].
    assert (Hn : 1 <= INR d) by (apply (le_INR 1), (cr_d1 _ HP)).
    pose proof (C27_mueff _ Hmu1) as [Hm1 _]. pose proof (cr_lt _ HP) as Hlt. cbv zeta in Hlt.
    assert (Ew : cm_w P = fin (@cma_weights RArith (cm_mu P))) by (rewrite (cr_w _ HP); apply cma_weights_E, Hmu1).
    assert (Em : cm_mueff P = Fin (@cma_mueff RArith (@cma_weights RArith (cm_mu P)))) by (rewrite (cr_m _ HP), (cr_w _ HP); apply cma_mueff_E, Hmu1).
    destruct (C27_weights _ Hmu1) as (Lw & Pw & _ & _). cbv zeta in Lw, Pw.
    pose proof (C27_rates (INR d) _ Hn Hm1) as (Rcc & Rcs & Rc1 & Rcmu & Rsum & Rdm).
    set (m := @cma_mueff RArith (@cma_weights RArith (cm_mu P))) in *. set (wr := @cma_weights RArith (cm_mu P) : list R) in *.
    unfold cma_step. cbv zeta. rewrite (cr_d _ HP).
    eapply safe_bind; [apply (sample_ok P s HP); constructor; try assumption; try (split; assumption); exists C; auto|].
    intros arx [La Fa]. eapply safe_bind; [apply cm_fitness; assumption|]. intros [[fit valid] pen] (Lf & Lv & Fv). cbn [fst snd] in Lf, Lv, Fv.
    eapply safe_bind; [apply safe_rec_write|]. intros r _.
    eapply safe_bind; [apply safe_hist|]. intros hist _.
    destruct (sel_fins fit arx (cm_mu P) Lf ltac:(elia) Fa) as [Lsel Fsel]. cbv zeta in Lsel, Fsel.
    change (@num_arith ENum) with EArith.
    match goal with |- context [@vmat _ d (cm_w P) ?x] => set (sel := x : list (list er)) in * end.
    change (length sel = cm_mu P) in Lsel. change (Forall FinPt sel) in Fsel. clearbody sel.
    set (xmean := @vmat EArith d (cm_w P) sel).
    assert (Hxm : FinPt xmean).
    { split; [unfold xmean, vmat; rewrite map_length; apply seq_length|]. apply fins_vmat; [rewrite Ew; apply fin_isfin|].
      eapply Forall_impl; [|exact Fsel]. intros y Hy; apply Hy. }
    set (dx := @vsub EArith xmean (cs_xmean s)).
    assert (Hdx : FinPt dx) by (split; [apply map2_len; [apply Hxm|exact Lx]|apply fins_sub; [apply Hxm|exact Fx]]).
    clearbody dx.
    set (ps := cma_ps P s dx).
    assert (Hps : fins ps).
    { unfold ps, cma_ps. change (@num_arith ENum) with EArith. rewrite (cr_d _ HP), Em, nN_E, csig_C by assumption.
      set (cs := @cma_cs RArith (INR d) m) in *. apply fins_add; [apply fins_scale; [exact I|exact Fps]|].
      apply fins_map; [intros x Hx; apply fin_div; [exact Hx|exact Psg]|]. apply fins_scale; [|apply fins_mvec; [exact Finv|apply Hdx]].
      unfold nZ. cbn [nsqrt nmul nsub nlit EArith er_mul er_sub]. replace (Rlit 2 0) with 2 by (unfold Rlit; lra).
      rewrite sqrt_fin; [exact I|]. apply Rmult_le_pos; [apply Rmult_le_pos|]; lra. }
    clearbody ps.
    set (cond := cma_cond P (cs_nfev s + Z.of_nat (cm_p P)) ps). clearbody cond.
    set (pc := cma_pc P s cond dx).
    assert (Hpc : FinPt pc).
    { unfold pc, cma_pc. change (@num_arith ENum) with EArith. rewrite (cr_d _ HP), Em, nN_E, cc_C by assumption.
      set (cc := @cma_cc RArith (INR d) m) in *.
      set (p0 := map (fun x : er => @nmul EArith x (@nsub EArith (@n1 EArith) (Fin cc))) (cs_pc s)).
      assert (Hp0 : FinPt p0).
      { split; [unfold p0; rewrite map_length; exact Lpc|]. apply fins_map; [|exact Fpc]. intros x Hx. destruct x; try contradiction. exact I. }
      destruct cond.
      - split.
        + apply map2_len; [apply Hp0|]. rewrite map_length. unfold vscale. rewrite map_length. apply Hdx.
        + apply fins_add; [apply Hp0|]. apply fins_map; [intros x Hx; apply fin_div; [exact Hx|exact Psg]|]. apply fins_scale; [|apply Hdx].
          unfold nZ. cbn [nsqrt nmul nsub nlit EArith er_mul er_sub]. replace (Rlit 2 0) with 2 by (unfold Rlit; lra).
          rewrite sqrt_fin; [exact I|]. apply Rmult_le_pos; [apply Rmult_le_pos|]; lra.
      - split; [rewrite map_length; apply Hp0|]. apply fins_map; [|apply Hp0]. intros x Hx. destruct x; try contradiction. exact I. }
    clearbody pc.
    match goal with |- context [@cov_update _ d _ _ _ _ ?x] => set (y := x : list (list er)) end.
    assert (Hy : length y = cm_mu P /\ Forall FinPt y).
    { split; [unfold y; rewrite map_length; exact Lsel|]. apply Forall_forall. intros z Hz. apply in_map_iff in Hz. destruct Hz as (x & <- & Hx).
      rewrite Forall_forall in Fsel. destruct (Fsel x Hx) as [L F]. split.
      - rewrite map_length. apply map2_len; [exact L|exact Lx].
      - apply fins_map; [intros q Hq; apply fin_div; [exact Hq|exact Psg]|]. apply fins_sub; [exact F|exact Fx]. }
    clearbody y. destruct Hy as [Ly Fy].
    assert (Hyr : exists yr, y = mfin yr /\ Shape (cm_mu P) d yr).
    { destruct (fins_mfin y) as [yr ->]; [eapply Forall_impl; [|exact Fy]; intros q Hq; apply Hq|]. exists yr. split; [reflexivity|].
      rewrite map_length in Ly. split; [exact Ly|]. apply Forall_forall. intros q Hq. rewrite Forall_forall in Fy.
      destruct (Fy (fin q) (in_map fin _ _ Hq)) as [L _]. rewrite map_length in L. exact L. }
    destruct Hyr as (yr & -> & Sy). destruct Hpc as [Lpc' Fpc']. destruct (isfin_fin pc Fpc') as [pcr Epc]. rewrite Epc in Lpc'. rewrite map_length in Lpc'.
    rewrite Em, (nN_E d), c1_E, cmu_C, cc_C, csig_C, damps_C by assumption. rewrite Ew, EC, Epc, cov_update_fin.
    set (C' := @cov_update RArith d (@cma_c1 RArith (INR d) m) (@cma_cc RArith (INR d) m) (@cma_cmu RArith (INR d) m) wr yr pcr cond C).
    assert (HC' : Shape d d C' /\ Symmetric d C' /\ PosDef d C').
    { destruct (C28_update d (@cma_c1 RArith (INR d) m) (@cma_cc RArith (INR d) m) (@cma_cmu RArith (INR d) m) wr yr pcr cond C SC) as (J1 & J2 & J3 & J4); try lra.
      - change (@length R wr = cm_mu P) in Lw. rewrite Lw. exact Sy.
      - exact Lpc'.
      - eapply Forall_impl; [|exact Pw]. cbv beta. intros; lra.
      - split; [exact J1|]. split; [apply J2, YC|]. apply J4; [exact Hlt|exact PC]. }
    destruct HC' as (SC' & YC' & PC'). clearbody C'.
    destruct (chind_C d (cr_d1 _ HP)) as (ch & Pch & Ech). rewrite Ech.
    destruct (norm_fin0 ps Hps) as (np & Hnp & Enp).
    set (sigma := @nmul EArith (cs_sigma s) _).
    assert (Hsg : posf sigma).
    { unfold sigma. change (@vnorm (@num_arith ENum) ps) with (@vnorm EArith ps). rewrite Enp. cbn [ndiv nmul nsub nexp EArith].
      rewrite !div_fin by lra. change (@n1 EArith) with (Fin 1). cbn [er_sub er_mul er_exp].
      destruct (cs_sigma s) as [sg| | |]; try contradiction. cbn [er_mul posf]. apply Rmult_lt_0_compat; [exact Psg|apply exp_pos]. }
    clearbody sigma.
    eapply safe_bind with (R := fun b : @matrix EArith * evec * @matrix EArith * @matrix EArith * Z => let '(B, D, C0, inv, _) := b in
      C0 = mfin C' /\ (length B = d /\ Forall (fun r => fins r) B) /\ (length D = d /\ Forall posf D) /\ Forall (fun r => fins r) inv).
    { match goal with |- context [if ?b then _ else _] => destruct b end.
      - rewrite symm_fin, C28_symm by assumption.
        eapply safe_bind with (R := fun DB : evec * @matrix EArith => length (fst DB) = d /\ Forall posf (fst DB) /\ length (snd DB) = d /\ Forall (fun r => fins r) (snd DB)).
        { apply safe_orelse. intros [D B] HDB. exact (HD d C' D B SC' YC' PC' HDB). }
        intros [D B] (LD' & FD' & LB' & FB'). cbn [fst snd] in LD', FD', LB', FB'. apply safe_ret.
        pose proof (proj1 (eo_argsort HE) D) as HPD.
        destruct (nth_posf D (e_argsort D) HPD FD') as [L1 F1].
        split; [reflexivity|]. change (@num_arith ENum) with EArith. cbn [nsqrt EArith].
        assert (FB2 : Forall (fun r => fins r) (map (fun row : list er => map (fun k : nat => nth k row (@n0 EArith)) (e_argsort D)) B)).
        { apply Forall_forall. intros q Hq. apply in_map_iff in Hq. destruct Hq as (row & <- & Hrow). rewrite Forall_forall in FB'.
          apply Forall_forall. intros z Hz. apply in_map_iff in Hz. destruct Hz as (k & <- & _). apply fins_nth, (FB' row Hrow). }
        split; [split; [rewrite map_length; exact LB'|exact FB2]|].
        split; [split; [exact (eq_trans L1 LD')|exact F1]|].
        apply fins_mmul; [|apply fins_mtrans; exact FB2]. apply fins_mmul; [exact FB2|]. apply fins_diagm.
        apply Forall_forall. intros z Hz. apply in_map_iff in Hz. destruct Hz as (q & <- & Hq). rewrite Forall_forall in F1.
        apply posf_div1, (F1 q Hq).
      - apply safe_ret. split; [reflexivity|]. split; [split; assumption|]. split; [split; assumption|exact Finv]. }
    intros [[[[B D] C0] inv] ee] (-> & HB & HDD & Hinv). apply safe_ret. cbn [fst]. split.
    - constructor; cbn [cs_xmean cs_pc cs_ps cs_sigma cs_C cs_B cs_D cs_inv]; try assumption.
      + split; [rewrite map_length; exact Lpc'|apply fin_isfin].
      + exists C'. auto.
    - constructor; cbn [cs_valid cs_fit cs_index cs_xold]; [exact Fv|exact (eq_trans Lv La)|exact (eq_trans Lf La)|reflexivity|split; assumption].
  Qed.

  (** ** Before the loop *)
  Lemma safe_and_gives {A} (m : M A) Q0 Q : sf m Q0 -> gives m Q -> sf m Q.
  Proof.
    intros H HG w. destruct (H w) as (evs & H1 & H2 & H3). exists evs. split; [exact H1|]. split; [exact H2|].
    intros a Ha. apply (HG w a (snd (m w))). rewrite (surjective_pairing (m w)), Ha. reflexivity.
  Qed.

  (** the share of the parents in the population, rounded down *)
  Definition parents (mp : R) (p : Z) : nat := Z.to_nat (Rfloor (mp * IZR p)).
  Definition RatesLt (mp : R) (p : Z) : Prop :=
    let m := @cma_mueff RArith (@cma_weights RArith (parents mp p)) in
    @cma_c1 RArith (INR d) m + @cma_cmu RArith (INR d) m < 1.

  Lemma check_ok A sg mp : caa_sigma A = Fin sg -> caa_muperc A = Fin mp -> sf (cma_check A) (fun _ => 0 < sg /\ 0 < mp <= 1).
  Proof.
    intros Hs Hm. unfold cma_check. cbv zeta.
    eapply safe_bind; [apply (safe_raise_if _ _ _ _ (fun _ => True)); auto|]; intros _ _.
    eapply safe_bind; [apply (safe_raise_if _ _ _ _ (fun _ => True)); auto|]; intros _ _.
    eapply safe_bind; [apply (safe_raise_if _ _ _ _ (fun _ => True)); auto|]; intros _ _.
    eapply safe_bind; [apply (safe_raise_if _ _ _ _ (fun _ => 0 < sg))|]; [|intros u1 H1; cbv beta in H1; clear u1].
    { rewrite Hs. cbn. intros HH. rb; lra. }
    eapply safe_bind; [apply (safe_raise_if _ _ _ _ (fun _ => 0 < mp <= 1))|]; [|intros u2 H2; cbv beta in H2; clear u2].
    { rewrite Hm. unfold outside_open. cbn. intros HH. apply Bool.negb_false_iff, andb_true_iff in HH. destruct HH. rb; lra. }
    eapply safe_conseq; [apply safe_seed_and_cb|]. intros _ _. split; assumption.
  Qed.

  Lemma safe_mean A rows sg mp lo up : FiniteArgs A rows sg mp -> length rows = d ->
    lo = map (fun r => nth 0 r (Fin 0)) rows -> up = map (fun r => nth 1 r (Fin 0)) rows ->
    sf (match a_x0 (caa A) with
        | None => replicateM (length rows) (uniform (@nZ EArith (-1)) (@nZ EArith 1))
        | Some x => ret (standardize (cma_xm lo up) (cma_xstd lo up) (nd_vec x)) end) FinPt.
  Proof.
    intros HA Hd Hlo Hup. apply (safe_and_gives _ (fun _ => True)).
    - destruct (a_x0 (caa A)); [apply safe_ret; exact I|].
      eapply safe_conseq; [apply (safe_replicateM _ _ _ _ (fun _ => True))|auto].
      unfold uniform. eapply safe_bind; [apply (safe_draw _ _ _ (fun _ => True)); auto|]. intros; apply safe_ret; exact I.
    - eapply gives_conseq; [apply (mean_fin HE A rows sg mp HA lo up Hlo Hup)|]. cbv beta. intros x [H1 H2].
      split; [exact (eq_trans H2 Hd)|exact H1].
  Qed.

  Lemma box_fin rows (lo up : list er) : Forall (fun r => exists l u, r = [Fin l; Fin u] /\ l < u) rows -> length rows = d ->
    lo = map (fun r => nth 0 r (Fin 0)) rows -> up = map (fun r => nth 1 r (Fin 0)) rows ->
    FinPt (@cma_xm ENum lo up) /\ FinPt (@cma_xstd ENum lo up).
  Proof.
    intros HB Hd -> ->. unfold FinPt, cma_xm, cma_xstd. change (@num_arith ENum) with EArith.
    rewrite !map2_length, !map_length, Nat.min_id. split; (split; [exact Hd|]); clear Hd;
      induction HB as [|r rows (l & u & -> & Hlu) HB IH]; cbn [map map2 nth]; constructor; try exact IH; exact I.
  Qed.

  Lemma setup_ok A rows sg mp : FiniteArgs A rows sg mp -> length rows = d -> 0 < mp <= 1 ->
    (a_backend (caa A) = Some "mpi"%string -> BcastKeeps FinPt) ->
    sf (cma_setup A) (fun xP : evec * @CMAParams ENum => let P := snd xP in
      FinPt (fst xP) /\ cm_d P = d /\ cm_p P = Z.to_nat (a_popsize (caa A)) /\ cm_mu P = parents mp (a_popsize (caa A)) /\
      (1 <= cm_mu P <= cm_p P)%nat /\ cm_w P = @cma_weights EArith (cm_mu P) /\ cm_mueff P = @cma_mueff EArith (cm_w P) /\
      FinPt (cm_xm P) /\ FinPt (cm_xstd P) /\ ModeKeeps FinPt (cm_mode P)).
  Proof.
    intros HA Hd Hmp HB. unfold cma_setup. eapply safe_bind; [apply (safe_eval_kindM _ _ HE _ _ _ FinPt), HB|]. intros mode [HM _].
    rewrite (fa_bounds _ _ _ _ HA). cbn [nd_len unpack_bounds].
    eapply safe_bind; [apply safe_ret with (Q := fun lu : evec * evec => fst lu = map (fun r : list er => nth 0 r (Fin 0)) rows /\ snd lu = map (fun r : list er => nth 1 r (Fin 0)) rows)|].
    { cbn [fst snd]. split; apply map_ext; intros r; f_equal; cbn; unfold Rlit; cbn; f_equal; lra. }
    intros [lo up] [Hlo Hup]. cbn [fst snd] in Hlo, Hup.
    eapply safe_bind with (R := fun _ => True).
    { unfold cma_cons_check. destruct (a_constraints (caa A)); [|apply safe_ret; exact I]. destruct (_ =? _)%string; [apply safe_ret; exact I|apply safe_raise]. }
    intros pen _.
    eapply safe_bind; [apply (safe_mean A rows sg mp lo up HA Hd Hlo Hup)|]. intros xm Hx.
    eapply safe_bind with (R := fun mu : Z => (1 <= mu)%Z /\ (mu <= a_popsize (caa A))%Z /\ Z.to_nat mu = parents mp (a_popsize (caa A))).
    { apply safe_orelse. intros k Hk. rewrite (fa_muperc _ _ _ _ HA) in Hk. pose proof (fa_mu _ _ _ _ HA) as Hmu.
      destruct (trunc_pos _ Hmu) as (k' & Ek & Hk'). unfold nZ in Hk. cbn [num_arith ENum EArith nmul nlit ntrunc er_mul] in Hk.
      replace (Rlit (a_popsize (caa A)) 0) with (IZR (a_popsize (caa A))) in Hk by (unfold Rlit; cbn; lra).
      rewrite Ek in Hk. injection Hk as <-. split; [exact Hk'|]. cbn [er_trunc] in Ek.
      destruct (Rlt_dec _ 0) as [|n]; [lra|]. injection Ek as Ek. split; [|unfold parents; rewrite Ek; reflexivity].
      rewrite <- Ek. unfold Rfloor. apply le_IZR. eapply Rle_trans; [apply base_Int_part|].
      assert (0 <= IZR (a_popsize (caa A))) by (destruct (Rle_dec 0 (IZR (a_popsize (caa A)))); [assumption|nra]). nra. }
    intros mu (Hmu & Hmp2 & Emu). apply safe_ret. cbn [fst snd cm_d cm_p cm_mu cm_w cm_mueff cm_xm cm_xstd cm_mode].
    destruct (box_fin rows lo up (fa_box _ _ _ _ HA) Hd Hlo Hup) as [B1 B2].
    split; [exact Hx|]. split; [exact Hd|]. split; [reflexivity|]. split; [exact Emu|]. split; [lia|].
    split; [reflexivity|]. split; [reflexivity|]. split; [exact B1|]. split; [exact B2|exact HM].
  Qed.

  Lemma safe_alloc a : sf (cma_alloc a) (fun _ => True).
  Proof.
    unfold cma_alloc. cbv zeta. eapply safe_bind; [apply safe_rec_alloc|]. intros nout _.
    eapply safe_bind; [apply (safe_raise_if _ _ _ _ (fun _ => True)); auto|]; intros _ _.
    eapply safe_bind; [apply (safe_raise_if _ _ _ _ (fun _ => True)); auto|]; intros _ _.
    eapply safe_bind; [apply (safe_raise_if _ _ _ _ (fun _ => True)); auto|]; intros _ _.
    eapply safe_bind; [apply (safe_orelse _ _ _ _ (fun _ => True)); auto|]. intros ilim _. apply safe_ret. exact I.
  Qed.

  Definition ident : list (list R) := @eye RArith d.
  Lemma ident_ok : Shape d d ident /\ Symmetric d ident /\ PosDef d ident.
  Proof. apply C28_start. Qed.

  Lemma start_ok A rows sg mp : FiniteArgs A rows sg mp -> length rows = d -> (1 <= d)%nat -> RatesLt mp (a_popsize (caa A)) ->
    (a_backend (caa A) = Some "mpi"%string -> BcastKeeps FinPt) ->
    sf (cm_start A) (fun Ps : @CMAParams ENum * @CMAS ENum => CRun (fst Ps) /\ CmI (snd Ps) /\ cm_p (fst Ps) = Z.to_nat (a_popsize (caa A))).
  Proof.
    intros HA Hd Hd1 HR HB. unfold cm_start. eapply safe_bind; [apply (check_ok A sg mp (fa_sigma _ _ _ _ HA) (fa_muperc _ _ _ _ HA))|].
    intros u0 [Hsg Hmp]; clear u0. unfold cm_prefix. cbv zeta. eapply safe_bind; [apply (setup_ok A rows sg mp HA Hd Hmp HB)|].
    intros [xmean P0] (Hx & Hcd & Hp & Hmu & Hmup & Hw & Hm & Hxm & Hxs & HM). cbn [fst snd] in *.
    eapply safe_bind; [apply safe_alloc|]. intros [nout ilim] _. apply safe_ret. cbn [fst snd cm_p]. rewrite Hcd. split; [|split; [|exact Hp]].
    - constructor; cbn [cm_d cm_mu cm_p cm_w cm_mueff cm_xm cm_xstd cm_mode]; try assumption; try reflexivity.
      cbv zeta. rewrite Hmu. exact HR.
    - destruct ident_ok as (I1 & I2 & I3).
      assert (HI : @eye EArith d = mfin ident) by apply eye_fin.
      constructor; cbn [cs_xmean cs_pc cs_ps cs_sigma cs_C cs_B cs_D cs_inv].
      + exact Hx.
      + split; [apply repeat_length|apply fins_repeat0].
      + apply fins_repeat0.
      + rewrite (fa_sigma _ _ _ _ HA). exact Hsg.
      + exists ident. auto.
      + change (@num_arith ENum) with EArith. split; [unfold eye, mtab; rewrite map_length; apply seq_length|rewrite HI; apply mfin_fins].
      + split; [apply repeat_length|]. apply Forall_forall. intros x Hi. apply repeat_spec in Hi. subst. cbn. lra.
      + change (@num_arith ENum) with EArith. rewrite HI. apply mfin_fins.
  Qed.
End Run.

(** ** The theorems *)
Definition FinCb (d : nat) (X : list (list er)) (st : @CbState EArith) : Prop := Forall (FinPt d) X /\ FinPt d (cb_x st).
Section Thm.
  Context {E : Env ENum} (HE : EnvOK) (HN : forall g, isfin (fst (e_randn g))) (HD : EighPD).
  Variables (A : @CMAArgs ENum) (rows : list (list er)) (sg mp : R).
  Context (HA : FiniteArgs A rows sg mp) (Hrows : rows <> []) (HR : RatesLt (length rows) mp (a_popsize (caa A))).
  Context (HB : a_backend (caa A) = Some "mpi"%string -> BcastKeeps (FinPt (length rows))).

  Lemma rows_pos : (1 <= length rows)%nat.
  Proof. destruct rows; [contradiction|cbn; lia]. Qed.
  Lemma start_gives : gives (cm_start A) (fun Ps : @CMAParams ENum * @CMAS ENum =>
    CRun (length rows) (fst Ps) /\ CmI (length rows) (snd Ps) /\ cm_p (fst Ps) = Z.to_nat (a_popsize (caa A))).
  Proof. eapply safe_gives, (start_ok HE (length rows) (fun _ _ => True)); try eassumption; [reflexivity|apply rows_pos]. Qed.

  (** C28.  After every iteration of every run the covariance matrix is a symmetric positive definite
      matrix of finite numbers, its diagonal is positive, and so are the step size and the standard
      deviations along the axes it is sampled with. *)
  Theorem C28_run w P s0 w0 cb j t :
    cm_start A w = (inl (P, s0), w0) -> visited (cma_drv P) cb (fun _ => True) 0 s0 w0 j t ->
    (exists C : list (list R), cs_C t = map (map Fin) C /\ Shape (length rows) (length rows) C /\
       Symmetric (length rows) C /\ PosDef (length rows) C /\ (forall i, (i < length rows)%nat -> 0 < ent C i i)) /\
    (exists q, cs_sigma t = Fin q /\ 0 < q) /\
    length (cs_D t) = length rows /\ (forall x, In x (cs_D t) -> exists q, x = Fin q /\ 0 < q).
  Proof.
    intros Hs HV. destruct (start_gives _ _ _ Hs) as (HP & HI & _). cbn [fst snd] in HP, HI.
    assert (HI' : CmI (length rows) t).
    { eapply (visited_inv (N := ENum) (cma_drv P) cb _ (fun _ => CmI (length rows)) (fun _ => CmI (length rows))); [| |exact HV|exact HI].
      - intros it s H. eapply gives_conseq; [eapply safe_gives, (step_ok HE HN HD (length rows) (fun _ _ => True) P (it + 1) s HP H)|]. intros r [Hr _]. exact Hr.
      - intros it s H _. apply gives_ret. exact H. }
    destruct HI' as [_ _ _ Hsg (C & EC & SC & YC & PC) _ [LD FD] _].
    assert (Hpos : forall x, posf x -> exists q, x = Fin q /\ 0 < q) by (intros [q| | |] Hq; try contradiction; exists q; split; [reflexivity|exact Hq]).
    split; [|split; [apply Hpos, Hsg|split; [exact LD|]]].
    - exists C. split; [exact EC|]. split; [exact SC|]. split; [exact YC|]. split; [exact PC|]. intros i Hi. exact (C28_diagonal _ C i PC Hi).
    - intros x Hx. rewrite Forall_forall in FD. apply Hpos, FD, Hx.
  Qed.

  Lemma finite_run : safe (FinPt (length rows)) (FinCb (length rows)) (cmaes_minimize A) (fun r => FinPt (length rows) (r_x r)).
  Proof.
    intros w. rewrite cmaes_start. revert w. fold (safe (N := ENum) (FinPt (length rows)) (FinCb (length rows))
      (bind (cm_start A) (fun Ps => drive (cma_drv (fst Ps)) (has_cb (caa A)) (fuel (a_maxiter (caa A))) 0 (snd Ps))) (fun r => FinPt (length rows) (r_x r))).
    eapply safe_bind; [eapply start_ok; try eassumption; [reflexivity|apply rows_pos]|].
    intros [P s0] (HP & HI & _). cbn [fst snd] in *.
    assert (HX : forall s, CmP (length rows) P s -> FinPt (length rows) (d_x (cma_drv P) s)).
    { intros s [H1 H2 H3 H4]. cbn [d_x cma_drv]. apply un_fin; [exact HP|]. unfold cma_best. rewrite H4.
      rewrite Forall_forall in H1. apply H1, nth_In. rewrite H2.
      pose proof (proj1 (eo_argsort HE) (cs_fit s)) as Hperm. pose proof (cr_mu _ _ HP) as Hmu.
      assert (Hin : In (nth 0 (e_argsort (cs_fit s)) 0%nat) (e_argsort (cs_fit s))).
      { apply nth_In. rewrite (Permutation_length Hperm), seq_length. change (length (cs_fit s)) with (length (cs_fit s : list er)). elia. }
      apply (Permutation_in _ Hperm), in_seq in Hin. elia. }
    eapply safe_conseq.
    - apply (safe_drive2 (N := ENum) _ _ (cma_drv P) (CmI (length rows)) (CmP (length rows) P)).
      + intros it s H. exact (step_ok HE HN HD (length rows) (FinCb (length rows)) P it s HP H).
      + intros it s H. apply safe_ret, H.
      + intros it s H _. split; [|apply HX, H]. cbn [d_pop cma_drv]. apply un_fins; [exact HP|apply (cp_valid _ _ _ H)].
      + exact HI.
    - intros r (s & H & -> & _). apply HX, H.
  Qed.

  (** C54.  Every point cmaes evaluates or hands to the callback, and the point it returns, is a
      vector of [ndim] finite numbers. *)
  Theorem C54_cmaes w a0 r st' : exec (cmaes_minimize A) w a0 = (r, st') ->
    (forall x, In x (points (tr st')) -> length x = length rows /\ exists v : list R, x = map Fin v) /\
    (forall X st, In (X, st) (cbs (tr st')) ->
       Forall (fun x => length x = length rows /\ exists v : list R, x = map Fin v) X /\
       length (cb_x st) = length rows /\ exists v : list R, cb_x st = map Fin v) /\
    (forall res, r = inl res -> length (r_x res) = length rows /\ exists v : list R, r_x res = map Fin v).
  Proof.
    intros Hx. destruct (safe_exec _ _ _ _ _ _ _ _ finite_run Hx) as (H1 & H2 & H3).
    assert (HF : forall x, FinPt (length rows) x -> length x = length rows /\ exists v : list R, x = map Fin v)
      by (intros x [L F]; split; [exact L|apply isfin_fin, F]).
    split; [intros x Hi; apply HF, H1, Hi|]. split.
    - intros X st Hi. destruct (H2 X st Hi) as [HX Hst]. split; [|apply HF, Hst]. eapply Forall_impl; [|exact HX]. exact HF.
    - intros res Hr. apply HF, H3, Hr.
  Qed.
End Thm.

(** The condition on the learning rates holds whenever the parents are at most [(ndim + 1)^2]. *)
Lemma rates_enough d mp p : (1 <= d)%nat -> 1 <= mp * IZR p -> mp * IZR p <= (INR d + 1) * (INR d + 1) -> RatesLt d mp p.
Proof.
  intros Hd H1 H2. unfold RatesLt. cbv zeta. 
  assert (Hp : (1 <= parents mp p)%nat).
  { unfold parents, Rfloor. pose proof (base_Int_part (mp * IZR p)) as [_ HI]. enough (1 <= Int_part (mp * IZR p))%Z by lia.
    apply (Zlt_le_succ 0), lt_IZR. lra. }
  assert (Hn : 1 <= INR d) by (apply (le_INR 1), Hd).
  destruct (C27_mueff _ Hp) as [M1 M2]. apply rates_lt; [exact Hn|exact M1|].
  eapply Rle_trans; [exact M2|]. eapply Rle_trans; [|exact H2]. unfold parents, Rfloor.
  pose proof (base_Int_part (mp * IZR p)) as [H3 H4].
  rewrite INR_IZR_INZ, Z2Nat.id; [exact H3|]. apply le_IZR. 
  assert (0 < Int_part (mp * IZR p) + 1)%Z by (apply lt_IZR; rewrite plus_IZR; lra). apply IZR_le. lia.
Qed.
